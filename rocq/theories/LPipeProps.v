(** LCFRS parsing and k-best extraction together (C81) *)
From Coq Require Import List Bool Arith NArith ZArith Lia Sorted Cantor.
From Verif Require Import BitsModel BitsSpec BitsProofs ConcatModel ConcatSpec.
From Verif Require Import PlcfrsModel PlcfrsSpec PlcfrsProofs PlcfrsProofs2 PlcfrsProps.
From Verif Require KbestModel KbestSpec KbestProps.
From Verif Require Import LPipeModel.
Import ListNotations.
Open Scope list_scope.
Open Scope nat_scope.

(** ---- specification: derivation trees of an LCFRS ---- *)
Section Spec.
Variable wl : item N -> bool.
Variables (rules : list prule) (mask : nat -> bool) (daughter : nat -> N -> Prop) (sent : list word).
(** [g] is a derivation tree of label x for the words in the set v, with the sum [c] of the
    negative log probabilities of its rules *)
Inductive lderives : nat -> N -> ltree -> N -> Prop :=
| ld_word : forall i x c, tagged N word_bit (on_list wl) sent i x c -> lderives x (word_bit i) (LWord x i) c
| ld_unary : forall r v g c, usable rules mask r -> prhs2 r = 0 -> lderives (prhs1 r) v g c -> daughter (prhs1 r) v -> on_list wl (plhs r) v -> lderives (plhs r) v (LUn r g) (pprob r + c)
| ld_binary : forall r v1 v2 v g h a b, usable rules mask r -> prhs2 r <> 0 -> lderives (prhs1 r) v1 g a -> daughter (prhs1 r) v1 -> lderives (prhs2 r) v2 h b -> daughter (prhs2 r) v2 ->
    set_join (ryf r) v1 v2 v -> on_list wl (plhs r) v -> lderives (plhs r) v (LBin r g h) (pprob r + a + b).
(** the grammar: rules with different numbers, fan-outs that fit the yield functions, unary
    rules without cycles (chains of at most [depth]), tags apart from unary rules *)
Record lkgrammar (fan : nat -> nat) (depth : nat) (rank : nat -> nat) : Prop := {
  lk_len : length sent < 64;
  lk_rules : wf_grammar fan rules;
  lk_lex : wf_lexicon fan sent;
  lk_nodup : NoDup rules;
  lk_tags : tags_apart wl rules mask sent;
  lk_no : forall r r', In r rules -> In r' rules -> pno r = pno r' -> r = r';
  lk_unary : forall r, In r rules -> mask (pno r) = false -> prhs2 r = 0 -> rank (prhs1 r) < rank (plhs r);
  lk_depth : forall x, rank x <= depth }.
End Spec.

Lemma ldec_lenc : forall it, ldec (lenc it) = it.
Proof. intros [x v]. unfold ldec, lenc. rewrite Cantor.cancel_of_to. cbn [fst snd]. now rewrite N2Nat.id. Qed.
Lemma lenc_ldec : forall v, lenc (ldec v) = v.
Proof. intros v. unfold ldec, lenc. destruct (Cantor.of_nat v) as [x w] eqn:E. cbn [fst snd]. rewrite Nat2N.id, <- E. apply Cantor.cancel_to_of. Qed.
Lemma popcount_lt : forall a b i, (forall j, member a j -> member b j) -> member b i -> ~ member a i -> (popcount a < popcount b)%N.
Proof.
  intros a b i S B NA. rewrite <- !bits_of_length. destruct (bits_of_spec a) as [Na Ia]. destruct (bits_of_spec b) as [Nb Ib].
  assert (length (i :: bits_of a) <= length (bits_of b)); [|cbn [length] in *; lia]. apply NoDup_incl_length; [constructor; [intros X; apply NA, Ia, X|exact Na]|].
  intros j [<-|X]; apply Ib; [exact B|]. now apply S, Ia.
Qed.
Lemma popcount_full : forall v n, (v < 2 ^ N.of_nat n)%N -> (popcount v <= N.of_nat n)%N.
Proof.
  intros v n L. rewrite <- bits_of_length. destruct (bits_of_spec v) as [Nv Iv]. assert (length (bits_of v) <= length (map N.of_nat (seq 0 n))); [|rewrite map_length, seq_length in *; lia].
  apply NoDup_incl_length; [exact Nv|]. intros i X. apply Iv in X. pose proof (proj1 (below_member v (N.of_nat n)) L i X). apply in_map_iff. exists (N.to_nat i). split; [apply N2Nat.id|]. apply in_seq. lia.
Qed.

Section Generic.
Variables (wl : item N -> bool) (rules : list prule) (mask : nat -> bool) (daughter : nat -> N -> Prop) (sent : list word).
Variables (fan : nat -> nat) (depth : nat) (rank : nat -> nat).
Hypothesis G : lkgrammar wl rules mask sent fan depth rank.
Notation n := (length sent).
Notation derives := (derives N word_bit set_join (on_list wl) rules mask daughter sent).
Notation derivable := (derivable N word_bit set_join (on_list wl) rules mask daughter sent).
Notation lderives := (lderives wl rules mask daughter sent).
Notation tagged := (tagged N word_bit (on_list wl) sent).
Let LEN := lk_len _ _ _ _ _ _ _ G.
Let WG := lk_rules _ _ _ _ _ _ _ G.
Let WL := lk_lex _ _ _ _ _ _ _ G.
Lemma gd_d : forall x v g c, lderives x v g c -> derives x v c.
Proof. induction 1; [now constructor|now apply PlcfrsSpec.d_unary|now apply PlcfrsSpec.d_binary with (v1 := v1) (v2 := v2)]. Qed.
Lemma d_gd : forall x v c, derives x v c -> exists g, lderives x v g c.
Proof.
  induction 1 as [i x c T|r v c U Z D (g & H) DA A|r v1 v2 v a b U Z D1 (g1 & H1) DA1 D2 (g2 & H2) DA2 J A]; [exists (LWord x i); now constructor|exists (LUn r g); now constructor|exists (LBin r g1 g2); econstructor; eassumption].
Qed.
Lemma tagged_lt : forall i x c, tagged i x c -> i < n.
Proof. intros i x c T. destruct T; apply nth_error_Some; congruence. Qed.
Lemma derives_SP : forall x v c, derives x v c -> SP fan x v /\ sgood n v.
Proof.
  intros x v c D. induction D as [i x c T|r v c U Z D IH DA A|r v1 v2 v a b U Z D1 IH1 DA1 D2 IH2 DA2 J A].
  - split; [exact (SP_word wl mask sent fan WL LEN i x c T)|]. apply s_single_good. eapply tagged_lt. exact T.
  - destruct IH as [I1 I2]. split; [|exact I2]. exact (SP_unary rules fan WG r v (proj1 U) Z I1).
  - destruct IH1 as [I1 I2], IH2 as [I3 I4]. apply (small_same rules fan WG r v1 v2 v (proj1 U) Z I1 I3) in J. split; [exact (SP_binary rules fan WG r v1 v2 v (proj1 U) Z I1 I3 J)|].
    destruct J as [J ->]. now destruct (s_combine_good n _ v1 v2 I2 I4 J).
Qed.
Lemma join_facts : forall r v1 v2 v, usable rules mask r -> prhs2 r <> 0 -> derivable (prhs1 r) v1 -> derivable (prhs2 r) v2 -> set_join (ryf r) v1 v2 v ->
  v = N.lxor v1 v2 /\ (popcount v1 < popcount v)%N /\ (popcount v2 < popcount v)%N /\ (forall i, v <> word_bit i).
Proof.
  intros r v1 v2 v U Z [a D1] [b D2] J. destruct (derives_SP _ _ _ D1) as [S1 G1]. destruct (derives_SP _ _ _ D2) as [S2 G2]. apply (small_same rules fan WG r v1 v2 v (proj1 U) Z S1 S2) in J. destruct J as [J ->].
  pose proof (concat_small_disjoint _ _ _ J) as LA. pose proof (lxor_member v1 v2 LA) as X. destruct (nonzero_member v1 (proj1 G1)) as [i1 M1]. destruct (nonzero_member v2 (proj1 G2)) as [i2 M2]. unfold combine_small. split; [reflexivity|]. split; [|split].
  - apply popcount_lt with (i := i2); [intros j M; apply X; now left|apply X; now right|intros M; exact (land_zero _ _ LA i2 (conj M M2))].
  - apply popcount_lt with (i := i1); [intros j M; apply X; now right|apply X; now left|intros M; exact (land_zero _ _ LA i1 (conj M1 M))].
  - exact (proj2 (proj2 (proj2 (s_combine_good n _ v1 v2 G1 G2 J)))).
Qed.
End Generic.

Section Main.
Variables (wl : item N -> bool) (maxlog : N) (rules : list prule) (mask : nat -> bool) (start : nat) (sent : list word).
Variables (fan : nat -> nat) (depth : nat) (rank : nat -> nat).
Hypothesis G : lkgrammar wl rules mask sent fan depth rank.
Variable ch : chart N.
Hypothesis P : parse_small wl maxlog rules mask start true sent true ch.
Notation n := (length sent).
Notation goal := (small_root start n).
Notation derives := (derives N word_bit set_join (on_list wl) rules mask (not_goal goal) sent).
Notation derivable := (derivable N word_bit set_join (on_list wl) rules mask (not_goal goal) sent).
Notation best := (best N word_bit set_join (on_list wl) rules mask (not_goal goal) sent).
Notation valid_edge := (valid_edge N word_bit set_join (on_list wl) rules mask (not_goal goal) sent).
Notation lderives := (lderives wl rules mask (not_goal goal) sent).
Notation tagged := (tagged N word_bit (on_list wl) sent).
Notation forest := (lkforest ch).
Notation sub := (lksub ch).
Let LEN := lk_len _ _ _ _ _ _ _ G.
Let WG := lk_rules _ _ _ _ _ _ _ G.
Let WL := lk_lex _ _ _ _ _ _ _ G.
Let ND := lk_nodup _ _ _ _ _ _ _ G.
Let TA := lk_tags _ _ _ _ _ _ _ G.
Let TAG := fun i x c => tagged_lt wl sent i x c.
Lemma viterbi : forall x v p, probs N ch (x, v) = Some p <-> best x v p.
Proof. exact (C54_viterbi wl maxlog rules mask start sent fan LEN WG WL ND TA ch P). Qed.
Lemma edges_ok : forall x v e, In e (PlcfrsModel.forest N ch (x, v)) <-> valid_edge x v e.
Proof. intros x v. exact (proj2 (C54_edges wl maxlog rules mask start sent fan LEN WG WL ND TA ch P x v)). Qed.
Lemma has_best : forall x v, derivable x v -> exists p, probs N ch (x, v) = Some p.
Proof.
  intros x v [c D]. destruct (parse_inv wl maxlog rules mask start sent fan LEN WL ND TA true ch P) as [IV [AE|[E _]]]; [|discriminate].
  apply (final_derivable N concat_small combine_small bitcount (fun i => 2 ^ N.of_nat i)%N wl maxlog rules mask goal sent (sgood (length sent))); auto.
  - intros i H. now apply s_single_good.
  - intros e l r A B C. destruct (s_combine_good _ e l r A B C) as (X1 & X2 & X3 & X4). auto.
  - exists c. apply (join_derives N (fun i => 2 ^ N.of_nat i)%N (cjoin N concat_small combine_small) set_join (callowed N wl) rules mask (not_goal goal) sent (SP fan)); [| | | |exact D].
    + intros i y d T. eapply SP_word; eauto.
    + intros r w. now apply SP_unary with (rules := rules).
    + intros r l u w. now apply SP_binary with (rules := rules).
    + intros r l u w. now apply small_same with (rules := rules) (fan := fan).
Qed.
Definition lheight (u : nat) : nat := let '(x, v) := ldec u in N.to_nat (popcount v) * S depth + rank x.
Lemma in_forest : forall x v e, In e (forest (lenc (x, v))) -> exists o, e = lkedge ch (x, v) o /\ valid_edge x v o.
Proof. intros x v e I. unfold lkforest in I. rewrite ldec_lenc in I. apply in_map_iff in I. destruct I as (o & <- & I). exists o. split; [reflexivity|]. now apply edges_ok. Qed.
Lemma forest_edge : forall x v o, valid_edge x v o -> In (lkedge ch (x, v) o) (forest (lenc (x, v))).
Proof. intros x v o V. unfold lkforest. rewrite ldec_lenc. apply in_map. now apply edges_ok. Qed.
(** the daughters of a rule edge *)
Lemma valid_rule : forall x v r lv m, valid_edge x v (Some (r, lv), m) -> m = 0 /\ usable rules mask r /\ plhs r = x /\ derivable (prhs1 r) lv /\ not_goal goal (prhs1 r) lv /\ on_list wl x v /\
  (prhs2 r = 0 -> lv = v) /\ (prhs2 r <> 0 -> exists rv, rv = N.lxor v lv /\ derivable (prhs2 r) rv /\ not_goal goal (prhs2 r) rv /\ set_join (ryf r) lv rv v /\ (popcount lv < popcount v)%N /\ (popcount rv < popcount v)%N).
Proof.
  intros x v r lv m V. inversion V as [|? U L Z D DA A|? v1 v2 U L Z D1 DA1 D2 DA2 J A]; subst.
  - do 6 (split; [assumption || reflexivity|]). split; [reflexivity|]. congruence.
  - destruct (join_facts wl rules mask (not_goal goal) sent fan depth rank G r lv v2 v U Z D1 D2 J) as (E & P1 & P2 & _). do 6 (split; [assumption || reflexivity|]). split; [congruence|]. intros _. exists v2.
    split; [rewrite E, (N.lxor_comm lv v2), N.lxor_assoc, N.lxor_nilpotent, N.lxor_0_r; reflexivity|]. auto.
Qed.
Lemma derivable_edge : forall x v, derivable x v -> forest (lenc (x, v)) <> [].
Proof.
  intros x v [c D] E. assert (V : exists o, valid_edge x v o).
  { inversion D as [i ? ? T|r ? c0 U Z D0 DA A|r v1 v2 ? a b U Z D1 DA1 D2 DA2 J A]; subst.
    - exists (None, i + 1). now apply v_word with (c := c).
    - exists (Some (r, v), 0). apply v_unary; auto. now exists c0.
    - exists (Some (r, v1), 0). apply v_binary with (v2 := v2); auto; [now exists a|now exists b]. }
  destruct V as (o & V). apply forest_edge in V. rewrite E in V. contradiction.
Qed.
Lemma edge_derivable : forall x v e, In e (forest (lenc (x, v))) -> derivable x v.
Proof.
  intros x v e I. destruct (in_forest _ _ _ I) as (o & _ & V). inversion V as [i c T ->|r U L Z [c D] DA A|r v1 v2 U L Z [a D1] DA1 [b D2] DA2 J A]; subst.
  - exists c. now constructor.
  - eexists. apply PlcfrsSpec.d_unary; eassumption.
  - eexists. eapply PlcfrsSpec.d_binary; eassumption.
Qed.
Lemma ruleof_kedge : forall it r lv m, In r rules -> lruleof rules (lkedge ch it (Some (r, lv), m)) = Some r.
Proof.
  intros it r lv m I. unfold lruleof, lkedge. cbn [fst KbestModel.eno]. destruct (find (fun r0 => pno r0 =? pno r) rules) as [r'|] eqn:F.
  - apply find_some in F. destruct F as [F1 F2]. apply Nat.eqb_eq in F2. f_equal. eapply (lk_no _ _ _ _ _ _ _ G); eauto.
  - pose proof (find_none _ _ F r I) as X. cbn in X. rewrite Nat.eqb_refl in X. discriminate.
Qed.
Lemma tag_prob : forall i x c, tagged i x c -> probs N ch (x, word_bit i) = Some c.
Proof.
  intros i x c T. apply viterbi. split; [now constructor|]. intros d D. inversion D as [j ? ? T'|r ? c0 U Z D0 DA A|r v1 v2 ? a b U Z D1 DA1 D2 DA2 J A]; subst.
  - assert (j = i) as -> by (match goal with E : word_bit _ = word_bit _ |- _ => unfold word_bit in E; apply N.pow_inj_r in E; lia end). rewrite (tagged_unique N word_bit wl sent i x c d T T'). lia.
  - exfalso. exact (TA i _ c r T U Z eq_refl).
  - exfalso. exact (proj2 (proj2 (proj2 (join_facts wl rules mask (not_goal goal) sent fan depth rank G r v1 v2 _ U Z (ex_intro _ a D1) (ex_intro _ b D2) J))) i eq_refl).
Qed.
Lemma lk_right : forall x v r lv, prhs2 r <> 0 -> KbestModel.eright (lkedge ch (x, v) (Some (r, lv), 0)) = Some (lenc (prhs2 r, N.lxor v lv)).
Proof. intros x v r lv Z. unfold lkedge. cbn [fst snd KbestModel.eright]. apply Nat.eqb_neq in Z. now rewrite Z. Qed.
Lemma lk_right_none : forall x v r lv, prhs2 r = 0 -> KbestModel.eright (lkedge ch (x, v) (Some (r, lv), 0)) = None.
Proof. intros x v r lv Z. unfold lkedge. cbn [fst snd KbestModel.eright]. now rewrite Z. Qed.
Lemma chart_to_grammar : forall t u, KbestSpec.derivation forest u t -> forall x v, u = lenc (x, v) -> exists g, lread rules u t = Some g /\ lderives x v g (KbestSpec.dcost t).
Proof.
  intros t u D. induction D as [u e I N0|u e m t I N0 R D IH|u e m w t s I N0 R D1 IH1 D2 IH2]; intros x v ->; destruct (in_forest _ _ _ I) as ([[[r lv]|] k] & -> & V); try discriminate N0.
  - cbn [lread]. rewrite ldec_lenc. inversion V as [i c T| |]; subst. exists (LWord x i). cbn [fst lkedge KbestModel.epos snd]. replace (i + 1 - 1) with i by lia. split; [reflexivity|]. cbn [KbestSpec.dcost KbestModel.eprob].
    rewrite (tag_prob i x c T). now constructor.
  - destruct (valid_rule _ _ _ _ _ V) as (-> & U & L & DL & NG & A & UZ & B). assert (Z : prhs2 r = 0) by (destruct (Nat.eq_dec (prhs2 r) 0) as [|Z]; [assumption|rewrite (lk_right _ _ _ _ Z) in R; discriminate]). rewrite (UZ Z) in *.
    destruct (IH (prhs1 r) v eq_refl) as (g & RG & DG). exists (LUn r g). cbn [lread]. rewrite (ruleof_kedge (x, v) r v 0 (proj1 U)). change (KbestModel.eleft (lkedge ch (x, v) (Some (r, v), 0))) with (lenc (prhs1 r, v)) in *. rewrite RG. split; [reflexivity|].
    cbn [KbestSpec.dcost]. change (KbestModel.eprob (lkedge ch (x, v) (Some (r, v), 0))) with (pprob r). rewrite <- L. rewrite <- L in A. now constructor.
  - destruct (valid_rule _ _ _ _ _ V) as (-> & U & L & DL & NG & A & UZ & B). assert (Z : prhs2 r <> 0) by (intros Z; rewrite (lk_right_none _ _ _ _ Z) in R; discriminate). rewrite (lk_right _ _ _ _ Z) in R. assert (w = lenc (prhs2 r, N.lxor v lv)) as -> by congruence. clear R.
    destruct (B Z) as (rv & ER & DR & NG2 & J & _). rewrite <- ER in *. destruct (IH1 (prhs1 r) lv eq_refl) as (g & RG & DG). destruct (IH2 (prhs2 r) rv eq_refl) as (h & RH & DH). exists (LBin r g h). cbn [lread]. rewrite (ruleof_kedge (x, v) r lv 0 (proj1 U)), (lk_right _ _ _ _ Z). change (KbestModel.eleft (lkedge ch (x, v) (Some (r, lv), 0))) with (lenc (prhs1 r, lv)) in *. rewrite <- ER, RG, RH. split; [reflexivity|].
    cbn [KbestSpec.dcost]. change (KbestModel.eprob (lkedge ch (x, v) (Some (r, lv), 0))) with (pprob r). rewrite <- L. rewrite <- L in A. econstructor; eassumption.
Qed.
Lemma grammar_to_chart : forall x v g c, lderives x v g c -> exists t, KbestSpec.derivation forest (lenc (x, v)) t /\ lread rules (lenc (x, v)) t = Some g /\ KbestSpec.dcost t = c.
Proof.
  intros x v g c D. induction D as [i x c T|r v g c U Z D IH DA A|r v1 v2 v g h a b U Z D1 IH1 DA1 D2 IH2 DA2 J A].
  - assert (V : valid_edge x (word_bit i) (None, i + 1)) by (now apply v_word with (c := c)). exists (KbestModel.DLex (lkedge ch (x, word_bit i) (None, i + 1))). split; [|split].
    + constructor; [now apply forest_edge|reflexivity].
    + cbn [lread]. rewrite ldec_lenc. cbn [fst lkedge KbestModel.epos snd]. now replace (i + 1 - 1) with i by lia.
    + cbn [KbestSpec.dcost lkedge fst KbestModel.eprob]. now rewrite (tag_prob i x c T).
  - destruct IH as (t & T1 & T2 & T3). assert (V : valid_edge (plhs r) v (Some (r, v), 0)) by (apply v_unary; auto; exists c; eapply gd_d; eassumption). exists (KbestModel.DUn (lkedge ch (plhs r, v) (Some (r, v), 0)) t). split; [|split].
    + apply KbestSpec.d_un with (n := pno r); [now apply forest_edge|reflexivity|now apply lk_right_none|exact T1].
    + cbn [lread]. rewrite (ruleof_kedge _ r v 0 (proj1 U)). change (KbestModel.eleft (lkedge ch (plhs r, v) (Some (r, v), 0))) with (lenc (prhs1 r, v)). now rewrite T2.
    + cbn [KbestSpec.dcost]. change (KbestModel.eprob (lkedge ch (plhs r, v) (Some (r, v), 0))) with (pprob r). now rewrite T3.
  - destruct IH1 as (t & T1 & T2 & T3). destruct IH2 as (s & U1 & U2 & U3). assert (DD1 : derivable (prhs1 r) v1) by (exists a; eapply gd_d; eassumption). assert (DD2 : derivable (prhs2 r) v2) by (exists b; eapply gd_d; eassumption).
    assert (V : valid_edge (plhs r) v (Some (r, v1), 0)) by (apply v_binary with (v2 := v2); auto). destruct (join_facts wl rules mask (not_goal goal) sent fan depth rank G r v1 v2 v U Z DD1 DD2 J) as (E & _). assert (E2 : N.lxor v v1 = v2) by (rewrite E, (N.lxor_comm v1 v2), N.lxor_assoc, N.lxor_nilpotent, N.lxor_0_r; reflexivity).
    exists (KbestModel.DBin (lkedge ch (plhs r, v) (Some (r, v1), 0)) t s). pose proof (lk_right (plhs r) v r v1 Z) as ER. rewrite E2 in ER. split; [|split].
    + apply KbestSpec.d_bin with (n := pno r) (r := lenc (prhs2 r, v2)); [now apply forest_edge|reflexivity|exact ER|exact T1|exact U1].
    + cbn [lread]. rewrite (ruleof_kedge _ r v1 0 (proj1 U)), ER. change (KbestModel.eleft (lkedge ch (plhs r, v) (Some (r, v1), 0))) with (lenc (prhs1 r, v1)). now rewrite T2, U2.
    + cbn [KbestSpec.dcost]. change (KbestModel.eprob (lkedge ch (plhs r, v) (Some (r, v1), 0))) with (pprob r). now rewrite T3, U3.
Qed.
Fixpoint positions (g : ltree) : N := match g with LWord _ i => word_bit i | LUn _ g => positions g | LBin _ g h => N.lxor (positions g) (positions h) end.
Lemma positions_span : forall x v g c, lderives x v g c -> v = positions g.
Proof.
  induction 1 as [i x c T|r v g c U Z D IH DA A|r v1 v2 v g h a b U Z D1 IH1 DA1 D2 IH2 DA2 J A]; cbn [positions]; [reflexivity|exact IH|]. rewrite <- IH1, <- IH2. assert (DD1 : derivable (prhs1 r) v1) by (exists a; eapply gd_d; eassumption). assert (DD2 : derivable (prhs2 r) v2) by (exists b; eapply gd_d; eassumption).
  exact (proj1 (join_facts wl rules mask (not_goal goal) sent fan depth rank G r v1 v2 v U Z DD1 DD2 J)).
Qed.
Lemma read_inj : forall t u, KbestSpec.derivation forest u t -> forall s g x v, u = lenc (x, v) -> KbestSpec.derivation forest u s -> lread rules u t = Some g -> lread rules u s = Some g -> t = s.
Proof.
  intros t u D. induction D as [u e I N0|u e m t I N0 R D IH|u e m w t t2 I N0 R D1 IH1 D2 IH2]; intros s g x v -> DS RT RS; destruct (in_forest _ _ _ I) as ([[[r lv]|] k] & -> & V); try discriminate N0.
  - cbn [lread] in RT. rewrite ldec_lenc in RT. injection RT as <-. inversion DS as [? e' I' N'|? e' m' t' I' N' R' D'|? e' m' r' t' u' I' N' R' D1' D2']; subst.
    + destruct (in_forest _ _ _ I') as ([[[r' lv']|] k'] & -> & V'); [discriminate N'|]. cbn [lread fst lkedge KbestModel.epos snd] in RS. rewrite ldec_lenc in RS. injection RS as RS. inversion V; inversion V'; subst. assert (i = i0) as -> by lia. reflexivity.
    + cbn [lread] in RS. destruct (lruleof rules e'); [|discriminate]. destruct (lread rules (KbestModel.eleft e') t'); discriminate.
    + cbn [lread] in RS. rewrite R' in RS. destruct (lruleof rules e'); [|discriminate]. destruct (lread rules (KbestModel.eleft e') t'); [|discriminate]. destruct (lread rules r' u'); discriminate.
  - destruct (valid_rule _ _ _ _ _ V) as (-> & U & L & DL & NG & A & UZ & B). cbn [lread] in RT. rewrite (ruleof_kedge (x, v) r lv 0 (proj1 U)) in RT. assert (Z : prhs2 r = 0) by (destruct (Nat.eq_dec (prhs2 r) 0) as [|Z]; [assumption|rewrite (lk_right _ _ _ _ Z) in R; discriminate]). rewrite (UZ Z) in *. clear UZ.
    destruct (lread rules (KbestModel.eleft (lkedge ch (x, v) (Some (r, v), 0))) t) as [g0|] eqn:RG; [|discriminate]. injection RT as <-.
    inversion DS as [? e' I' N'|? e' m' t' I' N' R' D'|? e' m' r' t' u' I' N' R' D1' D2']; subst; [cbn [lread] in RS; rewrite ldec_lenc in RS; discriminate| |].
    + destruct (in_forest _ _ _ I') as ([[[r' lv']|] k'] & -> & V'); [|discriminate N']. destruct (valid_rule _ _ _ _ _ V') as (-> & U' & L' & DL' & NG' & A' & UZ' & B'). cbn [lread] in RS. rewrite (ruleof_kedge _ r' lv' 0 (proj1 U')) in RS.
      assert (Z' : prhs2 r' = 0) by (destruct (Nat.eq_dec (prhs2 r') 0) as [|Z']; [assumption|rewrite (lk_right _ _ _ _ Z') in R'; discriminate]). rewrite (UZ' Z') in *. clear UZ'.
      destruct (lread rules (KbestModel.eleft (lkedge ch (plhs r, v) (Some (r', v), 0))) t') as [g1|] eqn:RG'; [|discriminate]. injection RS as -> ->. f_equal. apply (IH t' g0 (prhs1 r) v); [reflexivity|exact D'|reflexivity|exact RG'].
    + cbn [lread] in RS. rewrite R' in RS. destruct (lruleof rules e'); [|discriminate]. destruct (lread rules (KbestModel.eleft e') t'); [|discriminate]. destruct (lread rules r' u'); discriminate.
  - destruct (valid_rule _ _ _ _ _ V) as (-> & U & L & DL & NG & A & UZ & B). cbn [lread] in RT. rewrite (ruleof_kedge (x, v) r lv 0 (proj1 U)), R in RT. assert (Z : prhs2 r <> 0) by (intros Z; rewrite (lk_right_none _ _ _ _ Z) in R; discriminate). rewrite (lk_right _ _ _ _ Z) in R. assert (w = lenc (prhs2 r, N.lxor v lv)) as -> by congruence. clear R.
    destruct (lread rules (KbestModel.eleft (lkedge ch (x, v) (Some (r, lv), 0))) t) as [g0|] eqn:RG; [|discriminate]. destruct (lread rules (lenc (prhs2 r, N.lxor v lv)) t2) as [h0|] eqn:RH; [|discriminate]. injection RT as <-.
    inversion DS as [? e' I' N'|? e' m' t' I' N' R' D'|? e' m' r' t' u' I' N' R' D1' D2']; subst; [cbn [lread] in RS; rewrite ldec_lenc in RS; discriminate| |].
    + cbn [lread] in RS. destruct (lruleof rules e'); [|discriminate]. destruct (lread rules (KbestModel.eleft e') t'); discriminate.
    + destruct (in_forest _ _ _ I') as ([[[r1 lv']|] k'] & -> & V'); [|discriminate N']. destruct (valid_rule _ _ _ _ _ V') as (-> & U' & L' & DL' & NG' & A' & UZ' & B'). cbn [lread] in RS. rewrite (ruleof_kedge _ r1 lv' 0 (proj1 U')), R' in RS.
      assert (Z' : prhs2 r1 <> 0) by (intros Z'; rewrite (lk_right_none _ _ _ _ Z') in R'; discriminate). rewrite (lk_right _ _ _ _ Z') in R'. assert (r' = lenc (prhs2 r1, N.lxor v lv')) as -> by congruence. clear R'.
      destruct (lread rules (KbestModel.eleft (lkedge ch (plhs r, v) (Some (r1, lv'), 0))) t') as [g1|] eqn:RG'; [|discriminate]. destruct (lread rules (lenc (prhs2 r1, N.lxor v lv')) u') as [h1|] eqn:RH'; [|discriminate]. injection RS as -> -> ->.
      change (KbestModel.eleft (lkedge ch (plhs r, v) (Some (r, lv), 0))) with (lenc (prhs1 r, lv)) in *. change (KbestModel.eleft (lkedge ch (plhs r, v) (Some (r, lv'), 0))) with (lenc (prhs1 r, lv')) in *.
      destruct (chart_to_grammar _ _ D1 _ _ eq_refl) as (y & Y1 & Y2). rewrite RG in Y1. injection Y1 as <-. destruct (chart_to_grammar _ _ D1' _ _ eq_refl) as (y & W1 & W2). rewrite RG' in W1. injection W1 as <-.
      assert (lv' = lv) as -> by (rewrite (positions_span _ _ _ _ Y2); exact (positions_span _ _ _ _ W2)).
      f_equal; [apply (IH1 t' g0 (prhs1 r) lv); auto|apply (IH2 u' h0 (prhs2 r) (N.lxor v lv)); auto].
Qed.
Lemma chart_is_ok : KbestSpec.chart_ok forest sub lheight.
Proof.
  constructor.
  - intros u c (e & m & I & N0 & CH). destruct (ldec u) as [x v] eqn:DV. assert (u = lenc (x, v)) as -> by (rewrite <- DV; symmetry; apply lenc_ldec).
    destruct (in_forest _ _ _ I) as ([[[r lv]|] k] & -> & V); [|discriminate N0]. destruct (valid_rule _ _ _ _ _ V) as (-> & U & L & DL & NG & A & UZ & B). unfold lheight at 2. rewrite ldec_lenc. change (KbestModel.eleft (lkedge ch (x, v) (Some (r, lv), 0))) with (lenc (prhs1 r, lv)) in CH.
    pose proof (lk_depth _ _ _ _ _ _ _ G) as RD. destruct (Nat.eq_dec (prhs2 r) 0) as [Z|Z].
    + rewrite (UZ Z) in CH. rewrite (lk_right_none _ _ _ _ Z) in CH. destruct CH as [<-|CH]; [|discriminate]. unfold lheight. rewrite ldec_lenc. pose proof (lk_unary _ _ _ _ _ _ _ G r (proj1 U) (proj2 U) Z) as K. rewrite L in K. lia.
    + destruct (B Z) as (rv & ER & _ & _ & _ & P1 & P2). rewrite (lk_right _ _ _ _ Z), <- ER in CH. destruct CH as [<-|CH].
      * unfold lheight. rewrite ldec_lenc. specialize (RD (prhs1 r)). assert (S (N.to_nat (popcount lv)) * S depth <= N.to_nat (popcount v) * S depth) by (apply Nat.mul_le_mono_r; lia). cbn [Nat.mul] in *. lia.
      * assert (c = lenc (prhs2 r, rv)) as -> by congruence. unfold lheight. rewrite ldec_lenc. specialize (RD (prhs2 r)). assert (S (N.to_nat (popcount rv)) * S depth <= N.to_nat (popcount v) * S depth) by (apply Nat.mul_le_mono_r; lia). cbn [Nat.mul] in *. lia.
  - intros u c (e & m & I & N0 & CH). destruct (ldec u) as [x v] eqn:DV. assert (u = lenc (x, v)) as -> by (rewrite <- DV; symmetry; apply lenc_ldec).
    destruct (in_forest _ _ _ I) as ([[[r lv]|] k] & -> & V); [|discriminate N0]. destruct (valid_rule _ _ _ _ _ V) as (-> & U & L & DL & NG & A & UZ & B). change (KbestModel.eleft (lkedge ch (x, v) (Some (r, lv), 0))) with (lenc (prhs1 r, lv)) in CH. destruct CH as [<-|CH]; [now apply derivable_edge|].
    destruct (Nat.eq_dec (prhs2 r) 0) as [Z|Z]; [rewrite (lk_right_none _ _ _ _ Z) in CH; discriminate|]. destruct (B Z) as (rv & ER & DR & _). rewrite (lk_right _ _ _ _ Z), <- ER in CH. assert (c = lenc (prhs2 r, rv)) as -> by congruence. now apply derivable_edge.
  - intros u NE. destruct (ldec u) as [x v] eqn:DV. assert (u = lenc (x, v)) as -> by (rewrite <- DV; symmetry; apply lenc_ldec).
    destruct (forest (lenc (x, v))) as [|e fr] eqn:EF; [congruence|]. assert (I : In e (forest (lenc (x, v)))) by (rewrite EF; now left). destruct (edge_derivable _ _ _ I) as [c0 DD].
    destruct (has_best x v (ex_intro _ c0 DD)) as [p PR]. destruct (proj1 (viterbi x v p) PR) as [BD BO]. assert (EP : sub (lenc (x, v)) = p) by (unfold lksub; now rewrite ldec_lenc, PR). rewrite EP. split.
    + destruct (d_gd _ _ _ _ _ _ _ _ BD) as (g & GD). destruct (grammar_to_chart _ _ _ _ GD) as (t & T1 & _ & T3). exists t. auto.
    + intros t D. destruct (chart_to_grammar _ _ D _ _ eq_refl) as (g & _ & GD). apply BO. eapply gd_d. exact GD.
  - intros u e I N0. destruct (ldec u) as [x v] eqn:DV. assert (u = lenc (x, v)) as -> by (rewrite <- DV; symmetry; apply lenc_ldec).
    destruct (in_forest _ _ _ I) as ([[[r lv]|] k] & -> & V); [discriminate N0|]. unfold lksub. rewrite ldec_lenc. reflexivity.
  - intros u e e' I I' EN EP. destruct (ldec u) as [x v] eqn:DV. assert (u = lenc (x, v)) as -> by (rewrite <- DV; symmetry; apply lenc_ldec).
    destruct (in_forest _ _ _ I) as ([[[r lv]|] k] & -> & V); destruct (in_forest _ _ _ I') as ([[[r' lv']|] k'] & -> & V'); unfold lkedge in EN, EP; cbn [fst snd KbestModel.eno KbestModel.epos] in EN, EP; try discriminate.
    + injection EN as EN. destruct (valid_rule _ _ _ _ _ V) as (-> & U & _). destruct (valid_rule _ _ _ _ _ V') as (-> & U' & _). apply N2Nat.inj in EP. subst lv'. now rewrite (lk_no _ _ _ _ _ _ _ G r r' (proj1 U) (proj1 U') EN).
    + now subst k'.
Qed.
End Main.

Section Root.
Variables (wl : item N -> bool) (rules : list prule) (mask : nat -> bool) (goal : item N) (sent : list word).
Variables (fan : nat -> nat) (depth : nat) (rank : nat -> nat).
Hypothesis G : lkgrammar wl rules mask sent fan depth rank.
(** with unary rules without cycles the goal item is only used at the root *)
Lemma goal_top : forall x v g c, lderives wl rules mask anywhere sent x v g c -> lheight depth rank (lenc (x, v)) <= lheight depth rank (lenc goal) -> lderives wl rules mask (not_goal goal) sent x v g c.
Proof.
  assert (NG : forall x v h, lheight depth rank (lenc (x, v)) < h -> h <= lheight depth rank (lenc goal) -> not_goal goal x v) by (intros x v h A B E; rewrite E in A; lia).
  intros x v g c D. pose proof (lk_depth _ _ _ _ _ _ _ G) as RD. induction D as [i x c T|r v g c U Z D IH DA A|r v1 v2 v g h a b U Z D1 IH1 DA1 D2 IH2 DA2 J A]; intros H.
  - now constructor.
  - assert (L : lheight depth rank (lenc (prhs1 r, v)) < lheight depth rank (lenc (plhs r, v))) by (unfold lheight; rewrite !ldec_lenc; pose proof (lk_unary _ _ _ _ _ _ _ G r (proj1 U) (proj2 U) Z); lia).
    constructor; auto; [apply IH; lia|]. exact (NG _ _ _ L H).
  - destruct (join_facts wl rules mask anywhere sent fan depth rank G r v1 v2 v U Z (ex_intro _ a (gd_d _ _ _ _ _ _ _ _ _ D1)) (ex_intro _ b (gd_d _ _ _ _ _ _ _ _ _ D2)) J) as (_ & P1 & P2 & _).
    assert (L1 : lheight depth rank (lenc (prhs1 r, v1)) < lheight depth rank (lenc (plhs r, v))).
    { unfold lheight. rewrite !ldec_lenc. specialize (RD (prhs1 r)). assert (S (N.to_nat (popcount v1)) * S depth <= N.to_nat (popcount v) * S depth) by (apply Nat.mul_le_mono_r; lia). cbn [Nat.mul] in *. lia. }
    assert (L2 : lheight depth rank (lenc (prhs2 r, v2)) < lheight depth rank (lenc (plhs r, v))).
    { unfold lheight. rewrite !ldec_lenc. specialize (RD (prhs2 r)). assert (S (N.to_nat (popcount v2)) * S depth <= N.to_nat (popcount v) * S depth) by (apply Nat.mul_le_mono_r; lia). cbn [Nat.mul] in *. lia. }
    apply (ld_binary wl rules mask (not_goal goal) sent r v1 v2); auto; [apply IH1; lia|exact (NG _ _ _ L1 H)|apply IH2; lia|exact (NG _ _ _ L2 H)].
Qed.
Lemma goal_any : forall x v g c, lderives wl rules mask (not_goal goal) sent x v g c -> lderives wl rules mask anywhere sent x v g c.
Proof. induction 1; [now constructor|constructor; auto; exact I|econstructor; eauto; exact I]. Qed.
End Root.

Section Results.
Variables (wl : item N -> bool) (maxlog : N) (rules : list prule) (mask : nat -> bool) (start : nat) (sent : list word).
Variables (fan : nat -> nat) (depth : nat) (rank : nat -> nat).
Hypothesis G : lkgrammar wl rules mask sent fan depth rank.
Variable ch : chart N.
Hypothesis P : parse_small wl maxlog rules mask start true sent true ch.
Notation n := (length sent).
Notation full := (2 ^ N.of_nat n - 1)%N.
Notation root := (lenc (start, full)).
Notation lderives := (lderives wl rules mask anywhere sent).
Notation forest := (lkforest ch).
Notation height := (lheight depth rank).
Let c2g := chart_to_grammar wl maxlog rules mask start sent fan depth rank G ch P.
Let g2c := grammar_to_chart wl maxlog rules mask start sent fan depth rank G ch P.
Lemma to_top : forall g c, lderives start full g c <-> LPipeProps.lderives wl rules mask (not_goal (small_root start n)) sent start full g c.
Proof. intros g c. split; [intros D; now apply (goal_top wl rules mask (small_root start n) sent fan depth rank G)|apply goal_any]. Qed.
Lemma root_height : n * S depth + depth < 200 -> height root < 200.
Proof using G.
  clear c2g g2c P. intros L. unfold lheight. rewrite ldec_lenc. pose proof (lk_depth _ _ _ _ _ _ _ G start) as RD. assert (Q : (popcount full <= N.of_nat n)%N).
  { apply popcount_full. pose proof (N.pow_nonzero 2 (N.of_nat n)). lia. }
  assert (N.to_nat (popcount full) * S depth <= n * S depth) by (apply Nat.mul_le_mono_r; lia). lia.
Qed.
Lemma root_forest : (exists g c, lderives start full g c) <-> forest root <> [].
Proof.
  split.
  - intros (g & c & D). apply to_top in D. eapply (derivable_edge wl maxlog rules mask start sent fan depth rank G ch P). exists c. eapply gd_d. exact D.
  - intros NE. destruct (forest root) as [|e fr] eqn:EF; [congruence|]. assert (I : In e (forest root)) by (rewrite EF; now left). destruct (edge_derivable wl maxlog rules mask start sent fan depth rank G ch P _ _ _ I) as [c D].
    destruct (d_gd _ _ _ _ _ _ _ _ D) as (g & GD). exists g, c. now apply to_top.
Qed.
Lemma lkbest_results : forall l, (forall t p, In (t, p) l -> KbestSpec.derivation forest root t /\ p = KbestSpec.dcost t) -> NoDup (map fst l) ->
  exists gl, map (fun tp => (lread rules root (fst tp), snd tp)) l = map (fun gp => (Some (fst gp), snd gp)) gl /\ (forall g p, In (g, p) gl -> lderives start full g p) /\ NoDup (map fst gl).
Proof.
  induction l as [|[t p] l IH]; intros V ND; [exists []; cbn; repeat split; [contradiction|constructor]|].
  inversion ND as [|? ? N1 N2]; subst. destruct IH as (gl & E & D & N); [intros t' p' I; apply V; now right|exact N2|]. destruct (V t p (or_introl eq_refl)) as [DT ->]. destruct (c2g _ _ DT _ _ eq_refl) as (g & RG & DG).
  exists ((g, KbestSpec.dcost t) :: gl). cbn [map fst snd]. rewrite RG, E. split; [reflexivity|]. split; [intros g' p' [X|I]; [injection X as <- <-; now apply to_top|now apply D]|].
  constructor; [|exact N]. intros I. apply in_map_iff in I. destruct I as ([g' q] & EG & I). cbn in EG. subst g'. apply (in_map (fun gp => (Some (fst gp), snd gp))) in I. rewrite <- E in I. apply in_map_iff in I. destruct I as ([u q'] & EU & IU). cbn [fst snd] in EU. injection EU as EU <-.
  apply N1. apply in_map_iff. exists (u, q'). split; [|exact IU]. cbn. symmetry. destruct (V u q' (or_intror IU)) as [DU _]. exact (read_inj wl maxlog rules mask start sent fan depth rank G ch P _ _ DT u g _ _ eq_refl DU RG EU).
Qed.
End Results.

(** ---- C81 ---- *)
Definition all_words (sent : list word) : N := (2 ^ N.of_nat (length sent) - 1)%N.
(** the results of parsing exhaustively with an LCFRS and extracting the k best derivations:
    derivation trees of the sentence with their probabilities, all different, from best to
    worst; the first one is the best of all derivations of the sentence. Any order in which
    the agenda breaks ties will do *)
Theorem C81_kbest_sound : forall wl maxlog rules mask start sent fan depth rank, lkgrammar wl rules mask sent fan depth rank ->
  forall k ch, parse_small wl maxlog rules mask start true sent true ch -> length sent * S depth + depth < 200 -> 1 <= k ->
  (exists g c, lderives wl rules mask anywhere sent start (all_words sent) g c) ->
  exists l gl, lkbest ch start (length sent) k = Some l /\
    map (fun tp => (lread rules (lenc (start, all_words sent)) (fst tp), snd tp)) l = map (fun gp => (Some (fst gp), snd gp)) gl /\
    gl <> [] /\ length gl <= k /\ (forall g p, In (g, p) gl -> lderives wl rules mask anywhere sent start (all_words sent) g p) /\ NoDup (map fst gl) /\
    StronglySorted (fun x y => (snd x <= snd y)%N) gl /\
    (forall g p r, gl = (g, p) :: r -> forall h c, lderives wl rules mask anywhere sent start (all_words sent) h c -> (p <= c)%N).
Proof.
  intros wl maxlog rules mask start sent fan depth rank G k ch P LN K D. unfold lkbest. change (small_root start (length sent)) with (start, all_words sent).
  pose proof (chart_is_ok wl maxlog rules mask start sent fan depth rank G ch P) as OK.
  assert (NE : lkforest ch (lenc (start, all_words sent)) <> []) by (now apply (root_forest wl maxlog rules mask start sent fan depth rank G ch P)).
  destruct (KbestProps.C40_kbest_sound _ _ _ (lenc (start, all_words sent)) k OK K NE (root_height wl rules mask start sent fan depth rank G LN)) as (l & E & L0 & L1 & L2 & L3 & L4 & L5).
  destruct (lkbest_results wl maxlog rules mask start sent fan depth rank G ch P l L2 L3) as (gl & M & D1 & ND).
  assert (LE : length l = length gl) by (rewrite <- (map_length (fun tp => (lread rules (lenc (start, all_words sent)) (fst tp), snd tp)) l); unfold all_words; rewrite M, map_length; reflexivity).
  exists l, gl. split; [exact E|]. split; [exact M|]. split; [intros ->; destruct l; [congruence|discriminate]|]. split; [lia|]. split; [exact D1|]. split; [exact ND|]. split.
  - clear - M L4. revert gl M. induction L4 as [|x l S IH F]; intros [|y gl] M; try discriminate; constructor.
    + apply IH. cbn [map] in M. injection M as _ _ M. exact M.
    + cbn [map] in M. injection M as _ M1 M. apply Forall_forall. intros z Z. apply (in_map (fun gp => (Some (fst gp), snd gp))) in Z. rewrite <- M in Z. apply in_map_iff in Z. destruct Z as (w & W & IW). rewrite Forall_forall in F. specialize (F w IW). injection W as _ W. rewrite <- W, <- M1. exact F.
  - intros g p r -> h c GH. destruct l as [|[t q] l]; [discriminate|]. cbn [map fst snd] in M. injection M as _ -> _. apply (to_top wl rules mask start sent fan depth rank G) in GH. destruct (grammar_to_chart wl maxlog rules mask start sent fan depth rank G ch P _ _ _ _ GH) as (u & U1 & _ & <-).
    destruct (L2 t p (or_introl eq_refl)) as [_ ->]. exact (L5 t _ l eq_refl u U1).
Qed.
(** no derivation is found exactly if there is none *)
Theorem C81_no_parse : forall wl maxlog rules mask start sent fan depth rank, lkgrammar wl rules mask sent fan depth rank ->
  forall k ch, parse_small wl maxlog rules mask start true sent true ch -> length sent * S depth + depth < 200 -> 1 <= k ->
  lkbest ch start (length sent) k = None <-> ~ exists g c, lderives wl rules mask anywhere sent start (all_words sent) g c.
Proof.
  intros wl maxlog rules mask start sent fan depth rank G k ch P LN K. split.
  - intros E D. destruct (C81_kbest_sound _ _ _ _ _ _ _ _ _ G _ _ P LN K D) as (l & gl & E2 & _). congruence.
  - intros X. unfold lkbest. apply KbestProps.C40_no_derivation. change (small_root start (length sent)) with (start, all_words sent). destruct (lkforest ch (lenc (start, all_words sent))) as [|e r] eqn:EF; [reflexivity|exfalso]. apply X. apply (root_forest wl maxlog rules mask start sent fan depth rank G ch P). unfold all_words in EF. rewrite EF. discriminate.
Qed.
(** they are the k best ones when no rule is used twice with the same left daughter set *)
Theorem C81_kbest_complete : forall wl maxlog rules mask start sent fan depth rank, lkgrammar wl rules mask sent fan depth rank ->
  forall k ch, parse_small wl maxlog rules mask start true sent true ch -> length sent * S depth + depth < 200 -> 1 <= k ->
  (exists g c, lderives wl rules mask anywhere sent start (all_words sent) g c) ->
  (forall r lv v v', valid_edge N word_bit set_join (on_list wl) rules mask anywhere sent (plhs r) v (Some (r, lv), 0) -> valid_edge N word_bit set_join (on_list wl) rules mask anywhere sent (plhs r) v' (Some (r, lv), 0) -> v = v') ->
  exists l, lkbest ch start (length sent) k = Some l /\
    forall g c, lderives wl rules mask anywhere sent start (all_words sent) g c -> (exists p, In (Some g, p) (map (fun tp => (lread rules (lenc (start, all_words sent)) (fst tp), snd tp)) l)) \/ (length l = k /\ forall p, In p (map snd l) -> (p <= c)%N).
Proof.
  intros wl maxlog rules mask start sent fan depth rank G k ch P LN K D UQ. unfold lkbest. change (small_root start (length sent)) with (start, all_words sent).
  pose proof (chart_is_ok wl maxlog rules mask start sent fan depth rank G ch P) as OK.
  assert (NE : lkforest ch (lenc (start, all_words sent)) <> []) by (now apply (root_forest wl maxlog rules mask start sent fan depth rank G ch P)).
  assert (AN : forall x v c, derives N word_bit set_join (on_list wl) rules mask (not_goal (small_root start (length sent))) sent x v c -> derives N word_bit set_join (on_list wl) rules mask anywhere sent x v c).
  { induction 1; [now constructor|apply PlcfrsSpec.d_unary; auto; exact I|eapply PlcfrsSpec.d_binary; eauto; exact I]. }
  assert (AD : forall x v, derivable N word_bit set_join (on_list wl) rules mask (not_goal (small_root start (length sent))) sent x v -> derivable N word_bit set_join (on_list wl) rules mask anywhere sent x v) by (intros x v [c H]; exists c; auto).
  assert (AV : forall x v e, valid_edge N word_bit set_join (on_list wl) rules mask (not_goal (small_root start (length sent))) sent x v e -> valid_edge N word_bit set_join (on_list wl) rules mask anywhere sent x v e).
  { intros x v e [i c T E|r U L Z DD DA A|r v1 v2 U L Z D1 DA1 D2 DA2 J A]; [eapply v_word; eauto|apply v_unary; auto; exact I|apply v_binary with (v2 := v2); auto; exact I]. }
  assert (UE : KbestSpec.unique_edges (lkforest ch)).
  { intros u u' e e' m I I' N0 N0' EP. destruct (ldec u) as [x v] eqn:DV. assert (u = lenc (x, v)) as -> by (rewrite <- DV; symmetry; apply lenc_ldec). destruct (ldec u') as [x' v'] eqn:DV'. assert (u' = lenc (x', v')) as -> by (rewrite <- DV'; symmetry; apply lenc_ldec).
    destruct (in_forest wl maxlog rules mask start sent fan depth rank G ch P _ _ _ I) as ([[[r lv]|] q] & -> & V); [|discriminate]. destruct (in_forest wl maxlog rules mask start sent fan depth rank G ch P _ _ _ I') as ([[[r' lv']|] q'] & -> & V'); [|discriminate].
    unfold lkedge in N0, N0', EP. cbn [fst snd KbestModel.eno KbestModel.epos] in N0, N0', EP. injection N0 as <-. injection N0' as EN. apply N2Nat.inj in EP. subst lv'.
    destruct (valid_rule wl rules mask start sent fan depth rank G _ _ _ _ _ V) as (-> & U & LX & _). destruct (valid_rule wl rules mask start sent fan depth rank G _ _ _ _ _ V') as (-> & U' & LX' & _). assert (r' = r) as -> by (eapply (lk_no _ _ _ _ _ _ _ G); [apply U'|apply U|exact EN]). subst x x'.
    now rewrite (UQ r lv v v' (AV _ _ _ V) (AV _ _ _ V')). }
  destruct (KbestProps.C40_kbest_complete _ _ _ (lenc (start, all_words sent)) k OK UE K NE (root_height wl rules mask start sent fan depth rank G LN)) as (l & E & C).
  exists l. split; [exact E|]. intros g c GD. apply (to_top wl rules mask start sent fan depth rank G) in GD. destruct (grammar_to_chart wl maxlog rules mask start sent fan depth rank G ch P _ _ _ _ GD) as (t & T1 & T2 & <-).
  destruct (C t T1) as [I|[A B]]; [left|right; auto]. apply in_map_iff in I. destruct I as ([t' p] & ET & I). cbn [fst] in ET. subst t'. exists p. apply in_map_iff. exists (t, p). cbn [fst snd]. unfold all_words. rewrite T2. auto.
Qed.

(** ---- examples ---- *)
(** a run of the parser, for examples *)
Fixpoint takemin (pre a : list (item N * (N * N))) (all : list (item N * (N * N))) : option (item N * N * list (item N * (N * N))) :=
  match a with
  | [] => None
  | (k, (s, p)) :: b => if forallb (fun e => negb (lt2 (snd e) (s, p))) all then Some (k, p, pre ++ b) else takemin (pre ++ [(k, (s, p))]) b all
  end.
Section Run.
Variables (rules : list prule) (start : nat) (sent : list word).
Notation explore := (explore N N.eqb concat_small combine_small bitcount N.ltb nolist 300 rules nomask (small_root start (length sent))).
Fixpoint run (fuel : nat) (ch : chart N) : option (chart N) :=
  match agenda N ch with
  | [] => Some ch
  | _ => match fuel, takemin [] (agenda N ch) (agenda N ch) with S f, Some (k, p, a) => run f (explore k p (Chart N (index N ch) (probs N ch) (forest N ch) a)) | _, _ => None end
  end.
Lemma takemin_pops : forall ch a pre k p b, agenda N ch = pre ++ a -> takemin pre a (agenda N ch) = Some (k, p, b) -> pops N ch k p (Chart N (index N ch) (probs N ch) (forest N ch) b).
Proof.
  intros ch. induction a as [|[k' [s q]] a IH]; intros pre k p b E T; [discriminate|]. cbn [takemin] in T. destruct (forallb _ _) eqn:F.
  - injection T as <- <- <-. eapply pops_intro; [exact E|]. rewrite forallb_forall in F. apply Forall_forall. intros e I. apply F in I. now apply negb_true_iff in I.
  - apply (IH (pre ++ [(k', (s, q))])); [rewrite <- app_assoc; exact E|exact T].
Qed.
Lemma run_loop : forall fuel ch ch', run fuel ch = Some ch' -> loop N N.eqb concat_small combine_small bitcount N.ltb nolist 300 rules nomask (small_root start (length sent)) true ch ch'.
Proof.
  induction fuel as [|f IH]; intros ch ch' R; cbn [run] in R.
  - destruct (agenda N ch) eqn:A; [injection R as <-; now apply loop_empty|discriminate].
  - destruct (agenda N ch) as [|e a] eqn:A; [injection R as <-; now apply loop_empty|]. rewrite <- A in R. destruct (takemin [] (agenda N ch) (agenda N ch)) as [[[k p] b]|] eqn:T; [|discriminate].
    eapply loop_step; [eapply takemin_pops; [|exact T]; reflexivity|discriminate|]. now apply IH.
Qed.
Definition runparse (fuel : nat) : option (chart N) := match populatepos N N.eqb word_bit N.ltb nolist (emptychart N) 0 sent with Some (true, ch) => run fuel ch | _ => None end.
Lemma runparse_ok : forall fuel ch, runparse fuel = Some ch -> parse_small nolist 300 rules nomask start true sent true ch.
Proof. intros fuel ch R. unfold runparse in R. destruct (populatepos _ _ _ _ _ _ _ _) as [[[|] c]|] eqn:Q; try discriminate. eapply pm_covered; [exact Q|]. eapply run_loop. exact R. Qed.
End Run.
(** the discontinuous grammar of C54: S(xzy) -> A(x,y) B(z), A(x,y) -> C(x) D(y), or
    S -> F, F(xy) -> C(x) G(y), G(xy) -> B(x) D(y) *)
Example dd_ok : lkgrammar nolist ex_rules nomask ex_sent ex_fan 1 (fun x => if x =? 1 then 1 else 0).
Proof.
  destruct C54_ex as (A & B & C & D & E & _). constructor; auto.
  - intros r r' I I' Q. cbn in I, I'. repeat (destruct I as [<-|I]; [repeat (destruct I' as [<-|I']; [try reflexivity; discriminate|]); contradiction|]). contradiction.
  - intros r I _ Z. cbn in I. repeat (destruct I as [<-|I]; [try discriminate; cbn; try lia|]). contradiction.
  - intros x. destruct (x =? 1); lia.
Qed.
Definition show (rules : list prule) (sent : list word) (start fuel k : nat) : option (list (option ltree * N)) :=
  match runparse rules start sent fuel with
  | Some ch => match lkbest ch start (length sent) k with Some l => Some (map (fun tp => (lread rules (lenc (start, all_words sent)) (fst tp), snd tp)) l) | None => None end
  | None => None
  end.
Lemma show_ok : forall rules sent start fuel k z, show rules sent start fuel k = Some z ->
  exists ch l, parse_small nolist 300 rules nomask start true sent true ch /\ lkbest ch start (length sent) k = Some l /\ map (fun tp => (lread rules (lenc (start, all_words sent)) (fst tp), snd tp)) l = z.
Proof.
  intros rules sent start fuel k z S. unfold show in S. destruct (runparse rules start sent fuel) as [ch|] eqn:R; [|discriminate]. destruct (lkbest ch start (length sent) k) as [l|] eqn:L; [|discriminate]. injection S as <-.
  exists ch, l. split; [eapply runparse_ok; exact R|]. split; [exact L|reflexivity].
Qed.
Example dd_kbest : exists ch l, parse_small nolist 300 ex_rules nomask 1 true ex_sent true ch /\ lkbest ch 1 3 5 = Some l /\
  map (fun tp => (lread ex_rules (lenc (1, all_words ex_sent)) (fst tp), snd tp)) l =
    [(Some (LBin (PRule 1 2 3 1 0 [[false; true; false]]) (LBin (PRule 2 4 5 2 1 [[false]; [true]]) (LWord 4 0) (LWord 5 2)) (LWord 3 1)), 5%N);
     (Some (LUn (PRule 1 6 0 3 2 [[false]]) (LBin (PRule 6 4 7 1 3 [[false; true]]) (LWord 4 0) (LBin (PRule 7 3 5 9 4 [[false; true]]) (LWord 3 1) (LWord 5 2)))), 15%N)].
Proof. apply (show_ok ex_rules ex_sent 1 30 5). vm_compute. reflexivity. Qed.
(** X --> X X with five words: twelve of the fourteen derivations are found *)
Definition xr := PRule 1 1 1 1 0 [[false; true]].
Definition xsent : list word := map (fun i => Word [(1, i)] []) [0; 1; 2; 3; 4]%N.
Definition xtree : ltree := LBin xr (LBin xr (LBin xr (LWord 1 0) (LBin xr (LWord 1 1) (LWord 1 2))) (LWord 1 3)) (LWord 1 4).
Example xr_ok : lkgrammar nolist [xr] nomask xsent (fun _ => 1) 0 (fun _ => 0).
Proof.
  constructor.
  - cbn; lia.
  - repeat constructor; cbn; try lia; try discriminate; repeat constructor; discriminate.
  - apply Forall_forall. intros w H. split; [intros; reflexivity|]. split; [intros; reflexivity|]. cbn in H. repeat (destruct H as [<-|H]; [constructor|]). contradiction.
  - repeat constructor; intros [].
  - intros i x c r T [[<-|[]] _] Z. discriminate.
  - intros r r' [<-|[]] [<-|[]] _. reflexivity.
  - intros r [<-|[]] _ Z. discriminate.
  - intros x. lia.
Qed.
Lemma x_word : forall i, i < 5 -> lderives nolist [xr] nomask anywhere xsent 1 (word_bit i) (LWord 1 i) (N.of_nat i).
Proof.
  intros i L. constructor. apply (t_lexicon _ _ _ _ _ _ _ (Word [(1, N.of_nat i)] [])); [|exists [], []; split; [reflexivity|intros d []]|reflexivity].
  do 5 (destruct i as [|i]; [reflexivity|]). lia.
Qed.
Lemma x_bin : forall v1 v2 v g h a b, lderives nolist [xr] nomask anywhere xsent 1 v1 g a -> lderives nolist [xr] nomask anywhere xsent 1 v2 h b ->
  cjoin N concat_small combine_small [[false; true]] v1 v2 v -> lderives nolist [xr] nomask anywhere xsent 1 v (LBin xr g h) (1 + a + b).
Proof.
  intros v1 v2 v g h a b D1 D2 J. change 1%N with (pprob xr). apply (ld_binary nolist [xr] nomask anywhere xsent xr v1 v2); [split; [now left|reflexivity]|discriminate|exact D1|exact I|exact D2|exact I| |reflexivity].
  apply (small_same [xr] (fun _ => 1) (lk_rules _ _ _ _ _ _ _ xr_ok) xr); [now left|discriminate| | |exact J].
  - exact (proj1 (derives_SP _ _ _ _ _ _ _ _ xr_ok _ _ _ (gd_d _ _ _ _ _ _ _ _ _ D1))).
  - exact (proj1 (derives_SP _ _ _ _ _ _ _ _ xr_ok _ _ _ (gd_d _ _ _ _ _ _ _ _ _ D2))).
Qed.
(** with this grammar, whose conditions for soundness hold, fifty derivations are asked for,
    twelve are found, and (((0 (1 2)) 3) 4) is not among them *)
Theorem C81_complete_refuted : exists ch l c, lkgrammar nolist [xr] nomask xsent (fun _ => 1) 0 (fun _ => 0) /\
  parse_small nolist 300 [xr] nomask 1 true xsent true ch /\ lkbest ch 1 (length xsent) 50 = Some l /\ length l = 12 /\
  lderives nolist [xr] nomask anywhere xsent 1 (all_words xsent) xtree c /\ ~ In (Some xtree) (map (fun tp => lread [xr] (lenc (1, all_words xsent)) (fst tp)) l).
Proof.
  assert (W : exists z, show [xr] xsent 1 30 50 = Some z /\ length z = 12 /\ ~ In (Some xtree) (map fst z)).
  { eexists. split; [vm_compute; reflexivity|]. split; [reflexivity|]. intros H. cbn [map fst] in H. repeat (destruct H as [H|H]; [discriminate H|]). exact H. }
  destruct W as (z & S & L & NI). destruct (show_ok _ _ _ _ _ _ S) as (ch & l & A & B & C). exists ch, l. eexists. split; [exact xr_ok|]. split; [exact A|]. split; [exact B|]. split; [rewrite <- L, <- C; now rewrite map_length|]. split.
  - unfold xtree. eapply (x_bin 15 16); [eapply (x_bin 7 8); [eapply (x_bin 1 6); [apply (x_word 0); lia|eapply (x_bin 2 4); [apply (x_word 1); lia|apply (x_word 2); lia|]|]|apply (x_word 3); lia|]|apply (x_word 4); lia|]; (split; vm_compute; reflexivity).
  - intros H. apply NI. rewrite <- C, map_map. exact H.
Qed.
(** the condition for completeness holds for the discontinuous grammar *)
Example dd_unique : forall r lv v v', valid_edge N word_bit set_join (on_list nolist) ex_rules nomask anywhere ex_sent (plhs r) v (Some (r, lv), 0) ->
  valid_edge N word_bit set_join (on_list nolist) ex_rules nomask anywhere ex_sent (plhs r) v' (Some (r, lv), 0) -> v = v'.
Proof.
  assert (T : forall i x c, tagged N word_bit (on_list nolist) ex_sent i x c -> match x with 4 => i = 0 | 3 => i = 1 | 8 => i = 1 | 5 => i = 2 | _ => False end).
  { intros i x c [w E F A|w E _ I _]; (destruct i as [|[|[|i]]]; [| | |destruct i; discriminate]); injection E as <-; try (apply first_entry_in in F; cbn in F; repeat (destruct F as [F|F]; [injection F as <- <-; reflexivity|]); contradiction); cbn in I; repeat (destruct I as [<-|I]; [reflexivity|]); contradiction. }
  assert (W : forall x v c, derives N word_bit set_join (on_list nolist) ex_rules nomask anywhere ex_sent x v c -> v = match x with 4 => 1%N | 3 => 2%N | 8 => 2%N | 5 => 4%N | 2 => 5%N | 7 => 6%N | 6 => 7%N | 1 => 7%N | _ => 0%N end).
  { intros x v c D. induction D as [i x c Q|r v c [U UM] Z D IH DA A|r v1 v2 v a b [U UM] Z D1 IH1 DA1 D2 IH2 DA2 J A].
    - apply T in Q. do 9 (destruct x as [|x]; try contradiction; try (subst i; reflexivity)).
    - cbn in U. repeat (destruct U as [<-|U]; [try discriminate; rewrite IH; reflexivity|]). contradiction.
    - destruct (join_facts nolist ex_rules nomask anywhere ex_sent ex_fan 1 _ dd_ok r v1 v2 v (conj U UM) Z (ex_intro _ a D1) (ex_intro _ b D2) J) as (E & _). rewrite E, IH1, IH2. cbn in U. repeat (destruct U as [<-|U]; [try reflexivity; exfalso; apply Z; reflexivity|]). contradiction. }
  intros r lv v v' V V'. assert (Q : forall w, valid_edge N word_bit set_join (on_list nolist) ex_rules nomask anywhere ex_sent (plhs r) w (Some (r, lv), 0) -> derivable N word_bit set_join (on_list nolist) ex_rules nomask anywhere ex_sent (plhs r) w).
  { intros w X. inversion X as [|? U L Z [c D] DA A|? v1 v2 U L Z [a D1] DA1 [b D2] DA2 J A]; subst; eexists; [apply PlcfrsSpec.d_unary; eassumption|eapply PlcfrsSpec.d_binary; eassumption]. }
  destruct (Q v V) as [c D]. destruct (Q v' V') as [c' D']. rewrite (W _ _ _ D), (W _ _ _ D'). reflexivity.
Qed.
