(** Parsing and k-best extraction together (C78) *)
From Coq Require Import List Bool Arith NArith ZArith Lia Sorted Cantor.
From Verif Require Import CkyModel CkySpec CkyProofs CkyProofs3 CkyProofs4 CkyProps.
From Verif Require KbestModel KbestSpec KbestProps.
From Verif Require Import PipeModel.
Import ListNotations.
Open Scope list_scope.
Open Scope nat_scope.

(** ---- specification: derivation trees of a PCFG ---- *)
Section Spec.
Variables (rules : list rule) (mask : nat -> bool).
Variables (lexrules : nat -> list (nat * N)) (tag : nat -> option (nat -> bool)) (lexicallhs : list nat).
(** [g] is a derivation tree of label x over the words i..j-1, with the sum [c] of the
    negative log probabilities of its rules *)
Inductive gderives : nat -> nat -> nat -> gtree -> N -> Prop :=
| gd_word : forall i x c, tagged lexrules tag lexicallhs i x c -> gderives i (i + 1) x (GWord x i) c
| gd_unary : forall i j r g c, In r rules -> mask (rno r) = false -> rhs2 r = 0 -> gderives i j (rhs1 r) g c -> gderives i j (lhs r) (GUn r g) (rprob r + c)
| gd_binary : forall i k j r g h a b, In r rules -> mask (rno r) = false -> rhs2 r <> 0 -> gderives i k (rhs1 r) g a -> gderives k j (rhs2 r) h b ->
    gderives i j (lhs r) (GBin r g h) (rprob r + a + b).
(** a grammar such as the k-best algorithm needs: a number for each rule, unary rules
    without cycles (of length at most [depth]), tags with one probability, and no unary
    rules for tags *)
Record kgrammar (nts depth : nat) (rank : nat -> nat) : Prop := {
  kg_lhs : forall r, In r rules -> 1 <= lhs r < nts;
  kg_no : forall r r', In r rules -> In r' rules -> rno r = rno r' -> r = r';
  kg_unary : forall r, In r rules -> mask (rno r) = false -> rhs2 r = 0 -> rank (rhs1 r) < rank (lhs r);
  kg_depth : forall x, rank x <= depth;
  kg_tag : forall i x c d, tagged lexrules tag lexicallhs i x c -> tagged lexrules tag lexicallhs i x d -> c = d;
  kg_apart : forall i x c r, tagged lexrules tag lexicallhs i x c -> In r rules -> mask (rno r) = false -> rhs2 r = 0 -> lhs r <> x }.
End Spec.

Lemma dec_enc : forall it, dec (enc it) = it.
Proof. intros [[i j] x]. unfold dec, enc. now rewrite !Cantor.cancel_of_to. Qed.
Lemma enc_inj : forall a b, enc a = enc b -> a = b.
Proof. intros a b E. rewrite <- (dec_enc a), E. apply dec_enc. Qed.
Lemma enc_dec : forall v, enc (dec v) = v.
Proof. intros v. unfold dec, enc. destruct (Cantor.of_nat v) as [i w] eqn:E. destruct (Cantor.of_nat w) as [j x] eqn:E2. rewrite <- E2, Cantor.cancel_to_of, <- E, Cantor.cancel_to_of. reflexivity. Qed.

Section Main.
Variables (rules : list rule) (nts : nat) (mask : nat -> bool) (prio : chart -> nat -> item -> option N).
Variables (lexrules : nat -> list (nat * N)) (tag : nat -> option (nat -> bool)) (lexicallhs : list nat).
Variables (depth : nat) (rank : nat -> nat).
Hypothesis G : kgrammar rules mask lexrules tag lexicallhs nts depth rank.
Variables (n fuel : nat) (ch : chart).
Hypothesis P : parse rules nts mask prio lexrules tag lexicallhs fuel n = Some (true, ch).
Notation derives := (derives rules mask lexrules tag lexicallhs).
Notation derivable := (derivable rules mask lexrules tag lexicallhs).
Notation best := (best rules mask lexrules tag lexicallhs).
Notation valid_edge := (valid_edge rules mask lexrules tag lexicallhs).
Notation gderives := (gderives rules mask lexrules tag lexicallhs).
Notation tagged := (tagged lexrules tag lexicallhs).
Lemma derives_lt : forall i j x c, derives i j x c -> i < j.
Proof. induction 1; lia. Qed.
Lemma gd_d : forall i j x g c, gderives i j x g c -> derives i j x c.
Proof. induction 1; [now constructor|now apply CkySpec.d_unary|now apply CkySpec.d_binary with (k := k)]. Qed.
Lemma d_gd : forall i j x c, derives i j x c -> exists g, gderives i j x g c.
Proof.
  induction 1 as [i x c T|i j r c I M R D (g & H)|i k j r a b I M R D1 (g1 & H1) D2 (g2 & H2)]; [exists (GWord x i); now constructor|exists (GUn r g); now constructor|exists (GBin r g1 g2); econstructor; eassumption].
Qed.
Let viterbi := fun i j x IJ => C41_viterbi rules nts mask prio lexrules tag lexicallhs n (kg_lhs _ _ _ _ _ _ _ _ G) fuel ch P i j x IJ.
Let edges_ok := fun i j x e IJ => C41_edges rules nts mask prio lexrules tag lexicallhs n (kg_lhs _ _ _ _ _ _ _ _ G) fuel ch P i j x e IJ.
Let inside := fun i j x NIJ => C41_inside rules nts mask prio lexrules tag lexicallhs n (kg_lhs _ _ _ _ _ _ _ _ G) fuel ch P i j x NIJ.
Notation forest := (kforest ch).
Notation sub := (ksub ch).
Definition height (v : nat) : nat := let '(i, j, x) := dec v in (j - i) * S depth + rank x.
Lemma in_forest : forall i j x e, In e (forest (enc (i, j, x))) -> exists o, In o (edges ch (i, j, x)) /\ e = kedge ch (i, j, x) o /\ i < j <= n /\ valid_edge i j x o.
Proof.
  intros i j x e I. unfold kforest in I. rewrite dec_enc in I. apply in_map_iff in I. destruct I as (o & <- & I).
  assert (IJ : i < j <= n) by (destruct (lt_dec i j) as [A|A]; [destruct (le_dec j n) as [B|B]; [lia|]|]; exfalso; destruct (inside i j x) as [_ Z]; [lia|rewrite Z in I; contradiction|lia|rewrite Z in I; contradiction]).
  exists o. split; [exact I|]. split; [reflexivity|]. split; [exact IJ|]. now apply edges_ok.
Qed.
Lemma forest_edge : forall i j x o, i < j <= n -> valid_edge i j x o -> In (kedge ch (i, j, x) o) (forest (enc (i, j, x))).
Proof. intros i j x o IJ V. unfold kforest. rewrite dec_enc. apply in_map. now apply edges_ok. Qed.
Lemma valid_mid : forall i j x r k, valid_edge i j x (Some r, k) -> i < j -> In r rules /\ mask (rno r) = false /\ lhs r = x /\ (rhs2 r = 0 -> k = j /\ derivable i j (rhs1 r)) /\ (rhs2 r <> 0 -> i < k < j /\ derivable i k (rhs1 r) /\ derivable k j (rhs2 r)).
Proof.
  intros i j x r k V IJ. inversion V as [|? I M L Z D|? ? I M L Z D1 D2]; subst; repeat split; auto; try (intros; congruence).
  - destruct D1 as [c D1]. apply derives_lt in D1. lia.
  - destruct D2 as [c D2]. apply derives_lt in D2. lia.
Qed.
Lemma derivable_edge : forall i j x, derivable i j x -> j <= n -> forest (enc (i, j, x)) <> [].
Proof.
  intros i j x [c D] J E. pose proof (derives_lt _ _ _ _ D) as IJ. assert (V : exists o, valid_edge i j x o).
  { inversion D as [? ? ? T|? ? r c0 I M Z D0|? k ? r a b I M Z D1 D2]; subst.
    - exists (None, i + 1). now apply v_word with (c := c).
    - exists (Some r, j). apply v_unary; auto. now exists c0.
    - exists (Some r, k). apply v_binary; auto; [now exists a|now exists b]. }
  destruct V as (o & V). apply (forest_edge i j x o) in V; [|lia]. rewrite E in V. contradiction.
Qed.
Lemma edge_derivable : forall i j x e, In e (forest (enc (i, j, x))) -> derivable i j x.
Proof.
  intros i j x e I. destruct (in_forest _ _ _ _ I) as (o & _ & _ & IJ & V). inversion V as [c J T|r I1 M L Z [c D]|r k I1 M L Z [a D1] [b D2]]; subst.
  - exists c. now constructor.
  - eexists. now apply CkySpec.d_unary; [| | |exact D].
  - eexists. now apply CkySpec.d_binary with (k := k); [| | |exact D1|exact D2].
Qed.
Lemma ruleof_kedge : forall it r k, In r rules -> ruleof rules (kedge ch it (Some r, k)) = Some r.
Proof.
  intros [[i j] x] r k I. unfold ruleof, kedge. cbn [fst KbestModel.eno]. destruct (find (fun r0 => rno r0 =? rno r) rules) as [r'|] eqn:F.
  - apply find_some in F. destruct F as [F1 F2]. apply Nat.eqb_eq in F2. f_equal. eapply (kg_no _ _ _ _ _ _ _ _ G); eauto.
  - pose proof (find_none _ _ F r I) as X. cbn in X. rewrite Nat.eqb_refl in X. discriminate.
Qed.
Lemma tag_prob : forall i x c, tagged i x c -> i < n -> prob ch (i, i + 1, x) = Some c.
Proof.
  intros i x c T L. apply viterbi; [lia|]. split; [now constructor|]. intros d D. inversion D as [? ? ? T'|? ? r c0 I M Z D0|? k ? r a b I M Z D1 D2]; subst.
  - rewrite (kg_tag _ _ _ _ _ _ _ _ G i x c d T T'). lia.
  - exfalso. exact (kg_apart _ _ _ _ _ _ _ _ G i _ c r T I M Z eq_refl).
  - apply derives_lt in D1. apply derives_lt in D2. lia.
Qed.
(** derivations of the chart are derivations of the grammar *)
Lemma chart_to_grammar : forall t v, KbestSpec.derivation forest v t -> forall i j x, v = enc (i, j, x) -> exists g, readderiv rules v t = Some g /\ gderives i j x g (KbestSpec.dcost t).
Proof.
  intros t v D. induction D as [v e I N0|v e m t I N0 R D IH|v e m w t u I N0 R D1 IH1 D2 IH2]; intros i j x ->; destruct (in_forest _ _ _ _ I) as ([o k] & OI & -> & IJ & V).
  - destruct o as [r|]; [discriminate N0|]. cbn [readderiv]. rewrite dec_enc. exists (GWord x i). split; [reflexivity|]. inversion V as [c J T| |]; subst. cbn [KbestSpec.dcost kedge fst KbestModel.eprob].
    rewrite (tag_prob i x c T) by lia. now constructor.
  - destruct o as [r|]; [|discriminate N0]. destruct (valid_mid _ _ _ _ _ V) as (IR & M & L & U & B); [lia|].
    assert (Z : rhs2 r = 0) by (cbn [kedge fst snd KbestModel.eright] in R; destruct (Nat.eqb_spec (rhs2 r) 0); [assumption|discriminate]). destruct (U Z) as [-> _].
    destruct (IH i j (rhs1 r) eq_refl) as (g & RG & DG). exists (GUn r g). cbn [readderiv]. rewrite (ruleof_kedge (i, j, x) r j IR). change (KbestModel.eleft (kedge ch (i, j, x) (Some r, j))) with (enc (i, j, rhs1 r)) in *. rewrite RG. split; [reflexivity|].
    cbn [KbestSpec.dcost]. change (KbestModel.eprob (kedge ch (i, j, x) (Some r, j))) with (rprob r). rewrite <- L. now constructor.
  - destruct o as [r|]; [|discriminate N0]. destruct (valid_mid _ _ _ _ _ V) as (IR & M & L & U & B); [lia|].
    assert (Z : rhs2 r <> 0 /\ w = enc (k, j, rhs2 r)) by (cbn [kedge fst snd KbestModel.eright] in R; destruct (Nat.eqb_spec (rhs2 r) 0); [discriminate|split; [assumption|congruence]]). destruct Z as [Z ->].
    destruct (IH1 i k (rhs1 r) eq_refl) as (g & RG & DG). destruct (IH2 k j (rhs2 r) eq_refl) as (h & RH & DH). exists (GBin r g h). cbn [readderiv]. rewrite (ruleof_kedge (i, j, x) r k IR), R. change (KbestModel.eleft (kedge ch (i, j, x) (Some r, k))) with (enc (i, k, rhs1 r)) in *. rewrite RG, RH. split; [reflexivity|].
    cbn [KbestSpec.dcost]. change (KbestModel.eprob (kedge ch (i, j, x) (Some r, k))) with (rprob r). rewrite <- L. econstructor; eassumption.
Qed.
(** and the other way round *)
Lemma grammar_to_chart : forall i j x g c, gderives i j x g c -> j <= n -> exists t, KbestSpec.derivation forest (enc (i, j, x)) t /\ readderiv rules (enc (i, j, x)) t = Some g /\ KbestSpec.dcost t = c.
Proof.
  intros i j x g c D. induction D as [i x c T|i j r g c I M Z D IH|i k j r g h a b I M Z D1 IH1 D2 IH2]; intros J.
  - assert (V : valid_edge i (i + 1) x (None, i + 1)) by (now apply v_word with (c := c)). exists (KbestModel.DLex (kedge ch (i, i + 1, x) (None, i + 1))). split; [|split].
    + constructor; [apply forest_edge; [lia|exact V]|reflexivity].
    + cbn [readderiv]. now rewrite dec_enc.
    + cbn [KbestSpec.dcost kedge fst KbestModel.eprob]. now rewrite (tag_prob i x c T) by lia.
  - destruct (IH J) as (t & T1 & T2 & T3). pose proof (gd_d _ _ _ _ _ D) as DD. pose proof (derives_lt _ _ _ _ DD) as IJ.
    assert (V : valid_edge i j (lhs r) (Some r, j)) by (apply v_unary; auto; now exists c). exists (KbestModel.DUn (kedge ch (i, j, lhs r) (Some r, j)) t).
    pose proof (ruleof_kedge (i, j, lhs r) r j I) as RO. split; [|split].
    + apply KbestSpec.d_un with (n := rno r); [apply forest_edge; [lia|exact V]|reflexivity|cbn [kedge fst snd KbestModel.eright]; now rewrite Z|exact T1].
    + cbn [readderiv]. rewrite RO. cbn [kedge fst snd KbestModel.eleft]. now rewrite T2.
    + cbn [KbestSpec.dcost kedge fst snd KbestModel.eprob]. now rewrite T3.
  - pose proof (derives_lt _ _ _ _ (gd_d _ _ _ _ _ D1)) as L1. pose proof (derives_lt _ _ _ _ (gd_d _ _ _ _ _ D2)) as L2.
    destruct IH1 as (t & T1 & T2 & T3); [lia|]. destruct (IH2 J) as (u & U1 & U2 & U3).
    assert (V : valid_edge i j (lhs r) (Some r, k)) by (apply v_binary; auto; [exists a|exists b]; eapply gd_d; eassumption). exists (KbestModel.DBin (kedge ch (i, j, lhs r) (Some r, k)) t u).
    pose proof (ruleof_kedge (i, j, lhs r) r k I) as RO. assert (ER : KbestModel.eright (kedge ch (i, j, lhs r) (Some r, k)) = Some (enc (k, j, rhs2 r))) by (cbn [kedge fst snd KbestModel.eright]; apply Nat.eqb_neq in Z; now rewrite Z). split; [|split].
    + apply KbestSpec.d_bin with (n := rno r) (r := enc (k, j, rhs2 r)); [apply forest_edge; [lia|exact V]|reflexivity|exact ER|exact T1|exact U1].
    + cbn [readderiv]. rewrite RO, ER. cbn [kedge fst snd KbestModel.eleft]. now rewrite T2, U2.
    + cbn [KbestSpec.dcost kedge fst snd KbestModel.eprob]. now rewrite T3, U3.
Qed.
Fixpoint words (g : gtree) : nat := match g with GWord _ _ => 1 | GUn _ g => words g | GBin _ g h => words g + words h end.
Lemma words_span : forall i j x g c, gderives i j x g c -> j = i + words g.
Proof. induction 1; cbn [words]; lia. Qed.
(** different derivations of the chart are different trees *)
Lemma read_inj : forall t v, KbestSpec.derivation forest v t -> forall u g i j x, v = enc (i, j, x) -> KbestSpec.derivation forest v u -> readderiv rules v t = Some g -> readderiv rules v u = Some g -> t = u.
Proof.
  intros t v D. induction D as [v e I N0|v e m t I N0 R D IH|v e m w t u I N0 R D1 IH1 D2 IH2]; intros s g i j x -> DS RT RS; destruct (in_forest _ _ _ _ I) as ([o k] & OI & -> & IJ & V).
  - destruct o as [r|]; [discriminate N0|]. cbn [readderiv] in RT. rewrite dec_enc in RT. injection RT as <-. inversion DS as [? e' I' N'|? e' m' t' I' N' R' D'|? e' m' r' t' u' I' N' R' D1' D2']; subst.
    + destruct (in_forest _ _ _ _ I') as ([o' k'] & OI' & -> & _ & V'). destruct o'; [discriminate N'|]. inversion V; inversion V'; subst. reflexivity.
    + cbn [readderiv] in RS. destruct (ruleof rules e'); [|discriminate]. destruct (readderiv rules (KbestModel.eleft e') t'); discriminate.
    + cbn [readderiv] in RS. rewrite R' in RS. destruct (ruleof rules e'); [|discriminate]. destruct (readderiv rules (KbestModel.eleft e') t'); [|discriminate]. destruct (readderiv rules r' u'); discriminate.
  - destruct o as [r|]; [|discriminate N0]. destruct (valid_mid _ _ _ _ _ V) as (IR & M & L & U & B); [lia|]. cbn [readderiv] in RT. rewrite (ruleof_kedge (i, j, x) r k IR) in RT.
    assert (Z : rhs2 r = 0) by (cbn [kedge fst snd KbestModel.eright] in R; destruct (Nat.eqb_spec (rhs2 r) 0); [assumption|discriminate]). destruct (U Z) as [-> _].
    destruct (readderiv rules (KbestModel.eleft (kedge ch (i, j, x) (Some r, j))) t) as [g0|] eqn:RG; [|discriminate]. injection RT as <-.
    inversion DS as [? e' I' N'|? e' m' t' I' N' R' D'|? e' m' r' t' u' I' N' R' D1' D2']; subst; [cbn [readderiv] in RS; rewrite dec_enc in RS; discriminate| |].
    + destruct (in_forest _ _ _ _ I') as ([o' k'] & OI' & -> & _ & V'). destruct o' as [r'|]; [|discriminate N']. destruct (valid_mid _ _ _ _ _ V') as (IR' & M' & L' & U' & B'); [lia|]. cbn [readderiv] in RS. rewrite (ruleof_kedge _ r' k' IR') in RS.
      assert (Z' : rhs2 r' = 0) by (cbn [kedge fst snd KbestModel.eright] in R'; destruct (Nat.eqb_spec (rhs2 r') 0); [assumption|discriminate]). destruct (U' Z') as [-> _].
      destruct (readderiv rules (KbestModel.eleft (kedge ch (i, j, lhs r) (Some r', j))) t') as [g1|] eqn:RG'; [|discriminate]. injection RS as -> ->. f_equal. apply (IH t' g0 i j (rhs1 r)); [reflexivity|exact D'|reflexivity|exact RG'].
    + cbn [readderiv] in RS. rewrite R' in RS. destruct (ruleof rules e'); [|discriminate]. destruct (readderiv rules (KbestModel.eleft e') t'); [|discriminate]. destruct (readderiv rules r' u'); discriminate.
  - destruct o as [r|]; [|discriminate N0]. destruct (valid_mid _ _ _ _ _ V) as (IR & M & L & U & B); [lia|]. cbn [readderiv] in RT. rewrite (ruleof_kedge (i, j, x) r k IR), R in RT.
    assert (Z : rhs2 r <> 0 /\ w = enc (k, j, rhs2 r)) by (cbn [kedge fst snd KbestModel.eright] in R; destruct (Nat.eqb_spec (rhs2 r) 0); [discriminate|split; [assumption|congruence]]). destruct Z as [Z ->].
    destruct (readderiv rules (KbestModel.eleft (kedge ch (i, j, x) (Some r, k))) t) as [g0|] eqn:RG; [|discriminate]. destruct (readderiv rules (enc (k, j, rhs2 r)) u) as [h0|] eqn:RH; [|discriminate]. injection RT as <-.
    inversion DS as [? e' I' N'|? e' m' t' I' N' R' D'|? e' m' r' t' u' I' N' R' D1' D2']; subst; [cbn [readderiv] in RS; rewrite dec_enc in RS; discriminate| |].
    + cbn [readderiv] in RS. destruct (ruleof rules e'); [|discriminate]. destruct (readderiv rules (KbestModel.eleft e') t'); discriminate.
    + destruct (in_forest _ _ _ _ I') as ([o' k'] & OI' & -> & _ & V'). destruct o' as [r1|]; [|discriminate N']. destruct (valid_mid _ _ _ _ _ V') as (IR' & M' & L' & U' & B'); [lia|]. cbn [readderiv] in RS. rewrite (ruleof_kedge _ r1 k' IR'), R' in RS.
      assert (Z' : rhs2 r1 <> 0 /\ r' = enc (k', j, rhs2 r1)) by (cbn [kedge fst snd KbestModel.eright] in R'; destruct (Nat.eqb_spec (rhs2 r1) 0); [discriminate|split; [assumption|congruence]]). destruct Z' as [Z' ->].
      destruct (readderiv rules (KbestModel.eleft (kedge ch (i, j, lhs r) (Some r1, k'))) t') as [g1|] eqn:RG'; [|discriminate]. destruct (readderiv rules (enc (k', j, rhs2 r1)) u') as [h1|] eqn:RH'; [|discriminate]. injection RS as -> -> ->.
      change (KbestModel.eleft (kedge ch (i, j, lhs r) (Some r, k))) with (enc (i, k, rhs1 r)) in *. change (KbestModel.eleft (kedge ch (i, j, lhs r) (Some r, k'))) with (enc (i, k', rhs1 r)) in *.
      destruct (chart_to_grammar _ _ D1 _ _ _ eq_refl) as (y & Y1 & Y2). rewrite RG in Y1. injection Y1 as <-. destruct (chart_to_grammar _ _ D1' _ _ _ eq_refl) as (y & W1 & W2). rewrite RG' in W1. injection W1 as <-.
      assert (k' = k) as -> by (rewrite (words_span _ _ _ _ _ Y2); exact (words_span _ _ _ _ _ W2)).
      f_equal; [apply (IH1 t' g0 i k (rhs1 r)); auto|apply (IH2 u' h0 k j (rhs2 r)); auto].
Qed.
Lemma chart_is_ok : KbestSpec.chart_ok forest sub height.
Proof.
  constructor.
  - intros v c (e & m & I & N0 & CH). destruct (dec v) as [[i j] x] eqn:DV. assert (v = enc (i, j, x)) as -> by (rewrite <- DV; symmetry; apply enc_dec).
    destruct (in_forest _ _ _ _ I) as ([o k] & OI & -> & IJ & V). destruct o as [r|]; [|discriminate N0]. destruct (valid_mid _ _ _ _ _ V) as (IR & M & L & U & B); [lia|].
    cbn [kedge fst snd KbestModel.eleft KbestModel.eright] in CH. unfold height at 2. rewrite dec_enc.
    destruct (Nat.eq_dec (rhs2 r) 0) as [Z|Z].
    + destruct (U Z) as [-> _]. destruct CH as [<-|CH]; [|rewrite Z in CH; discriminate]. unfold height. rewrite dec_enc. pose proof (kg_unary _ _ _ _ _ _ _ _ G r IR M Z) as K. rewrite L in K. lia.
    + destruct (B Z) as (K & _ & _). pose proof (kg_depth _ _ _ _ _ _ _ _ G) as RD. apply Nat.eqb_neq in Z. rewrite Z in CH. destruct CH as [<-|CH].
      * unfold height. rewrite dec_enc. specialize (RD (rhs1 r)). assert (S (k - i) * S depth <= (j - i) * S depth) by (apply Nat.mul_le_mono_r; lia). cbn [Nat.mul] in *. lia.
      * assert (c = enc (k, j, rhs2 r)) as -> by congruence. unfold height. rewrite dec_enc. specialize (RD (rhs2 r)). assert (S (j - k) * S depth <= (j - i) * S depth) by (apply Nat.mul_le_mono_r; lia). cbn [Nat.mul] in *. lia.
  - intros v c (e & m & I & N0 & CH). destruct (dec v) as [[i j] x] eqn:DV. assert (v = enc (i, j, x)) as -> by (rewrite <- DV; symmetry; apply enc_dec).
    destruct (in_forest _ _ _ _ I) as ([o k] & OI & -> & IJ & V). destruct o as [r|]; [|discriminate N0]. destruct (valid_mid _ _ _ _ _ V) as (IR & M & L & U & B); [lia|].
    cbn [kedge fst snd KbestModel.eleft KbestModel.eright] in CH. destruct (Nat.eq_dec (rhs2 r) 0) as [Z|Z].
    + destruct (U Z) as [-> D]. destruct CH as [<-|CH]; [|rewrite Z in CH; discriminate]. apply derivable_edge; [exact D|lia].
    + destruct (B Z) as (K & D1 & D2). apply Nat.eqb_neq in Z. rewrite Z in CH. destruct CH as [<-|CH]; [apply derivable_edge; [exact D1|lia]|]. assert (c = enc (k, j, rhs2 r)) as -> by congruence. apply derivable_edge; [exact D2|lia].
  - intros v NE. destruct (dec v) as [[i j] x] eqn:DV. assert (v = enc (i, j, x)) as -> by (rewrite <- DV; symmetry; apply enc_dec).
    destruct (forest (enc (i, j, x))) as [|e fr] eqn:EF; [congruence|]. assert (I : In e (forest (enc (i, j, x)))) by (rewrite EF; now left). pose proof (edge_derivable _ _ _ _ I) as DD. destruct (in_forest _ _ _ _ I) as (_ & _ & _ & IJ & _).
    destruct (viterbi i j x IJ) as [V1 V2]. destruct (prob ch (i, j, x)) as [p|] eqn:PR; [|exfalso; now apply V2].
    assert (BP : best i j x p) by (now apply V1). destruct BP as [BD BO]. assert (SP : sub (enc (i, j, x)) = p) by (unfold ksub; now rewrite dec_enc, PR). rewrite SP. split.
    + destruct (d_gd _ _ _ _ BD) as (g & GD). destruct (grammar_to_chart _ _ _ _ _ GD) as (t & T1 & _ & T3); [lia|]. exists t. auto.
    + intros t D. destruct (chart_to_grammar _ _ D _ _ _ eq_refl) as (g & _ & GD). apply BO. eapply gd_d. exact GD.
  - intros v e I N0. destruct (dec v) as [[i j] x] eqn:DV. assert (v = enc (i, j, x)) as -> by (rewrite <- DV; symmetry; apply enc_dec).
    destruct (in_forest _ _ _ _ I) as ([o k] & OI & -> & IJ & V). destruct o; [discriminate N0|]. unfold ksub. rewrite dec_enc. reflexivity.
  - intros v e e' I I' EN EP. destruct (dec v) as [[i j] x] eqn:DV. assert (v = enc (i, j, x)) as -> by (rewrite <- DV; symmetry; apply enc_dec).
    destruct (in_forest _ _ _ _ I) as ([o k] & OI & -> & IJ & V). destruct (in_forest _ _ _ _ I') as ([o' k'] & OI' & -> & _ & V'). destruct o as [r|], o' as [r'|]; cbn [kedge fst snd KbestModel.eno KbestModel.epos] in EN, EP; try discriminate; subst k'; [|reflexivity].
    injection EN as EN. destruct (valid_mid _ _ _ _ _ V) as (IR & _); [lia|]. destruct (valid_mid _ _ _ _ _ V') as (IR' & _); [lia|]. now rewrite (kg_no _ _ _ _ _ _ _ _ G r r' IR IR' EN).
Qed.
Variable start : nat.
Notation root := (enc (0, n, start)).
Lemma kbest_results : forall l, (forall t p, In (t, p) l -> KbestSpec.derivation forest root t /\ p = KbestSpec.dcost t) -> NoDup (map fst l) ->
  exists gl, map (fun tp => (readderiv rules root (fst tp), snd tp)) l = map (fun gp => (Some (fst gp), snd gp)) gl /\ (forall g p, In (g, p) gl -> gderives 0 n start g p) /\ NoDup (map fst gl).
Proof.
  induction l as [|[t p] l IH]; intros V ND; [exists []; cbn; repeat split; [contradiction|constructor]|].
  inversion ND as [|? ? N1 N2]; subst. destruct IH as (gl & E & D & N); [intros t' p' I; apply V; now right|exact N2|]. destruct (V t p (or_introl eq_refl)) as [DT ->]. destruct (chart_to_grammar _ _ DT _ _ _ eq_refl) as (g & RG & DG).
  exists ((g, KbestSpec.dcost t) :: gl). cbn [map fst snd]. rewrite RG, E. split; [reflexivity|]. split; [intros g' p' [X|I]; [injection X as <- <-; exact DG|now apply D]|].
  constructor; [|exact N]. intros I. apply in_map_iff in I. destruct I as ([g' q] & EG & I). cbn in EG. subst g'. apply (in_map (fun gp => (Some (fst gp), snd gp))) in I. rewrite <- E in I. apply in_map_iff in I. destruct I as ([u q'] & EU & IU). cbn in EU. injection EU as EU <-.
  apply N1. apply in_map_iff. exists (u, q'). split; [|exact IU]. cbn. symmetry. destruct (V u q' (or_intror IU)) as [DU _]. exact (read_inj _ _ DT u g _ _ _ eq_refl DU RG EU).
Qed.
End Main.

(** ---- C78 ---- *)
(** the results of parsing with a PCFG and extracting the k best derivations: derivation
    trees of the sentence with their probabilities, all different, from best to worst; the
    first one is the best of all derivations of the sentence *)
Theorem C78_kbest_sound : forall rules nts mask prio lexrules tag lexicallhs depth rank, kgrammar rules mask lexrules tag lexicallhs nts depth rank ->
  forall fuel n start k ch, parse rules nts mask prio lexrules tag lexicallhs fuel n = Some (true, ch) -> n * S depth + depth < 200 -> 1 <= k -> derivable rules mask lexrules tag lexicallhs 0 n start ->
  exists l gl, parsekbest rules nts mask prio lexrules tag lexicallhs fuel n start k = Some l /\
    map (fun tp => (readderiv rules (enc (0, n, start)) (fst tp), snd tp)) l = map (fun gp => (Some (fst gp), snd gp)) gl /\
    gl <> [] /\ length gl <= k /\ (forall g p, In (g, p) gl -> gderives rules mask lexrules tag lexicallhs 0 n start g p) /\ NoDup (map fst gl) /\
    StronglySorted (fun x y => (snd x <= snd y)%N) gl /\
    (forall g p r, gl = (g, p) :: r -> forall h c, gderives rules mask lexrules tag lexicallhs 0 n start h c -> (p <= c)%N).
Proof.
  intros rules nts mask prio lexrules tag lexicallhs depth rank G fuel n start k ch P LN K D. unfold parsekbest. rewrite P.
  pose proof (chart_is_ok rules nts mask prio lexrules tag lexicallhs depth rank G n fuel ch P) as OK.
  assert (NE : kforest ch (enc (0, n, start)) <> []) by (eapply (derivable_edge rules nts mask prio lexrules tag lexicallhs depth rank G n fuel ch P); [exact D|lia]).
  destruct (KbestProps.C40_kbest_sound _ _ _ (enc (0, n, start)) k OK K NE) as (l & E & L0 & L1 & L2 & L3 & L4 & L5).
  { unfold height. rewrite dec_enc. pose proof (kg_depth _ _ _ _ _ _ _ _ G start). rewrite Nat.sub_0_r. lia. }
  destruct (kbest_results rules nts mask prio lexrules tag lexicallhs depth rank G n fuel ch P start l L2 L3) as (gl & M & D1 & ND).
  assert (LE : length l = length gl) by (rewrite <- (map_length (fun tp => (readderiv rules (enc (0, n, start)) (fst tp), snd tp)) l), M, map_length; reflexivity).
  exists l, gl. split; [exact E|]. split; [exact M|]. split; [intros ->; destruct l; [congruence|discriminate]|]. split; [lia|]. split; [exact D1|]. split; [exact ND|]. split.
  - clear - M L4. revert gl M. induction L4 as [|x l S IH F]; intros [|y gl] M; try discriminate; constructor.
    + apply IH. cbn in M. injection M as _ _ M. exact M.
    + cbn in M. injection M as _ M1 M. apply Forall_forall. intros z Z. apply (in_map (fun gp => (Some (fst gp), snd gp))) in Z. rewrite <- M in Z. apply in_map_iff in Z. destruct Z as (w & W & IW). rewrite Forall_forall in F. specialize (F w IW). injection W as _ W. rewrite <- W, <- M1. exact F.
  - intros g p r -> h c GH. destruct l as [|[t q] l]; [discriminate|]. cbn in M. injection M as _ -> _. destruct (grammar_to_chart rules nts mask prio lexrules tag lexicallhs depth rank G n fuel ch P _ _ _ _ _ GH) as (u & U1 & _ & <-); [lia|].
    destruct (L2 t p (or_introl eq_refl)) as [_ ->]. exact (L5 t _ l eq_refl u U1).
Qed.
(** the parser reports failure exactly if there is no derivation *)
Theorem C78_no_parse : forall rules nts mask prio lexrules tag lexicallhs depth rank, kgrammar rules mask lexrules tag lexicallhs nts depth rank ->
  forall fuel n start k b ch, parse rules nts mask prio lexrules tag lexicallhs fuel n = Some (b, ch) -> n * S depth + depth < 200 -> 1 <= k ->
  parsekbest rules nts mask prio lexrules tag lexicallhs fuel n start k = None <-> (b = false \/ ~ derivable rules mask lexrules tag lexicallhs 0 n start).
Proof.
  intros rules nts mask prio lexrules tag lexicallhs depth rank G fuel n start k b ch P LN K. destruct b.
  - split.
    + intros E. right. intros D. destruct (C78_kbest_sound _ _ _ _ _ _ _ _ _ G _ _ _ _ _ P LN K D) as (l & gl & E2 & _). congruence.
    + intros [X|X]; [discriminate|]. unfold parsekbest. rewrite P. apply KbestProps.C40_no_derivation. destruct (kforest ch (enc (0, n, start))) as [|e r] eqn:EF; [reflexivity|exfalso]. apply X. eapply (edge_derivable rules nts mask prio lexrules tag lexicallhs depth rank G n fuel ch P). rewrite EF. now left.
  - unfold parsekbest. rewrite P. tauto.
Qed.
(** they are the k best ones when every rule occurs at most once with the same split point *)
Theorem C78_kbest_complete : forall rules nts mask prio lexrules tag lexicallhs depth rank, kgrammar rules mask lexrules tag lexicallhs nts depth rank ->
  forall fuel n start k ch, parse rules nts mask prio lexrules tag lexicallhs fuel n = Some (true, ch) -> n * S depth + depth < 200 -> 1 <= k -> derivable rules mask lexrules tag lexicallhs 0 n start ->
  (forall r m i j i' j', valid_edge rules mask lexrules tag lexicallhs i j (lhs r) (Some r, m) -> valid_edge rules mask lexrules tag lexicallhs i' j' (lhs r) (Some r, m) -> j <= n -> j' <= n -> i = i' /\ j = j') ->
  exists l, parsekbest rules nts mask prio lexrules tag lexicallhs fuel n start k = Some l /\
    forall g c, gderives rules mask lexrules tag lexicallhs 0 n start g c -> (exists p, In (Some g, p) (map (fun tp => (readderiv rules (enc (0, n, start)) (fst tp), snd tp)) l)) \/ (length l = k /\ forall p, In p (map snd l) -> (p <= c)%N).
Proof.
  intros rules nts mask prio lexrules tag lexicallhs depth rank G fuel n start k ch P LN K D UQ. unfold parsekbest. rewrite P.
  pose proof (chart_is_ok rules nts mask prio lexrules tag lexicallhs depth rank G n fuel ch P) as OK.
  assert (NE : kforest ch (enc (0, n, start)) <> []) by (eapply (derivable_edge rules nts mask prio lexrules tag lexicallhs depth rank G n fuel ch P); [exact D|lia]).
  assert (UE : KbestSpec.unique_edges (kforest ch)).
  { intros v v' e e' m I I' N0 N0' EP. destruct (dec v) as [[i j] x] eqn:DV. assert (v = enc (i, j, x)) as -> by (rewrite <- DV; symmetry; apply enc_dec). destruct (dec v') as [[i' j'] x'] eqn:DV'. assert (v' = enc (i', j', x')) as -> by (rewrite <- DV'; symmetry; apply enc_dec).
    destruct (in_forest rules nts mask prio lexrules tag lexicallhs depth rank G n fuel ch P _ _ _ _ I) as ([o q] & OI & -> & IJ & V). destruct (in_forest rules nts mask prio lexrules tag lexicallhs depth rank G n fuel ch P _ _ _ _ I') as ([o' q'] & OI' & -> & IJ' & V').
    destruct o as [r|]; [|discriminate]. destruct o' as [r'|]; [|discriminate]. cbn [kedge fst snd KbestModel.eno KbestModel.epos] in *. subst q'. injection N0 as <-. injection N0' as EN.
    destruct (valid_mid _ _ _ _ _ _ _ _ _ _ V) as (IR & _ & LX & _); [lia|]. destruct (valid_mid _ _ _ _ _ _ _ _ _ _ V') as (IR' & _ & LX' & _); [lia|]. assert (r' = r) as -> by (eapply (kg_no _ _ _ _ _ _ _ _ G); eauto). subst x x'.
    destruct (UQ r q i j i' j' V V') as [-> ->]; [lia|lia|reflexivity]. }
  destruct (KbestProps.C40_kbest_complete _ _ _ (enc (0, n, start)) k OK UE K NE) as (l & E & C).
  { unfold height. rewrite dec_enc. pose proof (kg_depth _ _ _ _ _ _ _ _ G start). rewrite Nat.sub_0_r. lia. }
  exists l. split; [exact E|]. intros g c GD. destruct (grammar_to_chart rules nts mask prio lexrules tag lexicallhs depth rank G n fuel ch P _ _ _ _ _ GD) as (t & T1 & T2 & <-); [lia|].
  destruct (C t T1) as [I|[A B]]; [left|right; auto]. apply in_map_iff in I. destruct I as ([t' p] & ET & I). cbn in ET. subst t'. exists p. apply in_map_iff. exists (t, p). cbn [fst snd]. rewrite T2. auto.
Qed.

(** ---- examples ---- *)
(** X --> X X, with five words of which the i-th costs i *)
Definition xx_rules := [Rule 1 1 1 1 0].
Definition xx_lex (i : nat) : list (nat * N) := [(1, N.of_nat i)].
Example xx_ok : kgrammar xx_rules (fun _ => false) xx_lex (fun _ => None) [] 2 0 (fun _ => 0).
Proof.
  constructor.
  - intros r [<-|[]]. cbn. lia.
  - intros r r' [<-|[]] [<-|[]] _. reflexivity.
  - intros r [<-|[]] _ Z. discriminate.
  - intros x. lia.
  - intros i x c d [_ [E|[]]|? X|? X] [_ [F|[]]|? Y|? Y]; try discriminate. congruence.
  - intros i x c r _ [<-|[]] _ Z. discriminate.
Qed.
Lemma xx_parse : exists ch, parse xx_rules 2 (fun _ => false) sparseprio xx_lex (fun _ => None) [] 20 5 = Some (true, ch).
Proof. eexists. vm_compute. reflexivity. Qed.
Lemma xx_derives : forall i, gderives xx_rules (fun _ => false) xx_lex (fun _ => None) [] i (i + 1) 1 (GWord 1 i) (N.of_nat i).
Proof. intros i. constructor. constructor; [reflexivity|]. now left. Qed.
Definition xxr := Rule 1 1 1 1 0.
Definition xx_tree : gtree := GBin xxr (GBin xxr (GWord 1 0) (GWord 1 1)) (GBin xxr (GBin xxr (GWord 1 2) (GWord 1 3)) (GWord 1 4)).
(** with this grammar, whose conditions for soundness hold, fifty derivations are asked
    for, ten are found, and ((0 1) ((2 3) 4)) is not among them: the set of edges already
    explored does not record for which item *)
Theorem C78_complete_refuted : exists l c, kgrammar xx_rules (fun _ => false) xx_lex (fun _ => None) [] 2 0 (fun _ => 0) /\
  parsekbest xx_rules 2 (fun _ => false) sparseprio xx_lex (fun _ => None) [] 20 5 1 50 = Some l /\ length l = 10 /\
  gderives xx_rules (fun _ => false) xx_lex (fun _ => None) [] 0 5 1 xx_tree c /\ ~ In (Some xx_tree) (map (fun tp => readderiv xx_rules (enc (0, 5, 1)) (fst tp)) l).
Proof.
  eexists. eexists. split; [exact xx_ok|]. split; [vm_compute; reflexivity|]. split; [reflexivity|]. assert (B : forall i k j g h a b, gderives xx_rules (fun _ => false) xx_lex (fun _ => None) [] i k 1 g a -> gderives xx_rules (fun _ => false) xx_lex (fun _ => None) [] k j 1 h b -> gderives xx_rules (fun _ => false) xx_lex (fun _ => None) [] i j 1 (GBin xxr g h) (1 + a + b)).
  { intros i k j g h a b D1 D2. change 1%N with (rprob xxr). apply (gd_binary xx_rules (fun _ => false) xx_lex (fun _ => None) [] i k j xxr); [now left|reflexivity|discriminate|exact D1|exact D2]. }
  split; [unfold xx_tree; eapply B; [eapply B; apply xx_derives|eapply B; [eapply B; apply xx_derives|apply xx_derives]]|].
  intros I. vm_compute in I. repeat (destruct I as [I|I]; [discriminate I|]). exact I.
Qed.
(** S --> A B | C D, B --> E D, C --> A E over three words: no rule is used twice *)
Definition tt_rules := [Rule 1 2 3 1 0; Rule 1 4 5 2 1; Rule 3 6 5 1 2; Rule 4 2 6 1 3].
Definition tt_lex (i : nat) : list (nat * N) := match i with 0 => [(2, 1%N)] | 1 => [(6, 1%N)] | 2 => [(5, 1%N)] | _ => [] end.
Example tt_ok : kgrammar tt_rules (fun _ => false) tt_lex (fun _ => None) [] 7 0 (fun _ => 0).
Proof.
  constructor.
  - intros r I. cbn in I. repeat (destruct I as [<-|I]; [cbn; lia|]). contradiction.
  - intros r r' I I' E. cbn in I, I'. repeat (destruct I as [<-|I]; [repeat (destruct I' as [<-|I']; [try reflexivity; discriminate|]); contradiction|]). contradiction.
  - intros r I _ Z. cbn in I. repeat (destruct I as [<-|I]; [discriminate|]). contradiction.
  - intros x. lia.
  - intros i x c d [_ A|? X|? X] [_ B|? Y|? Y]; try discriminate. destruct i as [|[|[|i]]]; cbn in A, B; try contradiction; destruct A as [A|[]], B as [B|[]]; congruence.
  - intros i x c r _ I _ Z. cbn in I. repeat (destruct I as [<-|I]; [discriminate|]). contradiction.
Qed.
Example tt_kbest : exists ch l, parse tt_rules 7 (fun _ => false) sparseprio tt_lex (fun _ => None) [] 20 3 = Some (true, ch) /\
  parsekbest tt_rules 7 (fun _ => false) sparseprio tt_lex (fun _ => None) [] 20 3 1 5 = Some l /\
  map (fun tp => (readderiv tt_rules (enc (0, 3, 1)) (fst tp), snd tp)) l =
    [(Some (GBin (Rule 1 2 3 1 0) (GWord 2 0) (GBin (Rule 3 6 5 1 2) (GWord 6 1) (GWord 5 2))), 5%N); (Some (GBin (Rule 1 4 5 2 1) (GBin (Rule 4 2 6 1 3) (GWord 2 0) (GWord 6 1)) (GWord 5 2)), 6%N)].
Proof. eexists. eexists. split; [vm_compute; reflexivity|]. split; [vm_compute; reflexivity|]. vm_compute. reflexivity. Qed.
Example tt_unique : forall r m i j i' j', valid_edge tt_rules (fun _ => false) tt_lex (fun _ => None) [] i j (lhs r) (Some r, m) -> valid_edge tt_rules (fun _ => false) tt_lex (fun _ => None) [] i' j' (lhs r) (Some r, m) -> i = i' /\ j = j'.
Proof.
  assert (W : forall i j x, CkySpec.derivable tt_rules (fun _ => false) tt_lex (fun _ => None) [] i j x -> match x with 2 => i = 0 /\ j = 1 | 6 => i = 1 /\ j = 2 | 5 => i = 2 /\ j = 3 | 3 => i = 1 /\ j = 3 | 4 => i = 0 /\ j = 2 | 1 => i = 0 /\ j = 3 | _ => False end).
  { intros i j x [c D]. induction D as [i x c T|i j r c I M Z D IH|i k j r a b I M Z D1 IH1 D2 IH2].
    - destruct T as [_ A|? X|? X]; try discriminate. destruct i as [|[|[|i]]]; cbn in A; try contradiction; destruct A as [A|[]]; injection A as <- <-; cbn; lia.
    - cbn in I. repeat (destruct I as [<-|I]; [discriminate|]). contradiction.
    - cbn in I. destruct I as [<-|[<-|[<-|[<-|[]]]]]; cbn in *; lia. }
  intros r m i j i' j' V V'. inversion V as [|? I M L Z D|? ? I M L Z D1 D2]; subst.
  - cbn in I. repeat (destruct I as [<-|I]; [discriminate|]). contradiction.
  - inversion V' as [|? I' M' L' Z' D'|? ? I' M' L' Z' D1' D2']; subst; [congruence|]. apply W in D1. apply W in D2. apply W in D1'. apply W in D2'.
    cbn in I. destruct I as [<-|[<-|[<-|[<-|[]]]]]; cbn in *; lia.
Qed.
