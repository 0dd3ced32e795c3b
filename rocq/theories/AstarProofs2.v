(** A* parsing of sentences of less than 64 words (C68). *)
From Coq Require Import List Bool Arith NArith ZArith Lia.
From Verif Require Import BitsModel BitsSpec BitsProofs FanoutProofs ConcatModel ConcatSpec ConcatProps.
From Verif Require Import PlcfrsModel PlcfrsSpec PlcfrsProofs PlcfrsProofs2 AstarModel AstarSpec AstarProofs.
Import ListNotations.
Open Scope list_scope.
Open Scope nat_scope.

(** ** positions *)
Lemma extent_exists : forall u, u <> 0%N -> (u < 2 ^ 64)%N -> extent u (sx_left u) (N.to_nat (bitlength u)).
Proof.
  intros u U0 U1. unfold sx_left. destruct (nonzero_member u U0) as [i0 M0].
  destruct (nextset_ok u 0) as [[_ H]|(r & E & _ & M & L)]; [exfalso; apply (H i0); [lia|exact M0]|].
  destruct (bitlength_ok u U1) as [[H _]|(B0 & B1 & B2)]; [contradiction|].
  rewrite E, N2Z.id || rewrite E. replace (Z.to_nat (Z.of_N r)) with (N.to_nat r) by lia.
  assert (LT : (r < bitlength u)%N).
  { destruct (N.lt_ge_cases r (bitlength u)) as [X|X]; [exact X|]. exfalso. exact (B2 r X M). }
  unfold extent. replace (N.of_nat (N.to_nat r)) with r by lia.
  replace (N.of_nat (N.to_nat (bitlength u) - 1)) with (bitlength u - 1)%N by lia.
  split; [lia|]. split; [exact M|]. split; [exact B1|]. intros i MI. split.
  - destruct (N.le_gt_cases r i) as [X|X]; [exact X|]. exfalso. apply (L i); [lia|exact MI].
  - destruct (N.lt_ge_cases i (bitlength u)) as [X|X]; [lia|]. exfalso. exact (B2 i X MI).
Qed.
Lemma extent_unique : forall u a b a' b', extent u a b -> extent u a' b' -> a = a' /\ b = b'.
Proof.
  intros u a b a' b' (H1 & H2 & H3 & H4) (K1 & K2 & K3 & K4).
  pose proof (H4 _ K2). pose proof (H4 _ K3). pose proof (K4 _ H2). pose proof (K4 _ H3). lia.
Qed.
Lemma extent_sx : forall u a b, u <> 0%N -> (u < 2 ^ 64)%N -> extent u a b -> sx_left u = a /\ N.to_nat (bitlength u) = b.
Proof. intros u a b U0 U1 H. eapply extent_unique; [now apply extent_exists|exact H]. Qed.
Lemma extent_single : forall i, extent (2 ^ N.of_nat i)%N i (i + 1).
Proof.
  intros i. unfold extent. replace (i + 1 - 1) with i by lia. rewrite !member_bit.
  split; [lia|]. split; [reflexivity|]. split; [reflexivity|]. intros j. rewrite member_bit. lia.
Qed.
Lemma extent_one : forall u a b, components u [(a, b)] -> extent u (N.to_nat a) (N.to_nat b).
Proof.
  intros u a b [S H]. cbn in S. unfold extent.
  assert (X : forall i, member u i <-> (a <= i < b)%N).
  { intros i. rewrite H, covered_cons. split; [intros [Y|Y]; [exact Y|now apply covered_nil in Y]|auto]. }
  rewrite !X. split; [lia|]. split; [lia|]. split; [lia|]. intros i. rewrite X. lia.
Qed.
Lemma count_one : forall u a b, components u [(a, b)] -> N.to_nat (bitcount u) = N.to_nat b - N.to_nat a.
Proof.
  intros u a b [S H]. cbn in S. unfold bitcount.
  assert (X : lists_members (member u) (map N.of_nat (seq (N.to_nat a) (N.to_nat b - N.to_nat a)))).
  { split.
    - apply FinFun.Injective_map_NoDup; [intros x y; lia|apply seq_NoDup].
    - intros i. rewrite H, covered_cons, in_map_iff. split.
      + intros (k & <- & I). apply in_seq in I. left. lia.
      + intros [Y|Y]; [|now apply covered_nil in Y]. exists (N.to_nat i). split; [lia|]. apply in_seq. lia. }
  rewrite (popcount_card _ _ X), map_length, seq_length. lia.
Qed.

(** ** constituents of derivations, for different ways to put spans together *)
Section Conv.
Variables (vec : Type) (single : nat -> vec) (J1 J2 : list (list bool) -> vec -> vec -> vec -> Prop).
Variables (allowed : nat -> vec -> Prop) (rules : list prule) (mask : nat -> bool) (da1 da2 : nat -> vec -> Prop) (sent : list word).
Variable P : nat -> vec -> Prop.
Notation D1 := (derives vec single J1 allowed rules mask da1 sent).
Notation D2 := (derives vec single J2 allowed rules mask da2 sent).
Hypothesis PD : forall x v c, D1 x v c -> P x v.
Hypothesis DD : forall x v, da1 x v -> da2 x v.
Hypothesis conv : forall r l u v, In r rules -> prhs2 r <> 0 -> P (prhs1 r) l -> P (prhs2 r) u -> J1 (ryf r) l u v -> J2 (ryf r) l u v.
Lemma conv_derives : forall x v c, D1 x v c -> D2 x v c.
Proof.
  intros x v c D. induction D as [i x c T|r v c U E D IH NG A|r v1 v2 v a b U E D1 IH1 N1 D2 IH2 N2 J A].
  - now apply d_word.
  - apply d_unary; auto.
  - eapply d_binary; eauto. apply (conv r v1 v2 v); auto; [apply U| |]; eapply PD; eauto.
Qed.
Lemma conv_within_derives : forall x v c y u d, within vec single J1 allowed rules mask da1 sent x v c y u d -> D1 x v c.
Proof.
  intros x v c y u d W. induction W as [x v c D|r v c y u d U E W IH NG A
    |r v1 v2 v a b y u d U E W IH N1 D2 N2 J A|r v1 v2 v a b y u d U E D1 N1 W IH N2 J A]; auto.
  - now apply d_unary.
  - eapply d_binary; eauto.
  - eapply d_binary; eauto.
Qed.
Lemma conv_within : forall x v c y u d, within vec single J1 allowed rules mask da1 sent x v c y u d ->
  within vec single J2 allowed rules mask da2 sent x v c y u d.
Proof.
  intros x v c y u d W. induction W as [x v c D|r v c y u d U E W IH NG A
    |r v1 v2 v a b y u d U E W IH N1 D2 N2 J A|r v1 v2 v a b y u d U E D1 N1 W IH N2 J A].
  - apply w_here. now apply conv_derives.
  - apply w_unary; auto.
  - eapply w_left; eauto; [now apply conv_derives|]. apply (conv r v1 v2 v); auto; [apply U| |eapply PD; eauto].
    eapply PD, conv_within_derives; eauto.
  - eapply w_right; eauto; [now apply conv_derives|]. apply (conv r v1 v2 v); auto; [apply U|eapply PD; eauto|].
    eapply PD, conv_within_derives; eauto.
Qed.
Lemma within_inner : forall x v c y u d, within vec single J1 allowed rules mask da1 sent x v c y u d -> D1 y u d.
Proof. intros x v c y u d W. induction W; auto. Qed.
End Conv.

Section SmallA.
Variables (wl : item N -> bool) (maxlog : N) (rules : list prule) (mask : nat -> bool) (start : nat) (sent : list word) (fan : nat -> nat).
Hypothesis LEN : length sent < 64.
Hypothesis WG : wf_grammar fan rules.
Hypothesis WL : wf_lexicon fan sent.
Hypothesis NG : forall w, In w sent -> goldlabels w = [].
Hypothesis ND : forall w, In w sent -> NoDup (map fst (entries w)).
Notation bit := (fun i => 2 ^ N.of_nat i)%N.
Notation goal := (small_root start (length sent)).
Notation cjoinN := (cjoin N concat_small combine_small).
Notation allow := (callowed N wl).
Definition AP (x : nat) (v : N) : Prop := SP fan x v /\ sgood (length sent) v.
Lemma AP_word : forall i x c, tagged N bit allow sent i x c -> AP x (bit i).
Proof. intros i x c T. split; [eapply SP_word; eauto|]. apply s_single_good. eapply tagged_range; eauto. Qed.
Lemma AP_unary : forall r v, In r rules -> prhs2 r = 0 -> AP (prhs1 r) v -> AP (plhs r) v.
Proof. intros r v I E [A B]. split; [|exact B]. now apply SP_unary with (rules := rules). Qed.
Lemma AP_binary : forall r l u v, In r rules -> prhs2 r <> 0 -> AP (prhs1 r) l -> AP (prhs2 r) u -> cjoinN (ryf r) l u v -> AP (plhs r) v.
Proof.
  intros r l u v I E [A1 B1] [A2 B2] J. split; [now apply SP_binary with (rules := rules) (r := r) (l := l) (u := u)|].
  destruct J as [J ->]. now destruct (s_combine_good _ _ l u B1 B2 J).
Qed.
Lemma AP_below : forall x v, AP x v -> v <> 0%N /\ (v < 2 ^ 64)%N.
Proof. intros x v [[H _] [K _]]. split; [exact K|]. assert (2 ^ 63 < 2 ^ 64)%N by reflexivity. lia. Qed.
Lemma set_P : forall da x v c, derives N bit set_join allow rules mask da sent x v c -> AP x v.
Proof.
  intros da x v c D. induction D as [i x c T|r v c U E D IH G A|r v1 v2 v a b U E D1 IH1 N1 D2 IH2 N2 J A].
  - eapply AP_word; eauto.
  - destruct U. now apply AP_unary.
  - destruct U as [U _]. apply (AP_binary r v1 v2 v U E IH1 IH2).
    apply (small_same rules fan WG r v1 v2 v U E); [apply IH1|apply IH2|exact J].
Qed.
Lemma c_P : forall da x v c, derives N bit cjoinN allow rules mask da sent x v c -> AP x v.
Proof.
  intros da x v c D. induction D as [i x c T|r v c U E D IH G A|r v1 v2 v a b U E D1 IH1 N1 D2 IH2 N2 J A].
  - eapply AP_word; eauto.
  - destruct U. now apply AP_unary.
  - destruct U as [U _]. exact (AP_binary r v1 v2 v U E IH1 IH2 J).
Qed.
Lemma to_set : forall x v c y u d, within N bit cjoinN allow rules mask (not_goal goal) sent x v c y u d ->
  within N bit set_join allow rules mask anywhere sent x v c y u d.
Proof.
  apply conv_within with (P := AP); [apply c_P|unfold anywhere; auto|].
  intros r l u v I E A B J. apply (small_same rules fan WG r l u v I E); [apply A|apply B|exact J].
Qed.

Section Est.
Variables (estlex : nat -> nat -> option N) (estun estbin est : nat -> N -> option N).
Hypothesis E_lex : forall i x, i < length sent -> estlex i x = est x (bit i).
Hypothesis E_un : forall x v, AP x v -> estun x v = est x v.
Hypothesis E_bin : forall x v, AP x v -> estbin x v = est x v.
Notation parse := (a_parse_main N N.eqb concat_small combine_small bit N.ltb wl maxlog estlex estun estbin rules mask goal).
Lemma goal_alone_s : forall e x v, AP x v -> concat_small e (snd goal) v = false /\ concat_small e v (snd goal) = false.
Proof. intros e x v [_ G]. now apply s_goal_alone. Qed.
Lemma small_exact : admissible N bit set_join allow rules mask anywhere sent goal est ->
  forall exh b ch, parse exh sent b ch -> forall p, probs N ch goal = Some p <->
  best N bit set_join allow rules mask anywhere sent start (2 ^ N.of_nat (length sent) - 1)%N p /\ (p <= maxlog)%N.
Proof.
  intros ADM exh b ch PM p.
  assert (ADM' : admissible N bit cjoinN allow rules mask (not_goal goal) sent goal est).
  { intros C y u d W. apply ADM. now apply to_set. }
  assert (eqN : forall a b : N, N.eqb a b = true <-> a = b) by (intros; apply N.eqb_eq).
  assert (F : final N concat_small combine_small bit wl maxlog rules mask goal sent est ch).
  { apply (parse_final N N.eqb concat_small combine_small bit N.ltb wl maxlog estlex estun estbin rules mask goal sent AP est) with
      (mem := fun v j => member v (N.of_nat j)) (exh := exh) (b := b); auto.
    - exact AP_word.
    - exact AP_unary.
    - exact AP_binary.
    - exact goal_alone_s.
    - intros i j _ _ H. now apply s_single_inj.
    - intros i j H. apply member_bit in H. lia.
    - intros yf l u v j [J ->] M. apply concat_small_disjoint in J. apply (lxor_member l u J) in M. exact M.
    - intros j LJ. cbn [snd small_root]. unfold member. rewrite N.sub_1_r, <- N.ones_equiv, bits_ones. apply N.ltb_lt. lia. }
  rewrite (AstarProofs.final_best N concat_small combine_small bit wl maxlog rules mask goal sent AP est goal_alone_s ADM' ch p F).
  assert (BG : best N bit cjoinN allow rules mask (not_goal goal) sent (fst goal) (snd goal) p <->
     best N bit set_join allow rules mask anywhere sent start (2 ^ N.of_nat (length sent) - 1)%N p); [|now rewrite BG].
  rewrite <- (best_goal N bit set_join allow rules mask sent goal (item_dec N N.eqb eqN)).
  apply (join_best N bit _ _ allow rules mask (not_goal goal) sent (SP fan)).
  - intros i x c T. eapply SP_word; eauto.
  - intros r v. now apply SP_unary with (rules := rules).
  - intros r l u v. now apply SP_binary with (rules := rules).
  - intros r l u v. now apply small_same with (rules := rules) (fan := fan).
Qed.
Definition universe : list (item N) := list_prod (labels rules sent) (s_allvecs (length sent)).
Lemma universe_ok : forall x v c, derives N bit cjoinN allow rules mask (not_goal goal) sent x v c -> In (x, v) universe.
Proof.
  intros x v c D. apply in_prod; [eapply derives_label; exact D|]. apply s_allvecs_ok. apply (c_P _ _ _ _ D).
Qed.
Lemma small_total : forall exh, exists b ch, parse exh sent b ch.
Proof.
  intros exh. apply (parse_total N N.eqb concat_small combine_small bit N.ltb wl maxlog estlex estun estbin rules mask goal sent AP est) with (U := universe); auto.
  - intros; apply N.eqb_eq.
  - exact AP_word.
  - exact AP_unary.
  - exact AP_binary.
  - exact goal_alone_s.
  - intros i j _ _ H. now apply s_single_inj.
  - exact universe_ok.
Qed.
Lemma small_bound : forall exh n ch ch',
  a_populatepos N N.eqb bit N.ltb wl maxlog estlex (emptychart N) 0 sent = Some (true, ch) ->
  a_loop N N.eqb concat_small combine_small N.ltb wl maxlog estun estbin rules mask goal exh n ch ch' ->
  n <= length (labels rules sent) * N.to_nat (2 ^ N.of_nat (length sent)) * (1 + N.to_nat maxlog).
Proof.
  intros exh n ch ch' E L.
  assert (LU : length universe = length (labels rules sent) * N.to_nat (2 ^ N.of_nat (length sent))).
  { assert (X : length universe = length (labels rules sent) * length (s_allvecs (length sent))) by apply prod_length.
    rewrite X. unfold s_allvecs. now rewrite map_length, seq_length. }
  rewrite <- LU.
  apply (parse_bound N N.eqb concat_small combine_small bit N.ltb wl maxlog estlex estun estbin rules mask goal sent AP est) with (U := universe) (exh := exh) (ch := ch) (ch' := ch'); auto.
  - intros; apply N.eqb_eq.
  - exact AP_word.
  - exact AP_unary.
  - exact AP_binary.
  - exact goal_alone_s.
  - intros i j _ _ H. now apply s_single_inj.
  - exact universe_ok.
Qed.
End Est.
End SmallA.

(** ** estimates for discontinuous constituents *)
Lemma lrgaps_lex : forall outside n i x, i < n -> n < 64 ->
  outside x 1 (i + (n - 1 - i)) 0 = sxlrgaps outside n x (2 ^ N.of_nat i)%N.
Proof.
  intros outside n i x L LN. unfold sxlrgaps, sx_gaps.
  assert (B0 : (2 ^ N.of_nat i)%N <> 0%N) by (apply N.pow_nonzero; lia).
  assert (B1 : (2 ^ N.of_nat i < 2 ^ 64)%N) by (apply N.pow_lt_mono_r; lia).
  destruct (extent_sx _ _ _ B0 B1 (extent_single i)) as [-> ->].
  unfold sx_length. rewrite (count_one _ _ _ (components_bit (fun _ => false) [] ltac:(cbn; lia) i)).
  replace (N.to_nat (N.of_nat i + 1) - N.to_nat (N.of_nat i)) with 1 by lia. f_equal; lia.
Qed.
Lemma lrgaps_value : forall outside n x u a b l, u <> 0%N -> (u < 2 ^ 64)%N -> extent u a b -> lists_members (member u) l -> b <= n ->
  sxlrgaps outside n x u = outside x (length l) (a + (n - b)) (b - a - length l).
Proof.
  intros outside n x u a b l U0 U1 EX LM LE. unfold sxlrgaps, sx_gaps. destruct (extent_sx _ _ _ U0 U1 EX) as [-> ->].
  unfold sx_length, bitcount. rewrite (popcount_card _ _ LM), Nat2N.id.
  assert (LB : length l <= b - a).
  { destruct LM as [N1 N2]. destruct EX as (_ & _ & _ & R).
    rewrite <- (seq_length (b - a) a), <- (map_length N.of_nat). apply NoDup_incl_length; [exact N1|].
    intros i I. apply N2, R in I. apply in_map_iff. exists (N.to_nat i). split; [lia|]. apply in_seq. lia. }
  assert (AB : a < b) by apply EX.
  replace (n - length l - a - (b - length l - a)) with (n - b) by lia.
  replace (b - length l - a) with (b - a - length l) by lia. reflexivity.
Qed.
(** ** estimates for continuous constituents *)
Lemma sx_value : forall outside n x u a b, (u < 2 ^ 64)%N -> components u [(a, b)] ->
  sx_un outside n x u = outside x (N.to_nat a) (n - N.to_nat b) /\ sx_bin outside n x u = outside x (N.to_nat a) (n - N.to_nat b).
Proof.
  intros outside n x u a b U1 CO. unfold sx_un, sx_bin, sx_gaps.
  assert (U0 : u <> 0%N).
  { intros ->. pose proof (components_unique 0%N _ _ CO components_zero). discriminate. }
  destruct (extent_sx _ _ _ U0 U1 (extent_one _ _ _ CO)) as [-> ->].
  unfold sx_length. rewrite (count_one _ _ _ CO). destruct CO as [S _]. cbn in S. split; f_equal; lia.
Qed.
