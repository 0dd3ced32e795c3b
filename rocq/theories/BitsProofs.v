From Coq Require Import NArith ZArith List Bool Lia ZifyBool ZifyN ZifyNat.
From Verif Require Import BitsModel BitsSpec.
Import ListNotations.
Local Open Scope N_scope.

(** * Generic facts on bits *)
Lemma testbit_add_high : forall i, N.testbit 0 i = false.
Proof. intros; apply N.bits_0. Qed.

Lemma ones64_ones : ones64 = N.ones 64. Proof. reflexivity. Qed.
Lemma two64_pow : two64 = 2 ^ 64. Proof. reflexivity. Qed.

Lemma bits_ones : forall n i, N.testbit (N.ones n) i = (i <? n).
Proof.
  intros n i. destruct (N.ltb_spec i n).
  - now apply N.ones_spec_low.
  - now apply N.ones_spec_high.
Qed.

Lemma bits_ones64 : forall i, N.testbit ones64 i = (i <? 64).
Proof. intros; rewrite ones64_ones; apply bits_ones. Qed.

Lemma lt_pow2_bits : forall v n, v < 2 ^ n <-> (forall i, n <= i -> N.testbit v i = false).
Proof.
  intros v n; split.
  - intros H i Hi. destruct (N.eq_dec v 0) as [->|Hv]. { apply N.bits_0. }
    apply N.bits_above_log2. apply N.log2_lt_pow2 in H; lia.
  - intros H. destruct (N.eq_dec v 0) as [->|Hv].
    { apply N.neq_0_lt_0, N.pow_nonzero; lia. }
    apply N.log2_lt_pow2; [lia|].
    destruct (N.lt_ge_cases (N.log2 v) n) as [|Hge]; [assumption|].
    specialize (H _ Hge). rewrite N.bit_log2 in H by assumption. discriminate.
Qed.

Lemma bits_wnot : forall v i, v < 2 ^ 64 ->
  N.testbit (wnot v) i = (i <? 64) && negb (N.testbit v i).
Proof.
  intros v i Hv. unfold wnot. rewrite N.lxor_spec, bits_ones64.
  destruct (N.ltb_spec i 64); cbn.
  - now destruct (N.testbit v i).
  - rewrite (proj1 (lt_pow2_bits v 64)); auto.
Qed.

Lemma bits_wshl : forall v n i,
  N.testbit (wshl v n) i = (i <? 64) && (n <=? i) && N.testbit v (i - n).
Proof.
  intros. unfold wshl. rewrite N.land_spec, bits_ones64.
  destruct (N.leb_spec n i).
  - rewrite N.shiftl_spec_high' by lia.
    destruct (i <? 64); destruct (N.testbit v (i - n)); reflexivity.
  - rewrite N.shiftl_spec_low by lia. rewrite andb_false_r. reflexivity.
Qed.

Lemma bits_one : forall i, N.testbit 1 i = (i =? 0).
Proof.
  intros. change 1 with (2 ^ 0). destruct (N.eqb_spec i 0).
  - subst. reflexivity.
  - apply N.pow2_bits_false; lia.
Qed.

Lemma bits_wshl1 : forall n i, n < 64 -> N.testbit (wshl 1 n) i = (i =? n).
Proof.
  intros. rewrite bits_wshl, bits_one.
  destruct (N.eqb_spec i n); destruct (N.ltb_spec i 64); destruct (N.leb_spec n i);
    destruct (N.eqb_spec (i - n) 0); cbn; try lia; auto.
Qed.

Lemma wnot_lt : forall v, v < 2 ^ 64 -> wnot v < 2 ^ 64.
Proof.
  intros v Hv. apply lt_pow2_bits. intros i Hi. rewrite bits_wnot by assumption.
  destruct (N.ltb_spec i 64); [lia|reflexivity].
Qed.
Lemma wshl_lt : forall v n, wshl v n < 2 ^ 64.
Proof.
  intros v n. apply lt_pow2_bits. intros i Hi. rewrite bits_wshl.
  destruct (N.ltb_spec i 64); [lia|reflexivity].
Qed.
Lemma land_lt_r : forall a b n, b < 2 ^ n -> N.land a b < 2 ^ n.
Proof.
  intros a b n H. apply lt_pow2_bits. intros i Hi.
  rewrite N.land_spec, (proj1 (lt_pow2_bits b n) H) by assumption. apply andb_false_r.
Qed.
Lemma land_lt_l : forall a b n, a < 2 ^ n -> N.land a b < 2 ^ n.
Proof. intros. rewrite N.land_comm. now apply land_lt_r. Qed.
Lemma lor_lt : forall a b n, a < 2 ^ n -> b < 2 ^ n -> N.lor a b < 2 ^ n.
Proof.
  intros a b n Ha Hb. apply lt_pow2_bits. intros i Hi.
  rewrite N.lor_spec, (proj1 (lt_pow2_bits a n) Ha), (proj1 (lt_pow2_bits b n) Hb); auto.
Qed.
Lemma shiftr_le : forall a n, N.shiftr a n <= a.
Proof.
  intros. rewrite N.shiftr_div_pow2. apply N.div_le_upper_bound.
  - apply N.pow_nonzero; lia.
  - assert (1 <= 2 ^ n). { assert (2 ^ n <> 0) by (apply N.pow_nonzero; lia). lia. }
    nia.
Qed.

Lemma nonzero_has_bit : forall v, v <> 0 -> exists i, N.testbit v i = true.
Proof. intros v H. exists (N.log2 v). now apply N.bit_log2. Qed.
Lemma zero_bits : forall v, (forall i, N.testbit v i = false) -> v = 0.
Proof. intros v H. apply N.bits_inj_0. exact H. Qed.

(** * Lowest set bit *)
Definition lowest (v a : N) : Prop :=
  N.testbit v a = true /\ forall i, i < a -> N.testbit v i = false.

Lemma pctz_lowest : forall p, lowest (Npos p) (pctz p).
Proof.
  induction p; cbn [pctz].
  - split; [reflexivity|]. lia.
  - destruct IHp as [H1 H2]. split.
    + change (Npos p~0) with (N.double (Npos p)).
      rewrite N.double_spec, N.double_bits_succ. assumption.
    + intros i Hi. destruct (N.eq_dec i 0) as [->|Hi0]; [reflexivity|].
      replace i with (N.succ (N.pred i)) by lia.
      change (Npos p~0) with (N.double (Npos p)).
      rewrite N.double_spec, N.double_bits_succ. apply H2. lia.
  - split; [reflexivity|]. lia.
Qed.
Lemma ctz_lowest : forall v, v <> 0 -> lowest v (ctz v).
Proof. intros [|p] H; [easy|]. apply pctz_lowest. Qed.
Lemma lowest_unique : forall v a b, lowest v a -> lowest v b -> a = b.
Proof.
  intros v a b [Ha1 Ha2] [Hb1 Hb2].
  destruct (N.lt_trichotomy a b) as [H|[H|H]]; auto.
  - rewrite Hb2 in Ha1 by assumption; discriminate.
  - rewrite Ha2 in Hb1 by assumption; discriminate.
Qed.
Lemma ctz_lt : forall v n, v <> 0 -> v < 2 ^ n -> ctz v < n.
Proof.
  intros v n H0 Hlt. destruct (ctz_lowest v H0) as [H _].
  destruct (N.lt_ge_cases (ctz v) n) as [|Hge]; [assumption|].
  rewrite (proj1 (lt_pow2_bits v n) Hlt) in H by assumption. discriminate.
Qed.
Lemma lowest_nonzero : forall v a, lowest v a -> v <> 0.
Proof. intros v a [H _] ->. rewrite N.bits_0 in H. discriminate. Qed.

(** v = 2^a * (2q+1) *)
Lemma lowest_decomp : forall v a, lowest v a -> exists q, v = 2 ^ a * (2 * q + 1).
Proof.
  intros v a [H1 H2]. exists (v / 2 ^ (a + 1)).
  assert (Hp : 2 ^ a <> 0) by (apply N.pow_nonzero; lia).
  assert (Hm : v mod 2 ^ a = 0).
  { apply zero_bits. intros i. destruct (N.lt_ge_cases i a).
    - rewrite N.mod_pow2_bits_low by assumption. now apply H2.
    - now apply N.mod_pow2_bits_high. }
  pose proof (N.div_mod v (2 ^ a) Hp) as D. rewrite Hm, N.add_0_r in D.
  assert (Hodd : N.odd (v / 2 ^ a) = true).
  { rewrite <- N.bit0_odd, N.div_pow2_bits, N.add_0_l. assumption. }
  rewrite N.pow_add_r, N.pow_1_r, <- N.div_div by lia.
  set (w := v / 2 ^ a) in *.
  pose proof (N.div_mod w 2 ltac:(lia)) as D2.
  assert (Hw1 : w mod 2 = 1).
  { rewrite <- N.bit0_mod, N.bit0_odd, Hodd. reflexivity. }
  rewrite Hw1 in D2. rewrite <- D2. assumption.
Qed.

Lemma pred_bits : forall v a, lowest v a -> forall i,
  N.testbit (v - 1) i = if i <? a then true else if i =? a then false else N.testbit v i.
Proof.
  intros v a H i. destruct (lowest_decomp v a H) as [q Hq].
  assert (Hp : 2 ^ a <> 0) by (apply N.pow_nonzero; lia).
  assert (E : v - 1 = 2 ^ a * (2 * q) + N.ones a).
  { rewrite N.ones_equiv. nia. }
  assert (Hdiv : (v - 1) / 2 ^ a = 2 * q).
  { rewrite E, N.mul_comm, N.div_add_l by assumption.
    rewrite N.div_small, N.add_0_r; [reflexivity|]. rewrite N.ones_equiv. lia. }
  assert (Hmod : (v - 1) mod 2 ^ a = N.ones a).
  { rewrite E, N.add_comm, (N.mul_comm (2 ^ a)), N.mod_add by assumption.
    apply N.mod_small. rewrite N.ones_equiv. lia. }
  assert (Hvdiv : v / 2 ^ a = 2 * q + 1).
  { rewrite Hq, N.mul_comm, N.div_mul; auto. }
  destruct (N.ltb_spec i a).
  - rewrite <- (N.mod_pow2_bits_low (v - 1) a i) by assumption.
    rewrite Hmod. now apply N.ones_spec_low.
  - replace i with ((i - a) + a) by lia. rewrite <- !N.div_pow2_bits.
    rewrite Hdiv, Hvdiv.
    destruct (N.eqb_spec (i - a + a) a) as [Heq|Hne].
    + replace (i - a) with 0 by lia. apply N.testbit_even_0.
    + replace (i - a) with (N.succ (N.pred (i - a))) by lia.
      rewrite N.double_bits_succ, N.testbit_odd_succ by lia. reflexivity.
Qed.

Lemma clear_lowest_bits : forall v a, lowest v a -> forall i,
  N.testbit (N.land v (v - 1)) i = N.testbit v i && negb (i =? a).
Proof.
  intros v a H i. rewrite N.land_spec, (pred_bits v a H).
  destruct H as [H1 H2].
  destruct (N.ltb_spec i a).
  - rewrite H2 by assumption. reflexivity.
  - destruct (N.eqb_spec i a); [now rewrite !andb_false_r|].
    now rewrite andb_diag, andb_true_r.
Qed.

(** * ctz of the complement: first zero *)
Lemma ctz_wnot : forall v, v < 2 ^ 64 -> v <> ones64 ->
  ctz (wnot v) < 64 /\ N.testbit v (ctz (wnot v)) = false /\
  forall i, i < ctz (wnot v) -> N.testbit v i = true.
Proof.
  intros v Hv Hn.
  assert (H0 : wnot v <> 0).
  { unfold wnot. intros E. apply N.lxor_eq in E. contradiction. }
  destruct (ctz_lowest _ H0) as [H1 H2].
  pose proof (ctz_lt _ 64 H0 (wnot_lt _ Hv)) as H3.
  split; [assumption|]. rewrite bits_wnot in H1 by assumption. split.
  - apply andb_true_iff in H1. destruct H1 as [_ H1]. now apply negb_true_iff in H1.
  - intros i Hi. specialize (H2 i Hi). rewrite bits_wnot in H2 by assumption.
    apply andb_false_iff in H2. destruct H2 as [H2|H2]; [lia|].
    now apply negb_false_iff in H2.
Qed.

(** * popcount *)
(** Members of [v] in increasing order. *)
Fixpoint pbits (p : positive) (k : N) : list N :=
  match p with
  | xH => [k]
  | xO q => pbits q (k + 1)
  | xI q => k :: pbits q (k + 1)
  end.
Definition bits_of (v : N) : list N := match v with 0 => [] | Npos p => pbits p 0 end.

Lemma pbits_ge : forall p k i, In i (pbits p k) -> k <= i.
Proof.
  induction p; cbn; intros k i H.
  - destruct H as [H|H]; [lia|]. apply IHp in H. lia.
  - apply IHp in H. lia.
  - lia.
Qed.
Lemma testbit_xI : forall p j, N.testbit (Npos p~1) (N.succ j) = N.testbit (Npos p) j.
Proof.
  intros. change (Npos p~1) with (N.succ_double (Npos p)).
  rewrite N.succ_double_spec. apply N.testbit_odd_succ. lia.
Qed.
Lemma testbit_xO : forall p j, N.testbit (Npos p~0) (N.succ j) = N.testbit (Npos p) j.
Proof.
  intros. change (Npos p~0) with (N.double (Npos p)).
  rewrite N.double_spec. apply N.double_bits_succ.
Qed.
Lemma pbits_spec : forall p k i, In i (pbits p k) <-> k <= i /\ N.testbit (Npos p) (i - k) = true.
Proof.
  induction p; cbn [pbits]; intros k i.
  - cbn [In]. rewrite IHp. split.
    + intros [->|[H1 H2]].
      * split; [lia|]. rewrite N.sub_diag. reflexivity.
      * split; [lia|]. replace (i - k) with (N.succ (i - (k + 1))) by lia.
        rewrite testbit_xI. assumption.
    + intros [H1 H2]. destruct (N.eq_dec k i) as [|Hne]; [now left|right].
      split; [lia|]. replace (i - k) with (N.succ (i - (k + 1))) in H2 by lia.
      rewrite testbit_xI in H2. assumption.
  - rewrite IHp. split.
    + intros [H1 H2]. split; [lia|]. replace (i - k) with (N.succ (i - (k + 1))) by lia.
      rewrite testbit_xO. assumption.
    + intros [H1 H2]. destruct (N.eq_dec k i) as [->|Hne].
      * rewrite N.sub_diag in H2. discriminate.
      * split; [lia|]. replace (i - k) with (N.succ (i - (k + 1))) in H2 by lia.
        rewrite testbit_xO in H2. assumption.
  - cbn [In]. split.
    + intros [->|[]]. split; [lia|]. now rewrite N.sub_diag.
    + intros [H1 H2]. left. change (Npos 1) with 1 in H2.
      rewrite bits_one in H2. lia.
Qed.
Lemma pbits_nodup : forall p k, NoDup (pbits p k).
Proof.
  induction p; cbn; intros k; auto.
  - constructor; auto. intros H. apply pbits_ge in H. lia.
  - constructor; auto; constructor.
Qed.
Lemma pbits_length : forall p k, N.of_nat (length (pbits p k)) = ppop p.
Proof.
  induction p; cbn [pbits ppop length]; intros k; auto.
  - rewrite Nat2N.inj_succ, IHp. reflexivity.
Qed.
Lemma bits_of_spec : forall v, lists_members (member v) (bits_of v).
Proof.
  intros [|p]; split; cbn.
  - constructor.
  - intros i. unfold member. rewrite N.bits_0. split; [easy|discriminate].
  - apply pbits_nodup.
  - intros i. rewrite pbits_spec, N.sub_0_r. unfold member. intuition lia.
Qed.
Lemma bits_of_length : forall v, N.of_nat (length (bits_of v)) = popcount v.
Proof. intros [|p]; cbn; auto. apply pbits_length. Qed.
Lemma lists_members_length : forall P l l',
  lists_members P l -> lists_members P l' -> length l = length l'.
Proof.
  intros P l l' [H1 H2] [H3 H4]. apply Nat.le_antisymm; apply NoDup_incl_length; auto;
    intros x Hx; [apply H4, H2|apply H2, H4]; assumption.
Qed.
Lemma popcount_card : forall v l, lists_members (member v) l ->
  popcount v = N.of_nat (length l).
Proof.
  intros v l H. rewrite <- bits_of_length.
  f_equal. apply (lists_members_length _ _ _ (bits_of_spec v) H).
Qed.

Lemma lists_members_filter : forall P l a, lists_members P l ->
  lists_members (fun i => P i /\ i <> a) (filter (fun i => negb (i =? a)) l).
Proof.
  intros P l a [H1 H2]. split; [now apply NoDup_filter|].
  intros i. rewrite filter_In, H2. rewrite negb_true_iff, N.eqb_neq. tauto.
Qed.
Lemma popcount_clear : forall v a, lowest v a ->
  popcount v = popcount (N.land v (v - 1)) + 1.
Proof.
  intros v a H.
  assert (L : lists_members (member v) (a :: bits_of (N.land v (v - 1)))).
  { destruct (bits_of_spec (N.land v (v - 1))) as [N1 N2]. split.
    - constructor; auto. rewrite N2. unfold member.
      rewrite (clear_lowest_bits v a H), N.eqb_refl, andb_false_r. discriminate.
    - intros i. cbn [In]. rewrite N2. unfold member.
      rewrite (clear_lowest_bits v a H).
      destruct (N.eqb_spec i a) as [->|Hne]; destruct H as [H _].
      + intuition.
      + rewrite andb_true_r. intuition congruence. }
  rewrite (popcount_card _ _ L). cbn [length]. rewrite Nat2N.inj_succ, bits_of_length. lia.
Qed.

Lemma land_pred_lt : forall a, a <> 0 -> N.land a (a - 1) < a.
Proof.
  intros a H. assert (N.land a (a - 1) <= a - 1).
  { rewrite N.land_comm. apply N.ldiff_le. apply zero_bits. intros i.
    rewrite N.ldiff_spec, N.land_spec. destruct (N.testbit (a - 1) i); cbn; auto.
    now rewrite andb_false_r. }
  lia.
Qed.

Lemma ppop_size : forall p, (N.to_nat (ppop p) <= Pos.size_nat p)%nat.
Proof. induction p; cbn [ppop Pos.size_nat]; lia. Qed.
Lemma popcount_size : forall v, (N.to_nat (popcount v) <= N.size_nat v)%nat.
Proof. intros [|p]; cbn; [lia|]. apply ppop_size. Qed.

Lemma pyintbitcount_loop_ok : forall fuel a c,
  (N.to_nat (popcount a) < fuel)%nat -> pyintbitcount_loop fuel a c = c + popcount a.
Proof.
  induction fuel as [|f IH]; intros a c H; [lia|]. cbn [pyintbitcount_loop].
  destruct (N.eqb_spec a 0) as [->|Hne]; [cbn; lia|].
  pose proof (popcount_clear a (ctz a) (ctz_lowest a Hne)) as E.
  rewrite IH; lia.
Qed.
Lemma pyintbitcount_ok : forall a, pyintbitcount a = popcount a.
Proof.
  intros. unfold pyintbitcount. rewrite pyintbitcount_loop_ok; [lia|].
  pose proof (popcount_size a). lia.
Qed.

(** * pyintnextset *)
Lemma shiftr_bits : forall a n i, N.testbit (N.shiftr a n) i = N.testbit a (i + n).
Proof. intros. apply N.shiftr_spec'. Qed.

Lemma size_nat_pow : forall a, a < 2 ^ N.of_nat (N.size_nat a).
Proof.
  intros [|p]; [reflexivity|]. cbn [N.size_nat].
  pose proof (N.size_gt (Npos p)) as H. cbn [N.size] in H.
  replace (N.of_nat (Pos.size_nat p)) with (Npos (Pos.size p)); [assumption|].
  clear H. induction p; cbn [Pos.size Pos.size_nat]; lia.
Qed.
Lemma pyintnextset_loop_ok : forall fuel a pos,
  a <> 0 -> a < 2 ^ N.of_nat fuel ->
  exists r, pyintnextset_loop fuel a pos = Z.of_N (pos + r) /\ lowest a r.
Proof.
  induction fuel as [|f IH]; intros a pos Ha Hlt.
  - cbn in Hlt. lia.
  - cbn [pyintnextset_loop]. destruct (N.eqb_spec (N.land a ones64) 0) as [E|E].
    + assert (Hlow : forall i, i < 64 -> N.testbit a i = false).
      { intros i Hi. assert (T : N.testbit (N.land a ones64) i = false) by (rewrite E; apply N.bits_0).
        rewrite N.land_spec, bits_ones64 in T. destruct (N.ltb_spec i 64); [|lia].
        now rewrite andb_true_r in T. }
      destruct (IH (N.shiftr a 64) (pos + 64)) as (r & Hr & Hl).
      * intros Z. destruct (nonzero_has_bit a Ha) as [j Hj].
        destruct (N.lt_ge_cases j 64) as [Hj64|Hj64]; [rewrite Hlow in Hj by assumption; discriminate|].
        assert (T : N.testbit (N.shiftr a 64) (j - 64) = false) by (rewrite Z; apply N.bits_0).
        rewrite shiftr_bits in T. replace (j - 64 + 64) with j in T by lia. congruence.
      * rewrite lt_pow2_bits in *. intros i Hi. rewrite shiftr_bits. apply Hlt. lia.
      * exists (64 + r). split; [rewrite Hr; lia|].
        destruct Hl as [L1 L2]. split.
        -- rewrite shiftr_bits in L1. now rewrite N.add_comm.
        -- intros i Hi. destruct (N.lt_ge_cases i 64) as [|Hge]; [now apply Hlow|].
           specialize (L2 (i - 64) ltac:(lia)). rewrite shiftr_bits in L2.
           now replace (i - 64 + 64) with i in L2 by lia.
    + exists (ctz (N.land a ones64)). split; [reflexivity|].
      destruct (ctz_lowest _ E) as [L1 L2].
      rewrite N.land_spec, bits_ones64 in L1. apply andb_true_iff in L1. destruct L1 as [L1 L1'].
      split; [assumption|]. intros i Hi. specialize (L2 i Hi).
      rewrite N.land_spec, bits_ones64 in L2. destruct (N.ltb_spec i 64); [|lia].
      now rewrite andb_true_r in L2.
Qed.

Lemma pyintnextset_ok : forall a pos,
  (pyintnextset a pos = (-1)%Z /\ forall i, pos <= i -> ~ member a i) \/
  (exists r, pyintnextset a pos = Z.of_N r /\ pos <= r /\ member a r /\
             forall i, pos <= i < r -> ~ member a i).
Proof.
  intros a pos. unfold pyintnextset. destruct (N.eqb_spec (N.shiftr a pos) 0) as [E|E].
  - left. split; [reflexivity|]. intros i Hi M. unfold member in M.
    assert (T : N.testbit (N.shiftr a pos) (i - pos) = false) by (rewrite E; apply N.bits_0).
    rewrite shiftr_bits in T. replace (i - pos + pos) with i in T by lia. congruence.
  - right. destruct (pyintnextset_loop_ok (S (N.size_nat (N.shiftr a pos))) (N.shiftr a pos) pos E)
      as (r & Hr & L1 & L2).
    { pose proof (size_nat_pow (N.shiftr a pos)) as H. rewrite lt_pow2_bits in *.
      intros i Hi. apply H. lia. }
    exists (pos + r). split; [assumption|]. split; [lia|].
    rewrite shiftr_bits in L1. split; [unfold member; now rewrite N.add_comm|].
    intros i Hi M. specialize (L2 (i - pos) ltac:(lia)). rewrite shiftr_bits in L2.
    replace (i - pos + pos) with i in L2 by lia. unfold member in M. congruence.
Qed.

(** * single-word scans *)
Lemma nextset_ok : forall v pos,
  (nextset v pos = (-1)%Z /\ forall i, pos <= i -> ~ member v i) \/
  (exists r, nextset v pos = Z.of_N r /\ pos <= r /\ member v r /\
             forall i, pos <= i < r -> ~ member v i).
Proof.
  intros v pos. unfold nextset. destruct (N.eqb_spec (N.shiftr v pos) 0) as [E|E].
  - left. split; [reflexivity|]. intros i Hi M. unfold member in M.
    assert (T : N.testbit (N.shiftr v pos) (i - pos) = false) by (rewrite E; apply N.bits_0).
    rewrite shiftr_bits in T. replace (i - pos + pos) with i in T by lia. congruence.
  - right. destruct (ctz_lowest _ E) as [L1 L2]. exists (pos + ctz (N.shiftr v pos)).
    split; [reflexivity|]. split; [lia|].
    rewrite shiftr_bits in L1. split; [unfold member; now rewrite N.add_comm|].
    intros i Hi M. specialize (L2 (i - pos) ltac:(lia)). rewrite shiftr_bits in L2.
    replace (i - pos + pos) with i in L2 by lia. unfold member in M. congruence.
Qed.

Lemma nextunset_ok : forall v pos, v < 2 ^ 64 ->
  exists r, nextunset v pos = Z.of_N r /\
    ((r = 64 /\ forall i, pos <= i < 64 -> member v i) \/
     (pos <= r < 64 /\ ~ member v r /\ forall i, pos <= i < r -> member v i)).
Proof.
  intros v pos Hv. unfold nextunset. cbv zeta.
  set (x := N.land (wnot v) (wshl ones64 pos)).
  assert (Hx : forall i, N.testbit x i = (i <? 64) && (pos <=? i) && negb (N.testbit v i)).
  { intros i. unfold x. rewrite N.land_spec, bits_wnot, bits_wshl, bits_ones64 by assumption.
    destruct (N.ltb_spec i 64); destruct (N.leb_spec pos i); destruct (N.ltb_spec (i - pos) 64);
      destruct (N.testbit v i); cbn; auto; lia. }
  destruct (N.eqb_spec x 0) as [E|E].
  - exists 64. split; [reflexivity|]. left. split; [reflexivity|]. intros i Hi.
    specialize (Hx i). rewrite E, N.bits_0 in Hx. unfold member.
    destruct (N.ltb_spec i 64), (N.leb_spec pos i), (N.testbit v i); cbn in Hx; auto; lia.
  - exists (ctz x). split; [reflexivity|]. right. destruct (ctz_lowest _ E) as [L1 L2].
    pose proof L1 as L1'. rewrite Hx in L1'.
    apply andb_true_iff in L1'. destruct L1' as [L3 L4]. apply andb_true_iff in L3.
    split; [lia|]. split.
    + unfold member. destruct (N.testbit v (ctz x)); [discriminate|congruence].
    + intros i Hi. specialize (L2 i ltac:(lia)). rewrite Hx in L2. unfold member.
      destruct (N.ltb_spec i 64), (N.leb_spec pos i), (N.testbit v i); cbn in L2; auto; lia.
Qed.

Lemma bitlength_log2 : forall v, v < 2 ^ 64 -> v <> 0 -> bitlength v = N.log2 v + 1.
Proof.
  intros v H H0. unfold bitlength, clz. destruct (N.eqb_spec v 0); [contradiction|].
  assert (N.log2 v < 64) by (apply N.log2_lt_pow2; lia). lia.
Qed.
Lemma bitlength_ok : forall v, v < 2 ^ 64 ->
  (v = 0 /\ bitlength v = 0) \/
  (0 < bitlength v /\ member v (bitlength v - 1) /\
   forall i, bitlength v <= i -> ~ member v i).
Proof.
  intros v Hv. destruct (N.eq_dec v 0) as [->|H0]; [left; split; reflexivity|right].
  rewrite bitlength_log2 by assumption. split; [lia|]. split.
  - unfold member. replace (N.log2 v + 1 - 1) with (N.log2 v) by lia. now apply N.bit_log2.
  - intros i Hi. unfold member. rewrite N.bits_above_log2 by lia. discriminate.
Qed.

Lemma testbit_ok : forall v pos, pos < 64 -> testbit v pos = N.testbit v pos.
Proof.
  intros v pos Hp. unfold testbit. destruct (N.eqb_spec (N.land v (wshl 1 pos)) 0) as [E|E].
  - assert (T : N.testbit (N.land v (wshl 1 pos)) pos = false) by (rewrite E; apply N.bits_0).
    rewrite N.land_spec, bits_wshl1, N.eqb_refl, andb_true_r in T by assumption. now rewrite T.
  - destruct (nonzero_has_bit _ E) as [i Hi]. rewrite N.land_spec, bits_wshl1 in Hi by assumption.
    apply andb_true_iff in Hi. destruct Hi as [H1 H2]. apply N.eqb_eq in H2. subst. now rewrite H1.
Qed.
