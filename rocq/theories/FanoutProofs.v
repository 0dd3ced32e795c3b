From Coq Require Import NArith ZArith List Bool Lia ZifyBool ZifyN ZifyNat.
From Verif Require Import BitsModel BitsSpec BitsProofs.
Import ListNotations.
Local Open Scope N_scope.

Lemma separated_weaken : forall l lo lo', lo' <= lo -> separated lo l -> separated lo' l.
Proof. intros [|[a b] l] lo lo' H; cbn; auto. intros (H1 & H2 & H3). repeat split; auto; lia. Qed.
Lemma separated_covered_ge : forall l lo i, separated lo l -> covered l i -> lo <= i.
Proof.
  induction l as [|[a b] l IH]; intros lo i H (x & y & Hin & Hi); [easy|].
  cbn in H. destruct H as (H1 & H2 & H3). destruct Hin as [E|Hin].
  - inversion E; subst. lia.
  - assert (b + 1 <= i) by (apply (IH (b + 1) i H3); exists x, y; auto). lia.
Qed.
Lemma covered_cons : forall a b l i, covered ((a, b) :: l) i <-> a <= i < b \/ covered l i.
Proof.
  intros. split.
  - intros (x & y & [E|Hin] & Hi); [left; inversion E; subst; lia|right; exists x, y; auto].
  - intros [H|(x & y & Hin & Hi)]; [exists a, b; cbn; auto|exists x, y; cbn; auto].
Qed.
Lemma covered_nil : forall i, ~ covered [] i.
Proof. intros i (a & b & [] & _). Qed.

Lemma components_unique_gen : forall l l' lo lo',
  separated lo l -> separated lo' l' -> (forall i, covered l i <-> covered l' i) -> l = l'.
Proof.
  induction l as [|[a b] l IH]; intros l' lo lo' H H' E.
  - destruct l' as [|[a b] l']; auto. exfalso. apply (covered_nil a). apply E.
    apply covered_cons. cbn in H'. lia.
  - destruct l' as [|[a' b'] l'].
    { exfalso. apply (covered_nil a). apply E. apply covered_cons. cbn in H. lia. }
    cbn in H, H'. destruct H as (H1 & H2 & H3), H' as (H1' & H2' & H3').
    assert (Ca : forall i, i < a -> ~ covered ((a, b) :: l) i).
    { intros i Hi C. apply covered_cons in C. destruct C as [C|C]; [lia|].
      apply (separated_covered_ge _ _ _ H3) in C. lia. }
    assert (Ca' : forall i, i < a' -> ~ covered ((a', b') :: l') i).
    { intros i Hi C. apply covered_cons in C. destruct C as [C|C]; [lia|].
      apply (separated_covered_ge _ _ _ H3') in C. lia. }
    assert (a = a').
    { destruct (N.lt_trichotomy a a') as [L|[L|L]]; auto; exfalso.
      - apply (Ca' a L). apply E. apply covered_cons. lia.
      - apply (Ca a' L). apply E. apply covered_cons. lia. }
    subst a'.
    assert (Cb : ~ covered ((a, b) :: l) b).
    { intros C. apply covered_cons in C. destruct C as [C|C]; [lia|].
      apply (separated_covered_ge _ _ _ H3) in C. lia. }
    assert (Cb' : ~ covered ((a, b') :: l') b').
    { intros C. apply covered_cons in C. destruct C as [C|C]; [lia|].
      apply (separated_covered_ge _ _ _ H3') in C. lia. }
    assert (b = b').
    { destruct (N.lt_trichotomy b b') as [L|[L|L]]; auto; exfalso.
      - apply Cb. apply E. apply covered_cons. lia.
      - apply Cb'. apply E. apply covered_cons. lia. }
    subst b'. f_equal. apply (IH l' (b + 1) (b + 1)); auto.
    intros i. destruct (N.lt_ge_cases i b) as [L|L].
    + split; intros C.
      * apply (separated_covered_ge _ _ _ H3) in C. lia.
      * apply (separated_covered_ge _ _ _ H3') in C. lia.
    + specialize (E i). rewrite !covered_cons in E. intuition lia.
Qed.
Lemma components_unique : forall v l l', components v l -> components v l' -> l = l'.
Proof.
  intros v l l' [H1 H2] [H3 H4]. apply (components_unique_gen l l' 0 0); auto.
  intros i. rewrite <- H2, <- H4. reflexivity.
Qed.

(** Shifting a vector right by the end of its first component. *)
Definition shift_iv (b : N) (l : list interval) : list interval :=
  map (fun '(x, y) => (x - b, y - b)) l.
Definition raise_iv (b : N) (l : list interval) : list interval :=
  map (fun '(x, y) => (x + b, y + b)) l.
Lemma covered_raise : forall l b i, covered (raise_iv b l) i <-> b <= i /\ covered l (i - b).
Proof.
  induction l as [|[x y] l IH]; intros b i; cbn [raise_iv map].
  - split; [intros C; now apply covered_nil in C|intros [_ C]; now apply covered_nil in C].
  - rewrite !covered_cons. change (map _ l) with (raise_iv b l). rewrite IH. split.
    + intros [H|[H1 H2]]; [split; [lia|left; lia]|split; auto].
    + intros [H [H2|H2]]; [left; lia|right; auto].
Qed.
Lemma separated_raise : forall l b lo, separated lo l -> separated (lo + b) (raise_iv b l).
Proof.
  induction l as [|[x y] l IH]; intros b lo H; cbn in *; auto.
  destruct H as (H1 & H2 & H3). repeat split; try lia.
  replace (y + b + 1) with ((y + 1) + b) by lia. now apply IH.
Qed.

(** End of the run that starts at the lowest set bit. *)
Definition run_end (v a b : N) : Prop :=
  lowest v a /\ a < b /\ N.testbit v b = false /\ forall i, a <= i < b -> N.testbit v i = true.

Lemma run_end_exists : forall v, v <> 0 -> exists a b, run_end v a b.
Proof.
  intros v H. exists (ctz v). pose proof (ctz_lowest v H) as L.
  assert (A : forall n, (forall i, ctz v <= i < ctz v + N.of_nat n -> N.testbit v i = true) \/
               exists b, ctz v < b /\ N.testbit v b = false /\
                         forall i, ctz v <= i < b -> N.testbit v i = true).
  { induction n as [|n [IH|IH]]; [left; lia| |now right].
    destruct (N.testbit v (ctz v + N.of_nat n)) eqn:E.
    - left. intros i Hi. destruct (N.eq_dec i (ctz v + N.of_nat n)) as [->|]; auto.
      apply IH. lia.
    - right. exists (ctz v + N.of_nat n). split; [|split; auto].
      destruct n; [|lia]. rewrite N.add_0_r in E. destruct L. congruence. }
  destruct (A (S (S (N.to_nat (N.log2 v))))) as [C|(b & C1 & C2 & C3)].
  - exfalso. specialize (C (ctz v + N.log2 v + 1) ltac:(lia)).
    rewrite N.bits_above_log2 in C by lia. discriminate.
  - exists b. split; auto.
Qed.

Lemma run_end_components : forall v a b l, run_end v a b ->
  components (N.shiftr v b) l -> components v ((a, b) :: raise_iv b l).
Proof.
  intros v a b l (L & Hab & Hb & Hr) [S C]. split.
  - cbn. split; [lia|]. split; [lia|]. rewrite N.add_comm. apply separated_raise.
    destruct l as [|[x y] l]; cbn in *; auto. destruct S as (S1 & S2 & S3).
    repeat split; auto. destruct (N.eq_dec x 0) as [->|]; [|lia]. exfalso.
    assert (M : member (N.shiftr v b) 0).
    { apply C. apply covered_cons. lia. }
    unfold member in M. rewrite shiftr_bits, N.add_0_l in M. congruence.
  - intros i. rewrite covered_cons, covered_raise, <- C. unfold member. rewrite shiftr_bits.
    destruct L as [L1 L2].
    destruct (N.lt_ge_cases i a).
    + rewrite L2 by assumption. split; [discriminate|]. lia.
    + destruct (N.lt_ge_cases i b).
      * rewrite Hr by lia. split; auto.
      * replace (i - b + b) with i by lia. intuition lia.
Qed.

Lemma components_exist : forall v, exists l, components v l.
Proof.
  intros v. induction v as [v IH] using (well_founded_induction N.lt_wf_0).
  destruct (N.eq_dec v 0) as [->|H].
  - exists []. split; cbn; auto. intros i. unfold member. rewrite N.bits_0.
    split; [discriminate|]. intros C. now apply covered_nil in C.
  - destruct (run_end_exists v H) as (a & b & R).
    destruct (IH (N.shiftr v b)) as [l Hl].
    { rewrite N.shiftr_div_pow2. apply N.div_lt; [lia|].
      destruct R as (_ & R & _). apply N.pow_gt_1; lia. }
    exists ((a, b) :: raise_iv b l). now apply run_end_components.
Qed.

Lemma components_zero : components 0 [].
Proof.
  split; cbn; auto. intros i. unfold member. rewrite N.bits_0.
  split; [discriminate|]. intros C. now apply covered_nil in C.
Qed.
Lemma components_nil : forall v, components v [] -> v = 0.
Proof.
  intros v [_ H]. apply zero_bits. intros i. destruct (N.testbit v i) eqn:E; auto.
  apply H in E. now apply covered_nil in E.
Qed.

Lemma run_end_length : forall v a b l, run_end v a b -> components v l ->
  exists l', components (N.shiftr v b) l' /\ length l = S (length l').
Proof.
  intros v a b l R C. destruct (components_exist (N.shiftr v b)) as [l' C'].
  exists l'. split; auto.
  rewrite (components_unique v l _ C (run_end_components v a b l' R C')).
  cbn. f_equal. unfold raise_iv. apply map_length.
Qed.

Lemma word_step : forall v, v <> 0 -> v < 2 ^ 63 ->
  run_end v (ctz v) (ctz v + ctz (wnot (N.shiftr v (ctz v)))) /\
  N.shiftr (N.shiftr v (ctz v)) (ctz (wnot (N.shiftr v (ctz v))))
    = N.shiftr v (ctz v + ctz (wnot (N.shiftr v (ctz v)))).
Proof.
  intros v H0 Hv. split; [|now rewrite N.shiftr_shiftr].
  set (w := N.shiftr v (ctz v)).
  assert (Hw : w < 2 ^ 63) by (pose proof (shiftr_le v (ctz v)); unfold w; lia).
  destruct (ctz_wnot w) as (H1 & H2 & H3).
  { cbn in *. lia. } { intros E. rewrite E in Hw. now cbn in Hw. }
  destruct (ctz_lowest v H0) as [L1 L2].
  unfold run_end. split; [split; auto|].
  assert (Hpos : ctz (wnot w) <> 0).
  { intros Z. rewrite Z in H2. unfold w in H2. rewrite shiftr_bits, N.add_0_l in H2. congruence. }
  split; [lia|]. split.
  - unfold w in H2 at 1. rewrite shiftr_bits in H2. now rewrite N.add_comm.
  - intros i Hi. specialize (H3 (i - ctz v) ltac:(lia)). unfold w in H3 at 1.
    rewrite shiftr_bits in H3. now replace (i - ctz v + ctz v) with i in H3 by lia.
Qed.

Lemma fanout_word_loop_ok : forall fuel v c l,
  v < 2 ^ 63 -> v < 2 ^ N.of_nat fuel -> components v l ->
  fanout_word_loop fuel v c = c + N.of_nat (length l).
Proof.
  induction fuel as [|f IH]; intros v c l H63 Hf C.
  - cbn in Hf. assert (v = 0) by lia. subst.
    rewrite (components_unique 0 l [] C components_zero). cbn. lia.
  - cbn [fanout_word_loop]. destruct (N.eqb_spec v 0) as [->|H0].
    + rewrite (components_unique 0 l [] C components_zero). cbn. lia.
    + cbv zeta. destruct (word_step v H0 H63) as [R E]. rewrite E.
      set (b := ctz v + ctz (wnot (N.shiftr v (ctz v)))) in *.
      destruct (run_end_length v _ _ l R C) as (l' & C' & Hl).
      rewrite (IH _ _ l'); auto.
      * rewrite Hl. lia.
      * pose proof (shiftr_le v b). lia.
      * rewrite lt_pow2_bits in *. intros i Hi. rewrite shiftr_bits. apply Hf.
        destruct R as (_ & R & _). lia.
Qed.

(** Big-integer loop: removing the lowest bit. *)
Lemma lowest_sub : forall v a, lowest v a -> v - N.land v (v - 1) = 2 ^ a.
Proof.
  intros v a H.
  assert (E : v = N.land v (v - 1) + 2 ^ a).
  { rewrite N.add_nocarry_lxor.
    - apply N.bits_inj. intros i. rewrite N.lxor_spec, (clear_lowest_bits v a H).
      destruct (N.eqb_spec i a) as [->|Hne].
      + rewrite N.pow2_bits_true. destruct H as [-> _]. reflexivity.
      + rewrite N.pow2_bits_false by congruence. cbn. now rewrite xorb_false_r, andb_true_r.
    - apply zero_bits. intros i. rewrite N.land_spec, (clear_lowest_bits v a H).
      destruct (N.eqb_spec i a) as [->|Hne].
      + now rewrite andb_false_r.
      + rewrite N.pow2_bits_false by congruence. now rewrite andb_false_r. }
  lia.
Qed.
Lemma land_pow2_zero : forall v k, (N.land (2 ^ k) v =? 0) = negb (N.testbit v k).
Proof.
  intros v k. destruct (N.eqb_spec (N.land (2 ^ k) v) 0) as [E|E].
  - assert (T : N.testbit (N.land (2 ^ k) v) k = false) by (rewrite E; apply N.bits_0).
    rewrite N.land_spec, N.pow2_bits_true in T. cbn in T. now rewrite T.
  - destruct (nonzero_has_bit _ E) as [i Hi]. rewrite N.land_spec in Hi.
    apply andb_true_iff in Hi. destruct Hi as [H1 H2].
    destruct (N.eq_dec i k) as [->|]; [now rewrite H2|].
    rewrite N.pow2_bits_false in H1 by congruence. discriminate.
Qed.
Lemma components_head : forall v a b l, components v ((a, b) :: l) -> lowest v a.
Proof.
  intros v a b l [S C]. cbn in S. destruct S as (S1 & S2 & S3). split.
  - apply C. apply covered_cons. lia.
  - intros i Hi. destruct (N.testbit v i) eqn:E; auto. apply C in E.
    apply covered_cons in E. destruct E as [E|E]; [lia|].
    apply (separated_covered_ge _ _ _ S3) in E. lia.
Qed.
Lemma components_clear : forall v a b l, components v ((a, b) :: l) ->
  components (N.land v (v - 1)) (if a + 1 =? b then l else (a + 1, b) :: l).
Proof.
  intros v a b l H. pose proof (components_head _ _ _ _ H) as L.
  destruct H as [S C]. cbn in S. destruct S as (S1 & S2 & S3). split.
  - destruct (N.eqb_spec (a + 1) b).
    + apply (separated_weaken l (b + 1)); auto. lia.
    + cbn. repeat split; auto; lia.
  - intros i. unfold member. rewrite (clear_lowest_bits v a L), andb_true_iff, negb_true_iff, N.eqb_neq.
    change (N.testbit v i = true) with (member v i). rewrite C, covered_cons.
    destruct (N.eqb_spec (a + 1) b).
    + split; [intros [[H|H] H']; [lia|auto]|]. intros H.
      pose proof (separated_covered_ge _ _ _ S3 H). split; [auto|lia].
    + rewrite covered_cons. split; [intros [[H|H] H']; [left; lia|auto]|].
      intros [H|H]; [split; [left; lia|lia]|].
      pose proof (separated_covered_ge _ _ _ S3 H). split; [auto|lia].
Qed.

Lemma fanout_big_loop_ok : forall fuel v c l,
  (N.to_nat (popcount v) < fuel)%nat -> components v l ->
  fanout_big_loop fuel v v c = c + N.of_nat (length l).
Proof.
  induction fuel as [|f IH]; intros v c l Hf C; [lia|].
  cbn [fanout_big_loop]. destruct (N.eqb_spec v 0) as [->|H0].
  - rewrite (components_unique 0 l [] C components_zero). cbn. lia.
  - cbv zeta. destruct l as [|[a b] l]; [now apply components_nil in C|].
    pose proof (components_head _ _ _ _ C) as L.
    rewrite (lowest_sub v a L), N.shiftl_mul_pow2, <- N.pow_add_r, land_pow2_zero.
    assert (Hf' : (N.to_nat (popcount (N.land v (v - 1))) < f)%nat)
      by (rewrite (popcount_clear v a L) in Hf; lia).
    rewrite (IH _ _ _ Hf' (components_clear _ _ _ _ C)).
    destruct C as [S C]. cbn in S. destruct S as (S1 & S2 & S3).
    assert (T : N.testbit v (a + 1) = negb (a + 1 =? b)).
    { destruct (N.eqb_spec (a + 1) b) as [E|E]; cbn.
      - destruct (N.testbit v (a + 1)) eqn:T; auto. apply C in T. apply covered_cons in T.
        destruct T as [T|T]; [lia|]. apply (separated_covered_ge _ _ _ S3) in T. lia.
      - apply C. apply covered_cons. lia. }
    rewrite T, negb_involutive. destruct (a + 1 =? b); cbn [length]; lia.
Qed.

Lemma bitfanout_ok : forall v l, components v l -> bitfanout v = N.of_nat (length l).
Proof.
  intros v l C. unfold bitfanout. rewrite (fanout_big_loop_ok _ _ _ l); auto.
  pose proof (popcount_size v). lia.
Qed.
Lemma fanout_ok : forall v l, components v l -> fanout v = N.of_nat (length l).
Proof.
  intros v l C. unfold fanout. destruct (N.ltb_spec v 9223372036854775807).
  - rewrite (fanout_word_loop_ok _ _ _ l); auto.
    + change (2 ^ 63) with 9223372036854775808. lia.
    + pose proof (size_nat_pow v) as P. rewrite lt_pow2_bits in *. intros i Hi. apply P. lia.
  - now apply bitfanout_ok.
Qed.
