(** Bit matrices and the kernel (FragModel.v) *)
From Coq Require Import NArith ZArith List Bool Lia Permutation Sorting.Sorted.
From Verif Require Import BitsModel BitsSpec BitsProofs ArrayProofs TreeModel FragModel FragSpec.
Import ListNotations.

(** * Words *)
Lemma updslot_length : forall f vec k, length (updslot f k vec) = length vec.
Proof. induction vec; destruct k; cbn; auto. Qed.
Lemma updslot_words : forall f vec k, words vec -> (forall v, (v < 2 ^ 64 -> f v < 2 ^ 64)%N) -> words (updslot f k vec).
Proof.
  unfold words. induction vec as [|v vec IH]; intros k W Hf; destruct k; cbn; auto;
    inversion W; subst; constructor; auto.
Qed.
Lemma lor_lt64 : forall x y, (x < 2 ^ 64 -> y < 2 ^ 64 -> N.lor x y < 2 ^ 64)%N.
Proof.
  intros x y Hx Hy. apply lt_pow2_bits. intros i Hi. rewrite N.lor_spec.
  rewrite (proj1 (lt_pow2_bits x 64) Hx i Hi), (proj1 (lt_pow2_bits y 64) Hy i Hi). reflexivity.
Qed.
Lemma land_lt64 : forall x y, (x < 2 ^ 64 -> N.land x y < 2 ^ 64)%N.
Proof.
  intros x y Hx. apply lt_pow2_bits. intros i Hi. rewrite N.land_spec.
  rewrite (proj1 (lt_pow2_bits x 64) Hx i Hi). reflexivity.
Qed.
Lemma words_SETBIT : forall vec b, words vec -> words (SETBIT vec b).
Proof. intros. apply updslot_words; auto. intros. apply lor_lt64; auto. apply wshl_lt. Qed.
Lemma words_CLEARBIT : forall vec b, words vec -> words (CLEARBIT vec b).
Proof. intros. apply updslot_words; auto. intros. now apply land_lt64. Qed.
Lemma length_SETBIT : forall vec b, length (SETBIT vec b) = length vec.
Proof. intros. apply updslot_length. Qed.
Lemma length_CLEARBIT : forall vec b, length (CLEARBIT vec b) = length vec.
Proof. intros. apply updslot_length. Qed.

(** a row of [slots] words *)
Definition wfrow (slots : nat) (r : list N) : Prop := words r /\ length r = slots.
Lemma wfrow_zero : forall slots, wfrow slots (repeat 0%N slots).
Proof.
  intros. split; [|apply repeat_length]. apply Forall_forall. intros x Hx.
  apply repeat_spec in Hx. subst. reflexivity.
Qed.
Lemma zero_none : forall slots k, ~ amember (repeat 0%N slots) k.
Proof.
  intros slots k. unfold amember, member.
  assert (E : forall n, nth n (repeat 0%N slots) 0%N = 0%N).
  { induction slots; destruct n; cbn; auto. }
  rewrite E. rewrite N.bits_0. discriminate.
Qed.
Definition inrow (r : list N) (i : nat) : Prop := amember r (bit i).
Lemma wfrow_set : forall slots r i, wfrow slots r -> wfrow slots (SETBIT r (bit i)).
Proof. intros slots r i [W L]. split; [now apply words_SETBIT|]. now rewrite length_SETBIT. Qed.
Lemma wfrow_clear : forall slots r i, wfrow slots r -> wfrow slots (CLEARBIT r (bit i)).
Proof. intros slots r i [W L]. split; [now apply words_CLEARBIT|]. now rewrite length_CLEARBIT. Qed.
Lemma inrow_set : forall slots r i k, wfrow slots r -> i < 64 * slots ->
  (inrow (SETBIT r (bit i)) k <-> k = i \/ inrow r k).
Proof.
  intros slots r i k [W L] Hi. unfold inrow. rewrite SETBIT_ok; auto.
  - unfold bit. split; intros [H|H]; auto; left; lia.
  - unfold nbits, bit. rewrite L. lia.
Qed.
Lemma inrow_clear : forall slots r i k, wfrow slots r -> i < 64 * slots ->
  (inrow (CLEARBIT r (bit i)) k <-> k <> i /\ inrow r k).
Proof.
  intros slots r i k [W L] Hi. unfold inrow. rewrite CLEARBIT_ok; auto.
  - unfold bit. split; intros [H1 H2]; split; auto; lia.
  - unfold nbits, bit. rewrite L. lia.
Qed.
Lemma test_inrow : forall r i, TESTBIT r (bit i) = true <-> inrow r i.
Proof. intros. apply TESTBIT_ok. Qed.
Lemma testb : forall r i (P : Prop), (inrow r i <-> P) -> (TESTBIT r (bit i) = true <-> P).
Proof. intros r i P H. rewrite test_inrow. exact H. Qed.
Lemma inrow_lt : forall slots r i, wfrow slots r -> inrow r i -> i < 64 * slots.
Proof. intros slots r i [W L] H. apply amember_lt in H. unfold nbits, bit in H. lia. Qed.

(** the set bits of a row *)
Definition rowbits (slots : nat) (r : list N) : list Z := iter_collect (S (64 * slots)) (iter_init r).
Lemma rowbits_ok : forall slots r, wfrow slots r ->
  exists l, rowbits slots r = map Z.of_nat l /\ NoDup l /\ (forall k, In k l <-> inrow r k).
Proof.
  intros slots r [W L]. unfold rowbits. rewrite iter_all_ok; auto.
  2:{ unfold nbits. lia. }
  destruct (abits_lists r W) as [ND HI].
  exists (map N.to_nat (abits r 0)). split; [|split].
  - rewrite map_map. apply map_ext. intros x. lia.
  - apply FinFun.Injective_map_NoDup; auto. intros x y. apply N2Nat.inj.
  - intros k. rewrite in_map_iff. unfold inrow. split.
    + intros (x & <- & Hx). unfold bit. rewrite N2Nat.id. now apply HI.
    + intros H. exists (bit k). split; [unfold bit; lia|]. now apply HI.
Qed.

(** * Matrices *)
Definition wfm (slots len : nat) (m : list (list N)) : Prop := length m = len /\ Forall (wfrow slots) m.
Definition on (m : list (list N)) (j i : nat) : Prop := inrow (row m j) i.
Lemma updrow_length : forall f m j, length (updrow f j m) = length m.
Proof. induction m; destruct j; cbn; auto. Qed.
Lemma row_updrow : forall f m j k, j < length m -> row (updrow f j m) k = if k =? j then f (row m j) else row m k.
Proof.
  unfold row. induction m as [|r m IH]; intros j k Hj; [cbn in Hj; lia|].
  destruct j, k; cbn; auto. cbn in Hj. apply IH. lia.
Qed.
Lemma wfm_row : forall slots len m j, wfm slots len m -> j < len -> wfrow slots (row m j).
Proof.
  intros slots len m j [L F] Hj. rewrite Forall_forall in F. apply F. apply nth_In. lia.
Qed.
Lemma wfm_upd : forall slots len m j f, wfm slots len m -> (forall r, wfrow slots r -> wfrow slots (f r)) ->
  wfm slots len (updrow f j m).
Proof.
  intros slots len m j f [L F] Hf. split; [now rewrite updrow_length|].
  clear L. revert j. induction F as [|r m Hr F IH]; intros [|j]; cbn; constructor; auto.
Qed.
Lemma wfm_zero : forall slots len, wfm slots len (repeat (repeat 0%N slots) len).
Proof.
  intros. split; [apply repeat_length|]. apply Forall_forall. intros r Hr.
  apply repeat_spec in Hr. subst. apply wfrow_zero.
Qed.
Lemma on_zero : forall slots len j i, ~ on (repeat (repeat 0%N slots) len) j i.
Proof.
  intros slots len j i. unfold on, row, inrow.
  assert (E : nth j (repeat (repeat 0%N slots) len) [] = repeat 0%N slots \/ nth j (repeat (repeat 0%N slots) len) [] = []).
  { revert j. induction len; intros [|j]; cbn; auto. }
  destruct E as [E|E]; rewrite E; [apply zero_none|]. apply amember_nil.
Qed.
Lemma on_clear : forall slots len m i j i' j', wfm slots len m -> j < len -> i < 64 * slots ->
  (on (updrow (fun r => CLEARBIT r (bit i)) j m) j' i' <-> on m j' i' /\ ~ (i' = i /\ j' = j)).
Proof.
  intros slots len m i j i' j' W Hj Hi. unfold on. rewrite row_updrow by (destruct W; lia).
  destruct (Nat.eqb_spec j' j) as [E|E].
  - subst j'. rewrite (inrow_clear slots); auto; [|eapply wfm_row; eauto]. tauto.
  - tauto.
Qed.

(** * The kernel: a bit is set exactly for nodes with the same production *)
Definition ordered (a : list node) : Prop := StronglySorted Z.le (map prod a).
Lemma ordered_le : forall a i k, ordered a -> i <= k < length a -> (prod (nd a i) <= prod (nd a k))%Z.
Proof.
  unfold ordered, nd. induction a as [|x a IH]; intros i k HS Hk; [cbn in Hk; lia|].
  cbn in HS. inversion HS as [|? ? HS' HF]; subst.
  destruct i, k; cbn in *; try lia.
  - rewrite Forall_forall in HF. apply HF. apply in_map. apply nth_In. lia.
  - apply IH; auto. lia.
Qed.
Lemma kernel_row_ok : forall slots a p, ordered a -> length a <= 64 * slots ->
  forall fuel r ii, wfrow slots r -> ii < length a -> (p <= prod (nd a ii))%Z -> length a - ii < fuel ->
  wfrow slots (kernel_row fuel a p r ii) /\
  forall k, inrow (kernel_row fuel a p r ii) k <-> inrow r k \/ (ii <= k < length a /\ prod (nd a k) = p).
Proof.
  intros slots a p HS Hlen. induction fuel as [|f IH]; intros r ii W Hii Hp Hf; [lia|].
  cbn [kernel_row]. destruct (Z.eqb_spec (prod (nd a ii)) p) as [E|E].
  - pose proof (wfrow_set slots r ii W) as W'.
    destruct (Nat.leb_spec (length a) (S ii)) as [H|H].
    + split; auto. intros k. rewrite (inrow_set slots) by (auto; lia). split.
      * intros [Hk|Hk]; [right; subst k; split; [lia|exact E]|left; exact Hk].
      * intros [Hk|[Hk _]]; [right; exact Hk|left; lia].
    + destruct (IH (SETBIT r (bit ii)) (S ii) W' H) as [W2 H2]; [|lia|].
      { rewrite <- E. apply ordered_le; [exact HS|lia]. }
      split; auto. intros k. rewrite H2, (inrow_set slots) by (auto; lia). split.
      * intros [[Hk|Hk]|[Hk1 Hk2]]; [right; subst k; split; [lia|exact E]|left; exact Hk|right; split; [lia|exact Hk2]].
      * intros [Hk|[Hk1 Hk2]]; [left; right; exact Hk|]. destruct (Nat.eq_dec k ii) as [Hn|Hn]; [left; left; exact Hn|right; split; [lia|exact Hk2]].
  - split; auto. intros k. split; auto. intros [Hk|[Hk1 Hk2]]; auto. exfalso.
    pose proof (ordered_le a ii k HS ltac:(lia)). lia.
Qed.

Section Kernel.
Variables (slots : nat) (a b : list node).
Hypothesis HA : ordered a.
Hypothesis HB : ordered b.
Hypothesis Hlen : length a <= 64 * slots.
Definition rowright (m : list (list N)) (j : nat) : Prop :=
  forall i, on m j i <-> i < length a /\ prod (nd a i) = prod (nd b j).
Definition rowempty (m : list (list N)) (j : nat) : Prop := forall i, ~ on m j i.

Lemma kernel_eq_ok : forall fuel m i j, wfm slots (length b) m -> i < length a -> j < length b -> length b - j < fuel ->
  (forall i', i' < i -> (prod (nd a i') < prod (nd b j))%Z) -> (prod (nd a i) <= prod (nd b j))%Z ->
  (forall k, j <= k < length b -> rowempty m k) ->
  exists m' j' fin, kernel_eq fuel a b m i j = (m', j', fin) /\
    wfm slots (length b) m' /\ j <= j' /\
    (forall k, k < j -> row m' k = row m k) /\
    (forall k, j <= k < j' -> k < length b -> rowright m' k) /\
    (forall k, j' <= k < length b -> rowempty m' k) /\
    if (fin : bool) then j' = length b else (j' < length b /\ (prod (nd a i) < prod (nd b j'))%Z) /\ (prod (nd a i) = prod (nd b j) -> j < j').
Proof.
  induction fuel as [|f IH]; intros m i j W Hi Hj Hf Hlt Hle He; [lia|].
  cbn [kernel_eq]. destruct (Z.eqb_spec (prod (nd a i)) (prod (nd b j))) as [E|E].
  - set (m1 := updrow (fun r => kernel_row (S (length a)) a (prod (nd b j)) r i) j m).
    assert (Wr := wfm_row slots _ m j W Hj).
    assert (KR : forall r, wfrow slots r -> wfrow slots (kernel_row (S (length a)) a (prod (nd b j)) r i) /\
       forall k, inrow (kernel_row (S (length a)) a (prod (nd b j)) r i) k <-> inrow r k \/ (i <= k < length a /\ prod (nd a k) = prod (nd b j))).
    { intros r Hr. apply kernel_row_ok; auto; lia. }
    assert (W1 : wfm slots (length b) m1). { apply wfm_upd; auto. intros r Hr. now apply KR. }
    assert (R1 : forall k, k <> j -> row m1 k = row m k).
    { intros k Hk. unfold m1. rewrite row_updrow by (destruct W; lia). destruct (Nat.eqb_spec k j); congruence. }
    assert (J1 : rowright m1 j).
    { intros k. unfold on, m1. rewrite row_updrow by (destruct W; lia). rewrite Nat.eqb_refl.
      rewrite (proj2 (KR _ Wr)). split.
      - intros [H|[H1 H2]]; [exfalso; exact (He j ltac:(lia) k H)|]. split; auto. lia.
      - intros [H1 H2]. right. split; auto. split; auto.
        destruct (Nat.le_gt_cases i k); auto. specialize (Hlt k ltac:(lia)). lia. }
    destruct (Nat.leb_spec (length b) (S j)) as [H|H].
    + exists m1, (S j), true. split; auto. split; auto. split; [lia|].
      split; [intros; apply R1; lia|]. split; [|split].
      * intros k Hk _. replace k with j by lia. exact J1.
      * intros k Hk. lia.
      * lia.
    + assert (Hnext : (prod (nd b j) <= prod (nd b (S j)))%Z) by (apply ordered_le; auto; lia).
      destruct (IH m1 i (S j)) as (m' & j' & fin & E' & W' & Hj' & P1 & P2 & P3 & P4); auto; try lia.
      * intros i' Hi'. specialize (Hlt i' Hi'). lia.
      * intros k Hk i' H'. unfold on in H'. rewrite R1 in H' by lia. exact (He k ltac:(lia) i' H').
      * exists m', j', fin. split; auto. split; auto. split; [lia|]. split; [|split; [|split; auto]].
        -- intros k Hk. rewrite P1 by lia. apply R1. lia.
        -- intros k Hk1 Hk2. destruct (Nat.eq_dec k j) as [->|].
           ++ intros i'. unfold on. rewrite P1 by lia. apply J1.
           ++ apply P2; auto. lia.
        -- destruct fin; [exact P4|]. destruct P4 as [P4 _]. split; [exact P4|]. intros _. lia.
  - exists m, j, false. split; auto. split; auto. split; [lia|]. split; auto. split; [intros; lia|].
    split; auto. split; [split; [exact Hj|lia]|]. intros; congruence.
Qed.

Lemma kernel_ok : forall fuel m i j, wfm slots (length b) m -> i < length a -> j < length b ->
  length a - i + (length b - j) < fuel ->
  (forall i', i' < i -> (prod (nd a i') < prod (nd b j))%Z) ->
  (forall k, k < j -> rowright m k) ->
  (forall k, j <= k < length b -> rowempty m k) ->
  wfm slots (length b) (kernel fuel a b m i j) /\ forall k, k < length b -> rowright (kernel fuel a b m i j) k.
Proof.
  induction fuel as [|f IH]; intros m i j W Hi Hj Hf Hlt Hr He; [lia|].
  cbn [kernel]. destruct (Z.ltb_spec (prod (nd a i)) (prod (nd b j))) as [H1|H1].
  - assert (Hlt' : forall i', i' < S i -> (prod (nd a i') < prod (nd b j))%Z).
    { intros i' Hi'. destruct (Nat.eq_dec i' i) as [->|]; auto. apply Hlt. lia. }
    destruct (Nat.leb_spec (length a) (S i)) as [H|H].
    + split; auto. intros k Hk. destruct (Nat.lt_ge_cases k j) as [Hkj|Hkj]; auto.
      intros i'. split.
      * intros H'. exfalso. exact (He k ltac:(lia) i' H').
      * intros [Hi' E]. exfalso. specialize (Hlt' i' ltac:(lia)).
        pose proof (ordered_le b j k HB ltac:(lia)). lia.
    + apply IH; auto. lia.
  - destruct (Z.ltb_spec (prod (nd b j)) (prod (nd a i))) as [H2|H2].
    + assert (Rj : rowright m j).
      { intros i'. split.
        - intros H'. exfalso. exact (He j ltac:(lia) i' H').
        - intros [Hi' E]. exfalso. destruct (Nat.lt_ge_cases i' i) as [Hii|Hii].
          + specialize (Hlt i' Hii). lia.
          + pose proof (ordered_le a i i' HA ltac:(lia)). lia. }
      assert (Hr' : forall k, k < S j -> rowright m k).
      { intros k Hk. destruct (Nat.eq_dec k j) as [->|]; auto. apply Hr. lia. }
      destruct (Nat.leb_spec (length b) (S j)) as [H|H].
      * split; auto. intros k Hk. apply Hr'. lia.
      * apply IH; auto; try lia.
        -- intros i' Hi'. specialize (Hlt i' Hi'). pose proof (ordered_le b j (S j) HB ltac:(lia)). lia.
        -- intros k Hk. apply He. lia.
    + assert (E : prod (nd a i) = prod (nd b j)) by lia.
      destruct (kernel_eq_ok (S (length b)) m i j W Hi Hj ltac:(lia) Hlt ltac:(lia) He)
        as (m' & j' & fin & E' & W' & Hj' & P1 & P2 & P3 & P4).
      rewrite E'. destruct fin.
      * split; auto. intros k Hk. destruct (Nat.lt_ge_cases k j) as [Hkj|Hkj].
        -- intros i'. unfold on. rewrite P1 by lia. apply Hr; lia.
        -- apply P2; auto. lia.
      * destruct P4 as [[P4 P5] P6]. specialize (P6 E). apply IH; auto; try lia.
        -- intros i' Hi'. specialize (Hlt i' Hi'). pose proof (ordered_le b j j' HB ltac:(lia)). lia.
        -- intros k Hk. destruct (Nat.lt_ge_cases k j) as [Hkj|Hkj].
           ++ intros i'. unfold on. rewrite P1 by lia. apply Hr; lia.
           ++ apply P2; lia.
Qed.

Lemma fasttreekernel_ok : 0 < length a -> 0 < length b ->
  let m := fasttreekernel a b (repeat (repeat 0%N slots) (length b)) in
  wfm slots (length b) m /\ forall k, k < length b -> rowright m k.
Proof.
  intros Ha Hb. apply kernel_ok; auto; try lia.
  - apply wfm_zero.
  - intros k _ i. apply on_zero.
Qed.
End Kernel.
