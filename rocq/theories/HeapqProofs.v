From Coq Require Import List Bool Arith Lia Permutation ZifyBool ZifyNat.
From Verif Require Import HeapqModel.
Import ListNotations.

Lemma upd_length : forall A (l : list A) i x, length (upd l i x) = length l.
Proof. induction l; destruct i; cbn; intros; auto. Qed.
Lemma nth_upd_same : forall A (l : list A) i x d, i < length l -> nth i (upd l i x) d = x.
Proof. induction l; destruct i; cbn; intros; try lia; auto. apply IHl. lia. Qed.
Lemma nth_upd_other : forall A (l : list A) i j x d, i <> j -> nth j (upd l i x) d = nth j l d.
Proof. induction l; destruct i, j; cbn; intros; try lia; auto. Qed.
Lemma upd_upd_same : forall A (l : list A) i x y, upd (upd l i x) i y = upd l i y.
Proof. induction l; destruct i; cbn; intros; f_equal; auto. Qed.
Lemma upd_nth_id : forall A (l : list A) i d, upd l i (nth i l d) = l.
Proof. induction l; destruct i; cbn; intros; f_equal; auto. Qed.
Lemma upd_perm_head : forall A (l : list A) i x d, i < length l ->
  Permutation (x :: l) (nth i l d :: upd l i x).
Proof.
  induction l; destruct i; cbn; intros; try lia; [apply perm_swap|].
  eapply perm_trans; [apply perm_swap|]. eapply perm_trans; [apply perm_skip, (IHl i x d); lia|].
  apply perm_swap.
Qed.
(** moving the hole *)
Lemma upd_swap_perm : forall A (l : list A) i j x d, i < length l -> j < length l -> i <> j ->
  Permutation (upd (upd l i (nth j l d)) j x) (upd l i x).
Proof.
  intros A l i j x d Hi Hj Hd.
  pose proof (upd_perm_head _ (upd l i (nth j l d)) j x d ltac:(rewrite upd_length; lia)) as P1.
  rewrite nth_upd_other in P1 by auto.
  pose proof (upd_perm_head _ l i (nth j l d) d Hi) as P2.
  pose proof (upd_perm_head _ l i x d Hi) as P3.
  apply (Permutation_cons_inv (a := nth j l d)).
  eapply perm_trans; [symmetry; exact P1|].
  apply (Permutation_cons_inv (a := nth i l d)).
  eapply perm_trans; [apply perm_swap|]. eapply perm_trans; [apply perm_skip; symmetry; exact P2|].
  eapply perm_trans; [apply perm_swap|]. eapply perm_trans; [apply perm_skip; exact P3|].
  apply perm_swap.
Qed.

Section Proofs.
Context {A : Type}.
Variable lt : A -> A -> bool.

Lemma parent_lt : forall i, 0 < i -> parent i < i.
Proof. intros. unfold parent. apply Nat.div_lt_upper_bound; lia. Qed.
Lemma parent_child : forall i p, 0 < i -> parent i = p <-> (i = 2 * p + 1 \/ i = 2 * p + 2).
Proof.
  intros i p Hi. unfold parent. pose proof (Nat.div_mod (i - 1) 2 ltac:(lia)).
  pose proof (Nat.mod_upper_bound (i - 1) 2 ltac:(lia)). lia.
Qed.

(** ** Permutation *)
Lemma siftdown_loop_perm : forall fuel h s p x, p < length h ->
  Permutation (siftdown_loop lt fuel h s p x) (upd h p x).
Proof.
  induction fuel; intros h s p x Hp; cbn [siftdown_loop]; auto.
  destruct (s <? p) eqn:E; auto. destruct (lt x (nth (parent p) h x)); auto.
  pose proof (parent_lt p ltac:(lia)).
  eapply perm_trans; [apply IHfuel; rewrite upd_length; lia|].
  apply upd_swap_perm; lia.
Qed.
Lemma siftup_loop_perm : forall fuel h p x h' q, p < length h ->
  siftup_loop lt fuel h p x = (h', q) ->
  q < length h' /\ length h' = length h /\ Permutation (upd h' q x) (upd h p x).
Proof.
  induction fuel; intros h p x h' q Hp E; cbn [siftup_loop] in E.
  - inversion E; subst; auto.
  - destruct (2 * p + 1 <? length h) eqn:C; [|inversion E; subst; auto].
    set (c := if _ : bool then 2 * p + 1 + 1 else 2 * p + 1) in E.
    assert (Hc : c < length h /\ c <> p).
    { subst c. match goal with |- context [if ?b then _ else _] => destruct b eqn:B end; lia. }
    apply IHfuel in E; [|rewrite upd_length; lia]. rewrite upd_length in E.
    destruct E as (E1 & E2 & E3). split; auto. split; auto.
    eapply perm_trans; [exact E3|]. apply upd_swap_perm; lia.
Qed.
Lemma siftup_perm : forall h p d, p < length h -> Permutation (siftup lt h p d) h.
Proof.
  intros h p d Hp. unfold siftup. destruct (siftup_loop lt (length h) h p (nth p h d)) as [h' q] eqn:E.
  apply siftup_loop_perm in E; auto. destruct E as (E1 & E2 & E3).
  eapply perm_trans; [apply siftdown_loop_perm; lia|]. eapply perm_trans; [exact E3|].
  rewrite upd_nth_id. auto.
Qed.

Lemma heappush_perm : forall h x, Permutation (heappush lt h x) (x :: h).
Proof.
  intros. unfold heappush, siftdown.
  eapply perm_trans; [apply siftdown_loop_perm; rewrite app_length; cbn; lia|].
  rewrite upd_nth_id. symmetry. apply Permutation_cons_append.
Qed.
Lemma heappop_nil : forall h, heappop lt h = None <-> h = [].
Proof. intros [|a t]; cbn; [tauto|]. split; [|discriminate].
  destruct t; [discriminate|]. destruct (removelast _); discriminate. Qed.
Lemma removelast_last : forall (l : list A) a, l <> [] -> l = removelast l ++ [last l a].
Proof. intros. apply app_removelast_last; auto. Qed.
Lemma heappop_perm : forall h a h', heappop lt h = Some (a, h') -> Permutation h (a :: h').
Proof.
  intros h a h' E. destruct h as [|b t]; [discriminate|]. unfold heappop in E.
  pose proof (removelast_last (b :: t) b ltac:(discriminate)) as R.
  destruct (removelast (b :: t)) as [|r rest] eqn:Er; inversion E; subst.
  - rewrite R. reflexivity.
  - rewrite R at 1. cbn [app]. apply perm_skip.
    eapply perm_trans; [|symmetry; apply siftup_perm; cbn; lia].
    symmetry. apply Permutation_cons_append.
Qed.
Lemma heappop_length : forall h a h', heappop lt h = Some (a, h') -> length h = S (length h').
Proof. intros h a h' E. apply heappop_perm in E. apply Permutation_length in E. exact E. Qed.
Lemma heapreplace_perm : forall h x a h', heapreplace lt h x = Some (a, h') ->
  Permutation (x :: h) (a :: h').
Proof.
  intros h x a h' E. destruct h as [|b t]; [discriminate|]. inversion E; subst.
  eapply perm_trans; [apply perm_swap|]. apply perm_skip.
  symmetry. apply siftup_perm. cbn. lia.
Qed.
Lemma heapify_loop_perm : forall i h, i <= length h -> Permutation (heapify_loop lt i h) h.
Proof.
  induction i; intros h Hi; cbn [heapify_loop]; auto. destruct h as [|d t]; [auto|].
  eapply perm_trans; [apply IHi|apply siftup_perm; lia].
  rewrite (Permutation_length (siftup_perm (d :: t) i d ltac:(lia))). lia.
Qed.
Lemma heapify_perm : forall h, Permutation (heapify lt h) h.
Proof. intros. apply heapify_loop_perm. apply Nat.div_le_upper_bound; lia. Qed.

(** ** Heap order.  [R] is any transitive relation that the strict comparison
    [lt] decides up to ties; [R] need not be antisymmetric. *)
Variable R : A -> A -> Prop.
Hypothesis R_trans : forall a b c, R a b -> R b c -> R a c.
Hypothesis lt_R : forall a b, lt a b = true -> R a b.
Hypothesis nlt_R : forall a b, lt a b = false -> R b a.

(** All parents from position [s] onwards are below their children. *)
Definition heapfrom (s : nat) (h : list A) : Prop :=
  forall i d, 0 < i < length h -> s <= parent i -> R (nth (parent i) h d) (nth i h d).
Definition is_heap := heapfrom 0.

Inductive desc (s : nat) : nat -> Prop :=
| desc_refl : desc s s
| desc_child : forall p, 0 < p -> desc s (parent p) -> desc s p.
Lemma desc_ge : forall s p, desc s p -> s <= p.
Proof. induction 1; auto. pose proof (parent_lt p). lia. Qed.
Lemma desc_parent : forall s p, desc s p -> s < p -> 0 < p /\ desc s (parent p).
Proof. intros s p D H. destruct D; [lia|]. auto. Qed.
Lemma desc_0 : forall p, desc 0 p.
Proof.
  induction p as [p IH] using lt_wf_ind. destruct p; [constructor|].
  apply desc_child; [lia|]. apply IH, parent_lt. lia.
Qed.

Definition holeinv (s : nat) (h : list A) (p : nat) : Prop :=
  (forall i d, 0 < i < length h -> s <= parent i -> i <> p -> parent i <> p ->
     R (nth (parent i) h d) (nth i h d)) /\
  (s < p -> forall i d, 0 < i < length h -> parent i = p -> R (nth (parent p) h d) (nth i h d)).

Lemma siftdown_loop_heap : forall fuel h s p x, p < length h -> p <= fuel -> desc s p ->
  holeinv s h p -> (forall i d, 0 < i < length h -> parent i = p -> R x (nth i h d)) ->
  heapfrom s (siftdown_loop lt fuel h s p x).
Proof.
  assert (FIN : forall h s p x, p < length h -> desc s p ->
    holeinv s h p -> (forall i d, 0 < i < length h -> parent i = p -> R x (nth i h d)) ->
    (s < p -> forall d, R (nth (parent p) h d) x) -> heapfrom s (upd h p x)).
  { intros h s p x Hp D [H1 H2] H3 H4 i d Hi Hs. rewrite upd_length in Hi.
    pose proof (parent_lt i ltac:(lia)).
    destruct (Nat.eq_dec i p) as [->|N1].
    - rewrite nth_upd_same by lia. rewrite nth_upd_other by lia. apply H4. lia.
    - rewrite (nth_upd_other _ _ p i) by lia.
      destruct (Nat.eq_dec (parent i) p) as [E|N2].
      + rewrite E, nth_upd_same by lia. auto.
      + rewrite nth_upd_other by lia. auto. }
  induction fuel; intros h s p x Hp Hf D HI H3; cbn [siftdown_loop].
  - apply FIN; auto. lia.
  - destruct (s <? p) eqn:E.
    + pose proof (desc_parent _ _ D ltac:(lia)) as [P0 Dp].
      pose proof (parent_lt p P0) as Pl. pose proof (desc_ge _ _ Dp) as Pg.
      destruct (lt x (nth (parent p) h x)) eqn:L.
      * apply lt_R in L. destruct HI as [H1 H2].
        apply IHfuel; try (rewrite upd_length; lia); try lia; auto.
        -- split.
           ++ intros i d Hi Hs N1 N2. rewrite upd_length in Hi.
              pose proof (parent_lt i ltac:(lia)).
              destruct (Nat.eq_dec i p) as [->|N3]; [lia|].
              rewrite (nth_upd_other _ _ p i) by lia.
              destruct (Nat.eq_dec (parent i) p) as [E2|N4].
              ** rewrite E2, nth_upd_same by lia.
                 rewrite (nth_indep h x d) by lia. apply H2; auto; lia.
              ** rewrite nth_upd_other by lia. auto.
           ++ intros Hq i d Hi E2. rewrite upd_length in Hi.
              pose proof (desc_parent _ _ Dp Hq) as [P0' Dp'].
              pose proof (parent_lt _ P0'). pose proof (desc_ge _ _ Dp').
              rewrite nth_upd_other by lia.
              assert (B : R (nth (parent (parent p)) h d) (nth (parent p) h d)) by (apply H1; lia).
              destruct (Nat.eq_dec i p) as [->|N3].
              ** rewrite nth_upd_same by lia. rewrite (nth_indep h x d) by lia. auto.
              ** rewrite nth_upd_other by lia. eapply R_trans; [exact B|].
                 rewrite <- E2. apply H1; lia.
        -- intros i d Hi E2. rewrite upd_length in Hi.
           destruct (Nat.eq_dec i p) as [->|N3].
           ++ rewrite nth_upd_same by lia. auto.
           ++ rewrite nth_upd_other by lia. eapply R_trans; [exact L|].
              rewrite <- E2. rewrite (nth_indep h x d) by lia. apply H1; lia.
      * apply FIN; auto. intros _ d. apply nlt_R. rewrite (nth_indep h d x) by lia. exact L.
    + apply FIN; auto. lia.
Qed.

Lemma siftup_loop_heap : forall fuel h s p x h' q, p < length h -> desc s p ->
  length h <= p + fuel -> holeinv s h p -> siftup_loop lt fuel h p x = (h', q) ->
  holeinv s h' q /\ desc s q /\ length h' <= 2 * q + 1.
Proof.
  induction fuel; intros h s p x h' q Hp D Hf HI E; cbn [siftup_loop] in E; [lia|].
  destruct (2 * p + 1 <? length h) eqn:C.
  2:{ inversion E; subst. split; auto. split; auto. lia. }
  set (c := if _ : bool then 2 * p + 1 + 1 else 2 * p + 1) in E.
  assert (Hc : c < length h /\ p < c /\ (c = 2 * p + 1 \/ c = 2 * p + 2)).
  { subst c. match goal with |- context [if ?b then _ else _] => destruct b eqn:B end; lia. }
  assert (Hsib : forall i d, 0 < i < length h -> parent i = p -> i <> c -> R (nth c h d) (nth i h d)).
  { intros i d Hi Ep Nc. apply parent_child in Ep; [|lia].
    rewrite !(nth_indep h d x) by lia.
    subst c. match goal with |- context [if ?b then _ else _] => destruct b eqn:B end.
    - replace i with (2 * p + 1) by lia. apply nlt_R.
      apply andb_prop in B. destruct B as [_ B]. apply negb_true_iff in B. exact B.
    - replace i with (2 * p + 1 + 1) by lia. apply lt_R.
      replace (2 * p + 1 + 1 <? length h) with true in B by lia. cbn in B.
      apply negb_false_iff in B. exact B. }
  destruct Hc as (Hc1 & Hc2 & Hc3).
  assert (Pc : parent c = p) by (apply parent_child; lia).
  destruct HI as [H1 H2]. pose proof (desc_ge _ _ D).
  apply (IHfuel _ s) in E.
  - destruct E as (E1 & E2 & E3). auto.
  - rewrite upd_length; lia.
  - apply desc_child; [lia|]. now rewrite Pc.
  - rewrite upd_length. lia.
  - split.
    + intros i d Hi Hs N1 N2. rewrite upd_length in Hi. pose proof (parent_lt i ltac:(lia)).
      destruct (Nat.eq_dec i p) as [->|N3].
      * rewrite nth_upd_same by lia. rewrite nth_upd_other by lia.
        rewrite (nth_indep h x d) by lia. apply H2; lia.
      * rewrite (nth_upd_other _ _ p i) by lia.
        destruct (Nat.eq_dec (parent i) p) as [E2|N4].
        -- rewrite E2, nth_upd_same by lia. rewrite (nth_indep h x d) by lia. apply Hsib; auto.
        -- rewrite nth_upd_other by lia. auto.
    + intros _ i d Hi E2. rewrite upd_length in Hi. rewrite Pc.
      apply parent_child in E2; [|lia]. rewrite nth_upd_same by lia.
      rewrite nth_upd_other by lia. rewrite (nth_indep h x d) by lia.
      replace c with (parent i) by (apply parent_child; lia).
      assert (parent i = c) by (apply parent_child; lia). apply H1; lia.
Qed.

Lemma siftup_heap : forall h s d, s < length h -> heapfrom (S s) h -> heapfrom s (siftup lt h s d).
Proof.
  intros h s d Hs H. unfold siftup.
  destruct (siftup_loop lt (length h) h s (nth s h d)) as [h' q] eqn:E.
  pose proof E as E'. apply siftup_loop_perm in E'; auto. destruct E' as (Q1 & Q2 & _).
  apply (siftup_loop_heap _ _ s) in E; auto.
  - destruct E as (E1 & E2 & E3).
    apply siftdown_loop_heap; auto. intros i d' Hi Ep. apply parent_child in Ep; lia.
  - constructor.
  - lia.
  - split; [|lia]. intros i d' Hi Hp N1 N2. apply H; lia.
Qed.
Lemma heappush_heap : forall h x, is_heap h -> is_heap (heappush lt h x).
Proof.
  intros h x H. unfold heappush, siftdown.
  assert (E : nth (length h) (h ++ [x]) x = x) by (rewrite app_nth2, Nat.sub_diag; auto).
  rewrite E. apply siftdown_loop_heap.
  - rewrite app_length; cbn; lia.
  - lia.
  - apply desc_0.
  - split.
    + intros i d Hi _ N1 N2. rewrite app_length in Hi. cbn in Hi. pose proof (parent_lt i ltac:(lia)).
      rewrite !app_nth1 by lia. apply H; lia.
    + intros _ i d Hi Ep. rewrite app_length in Hi. cbn in Hi. pose proof (parent_lt i ltac:(lia)). lia.
  - intros i d Hi Ep. rewrite app_length in Hi. cbn in Hi. pose proof (parent_lt i ltac:(lia)). lia.
Qed.
Lemma heapfrom_1_cons : forall x y t, heapfrom 0 (x :: t) -> heapfrom 1 (y :: t).
Proof.
  intros x y t H i d Hi Hp. pose proof (parent_lt i ltac:(lia)). specialize (H i d Hi ltac:(lia)).
  destruct i; [lia|]. destruct (parent (S i)); [lia|]. exact H.
Qed.
Lemma heapfrom_prefix : forall s l1 l2, heapfrom s (l1 ++ l2) -> heapfrom s l1.
Proof.
  intros s l1 l2 H i d Hi Hp. pose proof (parent_lt i ltac:(lia)).
  specialize (H i d). rewrite app_length in H. rewrite !app_nth1 in H by lia. apply H; lia.
Qed.
Lemma heappop_heap : forall h a h', heappop lt h = Some (a, h') -> is_heap h -> is_heap h'.
Proof.
  intros h a h' E H. destruct h as [|b t]; [discriminate|]. unfold heappop in E.
  pose proof (removelast_last (b :: t) b ltac:(discriminate)) as Rr.
  destruct (removelast (b :: t)) as [|r rest] eqn:Er; inversion E; subst.
  - intros i d Hi. cbn in Hi. lia.
  - apply siftup_heap; [cbn; lia|]. apply (heapfrom_1_cons a).
    rewrite Rr in H. now apply heapfrom_prefix in H.
Qed.
Lemma heapreplace_heap : forall h x a h', heapreplace lt h x = Some (a, h') -> is_heap h -> is_heap h'.
Proof.
  intros h x a h' E H. destruct h as [|b t]; [discriminate|]. inversion E; subst.
  apply siftup_heap; [cbn; lia|]. now apply (heapfrom_1_cons a).
Qed.
Lemma heapify_loop_heap : forall i h, i <= length h -> heapfrom i h -> is_heap (heapify_loop lt i h).
Proof.
  induction i; intros h Hi H; cbn [heapify_loop]; auto. destruct h as [|d t]; [cbn in Hi; lia|].
  apply IHi.
  - rewrite (Permutation_length (siftup_perm (d :: t) i d ltac:(lia))). lia.
  - apply siftup_heap; [lia|auto].
Qed.
Lemma heapify_heap : forall h, is_heap (heapify lt h).
Proof.
  intros. apply heapify_loop_heap; [apply Nat.div_le_upper_bound; lia|].
  intros i d Hi Hp. exfalso.
  assert (parent i < length h / 2); [|lia]. unfold parent.
  pose proof (Nat.div_mod (length h) 2 ltac:(lia)). pose proof (Nat.mod_upper_bound (length h) 2 ltac:(lia)).
  apply Nat.div_lt_upper_bound; lia.
Qed.

(** The top is minimal. *)
Lemma heap_top : forall h, is_heap h -> forall i d, i < length h -> i <> 0 -> R (nth 0 h d) (nth i h d).
Proof.
  intros h H. induction i as [i IH] using lt_wf_ind. intros d Hi Hn.
  pose proof (parent_lt i ltac:(lia)).
  destruct (Nat.eq_dec (parent i) 0) as [E|E].
  - rewrite <- E. apply H; lia.
  - eapply R_trans; [apply (IH (parent i)); lia|]. apply H; lia.
Qed.
Lemma heap_top_min : forall a t, is_heap (a :: t) -> Forall (R a) t.
Proof.
  intros a t H. apply Forall_forall. intros x Hx. destruct (In_nth _ _ a Hx) as (n & Hn & E).
  pose proof (heap_top _ H (S n) a ltac:(cbn; lia) ltac:(lia)) as T. cbn in T. now rewrite E in T.
Qed.
Lemma heappop_top : forall h a h', heappop lt h = Some (a, h') -> exists t, h = a :: t.
Proof.
  intros h a h' E. destruct h as [|b t]; [discriminate|]. unfold heappop in E. exists t.
  destruct t as [|c t]; [inversion E; auto|].
  pose proof (removelast_last (b :: c :: t) b ltac:(discriminate)) as Rr.
  destruct (removelast (b :: c :: t)) as [|r rest] eqn:Er; inversion E; subst; inversion Rr; auto.
Qed.
Lemma heappop_min : forall h a h', heappop lt h = Some (a, h') -> is_heap h -> Forall (R a) h'.
Proof.
  intros h a h' E H. pose proof (heappop_perm _ _ _ E) as P.
  destruct (heappop_top _ _ _ E) as [t ->]. apply Permutation_cons_inv in P.
  apply heap_top_min in H. rewrite Forall_forall in *. intros x Hx. apply H.
  eapply Permutation_in; [symmetry; exact P|exact Hx].
Qed.
End Proofs.
