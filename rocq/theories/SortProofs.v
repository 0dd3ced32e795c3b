(** Facts about the stable sort of TransformModel. *)
From Coq Require Import List Bool Arith Lia Permutation Sorted.
From Verif Require Import TreeModel TransformModel.
Import ListNotations.

Section SortFacts.
Context {T : Type}.
Variable le : T -> T -> bool.
Notation R := (fun x y => le x y = true).
Lemma insert_perm : forall x l, Permutation (x :: l) (insert le x l).
Proof.
  intros x l. induction l as [|y l IH]; cbn [insert]; [auto|]. destruct (le x y); [auto|].
  eapply perm_trans; [apply perm_swap|]. now constructor.
Qed.
Lemma sort_perm : forall l, Permutation l (sort le l).
Proof. induction l as [|x l IH]; cbn; [auto|]. eapply perm_trans; [constructor; exact IH|apply insert_perm]. Qed.
Lemma sort_In : forall x l, In x (sort le l) <-> In x l.
Proof. intros. split; apply Permutation_in; [apply Permutation_sym|]; apply sort_perm. Qed.
Lemma sort_length : forall l, length (sort le l) = length l.
Proof. intros. symmetry. apply Permutation_length, sort_perm. Qed.
Lemma sorted_sort_id : forall l, StronglySorted R l -> sort le l = l.
Proof.
  induction l as [|x l IH]; intros H; [reflexivity|]. inversion H as [|? ? H1 H2]; subst. cbn. rewrite IH by auto.
  destruct l as [|y l]; [reflexivity|]. cbn. inversion H2; subst. now rewrite H4.
Qed.
Hypothesis total : forall x y, le x y = true \/ le y x = true.
Hypothesis trans : forall x y z, le x y = true -> le y z = true -> le x z = true.
Lemma insert_sorted : forall x l, StronglySorted R l -> StronglySorted R (insert le x l).
Proof.
  intros x l H. induction H as [|y l H IH HF]; cbn [insert]; [repeat constructor|]. destruct (le x y) eqn:E.
  - constructor; [constructor; auto|]. constructor; auto. eapply Forall_impl; [|exact HF]. intros z Hz. eapply trans; eauto.
  - constructor; auto. assert (Y : le y x = true) by (destruct (total x y); congruence).
    eapply Permutation_Forall; [apply insert_perm|]. constructor; auto.
Qed.
Lemma sort_sorted : forall l, StronglySorted R (sort le l).
Proof. induction l; cbn; [constructor|]. now apply insert_sorted. Qed.
End SortFacts.
Lemma sorted_unique : forall T (R : T -> T -> Prop) l l', StronglySorted R l -> StronglySorted R l' -> Permutation l l' ->
  (forall x y, In x l -> In y l -> R x y -> R y x -> x = y) -> l = l'.
Proof.
  intros T R l. induction l as [|x l IH]; intros l' S1 S2 P A.
  - apply Permutation_nil in P. now subst.
  - destruct l' as [|y l']; [apply Permutation_sym, Permutation_nil in P; discriminate|].
    inversion S1 as [|? ? S1' F1]; subst. inversion S2 as [|? ? S2' F2]; subst.
    assert (E : x = y).
    { assert (Iy : In y (x :: l)) by (eapply Permutation_in; [apply Permutation_sym; exact P|now left]).
      assert (Ix : In x (y :: l')) by (eapply Permutation_in; [exact P|now left]).
      destruct Iy as [->|Iy]; auto. destruct Ix as [->|Ix]; auto. rewrite Forall_forall in F1, F2.
      apply A; [now left|now right|auto|auto]. }
    subst y. f_equal. apply IH; auto; [eapply Permutation_cons_inv; eauto|]. intros u v Hu Hv. apply A; now right.
Qed.
Lemma insert_map : forall A B (f : A -> B) le1 le2 x l, (forall y, In y l -> le2 (f x) (f y) = le1 x y) ->
  insert le2 (f x) (map f l) = map f (insert le1 x l).
Proof.
  intros A B f le1 le2 x l H. induction l as [|y l IH]; [reflexivity|]. cbn. rewrite H by (now left).
  destruct (le1 x y); [reflexivity|]. cbn. f_equal. apply IH. intros z Hz. apply H. now right.
Qed.
Lemma sort_map : forall A B (f : A -> B) le1 le2 l, (forall x y, In x l -> In y l -> le2 (f x) (f y) = le1 x y) ->
  sort le2 (map f l) = map f (sort le1 l).
Proof.
  intros A B f le1 le2 l H. induction l as [|x l IH]; [reflexivity|]. cbn. rewrite IH by (intros; apply H; now right).
  apply insert_map. intros y Hy. apply H; [now left|right]. now apply sort_In in Hy.
Qed.
Lemma sort_ext : forall A le1 le2 (l : list A), (forall x y, In x l -> In y l -> le2 x y = le1 x y) -> sort le2 l = sort le1 l.
Proof.
  intros A le1 le2 l H. pose proof (sort_map A A (fun x => x) le1 le2 l H) as E. now rewrite !map_id in E.
Qed.

(** numbers *)
Lemma leb_total : forall x y, Nat.leb x y = true \/ Nat.leb y x = true.
Proof. intros. rewrite !Nat.leb_le. lia. Qed.
Lemma leb_trans : forall x y z, Nat.leb x y = true -> Nat.leb y z = true -> Nat.leb x z = true.
Proof. intros x y z. rewrite !Nat.leb_le. lia. Qed.
Lemma seq_sorted : forall k a, StronglySorted (fun x y => Nat.leb x y = true) (seq a k).
Proof.
  induction k as [|k IH]; intros a; cbn; constructor; auto. apply Forall_forall. intros x Hx. apply in_seq in Hx. apply Nat.leb_le. lia.
Qed.
Lemma nat_sort_unique : forall l l', StronglySorted (fun x y => Nat.leb x y = true) l' -> Permutation l l' -> sort Nat.leb l = l'.
Proof.
  intros l l' S P. apply (sorted_unique nat (fun x y => Nat.leb x y = true)); auto.
  - apply sort_sorted; [apply leb_total|apply leb_trans].
  - eapply perm_trans; [apply Permutation_sym, sort_perm|exact P].
  - intros x y _ _. rewrite !Nat.leb_le. lia.
Qed.
Lemma nat_sort_perm : forall l l', Permutation l l' -> sort Nat.leb l = sort Nat.leb l'.
Proof.
  intros l l' P. apply nat_sort_unique; [apply sort_sorted; [apply leb_total|apply leb_trans]|].
  eapply perm_trans; [exact P|apply sort_perm].
Qed.

(** lists of numbers *)
Lemma lex_refl : forall a, lex_le a a = true.
Proof. induction a as [|x a IH]; cbn; auto. now rewrite Nat.eqb_refl. Qed.
Lemma lex_total : forall a b, lex_le a b = true \/ lex_le b a = true.
Proof.
  induction a as [|x a IH]; intros [|y b]; cbn [lex_le]; auto. rewrite (Nat.eqb_sym y x). destruct (Nat.eqb_spec x y); [apply IH|].
  rewrite !Nat.ltb_lt. lia.
Qed.
Lemma lex_trans : forall a b c, lex_le a b = true -> lex_le b c = true -> lex_le a c = true.
Proof.
  induction a as [|x a IH]; intros [|y b] [|z c]; cbn [lex_le]; auto; try discriminate.
  destruct (Nat.eqb_spec x y), (Nat.eqb_spec y z), (Nat.eqb_spec x z); subst; try congruence; rewrite ?Nat.ltb_lt; intros; try lia. eauto.
Qed.
Lemma lex_antisym : forall a b, lex_le a b = true -> lex_le b a = true -> a = b.
Proof.
  induction a as [|x a IH]; intros [|y b]; cbn [lex_le]; auto; try discriminate. rewrite (Nat.eqb_sym y x).
  destruct (Nat.eqb_spec x y); [subst; intros; f_equal; auto|]. rewrite !Nat.ltb_lt. lia.
Qed.
