(** C89: transformations of treebanks and their reversal (transform,
    reversetransform). *)
From Coq Require Import String.
From Coq Require Import List Bool Arith NArith Lia Permutation Sorted.
From Verif Require Import HeadModel PunctModel FuncModel PyStr TreeModel BracketModel BracketProofs BinarizeModel SortProofs ContsetsProofs TreeProps BinarizeProps TransformModel TransformProps FuncProps XformModel.
Import ListNotations.
Open Scope list_scope.
Notation leaves := TreeModel.leaves.
Notation before := HeadModel.before.

(** ** Specification *)
(** a label without state splits *)
Definition plain (l : pystr) : Prop := l <> [] /\ ~ In CARET (tl l).
Definition labels_are (P : pystr -> Prop) (t : xt) : Prop := every_node (fun l _ => P (fst l)) t.
(** the children of every node are in the order of their first words *)
Definition inorder (t : xt) : Prop := every_node (fun _ ts => StronglySorted (fun x y => minleaf x <= minleaf y) ts) t.
(** the transformations that only mark labels *)
Definition marks (n : name) : Prop := In n [MarkYear; Punct; Parent; TagPa; NpPp; SRc; Np; VpGf; MarkUnary].

(** ** Lemmas *)
Lemma alls_f2 : forall A B (f : A -> option B) l r, alls (map f l) = Some r -> Forall2 (fun x y => f x = Some y) l r.
Proof.
  intros A B f l. induction l as [|x l IH]; intros r H; cbn in H; [injection H as <-; constructor|].
  destruct (f x) eqn:E; [|discriminate]. destruct (alls (map f l)) eqn:E2; [|discriminate]. injection H as <-. constructor; auto.
Qed.
Lemma f2_alls : forall A B (f : A -> option B) l r, Forall2 (fun x y => f x = Some y) l r -> alls (map f l) = Some r.
Proof. intros A B f l r H. induction H as [|x y l r E F IH]; [reflexivity|]. cbn. now rewrite E, IH. Qed.

Lemma order_leaves : forall t, Permutation (leaves t) (leaves (order t)).
Proof.
  induction t as [a|l ts IH] using tree_ind'; [constructor; constructor|]. cbn [order]. rewrite !leaves_node.
  eapply perm_trans; [|apply Permutation_flat_map, sort_perm]. induction IH as [|t ts H F IH2]; [constructor|]. cbn. now apply Permutation_app.
Qed.
Lemma order_min : forall t, minleaf (order t) = minleaf t.
Proof. intros. symmetry. apply minleaf_perm, order_leaves. Qed.
Lemma order_every : forall (P : nd -> Prop) t, every_node (fun l _ => P l) t <-> every_node (fun l _ => P l) (order t).
Proof.
  intros P. induction t as [a|l ts IH] using tree_ind'; [reflexivity|]. cbn [order every_node]. rewrite !fold_and.
  assert (X : Forall (every_node (fun l _ => P l)) ts <-> Forall (every_node (fun l _ => P l)) (sort first_le (map order ts))).
  { rewrite Forall_forall in IH. rewrite !Forall_forall. split; intros H c Hc.
    - apply sort_In in Hc. apply in_map_iff in Hc. destruct Hc as (x & <- & Hx). apply (proj1 (IH x Hx)); auto.
    - apply (proj2 (IH c Hc)). apply H. apply sort_In. apply in_map_iff. eauto. }
  tauto.
Qed.
Lemma first_total : forall x y, first_le x y = true \/ first_le y x = true.
Proof. intros. apply SortProofs.leb_total. Qed.
Lemma first_trans : forall x y z, first_le x y = true -> first_le y z = true -> first_le x z = true.
Proof. intros x y z. apply SortProofs.leb_trans. Qed.
Lemma ss_first : forall ts, StronglySorted (fun x y => minleaf x <= minleaf y) ts <-> StronglySorted (fun x y => first_le x y = true) ts.
Proof.
  intros ts. split; intros S.
  - induction S as [|x l S IH F]; constructor; [exact IH|]. eapply Forall_impl; [|exact F]. intros y H. unfold first_le. now apply Nat.leb_le.
  - induction S as [|x l S IH F]; constructor; [exact IH|]. eapply Forall_impl; [|exact F]. intros y H. unfold first_le in H. now apply Nat.leb_le in H.
Qed.
Lemma order_inorder : forall t, inorder (order t).
Proof.
  unfold inorder. induction t as [a|l ts IH] using tree_ind'; [exact I|]. cbn [order every_node]. rewrite fold_and. split.
  - apply ss_first. apply (sort_sorted first_le first_total first_trans).
  - eapply Permutation_Forall; [apply sort_perm|]. apply Forall_forall. intros c Hc. apply in_map_iff in Hc. destruct Hc as (x & <- & Hx). rewrite Forall_forall in IH. auto.
Qed.
Lemma order_fixed : forall t, inorder t -> order t = t.
Proof.
  unfold inorder. induction t as [a|l ts IH] using tree_ind'; intros H; [reflexivity|]. cbn [every_node] in H. rewrite fold_and in H. destruct H as [H1 H2].
  cbn [order]. f_equal. assert (E : map order ts = ts).
  { rewrite <- (map_id ts) at 2. apply map_ext_in. intros c Hc. rewrite Forall_forall in IH, H2. auto. }
  rewrite E. apply sorted_sort_id. now apply ss_first.
Qed.
Lemma order_idem : forall t, order (order t) = order t.
Proof. intros. apply order_fixed, order_inorder. Qed.
Lemma map_labels_leaves : forall f t, leaves (maplabels f t) = leaves t.
Proof.
  intros f. induction t as [a|l ts IH] using tree_ind'; [reflexivity|]. cbn [maplabels]. rewrite !leaves_node. induction IH as [|c r E F IH2]; [reflexivity|]. cbn [map flat_map]. now rewrite E, IH2.
Qed.
Lemma order_maplabels : forall f t, order (maplabels f t) = maplabels f (order t).
Proof.
  intros f. induction t as [a|l ts IH] using tree_ind'; [reflexivity|]. cbn [maplabels order]. f_equal. rewrite map_map.
  assert (E : map (fun x => order (maplabels f x)) ts = map (maplabels f) (map order ts)).
  { rewrite map_map. apply map_ext_in. rewrite Forall_forall in IH. auto. }
  rewrite E. apply sort_map. intros x y _ _. unfold first_le, minleaf. now rewrite !map_labels_leaves.
Qed.
Lemma mapnodes_leaves : forall f t, leaves (mapnodes f t) = leaves t.
Proof.
  intros f. induction t as [a|l ts IH] using tree_ind'; [reflexivity|]. cbn [mapnodes]. rewrite !leaves_node. induction IH as [|c r E F IH2]; [reflexivity|]. cbn [map flat_map]. now rewrite E, IH2.
Qed.
Lemma order_mapnodes : forall f t, order (mapnodes f t) = mapnodes f (order t).
Proof.
  intros f. induction t as [a|l ts IH] using tree_ind'; [reflexivity|]. cbn [mapnodes order]. f_equal. rewrite map_map.
  assert (E : map (fun x => order (mapnodes f x)) ts = map (mapnodes f) (map order ts)).
  { rewrite map_map. apply map_ext_in. rewrite Forall_forall in IH. auto. }
  rewrite E. apply sort_map. intros x y _ _. unfold first_le, minleaf. now rewrite !mapnodes_leaves.
Qed.
Lemma before_none : forall c s, ~ In c s -> before c s = s.
Proof.
  intros c. induction s as [|x s IH]; intros H; [reflexivity|]. cbn. destruct (N.eqb_spec x c) as [->|]; [exfalso; apply H; now left|]. f_equal. apply IH. intros I. apply H. now right.
Qed.
Lemma before_app : forall c s r, ~ In c s -> before c (s ++ c :: r) = s.
Proof.
  intros c. induction s as [|x s IH]; intros r H; cbn; [now rewrite N.eqb_refl|]. destruct (N.eqb_spec x c) as [->|]; [exfalso; apply H; now left|]. f_equal. apply IH. intros I. apply H. now right.
Qed.
Lemma unsplit_plain : forall l, plain l -> unsplit l = l.
Proof. intros [|c r] [H1 H2]; [congruence|]. cbn in *. now rewrite before_none. Qed.
Lemma unsplit_marked : forall l r, plain l -> unsplit (l ++ CARET :: r) = l.
Proof. intros [|c l] r [H1 H2]; [congruence|]. cbn in *. now rewrite before_app. Qed.
Lemma maplabels_id : forall f t, labels_are (fun l => f l = l) t -> maplabels f t = t.
Proof.
  intros f. unfold labels_are. induction t as [a|l ts IH] using tree_ind'; intros H; [reflexivity|]. cbn [every_node] in H. rewrite fold_and in H. destruct H as [H1 H2].
  cbn [maplabels]. rewrite H1. destruct l as [l s]. cbn [fst snd]. f_equal. rewrite <- (map_id ts) at 2. apply map_ext_in. intros c Hc. rewrite Forall_forall in IH, H2. auto.
Qed.
Lemma every_weaken : forall (P Q : nd -> Prop) (t : xt), (forall l, P l -> Q l) -> every_node (fun l _ => P l) t -> every_node (fun l _ => Q l) t.
Proof.
  intros P Q t H. induction t as [a|l ts IH] using tree_ind'; [auto|]. cbn [every_node]. rewrite !fold_and. intros [H1 H2]. split; [auto|].
  rewrite Forall_forall in *. auto.
Qed.
Lemma clean_unsplit : forall t, labels_are plain t -> maplabels unsplit t = t.
Proof. intros t H. apply maplabels_id. revert H. apply (every_weaken (fun l => plain (fst l)) (fun l => unsplit (fst l) = fst l)). intros l. apply unsplit_plain. Qed.
Lemma reverse_clean : forall ns t, labels_are plain t -> inorder t -> reversetransform ns t = option_map order (rsteps (rev ns) t).
Proof. intros ns t H1 H2. unfold reversetransform. now rewrite clean_unsplit, order_fixed. Qed.

(** marks *)
Inductive marked : xt -> xt -> Prop :=
  | mk_leaf : forall a, marked (Leaf a) (Leaf a)
  | mk_node : forall l l' s ts us, (l' = l \/ exists r, l' = l ++ CARET :: r) -> Forall2 marked ts us -> marked (Node (l, s) ts) (Node (l', s) us).
Lemma marked_refl : forall t, marked t t.
Proof.
  induction t as [a|[l s] ts IH] using tree_ind'; [constructor|]. constructor; [now left|]. induction IH; constructor; auto.
Qed.
Lemma marked_trans : forall t u v, marked t u -> marked u v -> marked t v.
Proof.
  induction t as [a|[l s] ts IH] using tree_ind'; intros u v H1 H2; inversion H1 as [|? l1 ? ? us E1 F1]; subst; [exact H2|]. inversion H2 as [|? l2 ? ? vs E2 F2]; subst. constructor.
  - destruct E1 as [->|[r ->]], E2 as [->|[r2 ->]]; auto; right; [exists r2|exists r|exists (r ++ CARET :: r2)]; auto. now rewrite <- app_assoc.
  - clear H2. revert vs F2. clear - IH F1. induction F1 as [|x y ts us H F IH2]; intros vs F2; inversion F2; subst; [constructor|]. inversion IH; subst. constructor; eauto.
Qed.
Lemma marked_unsplit : forall t u, marked t u -> labels_are plain t -> maplabels unsplit u = t.
Proof.
  unfold labels_are. induction t as [a|[l s] ts IH] using tree_ind'; intros u H C; inversion H as [|? l1 ? ? us E1 F1]; subst; [reflexivity|].
  cbn [every_node] in C. rewrite fold_and in C. destruct C as [C1 C2]. cbn [fst] in C1. cbn [maplabels fst snd]. f_equal.
  - f_equal. destruct E1 as [->|[r ->]]; [now apply unsplit_plain|now apply unsplit_marked].
  - clear - IH F1 C2. induction F1 as [|x y ts us H F IH2]; [reflexivity|]. inversion IH; inversion C2; subst. cbn. f_equal; auto.
Qed.
Lemma suffix_mark : forall n sent up l ts s, suffix n sent up l ts = Some s -> s = [] \/ exists r, s = CARET :: r.
Proof.
  intros n sent up l ts s H. assert (K : forall x, exists r, str "^" ++ x = CARET :: r) by (intros x; exists x; reflexivity).
  destruct n; cbn [suffix] in H;
    repeat match type of H with
           | Some [] = Some _ => injection H as <-; now left
           | Some (str "^" ++ _) = Some _ => injection H as <-; right; apply K
           | None = Some _ => discriminate
           | context [if ?b then _ else _] => destruct b
           | context [match ?x with _ => _ end] => destruct x
           end.
Qed.
Lemma splits_marked : forall n sent t up u, splits n sent up t = Some u -> marked t u.
Proof.
  intros n sent. induction t as [a|[l s] ts IH] using tree_ind'; intros up u H; cbn [splits] in H; [injection H as <-; constructor|].
  destruct (suffix n sent up (l, s) ts) as [x|] eqn:E; [|discriminate]. cbn [fst snd] in H. destruct (alls _) as [us|] eqn:E2; [|discriminate]. injection H as <-.
  constructor; [destruct (suffix_mark _ _ _ _ _ _ E) as [->|[r ->]]; [left; apply app_nil_r|right; eauto]|].
  apply alls_f2 in E2. clear - IH E2. induction E2; [constructor|]. inversion IH; subst. constructor; eauto.
Qed.
Lemma marks_step : forall n sent t u, marks n -> step sent n t = Some u -> marked t u.
Proof.
  intros n sent t u M H. unfold marks in M. cbn in M.
  repeat (destruct M as [<-|M]; [eapply splits_marked; exact H|]). contradiction.
Qed.
Lemma marks_steps : forall S sent t u, Forall marks S -> steps sent S t = Some u -> marked t u.
Proof.
  induction S as [|n S IH]; intros sent t u F H; cbn in H; [injection H as <-; apply marked_refl|]. inversion F; subst.
  destruct (step sent n t) eqn:E; [|discriminate]. eapply marked_trans; [eapply marks_step; eauto|eauto].
Qed.
Lemma steps_app : forall sent a b t, steps sent (a ++ b) t = match steps sent a t with None => None | Some u => steps sent b u end.
Proof. induction a as [|n a IH]; intros b t; [reflexivity|]. cbn. destruct (step sent n t); auto. Qed.
Lemma rsteps_app : forall a b t, rsteps (a ++ b) t = match rsteps a t with None => None | Some u => rsteps b u end.
Proof. induction a as [|n a IH]; intros b t; [reflexivity|]. cbn. destruct (rstep n t); auto. Qed.
Lemma rsteps_marks : forall S t, Forall marks S -> rsteps S t = Some t.
Proof.
  induction S as [|n S IH]; intros t F; [reflexivity|]. inversion F as [|? ? M F']; subst. cbn. assert (E : rstep n t = Some t).
  { unfold marks in M. cbn in M. repeat (destruct M as [<-|M]; [reflexivity|]). contradiction. }
  rewrite E. auto.
Qed.

(** ** C89 *)
(** Marks at the end of a sequence of transformations have no influence: undoing
    all transformations gives what undoing the others gives without the marks. *)
Theorem C89_marks_last : forall sent ns ms t u u', Forall marks ms -> labels_are plain u ->
  transform sent ns t = Some u -> transform sent (ns ++ ms) t = Some u' ->
  reversetransform (ns ++ ms) u' = reversetransform ns u.
Proof.
  intros sent ns ms t u u' M C H H'. unfold transform in *. rewrite steps_app in H'. destruct (steps sent ns t) as [v|] eqn:E; [|discriminate].
  cbn in H. injection H as <-. destruct (steps sent ms v) as [w|] eqn:E2; [|discriminate]. cbn in H'. injection H' as <-.
  unfold reversetransform. rewrite rev_app_distr, rsteps_app, rsteps_marks by now apply Forall_rev. do 2 f_equal.
  assert (CV : labels_are plain v) by exact (proj2 (order_every (fun l => plain (fst l)) v) C).
  rewrite <- order_maplabels, order_idem, (marked_unsplit v w); [|eapply marks_steps; eauto|exact CV].
  rewrite <- order_maplabels, order_idem, clean_unsplit; auto.
Qed.
(** Marks are undone completely, in any combination; only the order of children
    is normalized. *)
Corollary C89_marks : forall sent ms t t', Forall marks ms -> labels_are plain t ->
  transform sent ms t = Some t' -> reversetransform ms t' = Some (order t).
Proof.
  intros sent ms t t' M C H. assert (H0 : transform sent [] t = Some (order t)) by reflexivity.
  assert (C' : labels_are plain (order t)) by exact (proj1 (order_every (fun l => plain (fst l)) t) C).
  change ms with ([] ++ ms) in H |- *. rewrite (C89_marks_last sent [] ms t (order t) t' M C' H0 H).
  rewrite reverse_clean by (try exact C'; apply order_inorder). cbn. now rewrite order_idem.
Qed.
Corollary C89_marks_inorder : forall sent ms t t', Forall marks ms -> labels_are plain t -> inorder t ->
  transform sent ms t = Some t' -> reversetransform ms t' = Some t.
Proof. intros sent ms t t' M C I H. rewrite (C89_marks sent ms t t' M C H). now rewrite order_fixed. Qed.
(** what order means *)
Theorem C89_order : forall t, inorder (order t) /\ tperm t (order t) /\ (inorder t -> order t = t).
Proof.
  intros t. split; [apply order_inorder|]. split; [|apply order_fixed]. induction t as [a|l ts IH] using tree_ind'; [constructor|]. cbn [order].
  eapply tp_node; [|apply sort_perm]. clear - IH. induction IH; constructor; auto.
Qed.

(** *** Fan-out markers *)
Lemma addfanout_leaves : forall t : xt, leaves (addfanout t) = leaves t.
Proof.
  induction t as [a|l ts IH] using tree_ind'; [reflexivity|]. cbn [addfanout]. rewrite !leaves_node. induction IH as [|c r E F IH2]; [reflexivity|]. cbn [map flat_map]. now rewrite E, IH2.
Qed.
Lemma in_tl_app : forall (x : N) a b, a <> [] -> In x (tl (a ++ b)) <-> In x (tl a) \/ In x b.
Proof. intros x [|y a] b H; [congruence|]. cbn. apply in_app_iff. Qed.
Theorem C89_fanout : forall sent t t', labels_are plain t -> labels_are (fun l => ~ In 95%N l) t ->
  transform sent [Fanout] t = Some t' -> reversetransform [Fanout] t' = Some (order t).
Proof.
  intros sent t t' C U H. cbn in H. injection H as <-.
  assert (G : labels_are plain (addfanout t) /\ maplabels unfanout (addfanout t) = t).
  { clear sent. unfold labels_are in *. induction t as [a|[l s] ts IH] using tree_ind'; [split; [exact I|reflexivity]|].
    cbn [every_node] in C, U. rewrite fold_and in C, U. destruct C as [C1 C2], U as [U1 U2]. cbn [fst] in C1, U1.
    cbn [addfanout maplabels every_node fst snd]. rewrite fold_and. rewrite map_map. split; [split|].
    - destruct ((1 <? _) && _); [|exact C1]. destruct C1 as [N1 N2]. split; [intros E; apply app_eq_nil in E; tauto|].
      rewrite in_tl_app by exact N1. intros [E|E]; [auto|]. cbn [str map app] in E. destruct E as [E|E]; [discriminate|].
      pose proof (dec_digits (fanout_of (leaves (Node (l, s) ts)))) as D. rewrite forallb_forall in D. specialize (D _ E). discriminate.
    - apply Forall_forall. intros c Hc. apply in_map_iff in Hc. destruct Hc as (x & <- & Hx). destruct (proj1 (Forall_forall _ _) IH x Hx (proj1 (Forall_forall _ _) C2 x Hx) (proj1 (Forall_forall _ _) U2 x Hx)) as [A B]. exact A.
    - f_equal.
      + f_equal. unfold unfanout. destruct ((1 <? _) && _).
        * replace (contains _ _) with true by (symmetry; apply contains_char; apply in_or_app; right; now left). apply rsplit1_mark, dec_no_underscore.
        * destruct (contains l (str "_")) eqn:E; [|reflexivity]. apply contains_char in E. contradiction.
      + rewrite <- (map_id ts) at 2. apply map_ext_in. intros x Hx. destruct (proj1 (Forall_forall _ _) IH x Hx (proj1 (Forall_forall _ _) C2 x Hx) (proj1 (Forall_forall _ _) U2 x Hx)) as [A B]. exact B. }
  destruct G as [G1 G2]. rewrite reverse_clean; [|exact (proj1 (order_every (fun l => plain (fst l)) (addfanout t)) G1)|apply order_inorder]. cbn.
  now rewrite <- order_maplabels, G2, order_idem.
Qed.

(** *** Determiner phrases *)
Lemma every_iff : forall (P : nd -> list xt -> Prop) l ts, every_node P (Node l ts) <-> P l ts /\ Forall (every_node P) ts.
Proof. intros. cbn [every_node]. now rewrite fold_and. Qed.
Lemma node_min1 : forall (l : nd) (c : xt), minleaf (Node l [c]) = minleaf c.
Proof. intros. unfold minleaf. cbn [TreeModel.leaves flat_map]. now rewrite app_nil_r. Qed.
Lemma adddp_leaves : forall t u, adddp t = Some u -> leaves u = leaves t.
Proof.
  induction t as [a|l ts IH] using tree_ind'; intros u H; cbn [adddp] in H; [now injection H as <-|].
  destruct (alls (map adddp ts)) as [us|] eqn:E; [|discriminate]. apply alls_f2 in E.
  assert (EL : flat_map leaves us = flat_map leaves ts).
  { clear - IH E. induction E as [|x y ts us H F IH2]; [reflexivity|]. inversion IH; subst. cbn. f_equal; auto. }
  destruct (eqs (fst l) (str "NP")); [|injection H as <-; exact EL].
  destruct E as [|x y ts us Hxy F]; [discriminate|]. destruct x as [|l0 us0]; [discriminate|].
  destruct (eqs (fst l0) (str "ART")); [|injection H as <-; exact EL]. destruct ts as [|[|l1 us1] ts]; [injection H as <-; exact EL|discriminate|].
  injection H as <-. destruct (eqs (fst l1) (str "PN")); [exact EL|]. rewrite !leaves_node in *. cbn [flat_map] in *. rewrite leaves_node, app_nil_r. exact EL.
Qed.
Lemma adddp_root : forall l ts u, adddp (Node l ts) = Some u -> exists l' us, u = Node l' us /\ (fst l' = fst l \/ fst l = str "NP" /\ fst l' = str "DP").
Proof.
  intros l ts u H. cbn [adddp] in H. destruct (alls (map adddp ts)) as [us|]; [|discriminate]. destruct (eqs (fst l) (str "NP")) eqn:E; [|injection H as <-; eauto].
  apply eqs_eq in E. destruct ts as [|[|l0 us0] rest]; [discriminate|discriminate|]. destruct us as [|u0 urest]; [discriminate|].
  destruct (eqs (fst l0) (str "ART")); [|injection H as <-; eauto]. destruct rest as [|[|l1 us1] rest]; [injection H as <-|discriminate|injection H as <-]; (do 2 eexists; split; [reflexivity|]); right; auto.
Qed.
Lemma removedp_np : forall n us ts, alls (map removedp us) = Some ts -> removedp (Node (str "NP", n) us) = Some (Node (str "NP", n) ts).
Proof. intros n us ts H. cbn [removedp]. now rewrite H. Qed.
Lemma removedp_dp : forall s u0 n uks x0 ks, removedp u0 = Some x0 -> removedp (Node (str "NP", n) uks) = Some (Node (str "NP", n) ks) ->
  removedp (Node (str "DP", s) [u0; Node (str "NP", n) uks]) = Some (Node (str "NP", s) (x0 :: ks)).
Proof.
  intros s u0 n uks x0 ks H1 H2. remember (Node (str "NP", n) uks) as q. cbn [removedp map]. rewrite H1, H2. cbn [alls fst snd]. now subst q.
Qed.
(** When no label is DP, introducing determiner phrases can be undone: nothing is
    left of them, and all function tags and other fields are as before. *)
Theorem C89_dp : forall sent t t', ptree t -> labels_are plain t -> labels_are (fun l => l <> str "DP") t -> inorder t ->
  transform sent [Dp] t = Some t' -> reversetransform [Dp] t' = Some t.
Proof.
  intros sent t t' HP C D I H. unfold transform in H. cbn [steps step] in H. destruct (adddp t) as [u|] eqn:E; [|discriminate]. cbn in H. injection H as <-.
  assert (PN1 : plain (str "NP")) by (split; [discriminate|cbn; intuition discriminate]).
  assert (PN2 : plain (str "DP")) by (split; [discriminate|cbn; intuition discriminate]).
  assert (G : labels_are plain u /\ inorder u /\ removedp u = Some t).
  { clear sent. unfold labels_are, inorder in *. revert u HP C D I E. induction t as [a|l ts IH] using tree_ind'; intros u HP C D I E; [inversion HP|].
    cbn [every_node] in C, D, I. rewrite fold_and in C, D, I. destruct C as [C1 C2], D as [D1 D2], I as [I1 I2]. cbn [adddp] in E.
    destruct (alls (map adddp ts)) as [us|] eqn:EA; [|discriminate]. apply alls_f2 in EA.
    assert (PC : (exists a, ts = [Leaf a]) \/ forall c, In c ts -> ptree c) by (inversion HP; subst; eauto).
    assert (X : Forall2 (fun x y => (every_node (fun l _ => plain (fst l)) y /\ every_node (fun _ ts => StronglySorted (fun x y => minleaf x <= minleaf y) ts) y /\ removedp y = Some x) /\ leaves y = leaves x) ts us).
    { destruct PC as [[a ->]|PC].
      - inversion EA as [|? y ? ? Q1 Q2]; subst. inversion Q2; subst. cbn in Q1. injection Q1 as <-. repeat constructor.
      - revert IH C2 D2 I2 PC EA. clear. intros IH C2 D2 I2 PC EA. induction EA as [|x y ts us Hxy F IH2]; [constructor|]. inversion IH; inversion C2; inversion D2; inversion I2; subst. constructor.
        + split; [apply H1; auto; apply PC; now left|now apply adddp_leaves].
        + apply IH2; auto. intros; apply PC; now right. }
    assert (F1 : Forall (every_node (fun l _ => plain (fst l))) us) by (clear - X; induction X as [|? ? ? ? [[? _] _]]; constructor; auto).
    assert (F2 : Forall (every_node (fun _ ts => StronglySorted (fun x y => minleaf x <= minleaf y) ts)) us) by (clear - X; induction X as [|? ? ? ? [[_ [? _]] _]]; constructor; auto).
    assert (F3 : alls (map removedp us) = Some ts) by (apply f2_alls; clear - X; induction X as [|? ? ? ? [[_ [_ ?]] _]]; constructor; auto).
    assert (FM : map minleaf us = map minleaf ts).
    { clear - X. induction X as [|x y ts us [_ E] F IH]; [reflexivity|]. cbn. f_equal; [unfold minleaf; now rewrite E|exact IH]. }
    assert (F4 : StronglySorted (fun x y : xt => minleaf x <= minleaf y) us).
    { clear - FM I1. revert us FM. induction I1 as [|x ts S IH F]; intros [|y us] FM; try discriminate; [constructor|]. cbn in FM. injection FM as E1 E2. constructor; [auto|].
      rewrite E1. clear - F E2. revert us E2. induction F as [|z ts Hz F IH]; intros [|w us] E2; try discriminate; [constructor|]. cbn in E2. injection E2 as E3 E4. constructor; [lia|auto]. }
    assert (ND : eqs (fst l) (str "DP") = false) by (now apply eqs_neq).
    assert (KEEP : (every_node (fun l _ => plain (fst l)) (Node l us) /\ every_node (fun _ ts => StronglySorted (fun x y => minleaf x <= minleaf y) ts) (Node l us) /\ removedp (Node l us) = Some (Node l ts))).
    { cbn [every_node removedp]. rewrite !fold_and, F3, ND. auto. }
    destruct (eqs (fst l) (str "NP")) eqn:EN; [|injection E as <-; exact KEEP]. apply eqs_eq in EN.
    destruct ts as [|[|l0 us0] rest]; [discriminate|discriminate|]. destruct us as [|u0 urest]; [discriminate|].
    destruct (eqs (fst l0) (str "ART")); [|injection E as <-; exact KEEP].
    assert (L : l = (str "NP", snd l)) by (destruct l; cbn in *; now subst).
    destruct rest as [|[|l1 us1] rest]; [|discriminate|].
    - injection E as <-. inversion X as [|? ? ? ? X1 X2]; subst. inversion X2; subst. cbn [every_node]. rewrite !fold_and. split; [auto|]. split; [auto|].
      cbn [removedp]. rewrite F3. cbn [fst]. change (eqs (str "DP") (str "DP")) with true. cbn iota. cbn [snd]. now rewrite <- L.
    - injection E as <-. inversion EA as [|? ? ? ? Y1 Y2]; subst. inversion Y2 as [|? u1 ? urest' Y3 Y4]; subst.
      destruct (adddp_root _ _ _ Y3) as (l1' & ks1 & -> & R).
      destruct (eqs (fst l1) (str "PN")) eqn:EP.
      + apply eqs_eq in EP. cbn [every_node]. rewrite !fold_and. split; [auto|]. split; [auto|]. cbn [removedp]. rewrite F3. cbn [fst snd]. change (eqs (str "DP") (str "DP")) with true. cbn iota.
        replace (eqs (fst l1') (str "NP")) with false; [now rewrite <- L|]. symmetry. apply eqs_neq. destruct R as [R|[R _]]; rewrite ?R, ?EP; [discriminate|rewrite EP in R; discriminate].
      + inversion F1 as [|? ? A1 A2]; inversion F2 as [|? ? B1 B2]; inversion F4 as [|? ? S1 S2]; subst. split; [|split].
        * apply every_iff. split; [exact PN2|]. constructor; [exact A1|]. constructor; [|constructor]. apply every_iff. split; [exact PN1|exact A2].
        * apply every_iff. split; [|constructor; [exact B1|constructor; [|constructor]]].
          -- repeat constructor. inversion S2; subst. unfold minleaf at 2. rewrite leaves_node. cbn [flat_map]. fold (minleaf (Node l1' ks1)).
             assert (NE : leaves (Node l1' ks1) <> []).
             { rewrite (adddp_leaves _ _ Y3). apply ptree_leaves. destruct PC as [[a Q]|PC]; [discriminate|]. apply PC. right. now left. }
             assert (FE : Forall (fun y => minleaf u0 <= minleaf y) (Node l1' ks1 :: urest')) by exact S2.
             assert (ALL : forall c, In c (Node l1' ks1 :: urest') -> leaves c <> []).
             { destruct PC as [[a Q]|PC]; [discriminate|]. clear - EA PC. inversion EA; subst. intros c Hc. destruct (Forall2_in_l _ _ (fun b a => adddp a = Some b) (Node l1' ks1 :: urest') (Node l1 us1 :: rest) c) as (x & Hx & Ex); [|exact Hc|].
               - clear - H4. induction H4; constructor; auto.
               - rewrite (adddp_leaves _ _ Ex). apply ptree_leaves. apply PC. now right. }
             change (minleaf u0 <= minleaf (Node (str "NP", None : option src) (Node l1' ks1 :: urest'))).
             assert (MI : In (minleaf (Node (str "NP", None : option src) (Node l1' ks1 :: urest'))) (leaves (Node (str "NP", None : option src) (Node l1' ks1 :: urest')))).
             { apply minleaf_spec. rewrite leaves_node. cbn [flat_map]. intros Z. apply app_eq_nil in Z. tauto. }
             rewrite leaves_node in MI. apply in_flat_map in MI. destruct MI as (c & Hc & Mc). rewrite Forall_forall in FE. specialize (FE c Hc).
             destruct (minleaf_spec _ c (ALL c Hc)) as [_ Q]. specialize (Q _ Mc). lia.
          -- apply every_iff. split; [exact S1|exact B2].
        * apply alls_f2 in F3. inversion F3 as [|? ? ? ? R0 R1]; subst. rewrite L. cbn [snd]. apply removedp_dp; [exact R0|]. apply removedp_np. now apply f2_alls. }
  destruct G as (G1 & G2 & G3). rewrite (order_fixed u G2). rewrite reverse_clean by assumption. cbn [rev app rsteps rstep]. rewrite G3. cbn. now rewrite order_fixed.
Qed.

(** *** Function tags *)
Definition functag (l : nd) : pystr := match snd l with Some s => s_func s | None => [] end.
(** function tags in labels can be told apart *)
Definition readable (l : nd) : Prop := funcs l <> [] -> ~ In CARET (functag l) /\ endswith (functag l) (str "-") = false.
(** nodes that get their function tag in the tree *)
Definition tagged (l : nd) : bool := negb (match funcs l with [] => true | _ => false end) && negb (endswith (fst l) (str "-")).
Lemma ends_app : forall a b c, b <> [] -> endswith (a ++ b) [c] = endswith b [c].
Proof.
  intros a b c H. unfold endswith. rewrite rev_app_distr. destruct (rev b) as [|x r] eqn:E; [|cbn; destruct (N.eqb _ _); [|reflexivity]; now destruct r, (rev a)].
  apply (f_equal (@rev N)) in E. rewrite rev_involutive in E. now subst.
Qed.
Lemma ends_dash : forall a b, b <> [] -> endswith (a ++ b) (str "-") = endswith b (str "-").
Proof. intros a b. exact (ends_app a b HYPHEN). Qed.
Lemma tagged_spec : forall l, tagged l = true -> endswith (fst l) (str "-") = false /\ exists s, snd l = Some s /\ functag l = s_func s /\
  join (str "-") (funcs l) = s_func s /\ s_func s <> [] /\ funcs l <> [].
Proof.
  intros [l o] H. unfold tagged in H. apply andb_true_iff in H. destruct H as [H1 H2]. apply negb_true_iff in H2. split; [exact H2|].
  unfold funcs, functag, functions in *. cbn [snd] in *. destruct o as [s|]; [|discriminate]. cbn [option_map] in *. exists s.
  destruct (eqs (s_func s) NOTAG || match s_func s with [] => true | _ => false end) eqn:E; [discriminate|]. apply orb_false_iff in E. destruct E as [E1 E2].
  split; [reflexivity|]. split; [reflexivity|]. split; [apply splitc_join|]. split; [now destruct (s_func s)|]. intros Z. pose proof (splitc_join HYPHEN (s_func s)) as J. rewrite Z in J. cbn in J. now rewrite <- J in E2.
Qed.
Lemma tagged_if : forall l X (a b : X), (if (match funcs l with [] => false | _ => true end) && negb (endswith (fst l) (str "-")) then a else b) = if tagged l then a else b.
Proof. intros. unfold tagged. now destruct (funcs l). Qed.
(** the node after undoing FUNC-NODE *)
Definition restored (l : nd) : nd :=
  if tagged l then (fst l, Some (mksrc (Some (str "--")) (fst l) (str "--") (functag l))) else l.
Lemma funcnode_leaves : forall t : xt, leaves (funcnode t) = leaves t.
Proof.
  induction t as [a|l ts IH] using tree_ind'; [reflexivity|]. cbn [funcnode]. rewrite tagged_if.
  assert (E : flat_map leaves (map funcnode ts) = flat_map leaves ts).
  { induction IH as [|c r E F IH2]; [reflexivity|]. cbn [map flat_map]. now rewrite E, IH2. }
  destruct (tagged l); rewrite ?leaves_node; [cbn [flat_map]; rewrite leaves_node, app_nil_r; exact E|exact E].
Qed.
Lemma order_funcnode : forall t, order (funcnode t) = funcnode (order t).
Proof.
  induction t as [a|l ts IH] using tree_ind'; [reflexivity|]. cbn [funcnode order]. rewrite !tagged_if.
  assert (E : sort first_le (map order (map funcnode ts)) = map funcnode (sort first_le (map order ts))).
  { assert (E : map order (map funcnode ts) = map funcnode (map order ts)) by (rewrite !map_map; apply map_ext_in; rewrite Forall_forall in IH; auto).
    rewrite E. apply sort_map. intros x y _ _. unfold first_le, minleaf. now rewrite !funcnode_leaves. }
  destruct (tagged l); cbn [order map sort insert]; now rewrite E.
Qed.
(** Function tags as nodes can be undone: every node has its label, and the nodes
    with function tags have these; the other fields of these nodes are lost. *)
Theorem C89_funcnode : forall sent t t', labels_are plain t ->
  labels_are (fun l => startswith l (str "-") = true -> endswith l (str "-") = true) t -> every_node (fun l _ => readable l) t ->
  transform sent [FuncNode] t = Some t' -> reversetransform [FuncNode] t' = Some (mapnodes restored (order t)).
Proof.
  intros sent t t' C D R H. cbn in H. injection H as <-.
  assert (G : labels_are plain (funcnode t) /\ removefuncnode (funcnode t) = mapnodes restored t).
  { clear sent. unfold labels_are in *. induction t as [a|l ts IH] using tree_ind'; [split; [exact I|reflexivity]|].
    apply every_iff in C, D, R. destruct C as [C1 C2], D as [D1 D2], R as [R1 R2]. cbn [funcnode]. rewrite tagged_if.
    assert (G : Forall (every_node (fun l _ => plain (fst l))) (map funcnode ts) /\ map removefuncnode (map funcnode ts) = map (mapnodes restored) ts).
    { clear - IH C2 D2 R2. induction IH as [|c r H F IH2]; [split; [constructor|reflexivity]|]. inversion C2; inversion D2; inversion R2; subst.
      destruct H as [A B]; auto. destruct IH2 as [A2 B2]; auto. cbn [map]. split; [now constructor|]. now rewrite B, B2. }
    destruct G as [G1 G2].
    assert (INNER : forall s, removefuncnode (Node (fst l, s) (map funcnode ts)) = Node (fst l, s) (map (mapnodes restored) ts)).
    { intros s. cbn [removefuncnode]. unfold isfuncnode. cbn [fst]. destruct (startswith (fst l) (str "-")) eqn:E; [rewrite (D1 eq_refl)|]; cbn [negb andb]; now rewrite G2. }
    destruct (tagged l) eqn:T.
    - destruct (tagged_spec l T) as (E1 & s & ES & EF & EJ & NE & NF). rewrite EJ. destruct (R1 NF) as [Q1 Q2]. rewrite EF in Q1, Q2. split.
      + apply every_iff. split; [|constructor; [|constructor]].
        * split; [discriminate|exact Q1].
        * apply every_iff. split; [exact C1|exact G1].
      + remember (Node (fst l, None) (map funcnode ts)) as q eqn:EQ. cbn [removefuncnode map]. rewrite EQ, INNER. unfold isfuncnode. cbn [fst].
        replace (startswith (str "-" ++ s_func s) (str "-")) with true by (symmetry; apply startswith_iff; eauto).
        rewrite (ends_dash (str "-") (s_func s) NE), Q2. cbn [negb andb mapnodes fst].
        unfold restored. rewrite T, EF. reflexivity.
    - split; [apply every_iff; split; assumption|]. cbn [mapnodes]. unfold restored at 1. rewrite T. destruct l as [l s]. exact (INNER s). }
  destruct G as [G1 G2].
  rewrite reverse_clean; [|exact (proj1 (order_every (fun l => plain (fst l)) (funcnode t)) G1)|apply order_inorder]. cbn [rev app rsteps rstep].
  assert (X : removefuncnode (order (funcnode t)) = mapnodes restored (order t)).
  { rewrite order_funcnode. clear - C D R.
    assert (C' : labels_are plain (order t)) by exact (proj1 (order_every (fun l => plain (fst l)) t) C).
    assert (D' : labels_are (fun l => startswith l (str "-") = true -> endswith l (str "-") = true) (order t)) by exact (proj1 (order_every (fun l => startswith (fst l) (str "-") = true -> endswith (fst l) (str "-") = true) t) D).
    assert (R' : every_node (fun l _ => readable l) (order t)) by exact (proj1 (order_every readable t) R).
    revert C' D' R'. generalize (order t). clear. intros u C D R. unfold labels_are in *. induction u as [a|l ts IH] using tree_ind'; [reflexivity|].
    apply every_iff in C, D, R. destruct C as [C1 C2], D as [D1 D2], R as [R1 R2]. cbn [funcnode]. rewrite tagged_if.
    assert (G2 : map removefuncnode (map funcnode ts) = map (mapnodes restored) ts).
    { clear - IH C2 D2 R2. induction IH as [|c r H F IH2]; [reflexivity|]. inversion C2; inversion D2; inversion R2; subst. cbn [map]. rewrite H, IH2; auto. }
    assert (INNER : forall s, removefuncnode (Node (fst l, s) (map funcnode ts)) = Node (fst l, s) (map (mapnodes restored) ts)).
    { intros s. cbn [removefuncnode]. unfold isfuncnode. cbn [fst]. destruct (startswith (fst l) (str "-")) eqn:E; [rewrite (D1 eq_refl)|]; cbn [negb andb]; now rewrite G2. }
    destruct (tagged l) eqn:T.
    - destruct (tagged_spec l T) as (E1 & s & ES & EF & EJ & NE & NF). rewrite EJ. destruct (R1 NF) as [Q1 Q2]. rewrite EF in Q1, Q2.
      remember (Node (fst l, None) (map funcnode ts)) as q eqn:EQ. cbn [removefuncnode map]. rewrite EQ, INNER. unfold isfuncnode. cbn [fst].
      replace (startswith (str "-" ++ s_func s) (str "-")) with true by (symmetry; apply startswith_iff; eauto).
      rewrite (ends_dash (str "-") (s_func s) NE), Q2. cbn [negb andb mapnodes fst].
      unfold restored. rewrite T, EF. reflexivity.
    - cbn [mapnodes]. unfold restored at 1. rewrite T. destruct l as [l s]. exact (INNER s). }
  rewrite X. cbn [option_map]. now rewrite order_mapnodes, order_idem.
Qed.
(** what is restored: labels and function tags *)
Theorem C89_restored : forall l, fst (restored l) = fst l /\ funcs (restored l) = funcs l.
Proof.
  intros l. unfold restored. destruct (tagged l) eqn:T; [|auto]. split; [reflexivity|].
  destruct (tagged_spec l T) as (_ & s & ES & EF & _). unfold funcs. rewrite ES, EF. reflexivity.
Qed.

(** the node after undoing APPEND-FUNC *)
Definition retagged (l : nd) : nd :=
  if tagged l then match snd l with Some s => (fst l, Some (mksrc (s_lemma s) (fst l) (s_morph s) (s_func s))) | None => l end else l.
Lemma append_leaves : forall t : xt, leaves (appendfunc t) = leaves t.
Proof.
  induction t as [a|l ts IH] using tree_ind'; [reflexivity|]. cbn [appendfunc]. rewrite !leaves_node. induction IH as [|c r E F IH2]; [reflexivity|]. cbn [map flat_map]. now rewrite E, IH2.
Qed.
Lemma append_map : forall t, appendfunc t = mapnodes (fun l => (if tagged l then fst l ++ str "-" ++ join (str "-") (funcs l) else fst l, snd l)) t.
Proof.
  induction t as [a|l ts IH] using tree_ind'; [reflexivity|]. cbn [appendfunc mapnodes]. rewrite tagged_if. f_equal. apply map_ext_in. rewrite Forall_forall in IH. auto.
Qed.
Lemma mapnodes_every : forall (P Q : nd -> Prop) f t, (forall l, P l -> Q (f l)) -> every_node (fun l _ => P l) t -> every_node (fun l _ => Q l) (mapnodes f t).
Proof.
  intros P Q f t K. induction t as [a|l ts IH] using tree_ind'; [auto|]. intros H. cbn [mapnodes]. apply every_iff in H. destruct H as [H1 H2]. apply every_iff. split; [auto|].
  apply Forall_map. rewrite Forall_forall in *. auto.
Qed.
Lemma mapnodes_comp : forall (P : nd -> Prop) f g h t, (forall l, P l -> g (f l) = h l) -> every_node (fun l _ => P l) t -> mapnodes g (mapnodes f t) = mapnodes h t.
Proof.
  intros P f g h t K. induction t as [a|l ts IH] using tree_ind'; [reflexivity|]. intros H. apply every_iff in H. destruct H as [H1 H2]. cbn [mapnodes]. rewrite K by exact H1. f_equal.
  rewrite map_map. apply map_ext_in. rewrite Forall_forall in *. auto.
Qed.
Lemma every_and : forall (P Q : nd -> Prop) (t : xt), every_node (fun l _ => P l) t -> every_node (fun l _ => Q l) t -> every_node (fun l _ => P l /\ Q l) t.
Proof.
  intros P Q t. induction t as [a|l ts IH] using tree_ind'; [auto|]. intros H1 H2. apply every_iff in H1, H2. apply every_iff. destruct H1, H2. split; [auto|].
  rewrite Forall_forall in *. auto.
Qed.
(** Function tags in labels can be undone, when other labels have no hyphens
    (or begin and end with one). *)
Theorem C89_appendfunc : forall sent t t', labels_are plain t ->
  labels_are (fun l => ~ In HYPHEN l \/ startswith l (str "-") = true /\ endswith l (str "-") = true) t -> every_node (fun l _ => readable l) t ->
  transform sent [AppendFunc] t = Some t' -> reversetransform [AppendFunc] t' = Some (mapnodes retagged (order t)).
Proof.
  intros sent t t' C D R H. cbn in H. injection H as <-. unfold labels_are in *.
  pose proof (every_and _ _ _ (every_and _ _ _ C D) R) as A. rewrite append_map.
  set (f := fun l : nd => (if tagged l then fst l ++ str "-" ++ join (str "-") (funcs l) else fst l, snd l)).
  assert (K : forall l : nd, (plain (fst l) /\ (~ In HYPHEN (fst l) \/ startswith (fst l) (str "-") = true /\ endswith (fst l) (str "-") = true)) /\ readable l ->
     plain (fst (f l)) /\ unappend (f l) = retagged l).
  { intros l [[P1 P2] P3]. unfold f, retagged. destruct (tagged l) eqn:T; cbn [fst snd].
    - destruct (tagged_spec l T) as (E1 & s & ES & EF & EJ & NE & NF). rewrite EJ, ES. destruct (P3 NF) as [Q1 Q2]. rewrite EF in Q1, Q2.
      destruct P2 as [P2|[_ P2]]; [|congruence]. split.
      + destruct P1 as [N1 N2]. split; [intros Z; apply app_eq_nil in Z; tauto|]. rewrite in_tl_app by exact N1. intros [Z|[Z|Z]]; [auto|discriminate|auto].
      + unfold unappend. cbn [fst snd].
        replace (contains (fst l ++ str "-" ++ s_func s) (str "-")) with true by (symmetry; apply contains_iff; eauto).
        replace (startswith (fst l ++ str "-" ++ s_func s) (str "-")) with false.
        2:{ destruct P1 as [N1 _]. destruct (fst l) as [|c r]; [congruence|]. symmetry. change (N.eqb 45 c && startswith (r ++ str "-" ++ s_func s) [] = false). destruct (N.eqb_spec 45 c) as [<-|]; [exfalso; apply P2; now left|reflexivity]. }
        replace (endswith (fst l ++ str "-" ++ s_func s) (str "-")) with false by (rewrite app_assoc, (ends_dash (fst l ++ str "-") (s_func s) NE); now rewrite Q2). cbn [negb andb].
        change (str "-" ++ s_func s) with (HYPHEN :: s_func s). rewrite before_app by exact P2. do 3 f_equal.
        clear. induction (fst l) as [|x r IH]; [reflexivity|exact IH].
    - split; [exact P1|]. unfold unappend. cbn [fst snd]. destruct P2 as [P2|[P2 P4]].
      + destruct (contains (fst l) (str "-")) eqn:E; [apply contains_char in E; contradiction|]. now destruct l.
      + rewrite P2. cbn [negb]. rewrite andb_false_r. now destruct l. }
  assert (CL : labels_are plain (mapnodes f t)).
  { apply (mapnodes_every _ (fun l => plain (fst l)) f t (fun l HL => proj1 (K l HL)) A). }
  rewrite reverse_clean; [|exact (proj1 (order_every (fun l => plain (fst l)) (mapnodes f t)) CL)|apply order_inorder]. cbn [rev app rsteps rstep].
  rewrite <- order_mapnodes. rewrite (mapnodes_comp _ f unappend retagged t (fun l HL => proj2 (K l HL)) A). cbn [option_map]. now rewrite order_idem, order_mapnodes.
Qed.

(** *** Nodes between tags and words *)
(** change the preterminals *)
Fixpoint atwords (f : nd -> nd) (t : xt) : xt :=
  match t with
  | Leaf a => Leaf a
  | Node l [Leaf a] => Node (f l) [Leaf a]
  | Node l ts => Node l (map (atwords f) ts)
  end.
(** the preterminals of a tree *)
Fixpoint preterms (t : xt) : list nd :=
  match t with
  | Leaf _ => []
  | Node l ts => match ts with [Leaf a] => [l] | _ => flat_map preterms ts end
  end.
Lemma words_node : forall f (l : nd) (ts : list xt), ts <> [] -> (forall c, In c ts -> ptree c) -> atwords f (Node l ts) = Node l (map (atwords f) ts).
Proof. intros f l ts NE C. destruct ts as [|[a|m us] r]; [congruence|exfalso; eapply noleaf; apply C; now left|reflexivity]. Qed.
Lemma preterms_node : forall (l : nd) (ts : list xt), ts <> [] -> (forall c, In c ts -> ptree c) -> preterms (Node l ts) = flat_map preterms ts.
Proof. intros l ts NE C. destruct ts as [|[a|m us] r]; [congruence|exfalso; eapply noleaf; apply C; now left|]. destruct r; reflexivity. Qed.
Lemma between_node : forall f (l : nd) (ts : list xt), ts <> [] -> (forall c, In c ts -> ptree c) -> between f (Node l ts) = Node l (map (between f) ts).
Proof. intros f l ts NE C. destruct ts as [|[a|m us] r]; [congruence|exfalso; eapply noleaf; apply C; now left|reflexivity]. Qed.
Lemma between_leaves : forall f (t : xt), ptree t -> leaves (between f t) = leaves t.
Proof.
  intros f. induction t as [a|l ts IH] using tree_ind'; intros H; [inversion H|]. inversion H as [? a E|? ? NE C]; subst; [reflexivity|].
  rewrite between_node by assumption. rewrite !leaves_node. clear NE H. induction IH as [|c r E F IH2]; [reflexivity|]. cbn [map flat_map]. rewrite E by (apply C; now left). rewrite IH2; [reflexivity|]. intros; apply C; now right.
Qed.
Lemma order_ptree : forall t : xt, ptree t -> ptree (order t).
Proof.
  induction t as [a|l ts IH] using tree_ind'; intros H; [inversion H|]. inversion H as [? a E|? ? NE C]; subst; [apply pt_pre|]. cbn [order]. apply pt_node.
  - intros E. pose proof (sort_perm first_le (map order ts)) as P. rewrite E in P. apply Permutation_sym, Permutation_nil in P. now destruct ts.
  - intros c Hc. apply sort_In in Hc. apply in_map_iff in Hc. destruct Hc as (x & <- & Hx). rewrite Forall_forall in IH. auto.
Qed.
Lemma order_between : forall f (t : xt), ptree t -> order (between f t) = between f (order t).
Proof.
  intros f. induction t as [a|l ts IH] using tree_ind'; intros H; [inversion H|]. inversion H as [? a E|? ? NE C]; subst; [reflexivity|].
  rewrite between_node by assumption. cbn [order].
  assert (E : map order (map (between f) ts) = map (between f) (map order ts)) by (rewrite !map_map; apply map_ext_in; rewrite Forall_forall in IH; auto).
  rewrite E, (sort_map _ _ (between f) first_le first_le).
  - rewrite between_node; [reflexivity| |].
    + intros Z. pose proof (sort_perm first_le (map order ts)) as P. rewrite Z in P. apply Permutation_sym, Permutation_nil in P. now destruct ts.
    + intros c Hc. apply sort_In in Hc. apply in_map_iff in Hc. destruct Hc as (x & <- & Hx). now apply order_ptree, C.
  - intros x y Hx Hy. apply in_map_iff in Hx, Hy. destruct Hx as (a & <- & Ha), Hy as (b & <- & Hb). unfold first_le, minleaf.
    now rewrite !between_leaves by (now apply order_ptree, C).
Qed.
Lemma order_preterms : forall t : xt, ptree t -> Permutation (preterms t) (preterms (order t)).
Proof.
  induction t as [a|l ts IH] using tree_ind'; intros H; [inversion H|]. pose proof (order_ptree _ H) as H'. inversion H as [? a E|? ? NE C]; subst; [constructor; constructor|].
  assert (C' : forall c, In c (sort first_le (map order ts)) -> ptree c).
  { intros c Hc. apply sort_In in Hc. apply in_map_iff in Hc. destruct Hc as (x & <- & Hx). now apply order_ptree, C. }
  assert (NE' : sort first_le (map order ts) <> []).
  { intros Z. pose proof (sort_perm first_le (map order ts)) as P. rewrite Z in P. apply Permutation_sym, Permutation_nil in P. now destruct ts. }
  cbn [order]. rewrite !preterms_node by assumption. eapply perm_trans; [|apply Permutation_flat_map, sort_perm]. clear - IH C.
  induction IH as [|c r E F IH2]; [constructor|]. cbn [map flat_map]. apply Permutation_app; [apply E, C; now left|]. apply IH2. intros; apply C; now right.
Qed.
Lemma between_clean : forall f t, ptree t -> labels_are plain t -> (forall l, In l (preterms t) -> plain (f (snd l))) -> labels_are plain (between f t).
Proof.
  intros f. unfold labels_are. induction t as [a|l ts IH] using tree_ind'; intros H C K; [exact I|]. apply every_iff in C. destruct C as [C1 C2]. inversion H as [? a E|? ? NE CH]; subst.
  - cbn. split; [exact C1|]. split; [|exact I]. split; [|auto]. apply K. now left.
  - rewrite between_node by assumption. apply every_iff. split; [exact C1|]. apply Forall_map. rewrite preterms_node in K by assumption. rewrite Forall_forall in *.
    intros c Hc. apply IH; auto. intros m Hm. apply K. apply in_flat_map. eauto.
Qed.
Lemma overpreterm_inner : forall f (ts : list xt), ts <> [] -> (forall c, In c ts -> ptree c) -> overpreterm (map (between f) ts) = None.
Proof.
  intros f ts NE C. destruct ts as [|c r]; [congruence|]. specialize (C c (or_introl eq_refl)). cbn [map overpreterm]. inversion C as [l a|l ts NE2 C2]; subst; [reflexivity|].
  rewrite between_node by assumption. destruct ts as [|d s]; [congruence|]. specialize (C2 d (or_introl eq_refl)). cbn [map]. inversion C2 as [m a|m us NE3 C3]; subst; [reflexivity|].
  now rewrite between_node by assumption.
Qed.
(** Lemmas as nodes can be undone: every preterminal keeps its label, its
    morphology and function; the lemma is the one written and read back (C18). *)
Definition relemma (l : nd) : nd :=
  match snd l with Some s => (fst l, Some (mksrc (unescape (escape (s_lemma s))) (fst l) (s_morph s) (s_func s))) | None => l end.
Theorem C89_lemmanode : forall sent t t', ptree t -> labels_are plain t ->
  (forall l, In l (preterms t) -> exists s, snd l = Some s /\ plain (escape (s_lemma s))) ->
  transform sent [LemmaNode] t = Some t' -> reversetransform [LemmaNode] t' = Some (atwords relemma (order t)).
Proof.
  intros sent t t' HP C K H. cbn in H. injection H as <-. rewrite order_between by exact HP.
  assert (K' : forall l, In l (preterms (order t)) -> exists s, snd l = Some s /\ plain (escape (s_lemma s))).
  { intros l Hl. apply K. eapply Permutation_in; [apply Permutation_sym, order_preterms; exact HP|exact Hl]. }
  assert (C' : labels_are plain (order t)) by exact (proj1 (order_every (fun l => plain (fst l)) t) C).
  pose proof (order_ptree t HP) as P'. pose proof (order_inorder t) as IO. revert K' C' P' IO. generalize (order t). clear. intros t K C HP IO.
  assert (IB : inorder (between lemmaof t)).
  { rewrite <- (order_fixed t IO). rewrite <- order_between by exact HP. apply order_inorder. }
  rewrite reverse_clean; [|apply between_clean; auto|exact IB].
  2:{ intros l Hl. destruct (K l Hl) as (s & -> & Q). exact Q. }
  cbn [rev app rsteps rstep].
  assert (X : removelemmanode (between lemmaof t) = Some (atwords relemma t)).
  { clear IO IB C. induction t as [a|l ts IH] using tree_ind'; [inversion HP|]. inversion HP as [? a E|? ? NE CH]; subst.
    - destruct (K l (or_introl eq_refl)) as (s & ES & _). cbn [between removelemmanode overpreterm atwords fst snd lemmaof]. unfold relemma. rewrite ES. reflexivity.
    - rewrite between_node, words_node by assumption. cbn [removelemmanode]. rewrite overpreterm_inner by assumption. rewrite preterms_node in K by assumption.
      assert (G : alls (map removelemmanode (map (between lemmaof) ts)) = Some (map (atwords relemma) ts)); [|now rewrite G].
      clear HP NE. induction IH as [|c r E F IH2]; [reflexivity|]. cbn [map alls flat_map] in *. rewrite E.
      + rewrite IH2; [reflexivity|intros; apply K; apply in_or_app; now right|intros; apply CH; now right].
      + intros m Hm. apply K. apply in_or_app. now left.
      + apply CH. now left. }
  rewrite X. cbn [option_map]. f_equal. apply order_fixed. unfold inorder in *. clear K C IB X. induction t as [a|l ts IH] using tree_ind'; [exact I|]. apply every_iff in IO. destruct IO as [I1 I2].
  inversion HP as [? a E|? ? NE CH]; subst; [cbn; repeat constructor|]. rewrite words_node by assumption. apply every_iff.
  assert (L : forall f (u : xt), leaves (atwords f u) = leaves u).
  { clear. intros f. induction u as [a|l ts IH] using tree_ind'; [reflexivity|]. assert (G : leaves (Node l (map (atwords f) ts)) = leaves (Node l ts)).
    { rewrite !leaves_node. induction IH as [|c r E F IH2]; [reflexivity|]. cbn [map flat_map]. now rewrite E, IH2. }
    destruct ts as [|[a|m us] [|d r]]; exact G. }
  split.
  - clear - I1 L. induction I1 as [|x r S IH F]; [constructor|]. cbn [map]. constructor; [exact IH|]. apply Forall_map. eapply Forall_impl; [|exact F].
    intros y Hy. unfold minleaf in *. now rewrite !L.
  - apply Forall_map. rewrite Forall_forall in *. intros c Hc. apply IH; auto.
Qed.
(** Undoing MORPH-NODE does not give the tree back: the morphology of every word
    becomes its part-of-speech tag, and the tag its morphology. *)
Definition exchanged (l : nd) : nd := let m := match snd l with Some s => brackets (s_morph s) | None => str "--" end in
  (m, Some (mksrc (Some (str "--")) m (fst l) (str "--"))).
Theorem C89_morphnode : forall sent t t', ptree t -> labels_are plain t -> (forall l, In l (preterms t) -> plain (fst (exchanged l))) ->
  transform sent [MorphNode] t = Some t' -> reversetransform [MorphNode] t' = Some (atwords exchanged (order t)).
Proof.
  intros sent t t' HP C K H. cbn in H. injection H as <-. rewrite order_between by exact HP.
  assert (K' : forall l, In l (preterms (order t)) -> plain (fst (exchanged l))).
  { intros l Hl. apply K. eapply Permutation_in; [apply Permutation_sym, order_preterms; exact HP|exact Hl]. }
  assert (C' : labels_are plain (order t)) by exact (proj1 (order_every (fun l => plain (fst l)) t) C).
  pose proof (order_ptree t HP) as P'. pose proof (order_inorder t) as IO. revert K' C' P' IO. generalize (order t). clear. intros t K C HP IO.
  assert (EX : forall l : nd, exchanged l = (morphof (snd l), Some (mksrc (Some (str "--")) (morphof (snd l)) (fst l) (str "--")))) by (intros [l [s|]]; reflexivity).
  assert (IB : inorder (between morphof t)).
  { rewrite <- (order_fixed t IO). rewrite <- order_between by exact HP. apply order_inorder. }
  rewrite reverse_clean; [|apply between_clean; auto|exact IB].
  cbn [rev app rsteps rstep option_map].
  assert (X : removemorphnode (between morphof t) = atwords exchanged t).
  { clear IO IB C K. induction t as [a|l ts IH] using tree_ind'; [inversion HP|]. inversion HP as [? a E|? ? NE CH]; subst.
    - cbn [between removemorphnode overpreterm atwords fst snd]. now rewrite EX.
    - rewrite between_node, words_node by assumption. cbn [removemorphnode]. rewrite overpreterm_inner by assumption. f_equal. rewrite map_map. apply map_ext_in. rewrite Forall_forall in IH. auto. }
  rewrite X. f_equal. apply order_fixed. unfold inorder in *. clear K C IB X. induction t as [a|l ts IH] using tree_ind'; [exact I|]. apply every_iff in IO. destruct IO as [I1 I2].
  inversion HP as [? a E|? ? NE CH]; subst; [cbn; repeat constructor|]. rewrite words_node by assumption. apply every_iff.
  assert (L : forall f (u : xt), leaves (atwords f u) = leaves u).
  { clear. intros f. induction u as [a|l ts IH] using tree_ind'; [reflexivity|]. assert (G : leaves (Node l (map (atwords f) ts)) = leaves (Node l ts)).
    { rewrite !leaves_node. induction IH as [|c r E F IH2]; [reflexivity|]. cbn [map flat_map]. now rewrite E, IH2. }
    destruct ts as [|[a|m us] [|d r]]; exact G. }
  split.
  - clear - I1 L. induction I1 as [|x r S IH F]; [constructor|]. cbn [map]. constructor; [exact IH|]. apply Forall_map. eapply Forall_impl; [|exact F].
    intros y Hy. unfold minleaf in *. now rewrite !L.
  - apply Forall_map. rewrite Forall_forall in *. intros c Hc. apply IH; auto.
Qed.

(** *** What the marks say *)
(** The mark of a node is computed from labels of the original tree: [up] is the label of
    the parent before any mark was added. *)
Inductive annotated (f : option pystr -> nd -> list xt -> pystr) : option pystr -> xt -> xt -> Prop :=
  | an_leaf : forall up a, annotated f up (Leaf a) (Leaf a)
  | an_node : forall up l ts us, Forall2 (annotated f (Some (fst l))) ts us -> annotated f up (Node l ts) (Node (fst l ++ f up l ts, snd l) us).
(** a label up to its first hyphen or, if there is none, its first caret *)
Theorem C89_strip : forall l, (forall a b, l = a ++ HYPHEN :: b -> ~ In HYPHEN a -> strip l = a) /\
  (~ In HYPHEN l -> forall a b, l = a ++ CARET :: b -> ~ In CARET a -> strip l = a) /\
  (~ In HYPHEN l -> ~ In CARET l -> strip l = l).
Proof.
  intros l. unfold strip. split; [|split].
  - intros a b -> N. replace (contains (a ++ HYPHEN :: b) (str "-")) with true by (symmetry; apply contains_char; apply in_or_app; right; now left). now apply before_app.
  - intros N a b E NC. replace (contains l (str "-")) with false by (symmetry; apply not_true_iff_false; intros C; apply N; now apply contains_char). subst l.
    replace (contains (a ++ CARET :: b) (str "^")) with true by (symmetry; apply contains_char; apply in_or_app; right; now left). now apply before_app.
  - intros N NC. replace (contains l (str "-")) with false by (symmetry; apply not_true_iff_false; intros C; apply N; now apply contains_char).
    now replace (contains l (str "^")) with false by (symmetry; apply not_true_iff_false; intros C; apply NC; now apply contains_char).
Qed.
Lemma split_first : forall (x : N) s, In x s -> exists a b, s = a ++ x :: b /\ ~ In x a.
Proof.
  intros x. induction s as [|y s IH]; intros H; [destruct H|]. destruct (N.eq_dec y x) as [->|NE]; [exists [], s; split; [reflexivity|intros []]|].
  destruct H as [H|H]; [congruence|]. destruct (IH H) as (a & b & -> & N). exists (y :: a), b. split; [reflexivity|]. intros [Q|Q]; [congruence|contradiction].
Qed.
Lemma strip_nohyphen : forall l, ~ In HYPHEN (strip l).
Proof.
  intros l. destruct (in_dec N.eq_dec HYPHEN l) as [I|I].
  - destruct (split_first _ _ I) as (a & b & E & N). now rewrite (proj1 (C89_strip l) a b E N).
  - destruct (in_dec N.eq_dec CARET l) as [J|J].
    + destruct (split_first _ _ J) as (a & b & E & N). rewrite (proj1 (proj2 (C89_strip l)) I a b E N). intros K. apply I. rewrite E. apply in_or_app. now left.
    + now rewrite (proj2 (proj2 (C89_strip l)) I J).
Qed.
Lemma strip_mark : forall l m, ~ In HYPHEN m -> strip (l ++ CARET :: m) = strip l.
Proof.
  intros l m NM. destruct (in_dec N.eq_dec HYPHEN l) as [I|I].
  - destruct (split_first _ _ I) as (a & b & -> & N). rewrite (proj1 (C89_strip (a ++ HYPHEN :: b)) a b eq_refl N). rewrite <- app_assoc. cbn [app]. now apply (proj1 (C89_strip _) a (b ++ CARET :: m)).
  - assert (I' : ~ In HYPHEN (l ++ CARET :: m)) by (intros Q; apply in_app_or in Q; destruct Q as [Q|[Q|Q]]; [contradiction|discriminate|contradiction]).
    destruct (in_dec N.eq_dec CARET l) as [J|J].
    + destruct (split_first _ _ J) as (a & b & -> & N). rewrite (proj1 (proj2 (C89_strip (a ++ CARET :: b))) I a b eq_refl N). apply (proj1 (proj2 (C89_strip _)) I' a (b ++ CARET :: m)); [now rewrite <- app_assoc|exact N].
    + rewrite (proj2 (proj2 (C89_strip l)) I J). now apply (proj1 (proj2 (C89_strip _)) I' l m).
Qed.
Definition parentmark (up : option pystr) (l : nd) (ts : list xt) : pystr :=
  match ts, up with Node _ _ :: _, Some p => str "^" ++ strip p | _, _ => [] end.
Lemma splits_parent : forall sent t up up' u, (forall p, up = Some p -> exists p', up' = Some p' /\ strip p' = strip p) -> (up = None -> up' = None) ->
  splits Parent sent up' t = Some u -> annotated parentmark up t u.
Proof.
  intros sent. induction t as [a|l ts IH] using tree_ind'; intros up up' u H1 H2 H; cbn [splits] in H; [injection H as <-; constructor|]. cbn [suffix] in H.
  assert (EM : (match ts with Node _ _ :: _ => match up' with Some p => str "^" ++ strip p | None => [] end | _ => [] end) = parentmark up l ts).
  { unfold parentmark. destruct ts as [|[a|m us] r]; try reflexivity. destruct up as [p|]; [destruct (H1 p eq_refl) as (p' & -> & E); now rewrite E|now rewrite (H2 eq_refl)]. }
  rewrite EM in H. destruct (alls _) as [us|] eqn:E; [|discriminate]. injection H as <-. constructor. apply alls_f2 in E. revert E.
  assert (S : exists q, strip (fst l ++ parentmark up l ts) = q /\ q = strip (fst l)).
  { eexists. split; [reflexivity|]. unfold parentmark. destruct ts as [|[a|m vs] r]; try now rewrite app_nil_r. destruct up as [p|]; [|now rewrite app_nil_r]. apply strip_mark, strip_nohyphen. }
  destruct S as (q & S1 & S2). rewrite S2 in S1. clear S2. revert S1. generalize (fst l ++ parentmark up l ts). intros l' S1 E. clear - IH E S1.
  induction E as [|t v ts us Q F IHF]; [constructor|]. inversion IH as [|? ? I1 I2]; subst. constructor; [|auto]. eapply I1; [| |exact Q]; [intros p Hp; injection Hp as <-; eauto|discriminate].
Qed.
(** PARENT: every phrase below the root gets the stripped label of its parent. *)
Theorem C89_parent : forall sent t t', transform sent [Parent] t = Some t' -> exists u, t' = order u /\
  annotated (fun up l ts => match ts, up with Node _ _ :: _, Some p => str "^" ++ strip p | _, _ => [] end) None t u.
Proof.
  intros sent t t' H. unfold transform in H. cbn [steps step] in H. destruct (splits Parent sent None t) as [u|] eqn:E; [|discriminate]. injection H as <-. exists u. split; [reflexivity|].
  eapply splits_parent; [| |exact E]; [discriminate|auto].
Qed.
(** TAGPA: every word that is not punctuation gets the stripped label of its parent on its tag. *)
Theorem C89_tagpa : forall sent t t', transform sent [TagPa] t = Some t' -> exists u, t' = order u /\
  annotated (fun up l ts => match ts, up with
    | Leaf i :: _, Some p => if in_dec eqs_dec (nth i sent []) PUNCTUATION then [] else str "^" ++ strip p
    | _, _ => [] end) None t u.
Proof.
  intros sent t t' H. unfold transform in H. cbn [steps step] in H. destruct (splits TagPa sent None t) as [u|] eqn:E; [|discriminate]. injection H as <-. exists u. split; [reflexivity|].
  set (f := fun up (l : nd) (ts : list xt) => match ts, up with Leaf i :: _, Some p => if in_dec eqs_dec (nth i sent []) PUNCTUATION then [] else str "^" ++ strip p | _, _ => [] end).
  assert (MP : forall i, mem (nth i sent []) PUNCTUATION = if in_dec eqs_dec (nth i sent []) PUNCTUATION then true else false).
  { intros i. destruct (in_dec eqs_dec _ PUNCTUATION) as [I|I].
    - unfold mem. apply existsb_exists. exists (nth i sent []). split; [exact I|apply eqs_refl].
    - apply not_true_iff_false. unfold mem. intros Q. apply existsb_exists in Q. destruct Q as (x & Hx & Ex). apply eqs_eq in Ex. now subst. }
  assert (X : forall t up up' u, (forall p, up = Some p -> exists p', up' = Some p' /\ strip p' = strip p) -> (up = None -> up' = None) -> splits TagPa sent up' t = Some u -> annotated f up t u); [|eapply X; [| |exact E]; [discriminate|auto]].
  clear E u t. induction t as [a|l ts IH] using tree_ind'; intros up up' u H1 H2 H; cbn [splits] in H; [injection H as <-; constructor|]. cbn [suffix] in H.
  match type of H with match ?m with _ => _ end = _ => destruct m as [s|] eqn:EM end; [|discriminate].
  assert (ES : s = f up l ts).
  { unfold f. destruct ts as [|[i|m us] r]; try (now injection EM as <-). rewrite MP in EM. destruct (in_dec eqs_dec (nth i sent []) PUNCTUATION); [injection EM as <-; now destruct up|].
    destruct up' as [p'|]; [|discriminate]. injection EM as <-. destruct up as [p|]; [destruct (H1 p eq_refl) as (q & E1 & E2); injection E1 as <-; now rewrite E2|now specialize (H2 eq_refl)]. }
  destruct (alls _) as [us|] eqn:E in H; [|discriminate]. injection H as <-. rewrite ES. constructor. apply alls_f2 in E.
  assert (S1 : strip (fst l ++ s) = strip (fst l)).
  { rewrite ES. unfold f. destruct ts as [|[i|m vs] r]; try now rewrite app_nil_r. destruct up as [p|]; [|now rewrite app_nil_r]. destruct (in_dec _ _ _); [now rewrite app_nil_r|]. apply strip_mark, strip_nohyphen. }
  clear - IH E S1. revert E S1. generalize (fst l ++ s). intros l' E S1.
  induction E as [|t v ts us Q F IHF]; [constructor|]. inversion IH as [|? ? I1 I2]; subst. constructor; [|auto]. eapply I1; [| |exact Q]; [intros p Hp; injection Hp as <-; eauto|discriminate].
Qed.
(** *** Words *)
(** No sequence of transformations touches the words: each occurs as often as before. *)
Theorem C89_words : forall sent ns t t', ptree t -> transform sent ns t = Some t' -> Permutation (leaves t) (leaves t').
Proof.
  intros sent ns t t' _ H. unfold transform in H. destruct (steps sent ns t) as [u|] eqn:E; [|discriminate]. injection H as <-.
  eapply perm_trans; [|apply order_leaves]. replace (leaves u) with (leaves t); [auto|].
  assert (BL : forall f (t : xt), leaves (between f t) = leaves t).
  { clear. intros f. induction t as [a|l ts IH] using tree_ind'; [reflexivity|]. assert (G : leaves (Node l (map (between f) ts)) = leaves (Node l ts)).
    { rewrite !leaves_node. induction IH as [|c r E F IH2]; [reflexivity|]. cbn [map flat_map]. now rewrite E, IH2. }
    destruct ts as [|[a|m us] r]; [exact G| |exact G]. cbn [between]. rewrite !leaves_node. cbn [flat_map]. now rewrite leaves_node, app_nil_r. }
  assert (ML : forall t u : xt, marked t u -> leaves u = leaves t).
  { clear. induction t as [a|[l s] ts IH] using tree_ind'; intros u H; inversion H as [|? ? ? ? us Q F]; subst; [reflexivity|]. rewrite !leaves_node. clear - IH F.
    induction F as [|x y ts us Hxy F IH2]; [reflexivity|]. inversion IH; subst. cbn [flat_map]. f_equal; auto. }
  revert t E. induction ns as [|n ns IH]; intros t E; [now injection E as ->|]. cbn [steps] in E. destruct (step sent n t) as [v|] eqn:E1; [|discriminate].
  rewrite <- (IH v E). destruct n; cbn [step] in E1; try (symmetry; eapply ML, splits_marked; exact E1).
  - injection E1 as <-. symmetry. apply append_leaves.
  - injection E1 as <-. symmetry. apply funcnode_leaves.
  - discriminate.
  - injection E1 as <-. symmetry. apply BL.
  - injection E1 as <-. symmetry. apply BL.
  - injection E1 as <-. symmetry. apply addfanout_leaves.
  - symmetry. now apply adddp_leaves.
Qed.
(** APPEND-MORPH never succeeds: it calls a method that does not exist. *)
Theorem C89_appendmorph_refuted : forall sent ns ms t, transform sent (ns ++ AppendMorph :: ms) t = None.
Proof. intros. unfold transform. rewrite steps_app. destruct (steps sent ns t); reflexivity. Qed.

(** *** Examples *)
Definition xnode (l f m : string) (ts : list xt) : xt := Node (str l, Some (mksrc (Some (str "--")) (str l) (str m) (str f))) ts.
Definition xform_ex : xt := xnode "ROOT" "--" "--" [xnode "S" "--" "--" [xnode "NP" "SB" "--" [xnode "ART" "NK" "Nom" [Leaf 0]; xnode "NN" "NK" "Nom" [Leaf 1]; xnode "PP" "MNR" "--" [xnode "APPR" "AC" "--" [Leaf 2]; xnode "NE" "NK" "Dat" [Leaf 3]]];
    xnode "VVFIN" "HD" "3.Sg" [Leaf 4]]; xnode "$." "--" "--" [Leaf 5]].
Definition xform_sent : list pystr := map str ["Der"; "Sieg"; "von"; "1998"; "kam"; "."]%string.
Ltac ptree_tac := repeat first [apply pt_pre | apply pt_node; [discriminate|]; let c := fresh in let H := fresh in intros c H; repeat (destruct H as [<-|H]); try contradiction].
Lemma xform_ptree : ptree xform_ex.
Proof. unfold xform_ex, xnode. ptree_tac. Qed.
Ltac plain_tac := repeat split; try discriminate; try (intros Q; vm_compute in Q; intuition discriminate).
Lemma xform_plain : labels_are plain xform_ex.
Proof. plain_tac. Qed.
Lemma xform_inorder : inorder xform_ex.
Proof. unfold inorder. cbn. repeat split; repeat constructor. Qed.
Example C89_example_marks : option_map (fun t => map (fun p => match p with (l, _) => fst l end) (flat_map (fun p : nd * list nat => [p]) (constituents t))) (transform xform_sent [Punct; MarkYear; Parent; TagPa; VpGf; NpPp; MarkUnary] xform_ex)
    = Some (map str ["ROOT"; "S^ROOT"; "NP^S"; "ART^NP"; "NN^NP"; "PP^NP"; "APPR^PP"; "NE^year^PP"; "VVFIN^S"; "$.^."]%string) /\
  exists t', transform xform_sent [Punct; MarkYear; Parent; TagPa; VpGf; NpPp; MarkUnary] xform_ex = Some t' /\ reversetransform [Punct; MarkYear; Parent; TagPa; VpGf; NpPp; MarkUnary] t' = Some xform_ex.
Proof. split; [vm_compute; reflexivity|]. eexists. split; vm_compute; reflexivity. Qed.
Example C89_example_dp : exists t', transform xform_sent [Dp] xform_ex = Some t' /\ t' <> xform_ex /\ reversetransform [Dp] t' = Some xform_ex /\
  ptree xform_ex /\ labels_are plain xform_ex /\ labels_are (fun l => l <> str "DP") xform_ex /\ inorder xform_ex.
Proof.
  eexists. split; [vm_compute; reflexivity|]. split; [discriminate|]. split; [vm_compute; reflexivity|]. split; [exact xform_ptree|]. split; [exact xform_plain|]. split; [|exact xform_inorder].
  repeat split; discriminate.
Qed.
Example C89_example_func : exists t', transform xform_sent [FuncNode] xform_ex = Some t' /\ t' <> xform_ex /\ every_node (fun l _ => readable l) xform_ex /\
  labels_are (fun l => startswith l (str "-") = true -> endswith l (str "-") = true) xform_ex /\
  exists t2, transform xform_sent [AppendFunc] xform_ex = Some t2 /\ t2 <> t' /\ reversetransform [AppendFunc] t2 = Some xform_ex.
Proof.
  eexists. split; [vm_compute; reflexivity|]. split; [discriminate|]. split; [|split].
  - repeat split; first [vm_compute; reflexivity | intros Q; vm_compute in Q; intuition discriminate | exfalso; match goal with Q : _ <> [] |- _ => apply Q; vm_compute; reflexivity end].
  - repeat split; first [discriminate | intros Q; vm_compute in Q; discriminate | intros _; vm_compute; reflexivity].
  - eexists. split; [vm_compute; reflexivity|]. split; [discriminate|vm_compute; reflexivity].
Qed.
Example C89_morphnode_refuted : exists t t', ptree t /\ labels_are plain t /\ (forall l, In l (preterms t) -> plain (fst (exchanged l))) /\
  transform xform_sent [MorphNode] t = Some t' /\ reversetransform [MorphNode] t' <> Some t.
Proof.
  exists xform_ex. eexists. split; [exact xform_ptree|]. split; [exact xform_plain|]. split; [|split; [vm_compute; reflexivity|vm_compute; discriminate]].
  intros l Hl. cbn in Hl. repeat (destruct Hl as [<-|Hl]; [plain_tac|]). contradiction.
Qed.
