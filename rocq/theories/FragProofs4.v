(** From pairs of addresses to common fragments; building the arrays *)
From Coq Require Import NArith ZArith List Bool Lia Permutation Sorting.Sorted.
From Verif Require Import BitsModel BitsSpec BitsProps TreeModel TransformModel SortProofs FragModel FragSpec FragProofs FragProofs2 FragProofs3.
Import ListNotations.

(** * Fragments *)
Lemma mcf_matches_l : forall s t, matches (mcf s t) s.
Proof.
  induction s as [p x|p s1 IH1|p s1 IH1 s2 IH2]; intros t; cbn [mcf bprod]; destruct (Z.eqb_spec p (bprod t)) as [E|E]; try exact Logic.I;
    destruct t; cbn [matches]; auto.
Qed.
Lemma mcf_matches_r : forall s t, matches (mcf s t) t.
Proof.
  induction s as [p x|p s1 IH1|p s1 IH1 s2 IH2]; intros t; cbn [mcf bprod]; destruct (Z.eqb_spec p (bprod t)) as [E|E]; try exact Logic.I;
    destruct t; cbn [matches]; auto.
Qed.
Lemma mcf_largest : forall f s t, matches f s -> matches f t -> prefix f (mcf s t).
Proof.
  induction f as [|p|p f IH|p f1 IH1 f2 IH2]; intros s t Hs Ht; [exact Logic.I| | |];
    destruct s, t; cbn [matches] in Hs, Ht; try contradiction; cbn [mcf bprod].
  - subst. rewrite Z.eqb_refl. reflexivity.
  - destruct Hs as [<- Hs], Ht as [<- Ht]. rewrite Z.eqb_refl. cbn [prefix]. auto.
  - destruct Hs as (<- & Hs1 & Hs2), Ht as (<- & Ht1 & Ht2). rewrite Z.eqb_refl. cbn [prefix]. auto.
Qed.
Lemma prefix_antisym : forall f g, prefix f g -> prefix g f -> f = g.
Proof.
  induction f as [|p|p f IH|p f1 IH1 f2 IH2]; intros g H1 H2; destruct g; cbn [prefix] in *; try tauto.
  - now subst.
  - destruct H1 as [-> H1], H2 as [_ H2]. f_equal. auto.
  - destruct H1 as (-> & H11 & H12), H2 as (_ & H21 & H22). f_equal; auto.
Qed.
Lemma inside_eq : forall w h s t, inside w h -> matches h s -> matches h t ->
  exists s' t', sub s w = Some s' /\ sub t w = Some t' /\ bprod s' = bprod t'.
Proof.
  induction w as [|d w IH]; intros h s t HI Hs Ht.
  - exists s, t. split; auto. split; auto. destruct h; cbn in HI; try tauto; destruct s, t; cbn [matches] in *; try tauto; cbn; intuition congruence.
  - destruct d, h; cbn [inside] in HI; try tauto; destruct s, t; cbn [matches] in Hs, Ht; try tauto; cbn [sub].
    + destruct Hs as (_ & _ & Hs), Ht as (_ & _ & Ht). eauto.
    + destruct Hs as (_ & Hs), Ht as (_ & Ht). eauto.
    + destruct Hs as (_ & Hs & _), Ht as (_ & Ht & _). eauto.
Qed.
Lemma part_inside : forall w1 d w2 f h, part_at (w1 ++ d :: w2) f h -> inside w1 h.
Proof.
  induction w1 as [|c w1 IH]; intros d w2 f h H; cbn [app] in H.
  - destruct d, h; cbn [part_at] in H; cbn; tauto.
  - destruct c, h; cbn [part_at] in H; cbn [inside]; try tauto; eauto.
Qed.
Lemma part_sub : forall w f s t s' t', inside w (mcf s t) -> sub s w = Some s' -> sub t w = Some t' ->
  prefix f (mcf s' t') -> part_at w f (mcf s t).
Proof.
  induction w as [|d w IH]; intros f s t s' t' HI Es Et HP.
  - cbn in Es, Et. injection Es as <-. injection Et as <-. exact HP.
  - destruct s as [p x|p s1|p s1 s2], t as [q y|q t1|q t1 t2]; destruct d; cbn [sub] in Es, Et; try discriminate;
      cbn [mcf bprod] in *; destruct (Z.eqb_spec p q); cbn [inside] in HI; try tauto; cbn [part_at]; eauto.
Qed.
Lemma matches_open : forall f t, f <> Open -> matches f t -> forall s, matches f s -> bprod s = bprod t.
Proof.
  intros f t NO Ht s Hs. destruct f; [congruence| | |]; destruct s, t; cbn in *; intuition congruence.
Qed.

Section Common.
Variables ta tb : btree.
Hypothesis AG : agree ta tb.
Lemma root_common : forall u v s t, isroot ta tb u v -> sub ta u = Some s -> sub tb v = Some t ->
  common (mcf s t) ta u tb v /\ maximal (mcf s t) ta u tb v.
Proof.
  intros u v s t R Es Et. destruct (proj1 R) as (s0 & t0 & E1 & E2 & Ep).
  assert (s0 = s) by congruence. assert (t0 = t) by congruence. subst s0 t0.
  assert (NO : mcf s t <> Open).
  { intros E. apply mcf_open in E; [congruence|]. left. apply agree_here; auto. exact (agree_subs ta tb AG u v s t Es Et). }
  split.
  - split; auto. split; [exists s; split; auto; apply mcf_matches_l|exists t; split; auto; apply mcf_matches_r].
  - intros h u' v' w (NOh & (s' & Es' & Hs') & (t' & Et' & Ht')) Eu Ev HP.
    destruct (list_eq_dec bool_dec w []) as [->|NE].
    + rewrite app_nil_r in Eu, Ev. subst u' v'. assert (s' = s) by congruence. assert (t' = t) by congruence. subst s' t'.
      apply prefix_antisym; [now apply mcf_largest|exact HP].
    + exfalso. destruct (exists_last NE) as (w' & d & ->).
      pose proof (part_inside w' d [] _ _ HP) as HI.
      destruct (inside_eq w' h s' t' HI Hs' Ht') as (s2 & t2 & F1 & F2 & F3).
      apply (proj2 R). exists (u' ++ w'), (v' ++ w'), d. rewrite <- !app_assoc. split; auto. split; auto.
      exists s2, t2. rewrite !sub_app, Es', Et'. auto.
Qed.
Lemma common_root : forall f u v, common f ta u tb v -> exists x y w s t,
  isroot ta tb x y /\ u = x ++ w /\ v = y ++ w /\ sub ta x = Some s /\ sub tb y = Some t /\ part_at w f (mcf s t).
Proof.
  intros f u v (NO & (s & Es & Hs) & (t & Et & Ht)).
  assert (Ep : eqp ta tb u v).
  { exists s, t. split; auto. split; auto. exact (matches_open f t NO Ht s Hs). }
  destruct (root_exists ta tb u v Ep) as (x & y & R & w & -> & -> & C).
  destruct (proj1 R) as (s1 & t1 & E1 & E2 & _). exists x, y, w, s1, t1. split; auto. split; auto. split; auto. split; auto. split; auto.
  rewrite sub_app, E1 in Es. rewrite sub_app, E2 in Et.
  apply (part_sub w f s1 t1 s t); auto.
  - apply (inside_chain ta tb AG w x y s1 t1 E1 E2). exact C.
  - now apply mcf_largest.
Qed.
End Common.

(** no node with a single phrasal child *)
Fixpoint no_unary (t : btree) : Prop :=
  match t with Lex _ _ => True | Un _ _ => False | Bin _ t1 t2 => no_unary t1 /\ no_unary t2 end.
Lemma no_unary_sub : forall u t s, no_unary t -> sub t u = Some s -> no_unary s.
Proof.
  induction u as [|d u IH]; intros t s H E; [cbn in E; congruence|].
  destruct d, t; cbn [sub] in E; try discriminate; cbn in H; try tauto; eapply IH; eauto; tauto.
Qed.
Lemma codeterms_terminals : forall s t, no_unary s -> codeterms (mcf s t) = Z.of_nat (terminals (mcf s t)).
Proof.
  induction s as [p x|p s1 IH1|p s1 IH1 s2 IH2]; intros t H; cbn [mcf bprod]; destruct (Z.eqb_spec p (bprod t)); cbn in H; try tauto;
    destruct t; cbn [codeterms terminals]; auto.
  rewrite IH1, IH2 by tauto. lia.
Qed.
Lemma codeterms_nonneg : forall f, (0 <= codeterms f)%Z.
Proof. induction f; cbn; lia. Qed.

Lemma slots_enough : forall k n, k <= n -> k <= 64 * slots_for n.
Proof.
  intros k n H. unfold slots_for. pose proof (C03_bitnslots (N.of_nat n + 1)). lia.
Qed.
Lemma maxnodes_le : forall ts i, i < length ts -> length (fst (nth i ts ([], 0))) <= maxnodes ts.
Proof.
  unfold maxnodes. induction ts as [|t ts IH]; intros i Hi; [cbn in Hi; lia|].
  cbn [map fold_right]. destruct i; cbn [nth]; [lia|]. cbn in Hi. specialize (IH i ltac:(lia)). lia.
Qed.

(** * Building node arrays: copynodes, addnodes *)
Fixpoint bsize (t : btree) : nat := match t with Lex _ _ => 1 | Un _ t => S (bsize t) | Bin _ t1 t2 => S (bsize t1 + bsize t2) end.
Lemma preorder_length : forall t, length (preorder t) = bsize t.
Proof. induction t; cbn; auto. rewrite app_length. lia. Qed.

(** copynodes lays out the tree in preorder, starting at position k *)
Fixpoint layout (k : nat) (t : btree) : list node :=
  match t with
  | Lex p i => [mkNode p (- Z.of_nat i - 1) (-1)]
  | Un p t1 => mkNode p (Z.of_nat (S k)) (-1) :: layout (S k) t1
  | Bin p t1 t2 => mkNode p (Z.of_nat (S k)) (Z.of_nat (S k + bsize t1)) :: layout (S k) t1 ++ layout (S k + bsize t1) t2
  end.
Lemma layout_length : forall t k, length (layout k t) = bsize t.
Proof. induction t; intros k; cbn; auto. rewrite app_length, IHt1, IHt2. lia. Qed.
Lemma nth_shift : forall (l1 l2 l3 : list Z) k d, k = length l1 -> nth k (l1 ++ l2 ++ l3) d = nth 0 (l2 ++ l3) d.
Proof. intros l1 l2 l3 k d ->. rewrite app_nth2 by lia. now rewrite Nat.sub_diag. Qed.
Lemma copy_un : forall L (l l' : L) ts prods idx, copynodes (Node l [Node l' ts]) prods idx =
  match copynodes (Node l' ts) prods (S idx) with
  | Some k => Some (mkNode (nth idx prods (-1)%Z) (Z.of_nat (S idx)) (-1) :: k)
  | None => None
  end.
Proof. reflexivity. Qed.
Lemma copy_bin : forall L (l l1 l2 : L) ts1 ts2 prods idx, copynodes (Node l [Node l1 ts1; Node l2 ts2]) prods idx =
  match copynodes (Node l1 ts1) prods (S idx) with
  | Some k1 =>
      match copynodes (Node l2 ts2) prods (S idx + length k1) with
      | Some k2 => Some (mkNode (nth idx prods (-1)%Z) (Z.of_nat (S idx)) (Z.of_nat (S idx + length k1)) :: k1 ++ k2)
      | None => None
      end
  | None => None
  end.
Proof. reflexivity. Qed.
Lemma copynodes_layout : forall L t (s : tree L nat) pre post, same_shape s t ->
  copynodes s (pre ++ preorder t ++ post) (length pre) = Some (layout (length pre) t).
Proof.
  intros L. induction t as [p x|p t1 IH1|p t1 IH1 t2 IH2]; intros s pre post HS.
  - destruct s as [|l [|[k|l' ts] [|c2 [|]]]]; cbn [same_shape] in HS; try tauto. subst k.
    cbn [copynodes]. rewrite nth_shift by reflexivity. reflexivity.
  - destruct s as [|l [|[k|l' ts] [|c2 [|]]]]; try (cbn [same_shape] in HS; tauto).
    change (same_shape (Node l' ts) t1) in HS.
    rewrite copy_un, nth_shift by reflexivity. cbn [preorder app nth].
    specialize (IH1 (Node l' ts) (pre ++ [p]) post HS). rewrite app_length in IH1. cbn [length] in IH1.
    rewrite Nat.add_1_r, <- app_assoc in IH1. cbn [app] in IH1. rewrite IH1. reflexivity.
  - destruct s as [|l [|[k|l' ts] [|[k2|l2 ts2] [|]]]]; try (cbn [same_shape] in HS; tauto).
    change (same_shape (Node l' ts) t1 /\ same_shape (Node l2 ts2) t2) in HS. destruct HS as [HS1 HS2].
    rewrite copy_bin, nth_shift by reflexivity. cbn [preorder app nth].
    specialize (IH1 (Node l' ts) (pre ++ [p]) (preorder t2 ++ post) HS1). rewrite app_length in IH1. cbn [length] in IH1.
    rewrite Nat.add_1_r, <- app_assoc in IH1. cbn [app] in IH1.
    specialize (IH2 (Node l2 ts2) (pre ++ [p] ++ preorder t1) post HS2).
    rewrite !app_length, preorder_length in IH2. cbn [length] in IH2.
    replace (length pre + (1 + bsize t1)) with (S (length pre) + bsize t1) in IH2 by lia.
    rewrite <- !app_assoc in IH2. cbn [app] in IH2. rewrite <- !app_assoc. rewrite IH1, layout_length, IH2. reflexivity.
Qed.

Lemma nd_app_r : forall l1 l2 k, nd (l1 ++ l2) (length l1 + k) = nd l2 k.
Proof. intros. unfold nd. rewrite app_nth2 by lia. f_equal. lia. Qed.
Lemma nd_mid : forall l1 x l2, nd (l1 ++ x :: l2) (length l1) = x.
Proof. intros. pose proof (nd_app_r l1 (x :: l2) 0) as E. rewrite Nat.add_0_r in E. exact E. Qed.
Lemma nd_app_l : forall l1 l2 k, k < length l1 -> nd (l1 ++ l2) k = nd l1 k.
Proof. intros. unfold nd. now rewrite app_nth1. Qed.

(** in a bigger array, the layout holds the tree, its nodes being consecutive *)
Lemma layout_holds : forall t pre post, let a := pre ++ layout (length pre) t ++ post in
  holds a (length pre) t /\ nodes_of a (length pre) t = seq (length pre) (bsize t).
Proof.
  induction t as [p x|p t1 IH1|p t1 IH1 t2 IH2]; intros pre post.
  - cbn [layout app holds nodes_of bsize seq]. rewrite app_length. cbn [length].
    assert (E : nd (pre ++ mkNode p (- Z.of_nat x - 1) (-1) :: post) (length pre) = mkNode p (- Z.of_nat x - 1) (-1)).
    { apply nd_mid. }
    rewrite E. cbn [prod left right]. split; [split; [lia|auto]|reflexivity].
  - cbn [layout app holds nodes_of bsize seq].
    set (n0 := mkNode p (Z.of_nat (S (length pre))) (-1)).
    specialize (IH1 (pre ++ [n0]) post). rewrite app_length in IH1. cbn [length] in IH1.
    rewrite Nat.add_1_r, <- app_assoc in IH1. cbn [app] in IH1.
    set (a := pre ++ n0 :: layout (S (length pre)) t1 ++ post) in *.
    assert (E : nd a (length pre) = n0).
    { apply nd_mid. }
    rewrite E. cbn [n0 prod left right]. unfold kid. rewrite Nat2Z.id. destruct IH1 as [H1 H2].
    split; [|now rewrite H2]. split; [unfold a; rewrite app_length; cbn; lia|]. split; auto. split; [lia|]. auto.
  - cbn [layout app holds nodes_of bsize seq].
    set (n0 := mkNode p (Z.of_nat (S (length pre))) (Z.of_nat (S (length pre) + bsize t1))).
    specialize (IH1 (pre ++ [n0]) (layout (S (length pre) + bsize t1) t2 ++ post)). rewrite app_length in IH1. cbn [length] in IH1.
    rewrite Nat.add_1_r, <- app_assoc in IH1. cbn [app] in IH1.
    specialize (IH2 (pre ++ [n0] ++ layout (S (length pre)) t1) post). rewrite !app_length, layout_length in IH2. cbn [length] in IH2.
    replace (length pre + (1 + bsize t1)) with (S (length pre) + bsize t1) in IH2 by lia.
    rewrite <- !app_assoc in IH2. cbn [app] in IH2. rewrite <- !app_assoc. cbn [app] in *.
    set (a := pre ++ n0 :: layout (S (length pre)) t1 ++ layout (S (length pre) + bsize t1) t2 ++ post) in *.
    assert (E : nd a (length pre) = n0).
    { apply nd_mid. }
    rewrite E. cbn [n0 prod left right]. unfold kid. rewrite !Nat2Z.id. destruct IH1 as [H1 H2], IH2 as [H3 H4].
    split.
    + split; [unfold a; rewrite app_length; cbn; lia|]. split; auto. split; [lia|]. split; [lia|]. auto.
    + rewrite H2, H4, seq_app. reflexivity.
Qed.

(** addnodes permutes the nodes *)
Lemma position_nth : forall l k, In k l -> position k l < length l /\ nth (position k l) l 0 = k.
Proof.
  induction l as [|x l IH]; intros k H; [contradiction|]. cbn [position]. destruct (Nat.eqb_spec k x) as [->|N].
  - cbn. split; auto. lia.
  - destruct H as [->|H]; [congruence|]. destruct (IH k H). cbn. split; auto. lia.
Qed.
Lemma position_inj : forall l k k', In k l -> In k' l -> position k l = position k' l -> k = k'.
Proof.
  intros l k k' H H' E. rewrite <- (proj2 (position_nth l k H)), <- (proj2 (position_nth l k' H')). now rewrite E.
Qed.
Section Reorder.
Variable source : list node.
Let order := sortorder source.
Let dest := map (fun n => translate order (nd source n)) order.
Lemma order_perm : Permutation (seq 0 (length source)) order.
Proof. apply sort_perm. Qed.
Lemma order_In : forall k, In k order <-> k < length source.
Proof.
  intros k. split; intros H.
  - apply (Permutation_in _ (Permutation_sym order_perm)) in H. apply in_seq in H. lia.
  - apply (Permutation_in _ order_perm). apply in_seq. lia.
Qed.
Lemma order_length : length order = length source.
Proof. rewrite <- (Permutation_length order_perm). apply seq_length. Qed.
Lemma dest_nth : forall k, k < length source -> nd dest (position k order) = translate order (nd source k).
Proof.
  intros k Hk. destruct (position_nth order k (proj2 (order_In k) Hk)) as [H1 H2].
  unfold nd at 1, dest. rewrite (nth_indep _ _ (translate order (nd source 0))) by now rewrite map_length.
  rewrite (map_nth (fun n => translate order (nd source n)) order 0). now rewrite H2.
Qed.
Lemma dest_holds : forall t i, holds source i t ->
  holds dest (position i order) t /\ nodes_of dest (position i order) t = map (fun k => position k order) (nodes_of source i t).
Proof.
  assert (Lp : forall i, i < length source -> position i order < length dest).
  { intros i Hi. unfold dest. rewrite map_length. apply position_nth. now apply order_In. }
  induction t as [p x|p t1 IH1|p t1 IH1 t2 IH2]; intros i H; pose proof (holds_lt _ _ _ H) as Li; cbn [holds nodes_of] in *;
    rewrite (dest_nth i Li); unfold translate; cbn [prod left right].
  - destruct H as (_ & H1 & H2 & H3). rewrite H2, H3.
    destruct (Z.leb_spec 0 (- Z.of_nat x - 1)); [lia|]. cbn [Z.leb Z.compare].
    split; [|reflexivity]. split; [now apply Lp|auto].
  - destruct H as (_ & H1 & H2 & H3 & H4). rewrite H3. cbn [Z.leb Z.compare].
    destruct (Z.leb_spec 0 (left (nd source i))); [|lia]. unfold kid. rewrite Nat2Z.id. destruct (IH1 _ H4) as [IA IB].
    split; [|cbn [map]; f_equal; exact IB]. split; [now apply Lp|]. split; auto. split; [lia|]. split; auto.
  - destruct H as (_ & H1 & H2 & H3 & H4 & H5).
    destruct (Z.leb_spec 0 (left (nd source i))); [|lia]. destruct (Z.leb_spec 0 (right (nd source i))); [|lia].
    unfold kid. rewrite !Nat2Z.id. destruct (IH1 _ H4) as [IA IB]. destruct (IH2 _ H5) as [IC ID].
    split; [|cbn [map]; f_equal; rewrite map_app; f_equal; [exact IB|exact ID]].
    split; [now apply Lp|]. split; auto. split; [lia|]. split; [lia|]. split; auto.
Qed.
Lemma dest_ordered : StronglySorted Z.le (map prod dest).
Proof.
  unfold dest. rewrite map_map. cbn [translate prod].
  assert (G : forall l, StronglySorted (fun x y => (prod (nd source x) <=? prod (nd source y))%Z = true) l ->
     StronglySorted Z.le (map (fun x => prod (nd source x)) l)).
  { induction 1 as [|x l HS IH HF]; cbn; constructor; auto. rewrite Forall_forall in *. intros z Hz.
    apply in_map_iff in Hz. destruct Hz as (y & <- & Hy). apply Z.leb_le. auto. }
  apply G. unfold order, sortorder. apply sort_sorted.
  - intros x y. rewrite !Z.leb_le. lia.
  - intros x y z. rewrite !Z.leb_le. lia.
Qed.
Lemma position_perm : Permutation (map (fun k => position k order) order) (seq 0 (length source)).
Proof.
  apply NoDup_Permutation_bis.
  - assert (ND : NoDup order) by (apply (Permutation_NoDup order_perm); apply seq_NoDup).
    assert (G : forall l, NoDup l -> incl l order -> NoDup (map (fun k => position k order) l)).
    { induction 1 as [|k l Hn ND' IH]; intros HI; cbn; constructor.
      - intros HX. apply in_map_iff in HX. destruct HX as (k' & E & Hk').
        apply Hn. rewrite <- (position_inj order k' k); auto; apply HI; cbn; auto.
      - apply IH. intros z Hz. apply HI. now right. }
    apply G; auto. apply incl_refl.
  - rewrite map_length, seq_length, order_length. lia.
  - intros z Hz. apply in_map_iff in Hz. destruct Hz as (k & <- & Hk). apply in_seq. apply position_nth in Hk.
    rewrite order_length in Hk. lia.
Qed.
Lemma addnodes_array : forall root t, holds source root t -> Permutation (nodes_of source root t) (seq 0 (length source)) ->
  array_of (fst (addnodes source root)) (snd (addnodes source root)) t.
Proof.
  intros root t H P. unfold addnodes. cbn [fst snd]. fold order. fold dest.
  destruct (dest_holds t root H) as [H1 H2]. split; auto. split; [|exact dest_ordered].
  rewrite H2. replace (length dest) with (length source) by (unfold dest; rewrite map_length; symmetry; apply order_length).
  eapply Permutation_trans; [apply Permutation_map; exact P|].
  eapply Permutation_trans; [apply Permutation_map; exact order_perm|]. apply position_perm.
Qed.
End Reorder.

Lemma getctree_ok : forall L (s : tree L nat) t, same_shape s t ->
  exists a ra, getctree s (preorder t) = Some (a, ra) /\ array_of a ra t.
Proof.
  intros L s t H. unfold getctree.
  pose proof (copynodes_layout L t s [] [] H) as E. cbn [app length] in E. rewrite app_nil_r in E. rewrite E.
  destruct (layout_holds t [] []) as [H1 H2]. cbn [app length] in H1, H2. rewrite app_nil_r in H1, H2.
  destruct (addnodes (layout 0 t) 0) as [a ra] eqn:EA. exists a, ra. split; auto.
  change a with (fst (a, ra)). change ra with (snd (a, ra)) at 2. rewrite <- EA. apply addnodes_array; auto.
  rewrite H2, layout_length. apply Permutation_refl.
Qed.
