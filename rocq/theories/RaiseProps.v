(** C87: raising discontinuous components (raisediscnodes). *)
From Coq Require Import String.
From Coq Require Import List Bool Arith NArith ZArith Lia Permutation Sorted.
From Verif Require Import PyStr TreeModel BracketModel BracketProofs BinarizeModel UtilModel UtilProps SortProofs ContsetsProofs TreeProps BinarizeProps TransformModel TransformProps SplitProofs MergeDisc SplitProps RaiseModel.
Import ListNotations.
Open Scope list_scope.

(** ** Specification *)
(** the nodes of a tree, with their children *)
Fixpoint nodes (t : btree) : list (nlabel * list btree) :=
  match t with Leaf _ => [] | Node l ts => (l, ts) :: flat_map nodes ts end.
(** a node is continuous if its words form one component *)
Definition continuous (t : btree) : bool := length (components (leaves t)) =? 1.
(** is there a head among the children that is continuous and has words in this component? *)
Definition headin (ts : list btree) (comp : list nat) : bool :=
  existsb (fun c => ishead c && continuous c && existsb (fun i => existsb (Nat.eqb i) comp) (leaves c)) ts.
(** what becomes of a node: its label and words stay when it is continuous;
    otherwise those of its components stay that have a continuous head, without a
    head mark *)
Definition raised (p : nlabel * list btree) : list (nlabel * list nat) :=
  let s := flat_map leaves (snd p) in
  if length (components s) =? 1 then [(fst p, sort Nat.leb s)]
  else map (fun comp => ((fst (fst p), false), comp)) (filter (headin (snd p)) (components s)).

(** ** Lemmas *)
Notation R := raisenodes.
Definition RB (ts : list btree) : list btree := flat_map raisechild (map R ts).
Definition RC (c : btree) : list btree := RB (P false c).
Lemma RB_app : forall a b, RB (a ++ b) = RB a ++ RB b.
Proof. intros. unfold RB. now rewrite map_app, flat_map_app. Qed.
Lemma RB_flat : forall {X} (f : X -> list btree) ts, RB (flat_map f ts) = flat_map (fun c => RB (f c)) ts.
Proof. intros X f ts. induction ts as [|t r IH]; [reflexivity|]. cbn [flat_map]. now rewrite RB_app, IH. Qed.
Lemma RB_perm : forall a b, Permutation a b -> Permutation (RB a) (RB b).
Proof. intros a b H. unfold RB. now apply Permutation_flat_map, Permutation_map. Qed.
Lemma R_node : forall l ts, R (Node l ts) = Node l (RB ts).
Proof. reflexivity. Qed.
Lemma star_match : forall l, SPLITLABELRE (l ++ str "*") = Some (l, None).
Proof. intro l. unfold SPLITLABELRE. rewrite rev_app_distr. cbn. now rewrite rev_involutive. Qed.

Lemma raisechild_leaves : forall c, flat_map leaves (raisechild c) = leaves c.
Proof.
  intros [a|[lab h] gc]; [reflexivity|]. cbn [raisechild]. destruct (SPLITLABELRE lab) as [[l p]|]; [|cbn; now rewrite app_nil_r].
  destruct (existsb ishead gc); [cbn; now rewrite app_nil_r|reflexivity].
Qed.
Lemma R_leaves : forall t, leaves (R t) = leaves t.
Proof.
  intro t. induction t as [a|l ts IH] using tree_ind'; [reflexivity|]. rewrite R_node. cbn [leaves]. unfold RB.
  induction ts as [|c r IHr]; [reflexivity|]. inversion IH as [|? ? H1 H2]; subst. cbn [map flat_map]. rewrite flat_map_app, raisechild_leaves, H1. f_equal. now apply IHr.
Qed.
Lemma RB_leaves : forall ts, flat_map leaves (RB ts) = flat_map leaves ts.
Proof. intro ts. exact (R_leaves (Node ([], false) ts)). Qed.
Lemma R_head : forall t, ishead (R t) = ishead t.
Proof. intros [a|[l h] ts]; reflexivity. Qed.

(** the constituents after raising are constituents before *)
Lemma raise_spans : forall c, incl (map snd (flat_map constituents (raisechild (R c)))) (map snd (constituents c)).
Proof.
  intro c. induction c as [a|l ts IH] using tree_ind'; [intros x H; exact H|]. rewrite R_node. cbn [constituents map].
  assert (X : incl (map snd (flat_map constituents (RB ts))) (map snd (flat_map constituents ts))).
  { unfold RB. clear l. induction ts as [|c r IHr]; [intros x H; exact H|]. inversion IH as [|? ? H1 H2]; subst. cbn [map flat_map]. rewrite flat_map_app, !map_app.
    apply incl_app; [apply incl_appl; exact H1|apply incl_appr, IHr, H2]. }
  destruct l as [lab h]. cbn [raisechild]. destruct (SPLITLABELRE lab) as [[l0 p]|].
  - destruct (existsb ishead (RB ts)).
    + cbn [flat_map constituents app map]. rewrite app_nil_r. cbn [leaves]. rewrite RB_leaves. cbn [snd]. intros x [<-|H]; [now left|right; now apply X].
    + intros x H. right. now apply X.
  - cbn [flat_map constituents app map]. rewrite app_nil_r. cbn [leaves]. rewrite RB_leaves. cbn [snd]. intros x [<-|H]; [now left|right; now apply X].
Qed.

(** ** Yield and continuity *)
(** the words are kept, in order *)
Theorem C87_yield : forall t r, ptree t -> NoDup (leaves t) -> raisediscnodes t = Some r -> leaves r = sort Nat.leb (leaves t).
Proof.
  intros t r HP ND E. unfold raisediscnodes in E. destruct (headsok t); [|discriminate]. injection E as <-. rewrite R_leaves. now apply C22_yield.
Qed.
(** every constituent below the root is contiguous *)
Theorem C87_continuous : forall t r, ptree t -> NoDup (leaves t) -> raisediscnodes t = Some r ->
  forall l s, In (l, s) (flat_map constituents (children r)) -> exists a k, 0 < k /\ s = seq a k.
Proof.
  intros t r HP ND E l s H. unfold raisediscnodes in E. destruct (headsok t); [|discriminate]. injection E as <-.
  pose proof (C22_continuous false t HP ND) as C. destruct (splitdiscnodes false t) as [a|l0 us]; [contradiction|]. rewrite R_node in H. cbn [children] in *.
  assert (X : incl (map snd (flat_map constituents (RB us))) (map snd (flat_map constituents us))).
  { unfold RB. clear. induction us as [|c r IHr]; [intros x H; exact H|]. cbn [map flat_map]. rewrite flat_map_app, !map_app. apply incl_app; [apply incl_appl, raise_spans|apply incl_appr, IHr]. }
  assert (I : In s (map snd (flat_map constituents us))) by (apply X; apply in_map_iff; exists (l, s); split; auto).
  apply in_map_iff in I. destruct I as ([l' s'] & E & I). cbn in E. subst s'. eapply C. exact I.
Qed.
(** an error is given exactly when some node has neither a word nor a head among its children *)
Theorem C87_error : forall t, raisediscnodes t = None <-> ~ every_node (fun _ ts => (exists a, In (Leaf a) ts) \/ exists c, In c ts /\ ishead c = true) t.
Proof.
  intro t. unfold raisediscnodes. assert (X : headsok t = true <-> every_node (fun _ ts => (exists a, In (Leaf a) ts) \/ exists c, In c ts /\ ishead c = true) t).
  { induction t as [a|l ts IH] using tree_ind'; [cbn; tauto|]. cbn [headsok every_node]. rewrite andb_true_iff, negb_true_iff.
    assert (A : forallb (fun a => is_node a && negb (ishead a)) ts = false <-> (exists a, In (Leaf a) ts) \/ exists c, In c ts /\ ishead c = true).
    { clear IH. induction ts as [|c r IHr]; [split; [discriminate|intros [[a []]|(c & [] & _)]]|]. cbn [forallb]. rewrite andb_false_iff, IHr. clear IHr. split.
      - intros [H|[[a H]|(d & H & D)]].
        + destruct c as [a|[l0 h] us]; [left; exists a; now left|]. right. exists (Node (l0, h) us). split; [now left|]. cbn in *. now destruct h.
        + left. exists a. now right.
        + right. exists d. split; [now right|exact D].
      - intros [[a [->|H]]|(d & [->|H] & D)].
        + left. reflexivity.
        + right. left. now exists a.
        + left. rewrite D. now rewrite andb_false_r.
        + right. right. now exists d. }
    rewrite A. assert (B : forallb headsok ts = true <-> fold_right (fun c r => every_node (fun _ ts => (exists a, In (Leaf a) ts) \/ exists c, In c ts /\ ishead c = true) c /\ r) True ts).
    { clear A. induction ts as [|c r IHr]; [cbn; tauto|]. inversion IH as [|? ? H1 H2]; subst. cbn [forallb fold_right]. rewrite andb_true_iff, H1, (IHr H2). tauto. }
    rewrite B. tauto. }
  destruct (headsok t) eqn:E.
  - split; [discriminate|]. intro N. exfalso. apply N. now apply X.
  - split; auto. intros _ H. apply X in H. congruence.
Qed.

(** ** Constituents *)
Section One.
(** raising and the order of children *)
Definition lperm (a b : list btree) : Prop := exists c, Forall2 tperm a c /\ Permutation c b.
Lemma lperm_app : forall a b c d, lperm a b -> lperm c d -> lperm (a ++ c) (b ++ d).
Proof. intros a b c d (x & X1 & X2) (y & Y1 & Y2). exists (x ++ y). split; [now apply Forall2_app|now apply Permutation_app]. Qed.
Lemma tperm_head : forall u v : btree, tperm u v -> ishead u = ishead v.
Proof. intros u v H. inversion H; reflexivity. Qed.
Lemma lperm_head : forall a b, lperm a b -> existsb ishead a = existsb ishead b.
Proof.
  intros a b (c & F & Q). transitivity (existsb ishead c).
  - clear Q. induction F as [|x y a c H F IH]; [reflexivity|]. cbn [existsb]. now rewrite (tperm_head _ _ H), IH.
  - clear F. apply eq_true_iff_eq. split; intro H; apply existsb_exists in H; destruct H as (x & H1 & H2); apply existsb_exists; exists x; split; auto; [eapply Permutation_in; [exact Q|exact H1]|eapply Permutation_in; [apply Permutation_sym; exact Q|exact H1]].
Qed.
Lemma lperm_raise : forall u v, tperm u v -> tperm (R u) (R v) /\ lperm (raisechild (R u)) (raisechild (R v)).
Proof.
  intro u. induction u as [a|l ts IH] using tree_ind'; intros v H; inversion H as [|? ? us vs F Q]; subst.
  - split; [constructor|]. exists [Leaf a]. split; [constructor; [constructor|constructor]|constructor; constructor].
  - assert (X : lperm (RB ts) (RB vs)).
    { assert (Y : lperm (RB ts) (RB us)).
      { clear - IH F. induction F as [|x y ts us Hxy F IH2]; [exists []; split; constructor|]. inversion IH as [|? ? H1 H2]; subst. unfold RB. cbn [map flat_map]. apply lperm_app; [apply H1; exact Hxy|apply IH2; exact H2]. }
      destruct Y as (c & Y1 & Y2). exists c. split; [exact Y1|]. eapply perm_trans; [exact Y2|]. now apply RB_perm. }
    assert (T : tperm (Node l (RB ts)) (Node l (RB vs))). { destruct X as (c & X1 & X2). econstructor; [exact X1|exact X2]. }
    rewrite !R_node. split; [exact T|]. destruct l as [lab h]. cbn [raisechild].
    destruct (SPLITLABELRE lab) as [[l p]|].
    + rewrite (lperm_head _ _ X). destruct (existsb ishead (RB vs)); [|exact X]. exists [Node (l, h) (RB vs)]. split; [|constructor; constructor].
      constructor; [|constructor]. destruct X as (c & X1 & X2). econstructor; [exact X1|exact X2].
    + exists [Node (lab, h) (RB vs)]. split; [|constructor; constructor]. constructor; [exact T|constructor].
Qed.
End One.

Lemma in_parts_head : forall c x, In x (P false c) -> (forall l ts, splitnodes false c = Node l ts -> nostar (fst l)) ->
  existsb ishead (raisechild (R x)) = ishead c && negb (isdisc (splitnodes false c)).
Proof.
  intros c x I NS. unfold P in I. destruct c as [a|l ts]; [cbn in I; destruct I as [<-|[]]; reflexivity|]. rewrite split_node in *. cbn [splitchild] in I.
  destruct (isdisc (Node l (flat_map (P false) ts))) eqn:D.
  - apply parts_in in I. destruct I as (i & b & _ & ->). rewrite R_node. cbn [raisechild]. unfold partlabel. rewrite star_match. rewrite andb_false_r.
    destruct (existsb ishead (RB b)) eqn:E; [reflexivity|exact E].
  - destruct I as [<-|[]]. rewrite R_node. destruct l as [lab h]. cbn [raisechild]. rewrite SPLIT_none by (apply (NS _ _ eq_refl)). cbn. now rewrite orb_false_r, andb_true_r.
Qed.

Lemma continuous_split : forall c, okt c -> NoDup (leaves c) -> continuous c = negb (isdisc (splitnodes false c)).
Proof.
  intros c HO ND. pose proof (split_all false c HO ND) as [S1 S2 S3 S4]. unfold continuous. rewrite <- (components_perm _ _ S3).
  assert (NE : leaves (splitnodes false c) <> []) by now apply okt_ne.
  destruct (isdisc (splitnodes false c)) eqn:D; cbn [negb].
  - apply disc_iff in D; auto. unfold discontinuous in D. apply Nat.eqb_neq. lia.
  - apply isdisc_interval in D; auto. rewrite interval_components by exact D. reflexivity.
Qed.

Lemma heads_block : forall ts b, Forall okt ts -> NoDup (flat_map leaves ts) -> NoDup (flat_map leaves (flat_map (P false) ts)) ->
  Forall (fun c => match c with Leaf _ => True | Node l _ => nostar (fst l) end) ts -> incl b (flat_map (P false) ts) ->
  existsb ishead (RB b) = headin ts (sort Nat.leb (flat_map leaves b)).
Proof.
  intros ts b OC ND NDu NS INC. rewrite Forall_forall in OC, NS.
  assert (NS' : forall c, In c ts -> forall l us, splitnodes false c = Node l us -> nostar (fst l)).
  { intros c Hc l us E. specialize (NS c Hc). destruct c as [a|l0 ts0]; [discriminate|]. rewrite split_node in E. injection E as <- _. exact NS. }
  apply eq_true_iff_eq. split.
  - intro H. apply existsb_exists in H. destruct H as (y & Hy & Hh). unfold RB in Hy. apply in_flat_map in Hy. destruct Hy as (rx & Hx & Hy). apply in_map_iff in Hx. destruct Hx as (x & <- & Hx).
    pose proof (INC x Hx) as Hu. apply in_flat_map in Hu. destruct Hu as (c & Hc & Hxc).
    assert (E : existsb ishead (raisechild (R x)) = true) by (apply existsb_exists; eauto).
    rewrite (in_parts_head c x Hxc (NS' c Hc)) in E. apply andb_true_iff in E. destruct E as [E1 E2].
    assert (NDc : NoDup (leaves c)) by (eapply nodup_child; eauto). pose proof (parts_all false c (OC c Hc) NDc) as PO.
    unfold headin. apply existsb_exists. exists c. split; [exact Hc|]. rewrite E1, (continuous_split c (OC c Hc) NDc), E2. cbn [andb].
    assert (NEx : leaves x <> []). { apply okt_ne. pose proof (po_okt _ _ PO) as F. rewrite Forall_forall in F. now apply F. }
    destruct (leaves x) as [|i rest] eqn:Lx; [congruence|]. apply existsb_exists. exists i. split.
    + eapply Permutation_in; [exact (po_perm _ _ PO)|]. apply in_flat_map. exists x. split; [exact Hxc|]. rewrite Lx. now left.
    + apply existsb_exists. exists i. split; [|apply Nat.eqb_refl]. apply sort_In. apply in_flat_map. exists x. split; [exact Hx|]. rewrite Lx. now left.
  - intro H. unfold headin in H. apply existsb_exists in H. destruct H as (c & Hc & H). apply andb_true_iff in H. destruct H as [H H3]. apply andb_true_iff in H. destruct H as [H1 H2].
    apply existsb_exists in H3. destruct H3 as (i & Hi & H3). apply existsb_exists in H3. destruct H3 as (j & Hj & H3). apply Nat.eqb_eq in H3. subst j. apply sort_In in Hj. apply in_flat_map in Hj. destruct Hj as (y & Hy & Hj).
    assert (NDc : NoDup (leaves c)) by (eapply nodup_child; eauto). rewrite (continuous_split c (OC c Hc) NDc) in H2.
    assert (PE : P false c = [splitnodes false c]). { unfold P. destruct (splitnodes false c) as [a|l us] eqn:E; [reflexivity|]. cbn [splitchild]. apply negb_true_iff in H2. now rewrite H2. }
    assert (Iu : In (splitnodes false c) (flat_map (P false) ts)) by (apply in_flat_map; exists c; split; [exact Hc|rewrite PE; now left]).
    pose proof (split_all false c (OC c Hc) NDc) as [S1 S2 S3 S4].
    assert (YE : splitnodes false c = y).
    { eapply nodup_child_unique; [exact Iu|exact (INC y Hy)|exact NDu| |exact Hj]. eapply Permutation_in; [apply Permutation_sym; exact S3|exact Hi]. }
    subst y. assert (E := in_parts_head c (splitnodes false c)). rewrite PE in E. specialize (E (or_introl eq_refl) (NS' c Hc)). rewrite H1, H2 in E. cbn [andb] in E.
    apply existsb_exists in E. destruct E as (z & Hz & Hh). apply existsb_exists. exists z. split; [|exact Hh]. unfold RB. apply in_flat_map. exists (R (splitnodes false c)). split; [now apply in_map|exact Hz].
Qed.

Definition nostars (t : btree) : Prop := every_node (fun l _ => nostar (fst l)) t.
Lemma nostars_child : forall l ts, nostars (Node l ts) -> nostar (fst l) /\ Forall nostars ts.
Proof. intros l ts H. unfold nostars in *. apply every_child in H. exact H. Qed.
Lemma nostars_top : forall ts, Forall nostars ts -> Forall (fun c : btree => match c with Leaf _ => True | Node l _ => nostar (fst l) end) ts.
Proof. intros ts H. eapply Forall_impl; [|exact H]. intros [a|l us] X; auto. now apply nostars_child in X. Qed.

Lemma parts_raise : forall l sets n,
  Permutation (map norm (flat_map constituents (RB (parts_from false l n sets))))
    (map (fun b => ((fst l, false), sort Nat.leb (flat_map leaves b))) (filter (fun b => existsb ishead (RB b)) sets) ++ map norm (flat_map constituents (RB (concat sets)))).
Proof.
  intros l sets. induction sets as [|s sets IH]; intros n; [auto|]. cbn [parts_from concat filter]. change (RB (?x :: ?y)) with (raisechild (R x) ++ RB y). rewrite RB_app.
  rewrite R_node. cbn [raisechild]. unfold partlabel. rewrite star_match, andb_false_r. rewrite !flat_map_app, !map_app. destruct (existsb ishead (RB s)) eqn:E.
  - cbn [flat_map constituents map app]. rewrite app_nil_r. unfold norm at 1. cbn [fst snd leaves]. rewrite RB_leaves. constructor.
    eapply perm_trans; [apply Permutation_app_head, IH|]. rewrite !app_assoc. apply Permutation_app_tail, Permutation_app_comm.
  - eapply perm_trans; [apply Permutation_app_head, IH|]. rewrite !app_assoc. apply Permutation_app_tail, Permutation_app_comm.
Qed.

Lemma filter_map' : forall {X Y} (f : X -> Y) p l, filter p (map f l) = map f (filter (fun x => p (f x)) l).
Proof. intros X Y f p l. induction l as [|x r IH]; [reflexivity|]. cbn [map filter]. destruct (p (f x)); cbn [map]; now rewrite IH. Qed.
Lemma filter_ext_in' : forall {X} (p q : X -> bool) l, (forall x, In x l -> p x = q x) -> filter p l = filter q l.
Proof. intros X p q l H. induction l as [|x r IH]; [reflexivity|]. cbn [filter]. rewrite (H x (or_introl eq_refl)), IH; auto. intros y Hy. apply H. now right. Qed.

Lemma child_raised : forall c, okt c -> NoDup (leaves c) -> nostars c ->
  Permutation (map norm (flat_map constituents (RC c))) (flat_map raised (nodes c)).
Proof.
  intros c. induction c as [a|l ts IH] using tree_ind'; intros HO ND NS; [cbn; auto|].
  pose proof (ptree_okt_children _ _ _ HO) as OC. pose proof (split_all false _ HO ND) as [S1 S2 S3 S4]. pose proof (okt_ne _ _ S1) as NE. rewrite split_node in *. cbn [leaves] in ND.
  destruct (nostars_child _ _ NS) as [NS1 NS2].
  assert (IH' : Permutation (map norm (flat_map constituents (RB (flat_map (P false) ts)))) (flat_map raised (flat_map nodes ts))).
  { rewrite RB_flat. change (fun c => RB (P false c)) with RC. assert (NDs : forall x, In x ts -> NoDup (leaves x)) by (intros; eapply nodup_child; eauto).
    clear - IH OC NDs NS2. induction ts as [|x ts IHt]; [auto|]. inversion IH; inversion OC; inversion NS2; subst. cbn [flat_map]. rewrite !flat_map_app, map_app.
    apply Permutation_app; [apply H1; auto; apply NDs; now left|]. apply IHt; auto. intros. apply NDs. now right. }
  assert (NDu : NoDup (flat_map leaves (flat_map (P false) ts))) by (eapply Permutation_NoDup; [apply Permutation_sym; exact S3|exact ND]).
  cbn [nodes flat_map]. unfold raised at 1. cbn [fst snd]. change (flat_map leaves ts) with (leaves (Node l ts)). rewrite <- (components_perm _ _ S3).
  unfold RC, P at 1. rewrite split_node. cbn [splitchild]. destruct (isdisc (Node l (flat_map (P false) ts))) eqn:D.
  - pose proof D as D'. apply disc_iff in D'; auto. unfold discontinuous in D'. cbn [leaves] in D' |- *.
    assert (G1 : forall n, In n (flat_map (P false) ts) -> contiguous [n]) by (intros n Hn; apply contiguous_interval, allcont_interval; cbn in S4; rewrite Forall_forall in S4; auto).
    rewrite blocks_components in D' |- *; auto. destruct (C37_contsets _ _ G1 NDu) as (C1 & _).
    rewrite (proj2 (Nat.eqb_neq _ _) (not_eq_sym (Nat.lt_neq _ _ D'))). rewrite filter_map', map_map.
    eapply perm_trans; [apply parts_raise|]. apply Permutation_app.
    + erewrite filter_ext_in'; [apply Permutation_refl|]. intros b Hb. apply heads_block; auto; [now apply nostars_top|]. intros x Hx. eapply Permutation_in; [exact C1|]. eapply in_block_in; eauto.
    + eapply perm_trans; [|exact IH']. now apply Permutation_map, Permutation_flat_map, RB_perm.
  - apply isdisc_interval in D; auto. rewrite interval_components by exact D. cbn [length Nat.eqb]. change (RB [Node l (flat_map (P false) ts)]) with (raisechild (R (Node l (flat_map (P false) ts))) ++ []).
    rewrite R_node, app_nil_r. destruct l as [lab h]. cbn [raisechild]. rewrite (SPLIT_none lab) by exact NS1. cbn [flat_map constituents map app]. rewrite app_nil_r.
    unfold norm at 1. cbn [fst snd leaves]. rewrite RB_leaves. assert (SE := nat_sort_perm _ _ S3). cbn [leaves] in SE. rewrite SE. constructor. exact IH'.
Qed.
(** the constituents of the result, up to order: the root, and what becomes of
    each of the other nodes *)
Theorem C87_constituents : forall l ts r, let t : btree := Node l ts in ptree t -> NoDup (leaves t) -> Forall nostars ts -> raisediscnodes t = Some r ->
  rootlabel r = Some l /\ Permutation (map norm (flat_map constituents (children r))) (flat_map raised (flat_map nodes ts)).
Proof.
  cbv zeta. intros l ts r HP ND NS E. unfold raisediscnodes in E. destruct (headsok (Node l ts)); [|discriminate]. injection E as <-.
  pose proof (C27_same_tree _ (splitnodes false (Node l ts))) as TP. fold (splitdiscnodes false (Node l ts)) in TP. apply lperm_raise in TP. destruct TP as [TP _].
  rewrite split_node, R_node in TP. inversion TP as [|? ? us vs F PM]; subst. split; [reflexivity|]. cbn [children].
  pose proof (ptree_okt_children _ _ _ HP) as OC. cbn [leaves] in ND.
  eapply perm_trans; [apply Permutation_map, Permutation_flat_map, Permutation_sym; exact PM|].
  eapply perm_trans with (map norm (flat_map constituents (RB (flat_map (P false) ts)))).
  - clear - F. induction F as [|x y xs ys Hxy F IH]; [auto|]. cbn [flat_map]. rewrite !map_app. apply Permutation_app; auto. apply Permutation_sym. now apply constituents_norm_perm.
  - rewrite RB_flat. change (fun c => RB (P false c)) with RC. assert (NDs : forall x, In x ts -> NoDup (leaves x)) by (intros; eapply nodup_child; eauto).
    clear - OC NDs NS. induction ts as [|x ts IHt]; [auto|].
    inversion OC; inversion NS; subst. cbn [flat_map]. rewrite !flat_map_app, map_app. apply Permutation_app; [apply child_raised; auto; apply NDs; now left|]. apply IHt; auto. intros. apply NDs. now right.
Qed.

(** ** Nodes are kept once *)
Lemma sep_hi : forall (bs : list (list nat)) b, separated_nat (b :: bs) -> (forall x, In x (b :: bs) -> exists a k, 0 < k /\ x = seq a k) ->
  forall x y, In x b -> In y (concat bs) -> x + 1 < y.
Proof.
  intros bs b S H x y Hx Hy. destruct bs as [|c r]; [destruct Hy|]. destruct S as [S1 S2].
  destruct (concat_sorted_blocks (c :: r) S2 (fun z Hz => H z (or_intror Hz))) as [_ G]. specialize (G c r eq_refl). rewrite Forall_forall in G. specialize (G y Hy).
  destruct (H b (or_introl eq_refl)) as (a & k & K & ->). apply in_seq in Hx. destruct k as [|k]; [lia|]. rewrite seq_S, last_last in S1. lia.
Qed.
Lemma adjacent : forall (bs : list (list nat)), separated_nat bs -> (forall x, In x bs -> exists a k, 0 < k /\ x = seq a k) ->
  forall b x, In b bs -> In (S x) (concat bs) -> In x b -> In (S x) b.
Proof.
  intro bs. induction bs as [|c r IH]; intros SP H b x I J K; [destruct I|]. cbn [concat] in J. apply in_app_or in J. destruct I as [->|I].
  - destruct J as [J|J]; [exact J|]. pose proof (sep_hi _ _ SP H _ _ K J). lia.
  - assert (SR : separated_nat r) by (destruct r; [exact Logic.I|apply SP]). destruct J as [J|J].
    + pose proof (sep_hi _ _ SP H _ _ J (in_block_in _ _ _ _ I K)). lia.
    + apply IH; auto. intros z Hz. apply H. now right.
Qed.
Lemma sep_of_Z : forall bs : list (list nat), separated (map (map Z.of_nat) bs) -> (forall b, In b bs -> exists a k, 0 < k /\ b = seq a k) ->
  StronglySorted lt (concat bs) -> separated_nat bs.
Proof.
  intro bs. induction bs as [|b bs IH]; intros S H SS; [exact Logic.I|]. destruct bs as [|c r]; [exact Logic.I|]. cbn [map separated] in S. destruct S as [S1 S2]. split.
  - destruct (H b (or_introl eq_refl)) as (a & k & K & ->). destruct (H c (or_intror (or_introl eq_refl))) as (a2 & k2 & K2 & ->).
    assert (LT : a + k - 1 < a2).
    { cbn [concat] in SS. assert (G : forall (l m : list nat) x y, StronglySorted lt (l ++ m) -> In x l -> In y m -> x < y).
      { clear. intros l. induction l as [|z l IH]; intros m x y S X Y; [destruct X|]. cbn [app] in S. inversion S as [|? ? S1 S2]; subst. destruct X as [->|X]; [rewrite Forall_forall in S2; apply S2, in_or_app; now right|eapply IH; eauto]. }
      apply (G _ _ (a + k - 1) a2 SS); [apply in_seq; lia|apply in_or_app; left; apply in_seq; lia]. }
    destruct k as [|k]; [lia|]. destruct k2 as [|k2]; [lia|]. change 0%Z with (Z.of_nat 0) in S1 at 2. rewrite last_map in S1 by discriminate. assert (LE : last (seq a (S k)) 0 = a + k) by (rewrite seq_S; apply last_last). rewrite LE in *. cbn [seq map hd] in *. lia.
  - apply IH; [exact S2|intros; apply H; now right|]. cbn [concat] in SS |- *. clear - SS. induction b as [|z b IHb]; [exact SS|]. cbn [app] in SS. inversion SS; subst. now apply IHb.
Qed.
Lemma components_ok : forall s, NoDup s -> separated_nat (components s) /\ forall b, In b (components s) -> exists a k, 0 < k /\ b = seq a k.
Proof.
  intros s ND. destruct (C37_ranges (map Z.of_nat (sort Nat.leb s))) as (C & F & S).
  assert (RE : ranges (map Z.of_nat (sort Nat.leb s)) = map (map Z.of_nat) (components s)).
  { unfold components. rewrite map_map. rewrite <- (map_id (ranges _)) at 1. apply map_ext_in. intros r Hr. rewrite map_map. rewrite <- (map_id r) at 1. apply map_ext_in. intros z Hz.
    assert (I : In z (map Z.of_nat (sort Nat.leb s))) by (rewrite <- C; apply in_concat; eauto). apply in_map_iff in I. destruct I as (n & <- & _). now rewrite Nat2Z.id. }
  assert (SQ : forall b, In b (components s) -> exists a k, 0 < k /\ b = seq a k).
  { intros b Hb. rewrite Forall_forall in F. destruct (F (map Z.of_nat b)) as [F1 F2]; [rewrite RE; now apply in_map|]. apply consecutive_is_seq in F2. rewrite F2. exists (hd 0 b), (length b). split; [|reflexivity]. destruct b; [now elim F1|cbn; lia]. }
  split; [|exact SQ]. apply sep_of_Z; [now rewrite <- RE|exact SQ|]. rewrite components_concat. now apply sort_lt.
Qed.

(** the words of an interval within s are in the same component *)
Lemma one_component : forall s a k, NoDup s -> 0 < k -> incl (seq a k) s -> exists pre comp post, components s = pre ++ comp :: post /\ incl (seq a k) comp /\
  forall b, In b (pre ++ post) -> forall i, In i (seq a k) -> ~ In i b.
Proof.
  intros s a k ND K I. destruct (components_ok s ND) as [SP SQ]. pose proof (components_concat s) as CC.
  assert (IC : forall i, In i (seq a k) -> In i (concat (components s))) by (intros i Hi; rewrite CC; apply sort_In; now apply I).
  assert (A : In a (concat (components s))) by (apply IC, in_seq; lia). apply in_concat in A. destruct A as (comp & A1 & A2).
  assert (INC : forall j, j < k -> In (a + j) comp).
  { intro j. induction j as [|j IHj]; intro J; [now rewrite Nat.add_0_r|]. replace (a + S j) with (S (a + j)) by lia. apply (adjacent _ SP SQ comp (a + j) A1); [|apply IHj; lia]. replace (S (a + j)) with (a + S j) by lia. apply IC, in_seq. lia. }
  assert (INC' : incl (seq a k) comp) by (intros i Hi; apply in_seq in Hi; replace i with (a + (i - a)) by lia; apply INC; lia).
  apply in_split in A1. destruct A1 as (pre & post & E). exists pre, comp, post. split; [exact E|]. split; [exact INC'|].
  intros b Hb i Hi Hib. apply INC' in Hi. assert (NDc : NoDup (concat (components s))) by (rewrite CC; eapply Permutation_NoDup; [apply sort_perm|exact ND]). rewrite E in NDc. rewrite concat_app in NDc. cbn [concat] in NDc.
  apply in_app_or in Hb. destruct Hb as [Hb|Hb].
  - assert (X := in_block_in _ _ _ _ Hb Hib). clear - NDc X Hi. induction (concat pre) as [|z l IH]; [destruct X|]. cbn [app] in NDc. inversion NDc as [|? ? N1 N2]; subst. destruct X as [->|X]; [apply N1, in_or_app; right; apply in_or_app; now left|now apply IH].
  - assert (X := in_block_in _ _ _ _ Hb Hib). apply nodup_r in NDc. clear - NDc X Hi. induction comp as [|z l IH]; [destruct Hi|]. cbn [app] in NDc. inversion NDc as [|? ? N1 N2]; subst. destruct Hi as [->|Hi]; [apply N1, in_or_app; now right|now apply IH].
Qed.

(** a discontinuous node whose only head is continuous is kept once, with the
    component that has the words of the head *)
Theorem C87_once : forall l ts before c after, NoDup (flat_map leaves ts) -> ts = before ++ c :: after -> leaves c <> [] ->
  (forall d, In d (before ++ after) -> ishead d = false) -> ishead c = true -> continuous c = true -> length (components (flat_map leaves ts)) <> 1 ->
  exists comp, raised (l, ts) = [((fst l, false), comp)] /\ In comp (components (flat_map leaves ts)) /\ incl (leaves c) comp.
Proof.
  intros l ts before c after ND E NE NH HC CC NC. assert (Ic : In c ts) by (rewrite E; apply in_elt).
  assert (NDc : NoDup (leaves c)) by (eapply nodup_child; eauto). unfold continuous in CC. apply Nat.eqb_eq in CC.
  assert (IV : exists a k, 0 < k /\ Permutation (leaves c) (seq a k)).
  { destruct (components_ok _ NDc) as [_ SQ]. destruct (components (leaves c)) as [|b [|? ?]] eqn:EC; try discriminate. destruct (SQ b (or_introl eq_refl)) as (a & k & K & ->). exists a, k. split; [exact K|].
    pose proof (components_concat (leaves c)) as X. rewrite EC in X. cbn [concat] in X. rewrite app_nil_r in X. rewrite X. apply sort_perm. }
  destruct IV as (a & k & K & IV).
  assert (SUB : incl (seq a k) (flat_map leaves ts)) by (intros i Hi; apply in_flat_map; exists c; split; [exact Ic|eapply Permutation_in; [apply Permutation_sym; exact IV|exact Hi]]).
  destruct (one_component _ a k ND K SUB) as (pre & comp & post & CE & INC & OUT). exists comp.
  assert (HI : forall b, headin ts b = existsb (fun i => existsb (Nat.eqb i) b) (leaves c)).
  { intro b. unfold headin. rewrite E, existsb_app. cbn [existsb]. rewrite HC. unfold continuous at 2. rewrite CC. cbn [Nat.eqb andb].
    assert (G : forall q, (forall d, In d q -> ishead d = false) -> existsb (fun c => ishead c && continuous c && existsb (fun i => existsb (Nat.eqb i) b) (leaves c)) q = false).
    { clear. intros q H. induction q as [|d q IH]; [reflexivity|]. cbn [existsb]. rewrite (H d (or_introl eq_refl)), IH; [reflexivity|]. intros e He. apply H. now right. }
    rewrite (G before) by (intros; apply NH, in_or_app; now left). rewrite (G after) by (intros; apply NH, in_or_app; now right). now rewrite orb_false_r. }
  assert (HT : headin ts comp = true).
  { rewrite HI. apply existsb_exists. destruct (leaves c) as [|i q] eqn:L; [congruence|]. exists i. split; [now left|]. apply existsb_exists. exists i. split; [|apply Nat.eqb_refl]. apply INC. eapply Permutation_in; [exact IV|now left]. }
  assert (HF : forall b, In b (pre ++ post) -> headin ts b = false).
  { intros b Hb. rewrite HI. apply not_true_iff_false. intro X. apply existsb_exists in X. destruct X as (i & Hi & X). apply existsb_exists in X. destruct X as (j & Hj & X). apply Nat.eqb_eq in X. subst j.
    apply (OUT b Hb i); [eapply Permutation_in; [exact IV|exact Hi]|exact Hj]. }
  assert (FE : filter (headin ts) (components (flat_map leaves ts)) = [comp]).
  { rewrite CE, filter_app. cbn [filter]. rewrite HT. assert (G : forall q, (forall b, In b q -> headin ts b = false) -> filter (headin ts) q = []).
    { clear. intros q H. induction q as [|d q IH]; [reflexivity|]. cbn [filter]. rewrite (H d (or_introl eq_refl)). apply IH. intros e He. apply H. now right. }
    rewrite (G pre) by (intros; apply HF, in_or_app; now left). rewrite (G post) by (intros; apply HF, in_or_app; now right). reflexivity. }
  split; [|split].
  - unfold raised. cbn [fst snd]. apply Nat.eqb_neq in NC. rewrite NC, FE. reflexivity.
  - rewrite CE. apply in_elt.
  - intros i Hi. apply INC. eapply Permutation_in; [exact IV|exact Hi].
Qed.
(** in general a node whose head is discontinuous is lost: here the upper VP,
    whose head is the lower VP (VP (VP PP .. VVPP) .. VAINF) *)
Definition lost_tree : btree :=
  Node (str "S", false) [Node (str "VP", false) [Node (str "VZ", true) [pt "PP" 0; Node (str "VVPP", true) [Leaf 2]]; pt "ADV" 4; pt "X" 3]; Node (str "VMFIN", true) [Leaf 1]].
Theorem C87_lost_refuted : ptree lost_tree /\ NoDup (leaves lost_tree) /\ nostars lost_tree /\
  exists r, raisediscnodes lost_tree = Some r /\ In (str "VP", false) (map fst (constituents lost_tree)) /\ ~ In (str "VP") (map (fun p => fst (fst p)) (constituents r)).
Proof.
  split; [|split; [|split]].
  - repeat (constructor; try (intros; cbn in *; intuition (subst; try congruence))).
  - repeat constructor; cbn; intuition lia.
  - unfold nostars, nostar. cbn. repeat split; intuition discriminate.
  - eexists. split; [vm_compute; reflexivity|]. split; [right; now left|]. vm_compute. intuition discriminate.
Qed.
(** the tree of the documentation of raisediscnodes; C87_constituents and C87_once apply to it *)
Definition raise_tree : btree :=
  Node (str "S", false) [Node (str "VP", false) [Node (str "VZ", false) [Node (str "PP", false) [pt "APPR" 0; pt "ART" 1; Node (str "NN", true) [Leaf 2]]; pt "CARD" 4; Node (str "VVPP", true) [Leaf 5]]; Node (str "VAINF", true) [Leaf 6]]; Node (str "VMFIN", true) [Leaf 3]].
Example C87_example : ptree raise_tree /\ NoDup (leaves raise_tree) /\ nostars raise_tree /\
  raisediscnodes raise_tree = Some (Node (str "S", false) [Node (str "PP", false) [pt "APPR" 0; pt "ART" 1; Node (str "NN", true) [Leaf 2]]; Node (str "VMFIN", true) [Leaf 3];
    Node (str "VP", false) [Node (str "VZ", false) [pt "CARD" 4; Node (str "VVPP", true) [Leaf 5]]; Node (str "VAINF", true) [Leaf 6]]]).
Proof.
  split; [|split; [|split]].
  - repeat (constructor; try (intros; cbn in *; intuition (subst; try congruence))).
  - repeat constructor; cbn; intuition lia.
  - unfold nostars, nostar. cbn. repeat split; intuition discriminate.
  - vm_compute. reflexivity.
Qed.
Example C87_once_example : exists comp, raised ((str "VP", false), [Node (str "VZ", false) [pt "PP" 0; Node (str "VVPP", true) [Leaf 5]]; Node (str "VAINF", true) [Leaf 6]]) = [((str "VP", false), comp)] /\ comp = [5; 6].
Proof. eexists. split; vm_compute; reflexivity. Qed.
(** labels such as NP* in the input are taken for parts: this node is dissolved *)
Theorem C87_star_refuted : exists r, raisediscnodes (Node (str "S", false) [Node (str "NP*", true) [pt "D" 0; Node (str "N", true) [Leaf 1]]; pt "V" 2]) = Some r /\
  map fst (constituents r) = [(str "S", false); (str "NP", true); (str "D", false); (str "N", true); (str "V", false)].
Proof. eexists. split; vm_compute; reflexivity. Qed.
Print Assumptions C87_constituents. Print Assumptions C87_once. Print Assumptions C87_continuous.
