(** Splitting and merging discontinuous nodes.

    C22 splitdiscnodes yields a continuous tree
    C23 mergediscnodes inverts splitdiscnodes *)
From Coq Require Import String.
From Coq Require Import List Bool Arith NArith ZArith Lia Permutation Sorted.
From Verif Require Import PyStr TreeModel BracketModel BracketProofs BinarizeModel UtilModel UtilProps SortProofs ContsetsProofs TreeProps BinarizeProps TransformModel TransformProps SplitProofs MergeDisc.
Import ListNotations.
Open Scope list_scope.

(** ---- C22 ---- *)
Lemma sorted_perm_in : forall X (le : X -> X -> bool) l x, In x (sort le l) -> In x l.
Proof. intros. now apply sort_In in H. Qed.
Lemma canon_constituents_cont : forall (t : btree), okt t -> NoDup (leaves t) -> allcont t ->
  Forall (fun p => exists a k, 0 < k /\ snd p = seq a k) (constituents (canonicalize t)).
Proof.
  intros t. induction t as [a|l ts IH] using tree_ind'; intros HO ND AC; [constructor|].
  pose proof (canon_seq _ _ HO ND AC) as CS. pose proof (okt_ne _ _ HO) as NE. apply allcont_node in AC. destruct AC as [IV AC].
  pose proof (ptree_okt_children _ _ _ HO) as OC. cbn [leaves] in ND.
  rewrite canon_sorted in CS |- * by auto. cbn [constituents]. constructor.
  - cbn [snd]. rewrite CS. do 2 eexists. split; [|reflexivity]. destruct (leaves (Node l ts)); [congruence|cbn; lia].
  - apply Forall_forall. intros p Hp. apply in_flat_map in Hp. destruct Hp as (c & Hc & Hp). apply in_map_iff in Hc. destruct Hc as (x & <- & Hx). apply sort_In in Hx.
    rewrite Forall_forall in *. specialize (IH x Hx (OC x Hx) (nodup_child _ _ Hx ND) (AC x Hx)). rewrite Forall_forall in IH. auto.
Qed.
(** every constituent below the root is contiguous (and its terminals are listed in order) *)
Theorem C22_continuous : forall m t, ptree t -> NoDup (leaves t) ->
  forall l s, In (l, s) (flat_map constituents (children (splitdiscnodes m t))) -> exists a k, 0 < k /\ s = seq a k.
Proof.
  intros m t HP ND l s H. assert (HO : okt t) by (inversion HP; subst; exact HP). pose proof (split_all m t HO ND) as [S1 S2 S3 S4].
  unfold splitdiscnodes in H. destruct (splitnodes m t) as [a|l0 us] eqn:E; [contradiction|].
  assert (ND2 : NoDup (flat_map leaves us)) by (eapply Permutation_NoDup; [apply Permutation_sym; exact S3|exact ND]).
  rewrite canon_sorted in H by auto. cbn [children] in *. apply in_flat_map in H. destruct H as (c & Hc & Hp). apply in_map_iff in Hc. destruct Hc as (x & <- & Hx). apply sort_In in Hx.
  pose proof (ptree_okt_children _ _ _ S1) as OC. rewrite Forall_forall in *. pose proof (canon_constituents_cont x (OC x Hx) (nodup_child _ _ Hx ND2) (S4 x Hx)) as F.
  rewrite Forall_forall in F. exact (F _ Hp).
Qed.
(** the terminals are kept, and appear in increasing order *)
Theorem C22_yield : forall m t, ptree t -> NoDup (leaves t) -> leaves (splitdiscnodes m t) = sort Nat.leb (leaves t).
Proof.
  intros m t HP ND. assert (HO : okt t) by (inversion HP; subst; exact HP). pose proof (split_all m t HO ND) as [S1 S2 S3 S4].
  unfold splitdiscnodes. destruct (splitnodes m t) as [a|l0 us] eqn:E; [inversion HP; subst; discriminate|].
  assert (ND2 : NoDup (flat_map leaves us)) by (eapply Permutation_NoDup; [apply Permutation_sym; exact S3|exact ND]).
  rewrite canon_sorted by auto. cbn [children] in S4. pose proof (ptree_okt_children _ _ _ S1) as OC. rewrite leaves_node.
  assert (G : good_nodes us). { split; auto. intros n Hn. rewrite Forall_forall in S4. now apply allcont_interval, S4. }
  pose proof (sort_perm min_le us) as PS. pose proof (good_perm _ _ PS G) as G2. pose proof (sorted_chained _ G2 (sort_sorted _ min_total min_trans us)) as C.
  assert (R : flat_map leaves (map canonicalize (sort min_le us)) = ranges_of (sort min_le us)).
  { assert (HH : forall x, In x (sort min_le us) -> leaves (canonicalize x) = seq (minleaf x) (length (leaves x))).
    { intros x Hx. apply sort_In in Hx. rewrite Forall_forall in *. apply canon_seq; auto. eapply nodup_child; eauto. }
    revert HH. generalize (sort min_le us) as ss. induction ss as [|x ss IH]; intros HH; [reflexivity|]. cbn [map flat_map ranges_of]. rewrite IH by (intros; apply HH; now right). now rewrite HH by now left. }
  rewrite R. symmetry. apply nat_sort_unique.
  - destruct (sort min_le us) as [|n r]; [constructor|]. apply (ranges_of_sorted (n :: r) (minleaf n)). cbn. split; auto. split; auto. apply G2. now left.
  - eapply perm_trans; [apply Permutation_sym; exact S3|]. rewrite leaves_node. eapply perm_trans; [apply Permutation_flat_map; exact PS|]. apply ranges_of_perm. apply G2.
Qed.
(** A constituent with one component stays; one with several is replaced by one
    node per component, labelled label* or (with markorigin) label*n; these parts
    are never marked as heads. *)
Definition starlabel (markorigin : bool) (l : pystr) (n : nat) : pystr := l ++ str "*" ++ (if markorigin then dec n else []).
Fixpoint number {X Y} (f : nat -> X -> Y) (n : nat) (xs : list X) : list Y := match xs with [] => [] | x :: r => f n x :: number f (n + 1) r end.
Definition split_constituent (m : bool) (p : nlabel * list nat) : list (nlabel * list nat) :=
  let '(l, s) := p in
  if length (components s) =? 1 then [(l, sort Nat.leb s)]
  else number (fun n r => ((starlabel m (fst l) n, false), r)) 0 (components s).
Definition norm (p : nlabel * list nat) : nlabel * list nat := (fst p, sort Nat.leb (snd p)).
Lemma constituents_norm_perm : forall (s : btree) t, tperm s t -> Permutation (map norm (constituents s)) (map norm (constituents t)).
Proof.
  intros s. induction s as [a|l ts IH] using tree_ind'; intros t H; inversion H as [|? ? us vs F PM]; subst; [auto|].
  cbn [constituents map]. unfold norm at 1 3. cbn [fst snd]. rewrite (nat_sort_perm (leaves (Node l ts)) (leaves (Node l vs))) by now apply tperm_leaves. constructor.
  eapply perm_trans; [|apply Permutation_map, Permutation_flat_map; exact PM]. clear - IH F. induction F as [|x y ts us Hxy F IH2]; [auto|]. inversion IH; subst. cbn [flat_map].
  rewrite !map_app. apply Permutation_app; auto.
Qed.
Lemma partlabel_star : forall m l n, partlabel m l n = starlabel m l n.
Proof. intros [|] l n; unfold partlabel, starlabel; [reflexivity|]. now rewrite app_nil_r. Qed.
Lemma parts_constituents : forall m l sets n,
  Permutation (map norm (flat_map constituents (parts_from m l n sets)))
    (number (fun n r => ((starlabel m (fst l) n, false), r)) n (map (fun b => sort Nat.leb (flat_map leaves b)) sets) ++ map norm (flat_map constituents (concat sets))).
Proof.
  intros m l sets. induction sets as [|s sets IH]; intros n; [auto|]. cbn [parts_from flat_map constituents map number concat]. rewrite andb_false_r.
  rewrite partlabel_star. cbn [app map]. unfold norm at 1. cbn [fst snd]. rewrite leaves_node. constructor. rewrite flat_map_app, !map_app.
  eapply perm_trans; [apply Permutation_app_head, IH|]. rewrite !app_assoc. apply Permutation_app_tail. apply Permutation_app_comm.
Qed.
Lemma child_constituents : forall m c, okt c -> NoDup (leaves c) ->
  Permutation (map norm (flat_map constituents (P m c))) (flat_map (split_constituent m) (constituents c)).
Proof.
  intros m c. induction c as [a|l ts IH] using tree_ind'; intros HO ND; [cbn; auto|].
  pose proof (ptree_okt_children _ _ _ HO) as OC. pose proof (split_all m _ HO ND) as [S1 S2 S3 S4]. pose proof (okt_ne _ _ S1) as NE. rewrite split_node in *. cbn [leaves] in ND.
  assert (IH' : Permutation (map norm (flat_map constituents (flat_map (P m) ts))) (flat_map (split_constituent m) (flat_map constituents ts))).
  { assert (NDs : forall x, In x ts -> NoDup (leaves x)) by (intros; eapply nodup_child; eauto). clear - IH OC NDs. induction ts as [|x ts IHt]; [auto|].
    inversion IH; inversion OC; subst. cbn [flat_map]. rewrite !flat_map_app, map_app. apply Permutation_app; [apply H1; auto; apply NDs; now left|]. apply IHt; auto. intros. apply NDs. now right. }
  assert (NDu : NoDup (flat_map leaves (flat_map (P m) ts))) by (eapply Permutation_NoDup; [apply Permutation_sym; exact S3|exact ND]).
  cbn [constituents flat_map]. unfold split_constituent at 1. rewrite <- (components_perm _ _ S3). unfold P at 1. rewrite split_node. cbn [splitchild].
  destruct (isdisc (Node l (flat_map (P m) ts))) eqn:D.
  - pose proof D as D'. apply disc_iff in D'; auto. unfold discontinuous in D'. rewrite leaves_node in *.
    rewrite blocks_components in D' |- *; auto.
    2:{ intros n Hn. apply contiguous_interval, allcont_interval. cbn in S4. rewrite Forall_forall in S4. auto. }
    2:{ intros n Hn. apply contiguous_interval, allcont_interval. cbn in S4. rewrite Forall_forall in S4. auto. }
    assert (G1 : forall n, In n (flat_map (P m) ts) -> contiguous [n]) by (intros n Hn; apply contiguous_interval, allcont_interval; cbn in S4; rewrite Forall_forall in S4; auto).
    destruct (C37_contsets _ _ G1 NDu) as (C1 & _). 
    eapply perm_trans; [apply parts_constituents|]. 
    rewrite (proj2 (Nat.eqb_neq _ _) (not_eq_sym (Nat.lt_neq _ _ D'))).
    apply Permutation_app_head. eapply perm_trans; [|exact IH']. apply Permutation_map, Permutation_flat_map. exact C1.
  - apply isdisc_interval in D; auto. rewrite interval_components by exact D. cbn [flat_map constituents map app length Nat.eqb]. unfold norm at 1. cbn [fst snd]. rewrite app_nil_r.
    rewrite (nat_sort_perm _ _ S3). constructor. exact IH'.
Qed.
Theorem C22_constituents : forall m t, ptree t -> NoDup (leaves t) ->
  rootlabel (splitdiscnodes m t) = rootlabel t /\
  Permutation (map norm (flat_map constituents (children (splitdiscnodes m t))))
              (flat_map (split_constituent m) (flat_map constituents (children t))).
Proof.
  intros m t HP ND. destruct t as [a|l ts]; [exfalso; eapply noleaf; eauto|]. unfold splitdiscnodes. rewrite split_node. split; [reflexivity|].
  pose proof (C27_same_tree _ (Node l (flat_map (P m) ts))) as TP. remember (canonicalize (Node l (flat_map (P m) ts))) as ct eqn:Ect. clear Ect. inversion TP as [|? ? us vs F PM]; subst.
  cbn [children]. pose proof (ptree_okt_children _ _ _ HP) as OC. cbn [leaves] in ND.
  eapply perm_trans; [apply Permutation_map, Permutation_flat_map, Permutation_sym; exact PM|].
  eapply perm_trans with (map norm (flat_map constituents (flat_map (P m) ts))).
  - clear - F. induction F as [|x y xs ys Hxy F IH]; [auto|]. cbn [flat_map]. rewrite !map_app. apply Permutation_app; auto. apply Permutation_sym. now apply constituents_norm_perm.
  - assert (NDs : forall x, In x ts -> NoDup (leaves x)) by (intros; eapply nodup_child; eauto). clear - OC NDs. induction ts as [|x ts IHt]; [auto|].
    inversion OC; subst. cbn [flat_map]. rewrite !flat_map_app, map_app. apply Permutation_app; [apply child_constituents; auto; apply NDs; now left|]. apply IHt; auto. intros. apply NDs. now right.
Qed.

(** ---- C23 ---- *)
(** Siblings of the same label that are both discontinuous do not confuse the
    queues: the n-th component of the later one exists only if the earlier one has
    an n-th component, which comes first. *)
Definition first_in_first_out (l : nlabel) (ts : list btree) : Prop :=
  forall i j li hi us lj hj vs, i < j -> nth_error ts i = Some (Node (li, hi) us) -> nth_error ts j = Some (Node (lj, hj) vs) -> li = lj ->
    discontinuous (Node (li, hi) us) -> discontinuous (Node (lj, hj) vs) ->
    forall n rj, nth_error (components (leaves (Node (lj, hj) vs))) n = Some rj ->
    exists ri, nth_error (components (leaves (Node (li, hi) us))) n = Some ri /\ hd 0 ri < hd 0 rj.
(** the marking as head is lost at discontinuous constituents *)
Fixpoint unhead (t : btree) : btree :=
  match t with Leaf a => Leaf a | Node (l, h) ts => Node (l, if isdisc t then false else h) (map unhead ts) end.

Definition K (ts : list btree) : list btree := map canonicalize (sort min_le (flat_map (P true) ts)).
Definition desc_of (c : btree) : desc :=
  match c with
  | Leaf a => Plain (Leaf a)
  | Node (l, h) cs => let us := flat_map (P true) cs in
      if isdisc (Node (l, h) us) then Split l (map (map canonicalize) (contsets us)) else Plain (Node (l, h) (K cs))
  end.
Lemma sorted_sub : forall X (R : X -> X -> Prop) (bs : list (list X)) b, In b bs -> StronglySorted R (concat bs) -> StronglySorted R b.
Proof.
  intros X R bs b H S. apply in_split in H. destruct H as (x & y & ->). rewrite concat_app in S. cbn in S.
  assert (A : forall u v, StronglySorted R (u ++ v) -> StronglySorted R u /\ StronglySorted R v).
  { clear. induction u as [|a u IH]; intros v H; [split; [constructor|exact H]|]. cbn in H. inversion H as [|? ? H1 H2]; subst. destruct (IH v H1) as [A B]. split; auto. constructor; auto.
    apply Forall_app in H2. tauto. }
  apply A in S. destruct S as [_ S]. apply A in S. tauto.
Qed.
Lemma okt_node_ptree : forall l ts, okt (Node l ts : btree) -> ptree (Node l ts).
Proof. intros l ts H. exact H. Qed.
Lemma parts_desc : forall c, okt c -> NoDup (leaves c) -> map canonicalize (P true c) = map (item (desc_of c)) (seq 0 (nparts (desc_of c))).
Proof.
  intros c HO ND. destruct c as [a|[l h] cs]; [reflexivity|]. pose proof (split_all true _ HO ND) as [S1 S2 S3 S4]. unfold P at 1. rewrite split_node in *. cbn [desc_of].
  assert (SP : forall us, splitchild true (Node (l, h) us) = if isdisc (Node (l, h) us) then parts_from true (l, h) 0 (contsets us) else [Node (l, h) us]) by reflexivity. rewrite SP. clear SP.
  cbn [children] in S4. set (us := flat_map (P true) cs) in *. assert (NDu : NoDup (flat_map leaves us)) by (eapply Permutation_NoDup; [apply Permutation_sym; exact S3|exact ND]).
  destruct (isdisc (Node (l, h) us)) eqn:D.
  - assert (G1 : forall n, In n us -> contiguous [n]) by (intros n Hn; apply contiguous_interval, allcont_interval; rewrite Forall_forall in S4; auto).
    destruct (C37_contsets _ us G1 NDu) as (C1 & C2 & C3 & C4).
    assert (ND3 : NoDup (flat_map leaves (concat (contsets us)))) by (eapply Permutation_NoDup; [apply Permutation_flat_map, Permutation_sym; exact C1|exact NDu]).
    assert (PT : forall x, In x us -> ptree x).
    { destruct (ptree_inv _ _ S1) as [[a E]|X]; auto. exfalso. rewrite E in D. cbn in D. discriminate. }
    assert (BL : forall b lab, In b (contsets us) -> canonicalize (Node lab b) = Node lab (map canonicalize b)).
    { intros b lab Hb. assert (SUB : forall x, In x b -> In x us) by (intros x Hx; eapply Permutation_in; [exact C1|eapply in_block_in; eauto]).
      rewrite canon_sorted.
      - rewrite sorted_sort_id; [reflexivity|]. eapply sorted_sub in C4; [|exact Hb]. clear - C4. induction C4 as [|x s SS IH F]; constructor; auto. eapply Forall_impl; [|exact F]. intros y Hy. now apply Nat.leb_le.
      - constructor; [now apply C2|]. auto.
      - eapply nodup_sub; eauto.
      - apply Forall_forall. intros x Hx. rewrite Forall_forall in S4. auto. }
    cbn [nparts]. rewrite map_length. apply nth_error_ext. intros i. rewrite !nth_error_map, parts_nth. cbn [fst]. destruct (nth_error (contsets us) i) as [b|] eqn:E.
    + assert (LT : i < length (contsets us)) by (apply nth_error_Some; congruence). rewrite (nth_error_nth' (seq 0 (length (contsets us))) 0) by now rewrite seq_length.
      cbn [option_map]. rewrite seq_nth by auto. cbn [item Nat.add fst].
      transitivity (Some (canonicalize (Node (partlabel true l i, false) b))); [change (option_map (@canonicalize nlabel) (option_map (fun b0 => Node (partlabel true l i, false) b0) (nth_error (contsets us) i)) = Some (canonicalize (Node (partlabel true l i, false) b))); now rewrite E|].
      rewrite BL by (eapply nth_error_In; eauto). change (star l i) with (partlabel true l i). apply (f_equal (fun z : list btree => Some (Node (partlabel true l i, false) z))). symmetry.
      change (@nil btree) with (map (@canonicalize nlabel) []). rewrite map_nth. now rewrite (nth_error_nth _ _ _ E).
    + apply nth_error_None in E. rewrite (proj2 (nth_error_None (seq 0 (length (contsets us))) i)) by now rewrite seq_length. apply nth_error_None in E.
      change (option_map (@canonicalize nlabel) (option_map (fun b0 => Node (partlabel true l i, false) b0) (nth_error (contsets us) i)) = None). now rewrite E.
  - cbn [map nparts seq item]. f_equal. apply canon_sorted; auto.
Qed.
Lemma desc_nparts : forall c, okt c -> NoDup (leaves c) -> nparts (desc_of c) = length (P true c).
Proof. intros c HO ND. pose proof (f_equal (@length _) (parts_desc c HO ND)) as E. now rewrite !map_length, seq_length in E. Qed.
Lemma desc_split : forall c l, okt c -> NoDup (leaves c) -> split_as l (desc_of c) = true -> exists h cs, c = Node (l, h) cs /\ discontinuous c.
Proof.
  intros c l HO ND H. destruct c as [a|[l' h] cs]; [discriminate|]. pose proof (split_all true _ HO ND) as [S1 S2 S3 S4]. cbn [desc_of] in H. rewrite split_node in *.
  destruct (isdisc (Node (l', h) (flat_map (P true) cs))) eqn:D; [|discriminate]. cbn in H. apply eqs_eq in H. subst l'. exists h, cs. split; auto.
  apply disc_iff in D; [|now apply okt_ne]. unfold discontinuous in *. now rewrite <- (components_perm _ _ S3).
Qed.
Lemma built_desc : forall c, okt c -> NoDup (leaves c) -> built (desc_of c) (nparts (desc_of c)) =
  match c with Leaf a => Leaf a | Node (l, h) cs => Node (l, if isdisc c then false else h) (K cs) end.
Proof.
  intros c HO ND. destruct c as [a|[l h] cs]; [reflexivity|]. pose proof (split_all true _ HO ND) as [S1 S2 S3 S4]. rewrite split_node in *. cbn [desc_of].
  set (us := flat_map (P true) cs) in *. assert (NDu : NoDup (flat_map leaves us)) by (eapply Permutation_NoDup; [apply Permutation_sym; exact S3|exact ND]).
  assert (DD : isdisc (Node (l, h) us) = isdisc (Node (l, h) cs)).
  { apply eq_true_iff_eq. rewrite !disc_iff by now apply okt_ne. pose proof (components_perm _ _ S3) as CP. unfold discontinuous. split; intros Q.
    - exact (eq_rect _ (fun z => 1 < length z) Q _ CP).
    - exact (eq_rect _ (fun z => 1 < length z) Q _ (eq_sym CP)). }
  transitivity (Node (l, if isdisc (Node (l, h) us) then false else h) (K cs)); [|apply (f_equal (fun z : bool => Node (l, if z then false else h) (K cs))); exact DD].
  clear DD. destruct (isdisc (Node (l, h) us)); [|reflexivity].
  cbn [built nparts]. rewrite firstn_all. f_equal. unfold K. rewrite <- concat_map. f_equal. fold us. rewrite contsets_blocks; [apply blocks_concat|].
  split; auto. intros n Hn. cbn in S4. rewrite Forall_forall in S4. now apply allcont_interval, S4.
Qed.
(** in a tree in canonical order the first terminal is the least *)
Lemma flat_map_hd : forall X Y (f : X -> list Y) x l d, f x <> [] -> hd d (flat_map f (x :: l)) = hd d (f x).
Proof. intros X Y f x l d H. cbn. destruct (f x); [congruence|reflexivity]. Qed.
Lemma lex_hd : forall a b, a <> [] -> lex_le a b = true -> hd 0 a <= hd 0 b.
Proof. intros [|x a] [|y b] H E; try congruence; cbn in *; [discriminate|]. destruct (Nat.eqb_spec x y); [lia|]. apply Nat.ltb_lt in E. lia. Qed.
Lemma ordered_hd : forall t : btree, okt t -> every_node ordered t -> hd 0 (leaves t) = minleaf t.
Proof.
  intros t. induction t as [a|l ts IH] using tree_ind'; intros HO H; [reflexivity|]. cbn [every_node] in H. rewrite fold_and in H. destruct H as [H1 H2].
  pose proof (ptree_okt_children _ _ _ HO) as OC. pose proof (ptree_ne _ _ HO) as NE. symmetry. destruct ts as [|c ts]; [congruence|].
  inversion OC as [|? ? O1 O2]; inversion H2 as [|? ? E1 E2]; inversion IH as [|? ? I1 I2]; subst. rewrite leaves_node.
  pose proof (okt_ne _ _ O1) as NL. rewrite flat_map_hd by auto. apply minleaf_unique.
  - cbn [leaves flat_map]. apply in_or_app. left. rewrite (I1 O1 E1). now apply minleaf_spec.
  - intros a Ha. rewrite (I1 O1 E1). cbn [leaves flat_map] in Ha. apply in_app_or in Ha. destruct Ha as [Ha|Ha]; [now apply minleaf_spec|].
    apply in_flat_map in Ha. destruct Ha as (x & Hx & Ha). unfold ordered in H1. inversion H1 as [|? ? _ F]; subst. rewrite Forall_forall in F, O2, E2, I2. specialize (F x Hx).
    apply lex_hd in F; auto. rewrite (I1 O1 E1), (I2 x Hx (O2 x Hx) (E2 x Hx)) in F. destruct (minleaf_spec _ x (okt_ne _ _ (O2 x Hx))) as [_ M]. specialize (M a Ha). lia.
Qed.
Lemma sort_hd_min : forall (t : btree), leaves t <> [] -> hd 0 (sort Nat.leb (leaves t)) = minleaf t.
Proof.
  intros t NE. pose proof (sort_perm Nat.leb (leaves t)) as Q. pose proof (sort_sorted Nat.leb leb_total leb_trans (leaves t)) as SS.
  destruct (sort Nat.leb (leaves t)) as [|x r] eqn:E; [apply Permutation_sym, Permutation_nil in Q; contradiction|]. symmetry. cbn. apply minleaf_unique.
  - eapply Permutation_in; [apply Permutation_sym; exact Q|now left].
  - intros a Ha. apply (Permutation_in _ Q) in Ha. destruct Ha as [->|Ha]; [lia|]. inversion SS as [|? ? _ F]; subst. rewrite Forall_forall in F. apply Nat.leb_le. auto.
Qed.
Lemma concat_before : forall X (R : X -> X -> Prop) (ls : list (list X)), StronglySorted R (concat ls) -> forall i j a b x y, i < j -> nth_error ls i = Some a -> nth_error ls j = Some b -> In x a -> In y b -> R x y.
Proof.
  intros X R. assert (A : forall u v x y, StronglySorted R (u ++ v) -> In x u -> In y v -> R x y).
  { induction u as [|z u IH]; intros v x y H Hx Hy; [contradiction|]. cbn in H. inversion H as [|? ? H1 H2]; subst. destruct Hx as [->|Hx]; [|eauto].
    rewrite Forall_forall in H2. apply H2. apply in_or_app. now right. }
  induction ls as [|l ls IH]; intros S i j a b x y Hij Ha Hb Hx Hy; [destruct i; discriminate|]. destruct j as [|j]; [lia|]. cbn in Hb. destruct i as [|i].
  - cbn in Ha. injection Ha as ->. eapply A; [exact S|exact Hx|]. eapply in_block_in; [eapply nth_error_In; eauto|exact Hy].
  - cbn in Ha. eapply (IH ltac:(cbn in S; clear - S; induction l as [|z l IHl]; [exact S|inversion S; auto]) i j); eauto. lia.
Qed.
(** the first terminal of part n of c *)
Definition gpart (ts : list btree) (t : nat * nat) : btree := nth (snd t) (P true (nth (fst t) ts (Leaf 0))) (Leaf 0).
Definition gkey (ts : list btree) (j n : nat) : nat := minleaf (gpart ts (j, n)).
Lemma part_key : forall ts c j n, nth_error ts j = Some c -> okt c -> NoDup (leaves c) -> n < length (P true c) ->
  exists r, nth_error (components (leaves c)) n = Some r /\ r <> [] /\ gkey ts j n = hd 0 r.
Proof.
  intros ts c j n E HO ND Hn. unfold gkey, gpart. cbn [fst snd]. rewrite (nth_error_nth _ _ _ E). rewrite <- parts_components with (m := true) by auto. rewrite nth_error_map.
  rewrite (nth_error_nth' _ (Leaf 0) Hn). cbn [option_map]. set (p := nth n (P true c) (Leaf 0)). assert (Hp : In p (P true c)) by now apply nth_In.
  pose proof (po_okt _ _ (parts_all true c HO ND)) as F. rewrite Forall_forall in F. pose proof (okt_ne _ _ (F p Hp)) as NE. eexists. split; [reflexivity|]. split.
  - intros X. apply NE. apply Permutation_nil. rewrite <- X. apply Permutation_sym, sort_perm.
  - symmetry. now apply sort_hd_min.
Qed.
Lemma hd_in : forall (r : list nat), r <> [] -> In (hd 0 r) r.
Proof. intros [|x r] H; [congruence|now left]. Qed.
Lemma nodup_map_inj : forall X Y (f : X -> Y) xs, NoDup (map f xs) -> forall a b, In a xs -> In b xs -> f a = f b -> a = b.
Proof.
  induction xs as [|x xs IH]; intros H a b Ha Hb E; [contradiction|]. cbn in H. inversion H as [|? ? H1 H2]; subst. destruct Ha as [->|Ha], Hb as [->|Hb]; auto.
  - exfalso. apply H1. rewrite E. now apply in_map.
  - exfalso. apply H1. rewrite <- E. now apply in_map.
Qed.
Lemma child_index_unique : forall (ts : list btree) z i j ci cj, NoDup (flat_map leaves ts) -> nth_error ts i = Some ci -> nth_error ts j = Some cj -> In z (leaves ci) -> In z (leaves cj) -> i = j.
Proof.
  induction ts as [|c cs IH]; intros z i j ci cj ND Hi Hj Mi Mj; [destruct i; discriminate|]. cbn in ND.
  assert (DIS : In z (leaves c) -> In z (flat_map leaves cs) -> False).
  { intros A B. apply in_split in A. destruct A as (u & v & E). rewrite E, <- app_assoc in ND. cbn in ND. apply NoDup_remove_2 in ND. apply ND. apply in_or_app. right. apply in_or_app. now right. }
  destruct i as [|i], j as [|j]; cbn in Hi, Hj; auto.
  - exfalso. injection Hi as ->. apply DIS; auto. apply in_flat_map. exists cj. split; [eapply nth_error_In; eauto|auto].
  - exfalso. injection Hj as ->. apply DIS; auto. apply in_flat_map. exists ci. split; [eapply nth_error_In; eauto|auto].
  - f_equal. apply (IH z i j ci cj); auto. now apply nodup_r in ND.
Qed.
Section Level.
Variables (l : nlabel) (ts : list btree).
Hypothesis HO : ptree (Node l ts).
Hypothesis ND : NoDup (flat_map leaves ts).
Hypothesis HC : every_node ordered (Node l ts).
Hypothesis HS : Forall (fun c => match c with Node (lab, _) _ => nostar lab | Leaf _ => True end) ts.
Hypothesis HF : first_in_first_out l ts.
Notation ds := (map desc_of ts).
Lemma D_nth : forall j, nth j ds (Plain (Leaf 0)) = desc_of (nth j ts (Leaf 0)).
Proof. intros j. change (Plain (Leaf 0)) with (desc_of (Leaf 0)). apply map_nth. Qed.
Lemma child_ok : forall j, j < length ts -> okt (nth j ts (Leaf 0)) /\ NoDup (leaves (nth j ts (Leaf 0))) /\ nth_error ts j = Some (nth j ts (Leaf 0)).
Proof.
  intros j Hj. pose proof (nth_In ts (Leaf 0) Hj) as HI. pose proof (ptree_okt_children _ _ _ HO) as OC. rewrite Forall_forall in OC. split; auto. split; [eapply nodup_child; eauto|].
  now apply nth_error_nth'.
Qed.
Lemma nparts_eq : forall j, j < length ts -> nparts (nth j ds (Plain (Leaf 0))) = length (P true (nth j ts (Leaf 0))).
Proof. intros j Hj. cbv beta. rewrite D_nth. destruct (child_ok j Hj) as (A & B & _). now apply desc_nparts. Qed.
Lemma nparts_comp : forall j, j < length ts -> nparts (nth j ds (Plain (Leaf 0))) = length (components (leaves (nth j ts (Leaf 0)))).
Proof. intros j Hj. rewrite nparts_eq by auto. destruct (child_ok j Hj) as (A & B & _). rewrite <- (parts_components true) by auto. now rewrite map_length. Qed.
Lemma flat_parts : flat_map (P true) ts = map (gpart ts) (alltoks ds).
Proof.
  unfold alltoks. rewrite map_length. rewrite map_flat_map.
  transitivity (flat_map (fun j => P true (nth j ts (Leaf 0))) (seq 0 (length ts))).
  - assert (G : forall xs : list btree, map (fun j => nth j xs (Leaf 0)) (seq 0 (length xs)) = xs).
    { clear. induction xs as [|c xs IH]; [reflexivity|]. cbn [length seq map nth]. f_equal. rewrite <- seq_shift, map_map. exact IH. }
    rewrite <- (G ts) at 1. rewrite !flat_map_concat_map, map_map. reflexivity.
  - apply flat_map_ext_in. intros j Hj. apply in_seq in Hj. destruct Hj as [_ Hj]. cbn in Hj. rewrite map_map. rewrite nparts_eq by exact Hj.
    unfold gpart. cbn [fst snd]. set (p := P true (nth j ts (Leaf 0))). clearbody p. clear. symmetry. induction p as [|c p IH]; [reflexivity|]. cbn [length seq map nth]. f_equal.
    rewrite <- seq_shift, map_map. exact IH.
Qed.
Lemma all_good : good_nodes (flat_map (P true) ts).
Proof.
  pose proof (split_all true (Node l ts) HO ND) as [S1 S2 S3 S4]. rewrite split_node in *. split.
  - intros n Hn. cbn in S4. rewrite Forall_forall in S4. now apply allcont_interval, S4.
  - eapply Permutation_NoDup; [apply Permutation_sym; exact S3|exact ND].
Qed.
Lemma key_inj : forall s t, token ds s -> token ds t -> gkey ts (fst s) (snd s) = gkey ts (fst t) (snd t) -> s = t.
Proof.
  intros s t Hs Ht E. pose proof (nodup_mins _ all_good) as NDm. rewrite flat_parts, map_map in NDm.
  apply (nodup_map_inj _ _ _ _ NDm); [apply alltoks_in; exact Hs|apply alltoks_in; exact Ht|]. unfold gkey in E. destruct s, t. exact E.
Qed.
Lemma level_merge : mergechildren (K ts) = map (fun c => built (desc_of c) (nparts (desc_of c))) ts.
Proof.
  set (kle := fun s t : nat * nat => gkey ts (fst s) (snd s) <=? gkey ts (fst t) (snd t)).
  set (toks := sort kle (alltoks ds)).
  assert (LEN : length ds = length ts) by apply map_length.
  assert (KE : K ts = map (fun t => item (nth (fst t) ds (Plain (Leaf 0))) (snd t)) toks).
  { unfold K. rewrite flat_parts. rewrite (sort_map _ _ (gpart ts) kle) by (intros [a b] [c d] _ _; reflexivity). fold toks. rewrite map_map. apply map_ext_in. intros [j n] Ht.
    apply sort_In, alltoks_in in Ht. destruct Ht as [Hj Hn]. cbn [fst snd] in *. rewrite LEN in Hj. destruct (child_ok j Hj) as (A & B & _).
    pose proof (parts_desc _ A B) as PD. rewrite D_nth in *. unfold gpart. cbn [fst snd]. set (c := nth j ts (Leaf 0)) in *.
    transitivity (nth n (map canonicalize (P true c)) (canonicalize (Leaf 0))); [symmetry; apply map_nth|]. rewrite PD.
    rewrite (nth_indep _ _ (item (desc_of c) 0)) by now rewrite map_length, seq_length. rewrite map_nth. now rewrite seq_nth. }
  rewrite KE. rewrite (merge_sorted ds (gkey ts)); [now rewrite map_map| | | | | | | |].
  - intros j n n' Hj Hnn Hn'. rewrite LEN in Hj. destruct (child_ok j Hj) as (A & B & C). rewrite nparts_eq in Hn' by auto.
    destruct (part_key ts _ j n C A B ltac:(lia)) as (r & R1 & R2 & ->). destruct (part_key ts _ j n' C A B Hn') as (r' & R1' & R2' & ->).
    eapply (concat_before _ lt (components (leaves (nth j ts (Leaf 0))))); [rewrite components_concat; now apply sort_lt|exact Hnn|exact R1|exact R1'|now apply hd_in|now apply hd_in].
  - intros j Hj. rewrite LEN in Hj. rewrite nparts_eq by auto. destruct (child_ok j Hj) as (A & B & C). pose proof (po_ne _ _ (parts_all true _ A B)) as NE. destruct (P true (nth j ts (Leaf 0))); [congruence|cbn; lia].
  - intros i j Hij Hj. rewrite LEN in Hj. assert (Hi : i < length ts) by lia. destruct (child_ok i Hi) as (Ai & Bi & Ci). destruct (child_ok j Hj) as (Aj & Bj & Cj).
    cbn [every_node] in HC. rewrite fold_and in HC. destruct HC as [HC1 HC2]. rewrite Forall_forall in HC2.
    assert (K0 : forall k, k < length ts -> gkey ts k 0 = minleaf (nth k ts (Leaf 0))).
    { intros k Hk. destruct (child_ok k Hk) as (A & B & C). pose proof (po_ne _ _ (parts_all true _ A B)) as NE.
      destruct (part_key ts _ k 0 C A B) as (r & R1 & R2 & ->); [destruct (P true (nth k ts (Leaf 0))); [congruence|cbn; lia]|].
      rewrite <- sort_hd_min by now apply okt_ne. rewrite <- components_concat. destruct (components (leaves (nth k ts (Leaf 0)))) as [|r0 rs]; [discriminate|]. cbn in R1. injection R1 as ->.
      cbn. destruct r; [congruence|reflexivity]. }
    rewrite !K0 by auto. assert (Ii : In (nth i ts (Leaf 0)) ts) by now apply nth_In. assert (Ij : In (nth j ts (Leaf 0)) ts) by now apply nth_In.
    assert (LE : lex_le (leaves (nth i ts (Leaf 0))) (leaves (nth j ts (Leaf 0))) = true) by (eapply (ss_nth _ _ _ HC1 i j); eauto).
    apply lex_hd in LE; [|now apply okt_ne]. rewrite !ordered_hd in LE by auto.
    assert (minleaf (nth i ts (Leaf 0)) <> minleaf (nth j ts (Leaf 0))); [|lia]. intros E.
    destruct (minleaf_spec _ _ (okt_ne _ _ Ai)) as [Mi _]. destruct (minleaf_spec _ _ (okt_ne _ _ Aj)) as [Mj _]. rewrite E in Mi.
    assert (X : i = j) by (eapply child_index_unique; eauto). lia.
  - intros lab i j n Hij Hj Ei Ej Hn. rewrite LEN in Hj. assert (Hi : i < length ts) by lia. destruct (child_ok i Hi) as (Ai & Bi & Ci). destruct (child_ok j Hj) as (Aj & Bj & Cj).
    rewrite D_nth in Ei, Ej. destruct (desc_split _ _ Ai Bi Ei) as (hi0 & ui & EQi & Di). destruct (desc_split _ _ Aj Bj Ej) as (hj & vj & EQj & Dj).
    pose proof Ci as Ci'. pose proof Cj as Cj'. rewrite EQi in Ci'. rewrite EQj in Cj'. rewrite EQi in Di. rewrite EQj in Dj. rewrite nparts_eq in Hn by auto.
    destruct (part_key ts _ j n Cj Aj Bj Hn) as (rj & R1 & R2 & ->). rewrite EQj in R1.
    destruct (HF i j lab hi0 ui lab hj vj Hij Ci' Cj' eq_refl Di Dj n rj R1) as (ri & Q1 & Q2). assert (Q1' : nth_error (components (leaves (nth i ts (Leaf 0)))) n = Some ri) by (rewrite EQi; exact Q1). clear Q1. rename Q1' into Q1.
    assert (NI : n < nparts (nth i ds (Plain (Leaf 0)))) by (rewrite nparts_comp by auto; apply nth_error_Some; congruence). split; [exact NI|].
    rewrite nparts_eq in NI by auto. destruct (part_key ts _ i n Ci Ai Bi NI) as (ri' & R1' & R2' & ->). assert (ri' = ri) by congruence. subst. exact Q2.
  - exact key_inj.
  - apply Permutation_sym, sort_perm.
  - assert (SS : StronglySorted (fun s t => kle s t = true) toks).
    { apply sort_sorted; unfold kle; intros.
      - apply leb_total.
      - eapply leb_trans; eauto. }
    assert (TK : forall t, In t toks -> token ds t) by (intros t Ht; apply sort_In in Ht; now apply alltoks_in).
    assert (NT : NoDup toks).
    { eapply Permutation_NoDup; [apply sort_perm|]. pose proof (nodup_mins _ all_good) as NDm. rewrite flat_parts in NDm. rewrite map_map in NDm. now apply NoDup_map_inv in NDm. }
    clear KE. induction SS as [|x s SS IH F]; constructor.
    + inversion NT; subst. apply IH; auto. intros. apply TK. now right.
    + rewrite Forall_forall in *. intros y Hy. specialize (F y Hy). unfold kle in F. apply Nat.leb_le in F. inversion NT as [|? ? N1 N2]; subst.
      assert (gkey ts (fst x) (snd x) <> gkey ts (fst y) (snd y)); [|lia]. intros E. apply N1. rewrite (key_inj x y); auto; apply TK; [now left|now right].
  - intros j Hj. rewrite LEN in Hj. rewrite D_nth. pose proof (nth_In ts (Leaf 0) Hj) as HI. rewrite Forall_forall in HS. specialize (HS _ HI). destruct (nth j ts (Leaf 0)) as [a|[lab h] cs]; [exact Logic.I|].
    cbn [desc_of]. destruct (isdisc _); [exact Logic.I|exact HS].
Qed.
End Level.

(** sizes, for the fuel of the model of the traversal *)
Lemma sizes_app : forall (a b : list btree), sizes (a ++ b) = sizes a + sizes b.
Proof. intros. unfold sizes. rewrite map_app. apply list_sum_app. Qed.
Lemma sizes_perm : forall (a b : list btree), Permutation a b -> sizes a = sizes b.
Proof. intros a b H. induction H as [|x a b H IH|x y a|a b c H1 IH1 H2 IH2]; unfold sizes in *; cbn [map list_sum fold_right] in *; [reflexivity|unfold list_sum in *; lia|unfold list_sum in *; lia|congruence]. Qed.
Lemma size_node : forall l (ts : list btree), size (Node l ts) = S (sizes ts).
Proof. reflexivity. Qed.
Lemma canon_size : forall t : btree, size (canonicalize t) = size t.
Proof.
  intros t. induction t as [a|l ts IH] using tree_ind'; [reflexivity|]. cbn [canonicalize].
  assert (M : sizes (map canonicalize ts) = sizes ts).
  { clear - IH. induction IH as [|x xs H F IHx]; [reflexivity|]. change (size (canonicalize x) + sizes (map canonicalize xs) = size x + sizes xs). now rewrite H, IHx. }
  rewrite !size_node. destruct (_ && _); [|now rewrite M]. rewrite <- M. f_equal. apply sizes_perm. apply Permutation_sym, sort_perm.
Qed.
Lemma parts_sizes : forall m l sets n, sizes (parts_from m l n sets) = length sets + sizes (concat sets).
Proof.
  intros m l sets. induction sets as [|s sets IH]; intros n; [reflexivity|]. cbn [parts_from concat length]. rewrite sizes_app. match goal with |- sizes (?x :: ?y) = _ => change (sizes (x :: y)) with (size x + sizes y) end.
  rewrite size_node, IH. lia.
Qed.
Lemma split_size : forall m (t : btree), okt t -> NoDup (leaves t) -> size t <= size (splitnodes m t).
Proof.
  intros m t. induction t as [a|l ts IH] using tree_ind'; intros HO ND; [cbn; lia|]. rewrite split_node, !size_node. apply le_n_S.
  pose proof (ptree_okt_children _ _ _ HO) as OC. cbn [leaves] in ND.
  assert (NDs : forall x, In x ts -> NoDup (leaves x)) by (intros; eapply nodup_child; eauto). clear HO ND.
  induction ts as [|c ts IHt]; [cbn; lia|]. inversion IH as [|? ? I1 I2]; inversion OC as [|? ? O1 O2]; subst. cbn [flat_map]. rewrite sizes_app. change (sizes (c :: ts)) with (size c + sizes ts).
  specialize (IHt I2 O2 (fun x Hx => NDs x (or_intror Hx))). assert (Nc : NoDup (leaves c)) by (apply NDs; now left). specialize (I1 O1 Nc).
  assert (size c <= sizes (P m c)); [|lia]. clear IHt. pose proof (split_all m c O1 Nc) as [S1 S2 S3 S4]. unfold P. etransitivity; [exact I1|].
  destruct (splitnodes m c) as [a|l' us] eqn:E; [cbn; lia|]. cbn [splitchild]. cbn [children] in S4.
  destruct (isdisc (Node l' us)); [|unfold sizes; cbn; lia]. 
  assert (NDu : NoDup (flat_map leaves us)) by (eapply Permutation_NoDup; [apply Permutation_sym; exact S3|exact Nc]).
  assert (G1 : forall n, In n us -> contiguous [n]) by (intros n Hn; apply contiguous_interval, allcont_interval; rewrite Forall_forall in S4; auto).
  destruct (C37_contsets _ us G1 NDu) as (C1 & _). rewrite parts_sizes, (sizes_perm _ _ C1), size_node.
  destruct (contsets us) as [|b bs]; [|cbn; lia]. exfalso. cbn in C1. apply Permutation_nil in C1. subst us. now apply (okt_ne _ _ S1).
Qed.

Lemma every_child : forall (p : nlabel -> list btree -> Prop) l ts, every_node p (Node l ts) -> p l ts /\ Forall (every_node p) ts.
Proof. intros p l ts H. cbn [every_node] in H. now rewrite fold_and in H. Qed.
Lemma merge_level : forall fuel l ts, size (Node l ts : btree) <= fuel ->
  ptree (Node l ts) -> NoDup (flat_map leaves ts) -> every_node ordered (Node l ts) -> every_node (fun l _ => nostar (fst l)) (Node l ts) -> every_node first_in_first_out (Node l ts) ->
  forall l', mergenodes fuel (Node l' (K ts)) = Node l' (map unhead ts).
Proof.
  induction fuel as [|fuel IH]; intros l ts SZ HP ND HC HS HF l'; [cbn in SZ; lia|]. cbn [mergenodes]. apply (f_equal (Node l')).
  destruct (every_child _ _ _ HS) as [_ HS2]. destruct (every_child _ _ _ HF) as [HF1 HF2]. destruct (every_child _ _ _ HC) as [_ HC2].
  rewrite (level_merge l ts HP ND HC); [| |exact HF1].
  - rewrite map_map. apply map_ext_in. intros c Hc. pose proof (ptree_okt_children _ _ _ HP) as OC. rewrite Forall_forall in OC, HS2, HF2, HC2.
    assert (Nc : NoDup (leaves c)) by (eapply nodup_child; eauto). rewrite built_desc by auto. destruct c as [a|[lc h] cs]; [destruct fuel; reflexivity|].
    rewrite (IH (lc, h) cs); auto.
    + assert (LE : size (Node (lc, h) cs) <= sizes ts); [|rewrite size_node in SZ; apply le_S_n in SZ; etransitivity; [exact LE|exact SZ]]. clear - Hc. induction ts as [|x ts IHt]; [contradiction|]. change (sizes (x :: ts)) with (size x + sizes ts).
      destruct Hc as [->|Hc]; [apply Nat.le_add_r|]. etransitivity; [apply IHt; exact Hc|apply Nat.le_add_l].
    + exact (OC _ Hc).
  - apply Forall_forall. intros c Hc. rewrite Forall_forall in HS2. specialize (HS2 c Hc). destruct c as [a|[lc h] cs]; [exact Logic.I|]. now apply every_child in HS2.
Qed.
(** mergediscnodes undoes splitdiscnodes(markorigin=True), for trees in canonical
    order whose labels contain no star and whose discontinuous siblings of the same
    label are first in, first out; but marks of heads are lost. *)
Theorem C23_merge_split : forall l ts, let t : btree := Node l ts in
  ptree t -> NoDup (leaves t) -> every_node ordered t ->
  every_node (fun l _ => ~ In 42%N (fst l)) t -> every_node first_in_first_out t ->
  mergediscnodes (splitdiscnodes true t) = Node l (map unhead ts).
Proof.
  intros l ts t HP ND HC HS HF. unfold mergediscnodes.
  assert (SZ : size t <= size (splitdiscnodes true t)) by (unfold splitdiscnodes; rewrite canon_size; apply split_size; auto).
  assert (E : splitdiscnodes true t = Node l (K ts)).
  { unfold splitdiscnodes. pose proof (split_all true t HP ND) as [S1 S2 S3 S4]. unfold t in *. rewrite split_node in *. apply canon_sorted; auto.
    eapply Permutation_NoDup; [apply Permutation_sym; exact S3|exact ND]. }
  rewrite E in SZ |- *. apply (merge_level _ l ts); auto.
Qed.
Lemma erase_unhead : forall t, erase (unhead t) = erase t.
Proof.
  intros t. induction t as [a|[l h] ts IH] using tree_ind'; [reflexivity|]. cbn [unhead erase]. f_equal. rewrite map_map. apply map_ext_in. intros c Hc. rewrite Forall_forall in IH. auto.
Qed.
(** the comparison of trees ignores the marks *)
Corollary C23_merge_split_eq : forall l ts, let t : btree := Node l ts in
  ptree t -> NoDup (leaves t) -> every_node ordered t ->
  every_node (fun l _ => ~ In 42%N (fst l)) t -> every_node first_in_first_out t ->
  erase (mergediscnodes (splitdiscnodes true t)) = erase t.
Proof.
  intros l ts t HP ND HC HS HF. unfold t. rewrite C23_merge_split by auto. destruct l as [l h]. cbn [erase]. f_equal. rewrite map_map. apply map_ext. apply erase_unhead.
Qed.
(** in particular when siblings that are discontinuous have different labels *)
Definition different_labels (l : nlabel) (ts : list btree) : Prop :=
  forall i j x hx us y hy vs, i <> j -> nth_error ts i = Some (Node (x, hx) us) -> nth_error ts j = Some (Node (y, hy) vs) ->
    discontinuous (Node (x, hx) us) -> discontinuous (Node (y, hy) vs) -> x <> y.
Lemma every_impl : forall (p q : nlabel -> list btree -> Prop), (forall l ts, p l ts -> q l ts) -> forall t, every_node p t -> every_node q t.
Proof.
  intros p q H t. induction t as [a|l ts IH] using tree_ind'; intros E; [exact E|]. apply every_child in E. destruct E as [E1 E2]. cbn [every_node]. rewrite fold_and. split; auto.
  rewrite Forall_forall in *. auto.
Qed.
Corollary C23_merge_split_distinct : forall l ts, let t : btree := Node l ts in
  ptree t -> NoDup (leaves t) -> every_node ordered t ->
  every_node (fun l _ => ~ In 42%N (fst l)) t -> every_node different_labels t ->
  erase (mergediscnodes (splitdiscnodes true t)) = erase t.
Proof.
  intros l ts t HP ND HC HS HF. apply C23_merge_split_eq; auto. eapply every_impl; [|exact HF]. intros lab us DL i j li hi0 ui lj hj vj Hij Hi Hj EQ Di Dj. exfalso.
  eapply (DL i j); eauto. lia.
Qed.
(** Without the condition on siblings the inverse fails: two discontinuous siblings
    of the same label, one inside the gap of the other, get their parts mixed up. *)
Definition pt (w : string) (i : nat) : btree := Node (str w, false) [Leaf i].
Definition nested_tree : btree :=
  Node (str "S", false)
    [Node (str "A", false) [pt "a" 0; pt "b" 5]; Node (str "A", false) [pt "d" 1; pt "e" 3]; pt "x" 2; pt "y" 4].
Theorem C23_same_label_siblings_refuted :
  ptree nested_tree /\ NoDup (leaves nested_tree) /\ every_node ordered nested_tree /\ every_node (fun l _ => ~ In 42%N (fst l)) nested_tree /\
  erase (mergediscnodes (splitdiscnodes true nested_tree)) <> erase nested_tree.
Proof.
  split; [|split; [|split; [|split]]].
  - repeat (constructor; try (intros; cbn in *; intuition (subst; try congruence))).
  - repeat constructor; cbn; intuition lia.
  - cbn. repeat split; unfold ordered; repeat constructor.
  - cbn. repeat split; intuition discriminate.
  - intros H; vm_compute in H; discriminate H.
Qed.
(** the conditions of C22 and C23 hold of a tree with two discontinuous
    constituents, one inside the other, and one of them a head *)
Definition disc_tree : btree :=
  Node (str "S", false) [Node (str "VP", true) [Node (str "VP", false) [Node (str "PP", false) [pt "APPR" 0; pt "ART" 1; pt "NN" 2]; pt "CARD" 4; pt "VVPP" 5]; pt "VAINF" 6]; pt "VMFIN" 3].
Example C23_hyps : ptree disc_tree /\ NoDup (leaves disc_tree) /\ every_node ordered disc_tree /\ every_node (fun l _ => ~ In 42%N (fst l)) disc_tree /\
  every_node different_labels disc_tree.
Proof.
  split; [|split; [|split; [|split]]].
  - repeat (constructor; try (intros; cbn in *; intuition (subst; try congruence))).
  - repeat constructor; cbn; intuition lia.
  - cbn. repeat split; unfold ordered; repeat constructor.
  - cbn. repeat split; intuition discriminate.
  - cbn. repeat split; intros i j x hx us y hy vs NE Hi Hj Di Dj; unfold discontinuous in *;
      repeat (destruct i as [|i]; [|]; cbn in Hi; try discriminate); repeat (destruct j as [|j]; [|]; cbn in Hj; try discriminate); try congruence;
      injection Hi as <- <- <-; injection Hj as <- <- <-; try (vm_compute in Di; lia); try (vm_compute in Dj; lia).
Qed.
Example C22_ex : splitdiscnodes true disc_tree =
  Node (str "S", false) [Node (str "VP*0", false) [Node (str "VP*0", false) [Node (str "PP", false) [pt "APPR" 0; pt "ART" 1; pt "NN" 2]]]; pt "VMFIN" 3;
    Node (str "VP*1", false) [Node (str "VP*1", false) [pt "CARD" 4; pt "VVPP" 5]; pt "VAINF" 6]].
Proof. vm_compute. reflexivity. Qed.
Example C23_ex : mergediscnodes (splitdiscnodes true disc_tree) <> disc_tree /\ erase (mergediscnodes (splitdiscnodes true disc_tree)) = erase disc_tree.
Proof. split; [intros H; vm_compute in H; discriminate H|vm_compute; reflexivity]. Qed.

Print Assumptions C22_continuous.
Print Assumptions C22_yield.
Print Assumptions C22_constituents.
Print Assumptions C23_merge_split.
Print Assumptions C23_merge_split_eq.
Print Assumptions C23_merge_split_distinct.
Print Assumptions C23_same_label_siblings_refuted.
