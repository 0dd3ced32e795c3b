(** Facts about splitdiscnodes: the parts of discontinuous nodes. *)
From Coq Require Import String.
From Coq Require Import List Bool Arith NArith ZArith Lia Permutation Sorted.
From Verif Require Import PyStr TreeModel BracketModel BinarizeModel UtilModel UtilProps SortProofs ContsetsProofs TreeProps BinarizeProps TransformModel TransformProps.
Import ListNotations.
Open Scope list_scope.

(** ---- specification: the contiguous components of a set of terminals ---- *)
Definition components (s : list nat) : list (list nat) := map (map Z.to_nat) (ranges (map Z.of_nat (sort Nat.leb s))).
Definition discontinuous {L} (t : tree L nat) : Prop := 1 < length (components (leaves t)).

Lemma to_of_nat : forall l, map Z.to_nat (map Z.of_nat l) = l.
Proof. intros l. rewrite map_map. transitivity (map (fun x : nat => x) l); [|apply map_id]. apply map_ext. intros. apply Nat2Z.id. Qed.
Lemma components_concat : forall s, concat (components s) = sort Nat.leb s.
Proof. intros s. unfold components. rewrite <- concat_map. destruct (C37_ranges (map Z.of_nat (sort Nat.leb s))) as [-> _]. apply to_of_nat. Qed.
(** a partition into increasing, separated intervals is the list of components *)
Fixpoint separated_nat (l : list (list nat)) : Prop :=
  match l with a :: ((b :: _) as t) => last a 0 + 1 < hd 0 b /\ separated_nat t | _ => True end.
Lemma last_map : forall X Y (f : X -> Y) l d, l <> [] -> last (map f l) (f d) = f (last l d).
Proof. induction l as [|x l IH]; intros d H; [congruence|]. destruct l as [|y l]; [reflexivity|]. cbn [map] in *. change (last (f x :: f y :: map f l) (f d)) with (last (f y :: map f l) (f d)).
  rewrite (IH d) by discriminate. reflexivity. Qed.
Lemma consecutive_seq : forall k a, consecutive (map Z.of_nat (seq a k)).
Proof. induction k as [|k IH]; intros a; [exact I|]. destruct k as [|k]; [exact I|]. cbn [seq map consecutive]. split; [lia|]. apply (IH (S a)). Qed.
Lemma components_unique : forall s rs, concat rs = sort Nat.leb s -> Forall (fun r => exists a k, 0 < k /\ r = seq a k) rs -> separated_nat rs -> components s = rs.
Proof.
  intros s rs E F S. unfold components. rewrite <- E. rewrite concat_map. rewrite <- (C37_ranges_unique _ (map (map Z.of_nat) rs)).
  - rewrite map_map. transitivity (map (fun x : list nat => x) rs); [|apply map_id]. apply map_ext. intros. apply to_of_nat.
  - reflexivity.
  - apply Forall_map. eapply Forall_impl; [|exact F]. intros r (a & k & K & ->). split; [destruct k; [lia|discriminate]|apply consecutive_seq].
  - clear E. induction rs as [|r rs IH]; [exact I|]. destruct rs as [|r2 rs]; [exact I|]. destruct S as [S1 S2]. inversion F as [|? ? F1 F2]; subst.
    cbn [map separated]. split; [|apply (IH F2 S2)]. destruct F1 as (a & k & K & ->). inversion F2 as [|? ? F3 F4]; subst. destruct F3 as (b & k2 & K2 & ->).
    destruct k as [|k]; [lia|]. destruct k2 as [|k2]; [lia|]. change 0%Z with (Z.of_nat 0) at 2. rewrite last_map by discriminate.
    cbn [seq map hd] in *. intros X. lia.
Qed.

(** ---- nodes whose terminals form an interval ---- *)
Lemma perm_leaves_interval : forall L L' (s : tree L nat) (t : tree L' nat), Permutation (leaves s) (leaves t) -> interval s -> interval t.
Proof. intros L L' s t P (a & k & K & Q). exists a, k. split; auto. eapply perm_trans; [apply Permutation_sym; exact P|exact Q]. Qed.
Lemma gap_seq : forall l p, gap p l = false <-> l = seq (p + 1) (length l).
Proof.
  induction l as [|a l IH]; intros p; [cbn; tauto|]. cbn [gap length seq]. destruct (Nat.eqb_spec a (p + 1)) as [->|N].
  - rewrite IH. rewrite Nat.add_1_r. replace (p + 1 + 1) with (S (S p)) by lia. replace (S p + 1) with (S (S p)) by lia. split; [intros H; f_equal; exact H|intros H; injection H as H; exact H].
  - split; [discriminate|]. intros H. injection H as H1 H2. congruence.
Qed.
Lemma isdisc_interval : forall L (t : tree L nat), leaves t <> [] -> isdisc t = false <-> interval t.
Proof.
  intros L t NE. destruct t as [a|l ts].
  - cbn. split; auto. intros _. exists a, 1. split; [lia|]. auto.
  - unfold isdisc. pose proof (sort_perm Nat.leb (leaves (Node l ts))) as P. destruct (sort Nat.leb (leaves (Node l ts))) as [|a r] eqn:E.
    + apply Permutation_sym, Permutation_nil in P. congruence.
    + rewrite gap_seq. split.
      * intros H. exists a, (S (length r)). split; [lia|]. cbn. rewrite H in P. rewrite Nat.add_1_r in P. exact P.
      * intros I. apply interval_seq in I. destruct I as [Q _]. set (n := length (leaves (Node l ts))) in *.
        assert (X : sort Nat.leb (leaves (Node l ts)) = seq (minleaf (Node l ts)) n) by (apply nat_sort_unique; [apply seq_sorted|exact Q]).
        rewrite E in X. destruct n as [|n]; [discriminate|]. cbn in X. injection X as X1 X2. rewrite X2, seq_length. f_equal. lia.
Qed.
Lemma interval_components : forall L (t : tree L nat), interval t -> components (leaves t) = [seq (minleaf t) (length (leaves t))].
Proof.
  intros L t HI. pose proof (interval_seq _ _ HI) as [P NE]. apply components_unique.
  - cbn. rewrite app_nil_r. symmetry. apply nat_sort_unique; [apply seq_sorted|exact P].
  - constructor; [|constructor]. exists (minleaf t), (length (leaves t)). split; auto. destruct (leaves t); [congruence|cbn; lia].
  - exact Logic.I.
Qed.
Lemma consecutive_is_seq : forall l, consecutive (map Z.of_nat l) -> l = seq (hd 0 l) (length l).
Proof.
  induction l as [|x l IH]; intros H; [reflexivity|]. destruct l as [|y l]; [reflexivity|]. cbn [map] in *. destruct H as [H1 H2]. specialize (IH H2).
  change (length (x :: y :: l)) with (S (length (y :: l))). cbn [hd seq]. f_equal. replace (S x) with y by lia. exact IH.
Qed.
Lemma disc_iff : forall L (t : tree L nat), leaves t <> [] -> isdisc t = true <-> discontinuous t.
Proof.
  intros L t NE. unfold discontinuous. destruct (isdisc t) eqn:E.
  - split; auto. intros _. destruct (Nat.lt_ge_cases 1 (length (components (leaves t)))) as [|G]; auto. exfalso.
    assert (I : interval t); [|apply isdisc_interval in I; congruence].
    pose proof (components_concat (leaves t)) as CC. pose proof (sort_perm Nat.leb (leaves t)) as P.
    destruct (components (leaves t)) as [|r [|r2 rs]] eqn:EC; [|clear G|cbn in G; lia].
    + cbn in CC. rewrite <- CC in P. apply Permutation_sym, Permutation_nil in P. contradiction.
    + cbn in CC. rewrite app_nil_r in CC. subst r. unfold components in EC. destruct (C37_ranges (map Z.of_nat (sort Nat.leb (leaves t)))) as (A & B & _).
      destruct (ranges (map Z.of_nat (sort Nat.leb (leaves t)))) as [|z [|z2 zs]]; try discriminate. cbn in A. rewrite app_nil_r in A. subst z.
      apply Forall_inv in B. destruct B as [_ B]. apply consecutive_is_seq in B. exists (hd 0 (sort Nat.leb (leaves t))), (length (leaves t)). split; [destruct (leaves t); [congruence|cbn; lia]|].
      eapply perm_trans; [exact P|]. rewrite sort_length in B. rewrite B at 1. auto.
  - split; [discriminate|]. apply isdisc_interval in E; auto. rewrite interval_components by exact E. cbn. lia.
Qed.

(** ---- trees of continuous nodes ---- *)
Definition allcont {L} (t : tree L nat) : Prop := every_node (fun l ts => interval (Node l ts)) t.
Lemma allcont_interval : forall L (t : tree L nat), allcont t -> interval t.
Proof. intros L [a|l ts] H; [exists a, 1; split; [lia|auto]|apply H]. Qed.
Lemma allcont_node : forall L (l : L) ts, allcont (Node l ts) <-> interval (Node l ts) /\ Forall allcont ts.
Proof. intros. unfold allcont. cbn [every_node]. rewrite fold_and. tauto. Qed.
Lemma lex_seq : forall a k b k', 0 < k -> 0 < k' -> a <> b -> lex_le (seq a k) (seq b k') = (a <=? b).
Proof.
  intros a [|k] b [|k'] H1 H2 N; try lia. cbn [seq lex_le]. destruct (Nat.eqb_spec a b); [congruence|]. destruct (Nat.ltb_spec a b), (Nat.leb_spec a b); auto; lia.
Qed.
(** terminals without siblings, no empty nodes, possibly a bare terminal *)
Definition okt {L} (t : tree L nat) : Prop := match t with Leaf _ => True | Node _ _ => ptree t end.
Lemma okt_ne : forall L (t : tree L nat), okt t -> leaves t <> [].
Proof. intros L [a|l ts] H; [discriminate|]. now apply ptree_leaves. Qed.
Lemma ptree_okt_children : forall L l (ts : list (tree L nat)), ptree (Node l ts) -> Forall okt ts.
Proof.
  intros L l ts H. apply ptree_inv in H. destruct H as [[a ->]|H]; [repeat constructor|]. apply Forall_forall. intros c Hc. specialize (H c Hc). destruct c; [exact Logic.I|exact H].
Qed.
Lemma ptree_cases : forall L l (ts : list (tree L nat)), ptree (Node l ts) -> (exists a, ts = [Leaf a]) \/ (ts <> [] /\ Forall (fun c => is_node c = true) ts).
Proof.
  intros L l ts H. pose proof (ptree_ne _ _ H) as NE. apply ptree_inv in H. destruct H as [H|H]; [auto|]. right. split; auto. apply Forall_forall. intros c Hc. specialize (H c Hc). inversion H; reflexivity.
Qed.
(** canonicalize sorts the children, also when there is only one *)
Lemma canon_node : forall L l (ts : list (tree L nat)), ptree (Node l ts) -> canonicalize (Node l ts) = Node l (sort leaves_le (map canonicalize ts)).
Proof.
  intros L l ts H. cbn [canonicalize]. f_equal. destruct (ptree_cases _ _ _ H) as [[a ->]|[NE F]]; [reflexivity|].
  destruct ts as [|c ts]; [congruence|]. destruct ts as [|c2 ts]; [reflexivity|]. inversion F as [|? ? F1 F2]; subst. destruct c; [discriminate|]. reflexivity.
Qed.
Lemma canon_minleaf : forall L (t : tree L nat), minleaf (canonicalize t) = minleaf t.
Proof. intros. symmetry. apply minleaf_perm, C27_leaves. Qed.
Lemma canon_length : forall L (t : tree L nat), length (leaves (canonicalize t)) = length (leaves t).
Proof. intros. symmetry. apply Permutation_length, C27_leaves. Qed.
Lemma ranges_flat : forall L (vs : list (tree L nat)), (forall v, In v vs -> leaves v = seq (minleaf v) (length (leaves v))) -> ranges_of vs = flat_map leaves vs.
Proof. induction vs as [|v vs IH]; intros H; [reflexivity|]. cbn. rewrite IH by (intros; apply H; now right). now rewrite <- H by now left. Qed.
Lemma sort_canon_min : forall L (us : list (tree L nat)), good_nodes us -> (forall u, In u us -> leaves (canonicalize u) = seq (minleaf u) (length (leaves u))) ->
  sort leaves_le (map canonicalize us) = map canonicalize (sort min_le us).
Proof.
  intros L us G H. apply sort_map. intros x y Hx Hy. unfold leaves_le, min_le. rewrite !H by auto.
  destruct (Nat.eq_dec (minleaf x) (minleaf y)) as [E|N].
  - assert (x = y); [|subst; now rewrite lex_refl, Nat.leb_refl].
    destruct G as [G1 G2]. pose proof (interval_seq _ _ (G1 x Hx)) as [_ Nx]. pose proof (interval_seq _ _ (G1 y Hy)) as [_ Ny].
    apply minleaf_spec in Nx, Ny. destruct Nx as [Nx _], Ny as [Ny _]. rewrite <- E in Ny. eapply nodup_child_unique; eauto.
  - destruct G as [G1 G2]. pose proof (interval_seq _ _ (G1 x Hx)) as [_ Nx]. pose proof (interval_seq _ _ (G1 y Hy)) as [_ Ny].
    apply lex_seq; auto; [destruct (leaves x); [congruence|cbn; lia]|destruct (leaves y); [congruence|cbn; lia]].
Qed.
Lemma canon_seq : forall L (t : tree L nat), okt t -> NoDup (leaves t) -> allcont t -> leaves (canonicalize t) = seq (minleaf t) (length (leaves t)).
Proof.
  intros L t. induction t as [a|l ts IH] using tree_ind'; intros HO ND AC; [reflexivity|].
  rewrite allcont_node in AC. destruct AC as [IV AC]. pose proof (ptree_okt_children _ _ _ HO) as OC. rewrite canon_node by exact HO. cbn [leaves] in ND |- *.
  assert (H : forall u, In u ts -> leaves (canonicalize u) = seq (minleaf u) (length (leaves u))).
  { intros u Hu. rewrite Forall_forall in *. apply IH; auto. eapply nodup_child; eauto. }
  assert (G : good_nodes ts). { split; auto. intros n Hn. rewrite Forall_forall in AC. now apply allcont_interval, AC. }
  rewrite sort_canon_min by auto. set (ss := sort min_le ts). assert (P : Permutation ts ss) by apply sort_perm.
  pose proof (good_perm _ _ P G) as G2. pose proof (sorted_chained ss G2 (sort_sorted _ min_total min_trans ts)) as C.
  set (vs := map canonicalize ss).
  assert (E : flat_map leaves vs = ranges_of ss).
  { unfold vs. assert (H2 : forall u, In u ss -> leaves (canonicalize u) = seq (minleaf u) (length (leaves u))) by (intros; apply H; eapply Permutation_in; [apply Permutation_sym; exact P|auto]).
    clear - H2. induction ss as [|u ss IH]; [reflexivity|]. cbn [map flat_map ranges_of]. rewrite IH by (intros; apply H2; now right). now rewrite H2 by now left. }
  pose proof (interval_seq _ _ IV) as [Q _]. cbn [leaves] in Q.
  assert (SO : StronglySorted (fun x y => Nat.leb x y = true) (ranges_of ss)).
  { destruct ss as [|n r]; [constructor|]. apply (ranges_of_sorted (n :: r) (minleaf n)). cbn. split; auto. split; auto. apply G2. now left. }
  rewrite E. symmetry. transitivity (sort Nat.leb (flat_map leaves ts)); [symmetry; apply nat_sort_unique; [apply seq_sorted|exact Q]|].
  apply nat_sort_unique; [exact SO|]. eapply perm_trans; [apply Permutation_flat_map; exact P|]. apply ranges_of_perm. apply G2.
Qed.
Lemma canon_sorted : forall L l (ts : list (tree L nat)), ptree (Node l ts) -> NoDup (flat_map leaves ts) -> Forall allcont ts ->
  canonicalize (Node l ts) = Node l (map canonicalize (sort min_le ts)).
Proof.
  intros L l ts HP ND AC. rewrite canon_node by exact HP. f_equal. pose proof (ptree_okt_children _ _ _ HP) as OC. apply sort_canon_min.
  - split; auto. intros n Hn. rewrite Forall_forall in AC. now apply allcont_interval, AC.
  - intros u Hu. rewrite Forall_forall in *. apply canon_seq; auto. eapply nodup_child; eauto.
Qed.

(** ---- the parts ---- *)
Lemma parts_nth : forall m l sets n i, nth_error (parts_from m l n sets) i = option_map (fun b => Node (partlabel m (fst l) (n + i), false) b) (nth_error sets i).
Proof.
  intros m l sets. induction sets as [|s sets IH]; intros n i; [destruct i; reflexivity|]. destruct i as [|i].
  - cbn. rewrite andb_false_r, Nat.add_0_r. reflexivity.
  - cbn [parts_from nth_error]. rewrite IH. now replace (n + 1 + i) with (n + S i) by lia.
Qed.
Lemma parts_length : forall m l sets n, length (parts_from m l n sets) = length sets.
Proof. intros m l sets. induction sets as [|s sets IH]; intros n; [reflexivity|]. cbn. now rewrite IH. Qed.
Lemma parts_in : forall m l sets n p, In p (parts_from m l n sets) -> exists i b, In b sets /\ p = Node (partlabel m (fst l) i, false) b.
Proof.
  intros m l sets. induction sets as [|s sets IH]; intros n p H; [contradiction|]. destruct H as [<-|H].
  - exists n, s. rewrite andb_false_r. split; [now left|reflexivity].
  - destruct (IH _ _ H) as (i & b & A & B). exists i, b. split; [now right|auto].
Qed.
Lemma parts_leaves : forall m l sets n, flat_map leaves (parts_from m l n sets) = flat_map leaves (concat sets).
Proof. intros m l sets. induction sets as [|s sets IH]; intros n; [reflexivity|]. cbn. rewrite IH, flat_map_app. reflexivity. Qed.
Definition P (m : bool) (c : btree) : list btree := splitchild m (splitnodes m c).
Record split_ok (m : bool) (t : btree) : Prop := {
  so_okt : okt (splitnodes m t);
  so_node : is_node (splitnodes m t) = is_node t;
  so_perm : Permutation (leaves (splitnodes m t)) (leaves t);
  so_cont : Forall allcont (children (splitnodes m t)) }.
Record parts_ok (m : bool) (t : btree) : Prop := {
  po_okt : Forall okt (P m t);
  po_node : Forall (fun c => is_node c = is_node t) (P m t);
  po_perm : Permutation (flat_map leaves (P m t)) (leaves t);
  po_cont : Forall allcont (P m t);
  po_ne : P m t <> [] }.
Lemma in_block_in : forall X (bs : list (list X)) b x, In b bs -> In x b -> In x (concat bs).
Proof. intros X bs b x H1 H2. apply in_concat. eauto. Qed.
Lemma contiguous_interval : forall L (n : tree L nat), contiguous [n] <-> interval n.
Proof. intros L n. unfold contiguous, interval. cbn. rewrite app_nil_r. tauto. Qed.
Lemma nodup_sub : forall (bs : list (list btree)) b, In b bs -> NoDup (flat_map leaves (concat bs)) -> NoDup (flat_map leaves b).
Proof.
  intros bs b H ND. apply in_split in H. destruct H as (x & y & ->). rewrite concat_app in ND. cbn in ND. rewrite !flat_map_app in ND. apply nodup_r in ND.
  clear - ND. induction (flat_map leaves b) as [|a l IH]; [constructor|]. cbn in ND. inversion ND; subst. constructor; auto. intros K. apply H1. apply in_or_app. now left.
Qed.
Lemma split_parts : forall m t, okt t -> NoDup (leaves t) -> split_ok m t -> parts_ok m t.
Proof.
  intros m t HO ND [S1 S2 S3 S4]. unfold P. destruct (splitnodes m t) as [a|l us] eqn:E.
  - constructor; unfold P; rewrite E; cbn in *; auto. repeat constructor.  discriminate.
  - assert (ND2 : NoDup (flat_map leaves us)) by (eapply Permutation_NoDup; [apply Permutation_sym; exact S3|exact ND]).
    assert (NE : leaves (Node l us) <> []) by (now apply okt_ne). cbn [children] in S4. cbn [splitchild]. destruct (isdisc (Node l us)) eqn:D.
    + assert (G1 : forall n, In n us -> contiguous [n]) by (intros n Hn; apply contiguous_interval, allcont_interval; rewrite Forall_forall in S4; auto).
      destruct (C37_contsets _ us G1 ND2) as (C1 & C2 & C3 & C4).
      assert (ND3 : NoDup (flat_map leaves (concat (contsets us)))) by (eapply Permutation_NoDup; [apply Permutation_flat_map, Permutation_sym; exact C1|exact ND2]).
      assert (SUB : forall b x, In b (contsets us) -> In x b -> In x us) by (intros b x Hb Hx; eapply Permutation_in; [exact C1|eapply in_block_in; eauto]).
      assert (PT : forall x, In x us -> ptree x).
      { destruct (ptree_inv _ _ S1) as [[a ->]|X]; auto. exfalso. cbn in D. discriminate. }
      assert (PP : P m t = parts_from m l 0 (contsets us)) by (unfold P; rewrite E; cbn [splitchild]; now rewrite D).
      constructor; rewrite PP.
      * apply Forall_forall. intros p Hp. apply parts_in in Hp. destruct Hp as (i & b & Hb & ->). cbn. constructor; [apply C2; auto|]. intros x Hx. apply PT. eauto.
      * apply Forall_forall. intros p Hp. apply parts_in in Hp. destruct Hp as (i & b & Hb & ->). exact S2.
      * rewrite parts_leaves. eapply perm_trans; [apply Permutation_flat_map; exact C1|]. exact S3.
      * apply Forall_forall. intros p Hp. apply parts_in in Hp. destruct Hp as (i & b & Hb & ->). apply allcont_node. split.
        -- destruct (C2 b Hb) as [_ (a & k & K & Q)]. exists a, k. auto.
        -- apply Forall_forall. intros x Hx. rewrite Forall_forall in S4. eauto.
      * intros X. apply NE. rewrite leaves_node. apply (f_equal (@length _)) in X. rewrite parts_length in X. destruct (contsets us); [|discriminate].
        cbn in C1. apply Permutation_nil in C1. subst. reflexivity.
    + assert (PP : P m t = [Node l us]) by (unfold P; rewrite E; cbn [splitchild]; now rewrite D). constructor; rewrite PP.
      * constructor; [exact S1|constructor].
      * constructor; [exact S2|constructor].
      * cbn. rewrite app_nil_r. exact S3.
      * constructor; [|constructor]. apply allcont_node. split; auto. now apply isdisc_interval.
      * discriminate.
Qed.
Lemma split_node : forall m l ts, splitnodes m (Node l ts) = Node l (flat_map (P m) ts).
Proof. reflexivity. Qed.
Lemma split_all : forall m t, okt t -> NoDup (leaves t) -> split_ok m t.
Proof.
  intros m t. induction t as [a|l ts IH] using tree_ind'; intros HO ND.
  - constructor; cbn; auto.
  - pose proof (ptree_okt_children _ _ _ HO) as OC. cbn [leaves] in ND.
    assert (PO : forall c, In c ts -> parts_ok m c).
    { intros c Hc. rewrite Forall_forall in *. assert (NoDup (leaves c)) by (eapply nodup_child; eauto). apply split_parts; auto. }
    assert (OK : Forall okt (flat_map (P m) ts)) by (apply Forall_forall; intros x Hx; apply in_flat_map in Hx; destruct Hx as (c & Hc & Hx); pose proof (po_okt _ _ (PO c Hc)) as F; rewrite Forall_forall in F; auto).
    constructor; rewrite split_node.
    + destruct (ptree_cases _ _ _ HO) as [[a ->]|[NE F]]; [exact (pt_pre l a)|]. cbn. constructor.
      * destruct ts as [|c ts]; [congruence|]. cbn. intros X. apply app_eq_nil in X. destruct X as [X _]. apply (po_ne _ _ (PO c ltac:(now left)) X).
      * intros x Hx. rewrite Forall_forall in OK. pose proof (OK x Hx) as Ox. apply in_flat_map in Hx. destruct Hx as (c & Hc & Hx).
        pose proof (po_node _ _ (PO c Hc)) as Q. rewrite Forall_forall in Q, F. specialize (Q x Hx). rewrite (F c Hc) in Q. destruct x; [discriminate|exact Ox].
    + reflexivity.
    + cbn [leaves]. clear - PO. induction ts as [|c ts IH]; [auto|]. cbn. rewrite flat_map_app. apply Permutation_app; [apply (po_perm _ _ (PO c ltac:(now left)))|].
      apply IH. intros. apply PO. now right.
    + cbn [children]. apply Forall_forall. intros x Hx. apply in_flat_map in Hx. destruct Hx as (c & Hc & Hx). pose proof (po_cont _ _ (PO c Hc)) as F. rewrite Forall_forall in F. auto.
Qed.
Corollary parts_all : forall m t, okt t -> NoDup (leaves t) -> parts_ok m t.
Proof. intros. apply split_parts; auto. now apply split_all. Qed.

(** ---- the terminals of the parts are the components ---- *)
Lemma sep_gap : forall (bs : list (list nat)), (forall b, In b bs -> exists a k, 0 < k /\ b = seq a k) ->
  (forall i b c, nth_error bs i = Some b -> nth_error bs (S i) = Some c -> exists m, (forall x, In x b -> x < m) /\ (forall y, In y c -> m < y)) -> separated_nat bs.
Proof.
  induction bs as [|b bs IH]; intros H1 H2; [exact Logic.I|]. destruct bs as [|c bs]; [exact Logic.I|]. split.
  - destruct (H2 0 b c eq_refl eq_refl) as (m & A & B). destruct (H1 b ltac:(now left)) as (x & k & K & ->). destruct (H1 c ltac:(right; now left)) as (y & k' & K' & ->).
    assert (In (last (seq x k) 0) (seq x k)). { destruct k as [|k]; [lia|]. rewrite seq_S. rewrite last_last. apply in_or_app. right. now left. }
    apply A in H. destruct k' as [|k']; [lia|]. cbn [seq hd]. specialize (B y ltac:(now left)). lia.
  - apply IH; [intros; apply H1; now right|]. intros i b' c' Hb Hc. apply (H2 (S i)); auto.
Qed.
Lemma concat_sorted_blocks : forall (bs : list (list nat)), separated_nat bs -> (forall b, In b bs -> exists a k, 0 < k /\ b = seq a k) ->
  StronglySorted (fun x y => Nat.leb x y = true) (concat bs) /\ (forall b r, bs = b :: r -> Forall (fun x => hd 0 b <= x) (concat bs)).
Proof.
  induction bs as [|b bs IH]; intros SP H; [split; [constructor|discriminate]|]. destruct (H b ltac:(now left)) as (a & k & K & ->).
  assert (S' : separated_nat bs) by (destruct bs; [exact Logic.I|apply SP]). destruct (IH S' ltac:(intros; apply H; now right)) as [I1 I2].
  assert (GE : Forall (fun x => a + k <= x) (concat bs)).
  { destruct bs as [|c r]; [constructor|]. specialize (I2 c r eq_refl). destruct SP as [S1 _]. eapply Forall_impl; [|exact I2]. cbn. intros x Hx.
    destruct k as [|k]; [lia|]. rewrite seq_S, last_last in S1. lia. }
  cbn [concat]. split.
  - clear - I1 GE. revert a GE. induction k as [|k IHk]; intros a GE; [exact I1|]. cbn. constructor; [apply IHk; eapply Forall_impl; [|exact GE]; cbn; intros; lia|].
    apply Forall_app. split; [apply Forall_forall; intros x Hx; apply in_seq in Hx; apply Nat.leb_le; lia|]. eapply Forall_impl; [|exact GE]. cbn. intros. apply Nat.leb_le. lia.
  - intros b r X. injection X as <- <-. destruct k as [|k]; [lia|]. cbn [hd seq]. apply (Forall_app _ (a :: seq (S a) k)). split.
    + apply Forall_forall. intros x Hx. change (a :: seq (S a) k) with (seq a (S k)) in Hx. apply in_seq in Hx. lia.
    + eapply Forall_impl; [|exact GE]. cbn. intros. lia.
Qed.
Lemma blocks_components : forall (us : list btree), (forall n, In n us -> contiguous [n]) -> NoDup (flat_map leaves us) ->
  components (flat_map leaves us) = map (fun b => sort Nat.leb (flat_map leaves b)) (contsets us).
Proof.
  intros us G ND. destruct (C37_contsets _ us G ND) as (C1 & C2 & C3 & C4). set (bs := contsets us) in *.
  assert (INT : forall s, In s (map (fun b => sort Nat.leb (flat_map leaves b)) bs) -> exists a k, 0 < k /\ s = seq a k).
  { intros s Hs. apply in_map_iff in Hs. destruct Hs as (b & <- & Hb). destruct (C2 b Hb) as [_ (a & k & K & Q)]. exists a, k. split; auto. apply nat_sort_unique; [apply seq_sorted|exact Q]. }
  assert (SEP : separated_nat (map (fun b => sort Nat.leb (flat_map leaves b)) bs)).
  { apply sep_gap; auto. intros i b c Hb Hc. rewrite nth_error_map in Hb, Hc. destruct (nth_error bs i) as [b'|] eqn:Eb; [|discriminate]. destruct (nth_error bs (S i)) as [c'|] eqn:Ec; [|discriminate].
    cbn in Hb, Hc. injection Hb as <-. injection Hc as <-. destruct (C3 i b' c' Eb Ec) as (m & A & B). exists m. split; intros x Hx; apply sort_In in Hx; auto. }
  apply components_unique; auto.
  - symmetry. apply nat_sort_unique; [apply concat_sorted_blocks; auto|]. eapply perm_trans; [apply Permutation_flat_map, Permutation_sym; exact C1|].
    clear. induction bs as [|b bs IH]; [auto|]. cbn. rewrite flat_map_app. apply Permutation_app; [apply sort_perm|exact IH].
  - now apply Forall_forall.
Qed.
Lemma components_perm : forall s s', Permutation s s' -> components s = components s'.
Proof. intros s s' Q. unfold components. now rewrite (nat_sort_perm _ _ Q). Qed.
Theorem parts_components : forall m t, okt t -> NoDup (leaves t) -> map (fun p => sort Nat.leb (leaves p)) (P m t) = components (leaves t).
Proof.
  intros m t HO ND. pose proof (split_all m t HO ND) as [S1 S2 S3 S4]. rewrite <- (components_perm _ _ S3). unfold P.
  assert (NE : leaves (splitnodes m t) <> []) by now apply okt_ne.
  assert (BASE : isdisc (splitnodes m t) = false -> map (fun p : btree => sort Nat.leb (leaves p)) [splitnodes m t] = components (leaves (splitnodes m t))).
  { intros D. apply isdisc_interval in D; auto. rewrite interval_components by auto. cbn. f_equal. apply nat_sort_unique; [apply seq_sorted|]. now apply interval_seq. }
  destruct (splitnodes m t) as [a|l us] eqn:E; [apply BASE; reflexivity|]. cbn [splitchild]. destruct (isdisc (Node l us)) eqn:D; [|apply BASE; reflexivity].
  rewrite leaves_node. rewrite blocks_components.
  - generalize 0 as n. induction (contsets us) as [|b bs IH]; intros n; [reflexivity|]. cbn [parts_from map]. f_equal. apply IH.
  - intros n Hn. apply contiguous_interval, allcont_interval. rewrite Forall_forall in S4. auto.
  - eapply Permutation_NoDup; [apply Permutation_sym; exact S3|exact ND].
Qed.
