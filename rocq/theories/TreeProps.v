(** C16: tree traversals *)
From Coq Require Import List Bool Arith Lia Sorted Permutation ZifyBool.
From Verif Require Import TreeModel.
Import ListNotations.

(** ---- specification ---- *)
(** nodes in pre-order and in post-order *)
Fixpoint pre {L A} (t : tree L A) : list (tree L A) :=
  match t with Leaf _ => [] | Node l ts => Node l ts :: flat_map pre ts end.
Fixpoint post {L A} (t : tree L A) : list (tree L A) :=
  match t with Leaf _ => [] | Node l ts => flat_map post ts ++ [Node l ts] end.
(** a position comes before another: left of it, or above (below) it *)
Fixpoint left_of (p q : list nat) : Prop :=
  match p, q with i :: p', j :: q' => i < j \/ (i = j /\ left_of p' q') | _, _ => False end.
Definition proper_prefix (p q : list nat) : Prop := exists i r, q = p ++ i :: r.
Definition prefix (p q : list nat) : Prop := exists r, q = p ++ r.

(** ---- proofs ---- *)
Lemma size_pos : forall L A (t : tree L A), 1 <= size t.
Proof. destruct t; cbn; lia. Qed.
Lemma sizes_app : forall L A (a b : list (tree L A)), sizes (a ++ b) = sizes a + sizes b.
Proof. intros. unfold sizes. rewrite map_app, list_sum_app. reflexivity. Qed.
Lemma sizes_cons : forall L A (a : tree L A) b, sizes (a :: b) = size a + sizes b.
Proof. reflexivity. Qed.
Lemma size_node : forall L A l (ts : list (tree L A)), size (Node l ts) = S (sizes ts).
Proof. reflexivity. Qed.

Lemma subtrees_loop_pre : forall L A fuel (ag : list (tree L A)), sizes ag <= fuel ->
  subtrees_loop fuel ag = flat_map pre ag.
Proof.
  induction fuel; intros ag H.
  - destruct ag as [|t ag]; auto. rewrite sizes_cons in H. pose proof (size_pos _ _ t). lia.
  - destruct ag as [|t ag]; auto. cbn [subtrees_loop flat_map]. rewrite sizes_cons in H. destruct t as [a|l ts].
    + cbn in H. rewrite IHfuel by lia. reflexivity.
    + rewrite size_node in H. cbn [pre app]. f_equal. rewrite IHfuel; [apply flat_map_app|]. rewrite sizes_app. lia.
Qed.
Theorem C16_subtrees_preorder : forall L A cond (t : tree L A), subtrees cond t = filter cond (pre t).
Proof. intros. unfold subtrees. rewrite subtrees_loop_pre; cbn; [now rewrite app_nil_r|lia]. Qed.

Fixpoint ids {L A} (t : tree (nat * L) A) : list nat :=
  match t with Leaf _ => [] | Node (i, _) ts => i :: flat_map ids ts end.
Lemma postorder_loop_post : forall L A (t : tree (nat * L) A) f r vis,
  NoDup (ids t) -> (forall i, In i (ids t) -> ~ In i vis) ->
  2 * size t <= f ->
  exists f' vis', f' + 2 * size t >= f /\ (forall i, In i vis' <-> In i vis \/ In i (ids t)) /\
    postorder_loop f (t :: r) vis = post t ++ postorder_loop f' r vis'.
Proof.
  intros L A t. induction t as [a|[i l] ts IH] using tree_ind'; intros f r vis ND NV HF.
  - destruct f; [cbn in HF; lia|]. exists f, vis. split; [cbn; lia|]. split; [|reflexivity]. cbn. tauto.
  - rewrite size_node in HF. destruct f as [|f]; [lia|]. cbn [postorder_loop].
    cbn [ids] in ND, NV. inversion ND as [|? ? N1 N2]; subst.
    replace (existsb (Nat.eqb i) vis) with false.
    2: { symmetry. apply not_true_is_false. intros H. apply existsb_exists in H. destruct H as (j & Hj & E).
         apply Nat.eqb_eq in E. subst. apply (NV j); [now left|auto]. }
    assert (CH : forall (us : list (tree (nat * L) A)) f r vis, Forall (fun t => forall f r vis, NoDup (ids t) -> (forall i, In i (ids t) -> ~ In i vis) ->
        2 * size t <= f -> exists f' vis', f' + 2 * size t >= f /\ (forall i, In i vis' <-> In i vis \/ In i (ids t)) /\
        postorder_loop f (t :: r) vis = post t ++ postorder_loop f' r vis') us ->
      NoDup (flat_map ids us) -> (forall i, In i (flat_map ids us) -> ~ In i vis) -> 2 * sizes us <= f ->
      exists f' vis', f' + 2 * sizes us >= f /\ (forall i, In i vis' <-> In i vis \/ In i (flat_map ids us)) /\
        postorder_loop f (us ++ r) vis = flat_map post us ++ postorder_loop f' r vis').
    { clear. induction us as [|u us IHu]; intros f r vis F ND NV HF.
      - exists f, vis. split; [cbn; lia|]. split; [cbn; tauto|reflexivity].
      - inversion F as [|? ? Fu Fus]; subst. cbn [flat_map] in ND, NV. rewrite sizes_cons in HF.
        assert (NDu : NoDup (ids u) /\ NoDup (flat_map ids us) /\ forall x, In x (ids u) -> ~ In x (flat_map ids us)).
        { clear - ND. induction (ids u) as [|x l IH]; cbn in *.
          - split; [constructor|]. split; auto.
          - inversion ND; subst. destruct (IH H2) as (A1 & A2 & A3). split; [constructor; auto; intros I; apply H1; apply in_or_app; auto|].
            split; auto. intros y [<-|Hy]; auto. intros I. apply H1. apply in_or_app. auto. }
        destruct NDu as (D1 & D2 & D3).
        destruct (Fu f (us ++ r) vis D1) as (f1 & v1 & G1 & G2 & G3); [intros; apply NV; apply in_or_app; auto|lia|].
        destruct (IHu f1 r v1 Fus D2) as (f2 & v2 & K1 & K2 & K3).
        { intros j Hj Hv. apply G2 in Hv. destruct Hv as [Hv|Hv]; [apply (NV j); auto; apply in_or_app; auto|]. eapply D3; eauto. }
        { lia. }
        exists f2, v2. rewrite sizes_cons. split; [lia|]. split.
        + intros j. rewrite K2, G2. cbn [flat_map]. rewrite in_app_iff. tauto.
        + cbn [app flat_map]. rewrite G3, K3. now rewrite app_assoc. }
    destruct (CH ts f (Node (i, l) ts :: r) (i :: vis) IH N2) as (f1 & v1 & G1 & G2 & G3).
    { intros j Hj [<-|Hv]; [contradiction|]. apply (NV j); auto. now right. }
    { lia. }
    rewrite G3. destruct f1 as [|f1]; [lia|]. cbn [postorder_loop].
    replace (existsb (Nat.eqb i) v1) with true.
    2: { symmetry. apply existsb_exists. exists i. split; [|apply Nat.eqb_refl]. apply G2. left. now left. }
    exists f1, v1. split; [rewrite size_node; lia|]. split.
    + intros j. rewrite G2. cbn. tauto.
    + cbn [post]. rewrite <- app_assoc. reflexivity.
Qed.
(** For trees in which no node object occurs twice. *)
Theorem C16_postorder : forall L A cond (t : tree (nat * L) A), NoDup (ids t) ->
  postorder cond t = filter cond (post t).
Proof.
  intros L A cond t ND. unfold postorder.
  destruct (postorder_loop_post L A t (2 * size t) [] [] ND) as (f' & v' & _ & _ & ->); [intros ? _ []|lia|].
  destruct f'; cbn; now rewrite app_nil_r.
Qed.
(** A node object used twice as a child (which Tree allows, and == does not
    notice) is yielded twice, but the nodes below it only once. *)
Theorem C16_postorder_shared_refuted : exists t : tree (nat * nat) nat,
  postorder (fun _ => true) t <> post t.
Proof.
  set (np := Node (2, 20) [@Node (nat * nat) nat (3, 30) [Leaf 0]]).
  exists (Node (1, 10) [np; np]). vm_compute. discriminate.
Qed.
(** Each node once: with distinct objects, pre- and post-order are
    duplicate-free permutations of each other. *)
Theorem C16_same_nodes : forall L A (t : tree L A), Permutation (pre t) (post t).
Proof.
  intros L A t. induction t as [a|l ts IH] using tree_ind'; cbn; auto.
  eapply perm_trans; [|apply Permutation_cons_append]. apply perm_skip.
  induction IH; cbn; auto. now apply Permutation_app.
Qed.

(** ---- leaves and pos ---- *)
Lemma leaves_node : forall L A l (ts : list (tree L A)), leaves (Node l ts) = flat_map leaves ts.
Proof. reflexivity. Qed.
(** no node has both a leaf and a node among its children *)
Fixpoint unmixed {L A} (t : tree L A) : bool :=
  match t with
  | Leaf _ => true
  | Node _ ts => (forallb (fun c => match c with Leaf _ => true | _ => false end) ts
                  || forallb (fun c => match c with Node _ _ => true | _ => false end) ts)
                 && forallb unmixed ts
  end.
Definition tagged {L A} (t : tree L A) : list (A * L) :=
  flat_map (fun n => match n with
    | Node l ts => flat_map (fun c => match c with Leaf a => [(a, l)] | _ => [] end) ts
    | Leaf _ => [] end) (pre t).
Lemma pos_loop_tagged : forall L A fuel (ag : list (tree L A)), sizes ag <= fuel ->
  pos_loop fuel ag = flat_map tagged ag.
Proof.
  induction fuel; intros ag H.
  - destruct ag as [|t ag]; auto. rewrite sizes_cons in H. pose proof (size_pos _ _ t). lia.
  - destruct ag as [|t ag]; auto. cbn [pos_loop flat_map]. rewrite sizes_cons in H. destruct t as [a|l ts].
    + cbn in H. rewrite IHfuel by lia. reflexivity.
    + rewrite size_node in H. rewrite IHfuel by (rewrite sizes_app; lia). unfold tagged at 2. cbn [pre flat_map].
      rewrite <- app_assoc. f_equal. rewrite flat_map_app. f_equal.
      clear. induction ts; cbn; auto. rewrite flat_map_app, IHts. reflexivity.
Qed.
(** pos() pairs every terminal with the label of its parent ... *)
Theorem C16_pos_pairs : forall L A (t : tree L A) a l,
  In (a, l) (pos t) <-> exists ts, In (Node l ts) (pre t) /\ In (Leaf a) ts.
Proof.
  intros. unfold pos. rewrite pos_loop_tagged by (cbn; lia). cbn. rewrite app_nil_r. unfold tagged.
  rewrite in_flat_map. split.
  - intros ([b|l' ts] & H1 & H2); [contradiction|]. apply in_flat_map in H2. destruct H2 as ([b|? ?] & H3 & H4).
    + destruct H4 as [H4|[]]. inversion H4; subst. eauto.
    + contradiction.
  - intros (ts & H1 & H2). exists (Node l ts). split; auto. apply in_flat_map. exists (Leaf a). split; auto. now left.
Qed.
(** ... in the order of leaves(), if terminals have no sisters that are
    constituents; otherwise the order can differ. *)
Theorem C16_pos_order : forall L A (t : tree L A), unmixed t = true -> (exists l ts, t = Node l ts) ->
  map fst (pos t) = leaves t.
Proof.
  intros L A t U HN. unfold pos. rewrite pos_loop_tagged by (cbn; lia). cbn. rewrite app_nil_r.
  assert (GEN : forall t : tree L A, unmixed t = true -> match t with Leaf _ => tagged t = [] | Node _ _ => map fst (tagged t) = leaves t end).
  { clear. induction t as [a|l ts IH] using tree_ind'; intros U; [reflexivity|].
    cbn in U. apply andb_prop in U. destruct U as [U1 U2]. unfold tagged. cbn [pre flat_map leaves].
    rewrite map_app. apply orb_prop in U1. destruct U1 as [U1|U1].
    - clear IH U2. replace (flat_map pre ts) with (@nil (tree L A)).
      + cbn [flat_map map]. rewrite app_nil_r. induction ts as [|[a|? ?] ts IHt]; cbn in *; auto; [|discriminate].
        rewrite IHt by auto. reflexivity.
      + induction ts as [|[a|? ?] ts IHt]; cbn in *; auto. discriminate.
    - replace (flat_map (fun c : tree L A => match c with Leaf a => [(a, l)] | Node _ _ => [] end) ts) with (@nil (A * L)).
      + cbn [map app]. induction IH as [|x ts Hx HF IHt]; [reflexivity|]. cbn in U1, U2. apply andb_prop in U2. destruct U2 as [U2 U3].
        destruct x as [a|? ?]; [discriminate|]. cbn [flat_map]. rewrite flat_map_app, map_app. rewrite IHt by auto. f_equal.
        apply Hx; auto.
      + clear - U1. induction ts as [|[a|? ?] ts IHt]; cbn in *; auto. discriminate. }
  specialize (GEN t U). destruct HN as (l & ts & ->). exact GEN.
Qed.
Theorem C16_pos_order_mixed_refuted : exists t : tree nat nat, map fst (pos t) <> leaves t.
Proof. exists (Node 0 [Node 1 [Leaf 0]; Leaf 1]). vm_compute. discriminate. Qed.

(** ---- positions ---- *)
Lemma mapi_len : forall X Y (f : nat -> X -> Y) l k, length (mapi f k l) = length l.
Proof. induction l; intros; cbn; auto. Qed.
Lemma in_children : forall L A (f : tree L A -> list (list nat)) ts k p,
  In p (concat (mapi (fun i ps => map (cons i) ps) k (map f ts))) <->
  exists i c q, nth_error ts i = Some c /\ In q (f c) /\ p = (k + i) :: q.
Proof.
  induction ts as [|t ts IH]; intros k p; cbn.
  - split; [intros []|]. intros (i & c & q & H & _). destruct i; discriminate.
  - rewrite in_app_iff, IH, in_map_iff. split.
    + intros [(q & <- & Hq)|(i & c & q & H1 & H2 & ->)].
      * exists 0, t, q. split; auto. split; auto. f_equal. lia.
      * exists (S i), c, q. split; auto. split; auto. f_equal. lia.
    + intros (i & c & q & H1 & H2 & ->). destruct i as [|i]; cbn in H1.
      * left. inversion H1; subst. exists q. split; auto. f_equal. lia.
      * right. exists i, c, q. split; auto. split; auto. f_equal. lia.
Qed.
Definition isnode {L A} (t : tree L A) : bool := match t with Node _ _ => true | Leaf _ => false end.
Lemma tp_in : forall L A o (t : tree L A) p, In p (treepositions o t) <->
  exists s, getpos t p = Some s /\ (isnode s = true -> before o = true \/ after o = true).
Proof.
  intros L A o t. induction t as [a|l ts IH] using tree_ind'; intros p.
  - cbn. split.
    + intros [<-|[]]. exists (Leaf a). split; auto. discriminate.
    + intros (s & H & _). destruct p; [auto|discriminate].
  - cbn [treepositions]. rewrite !in_app_iff, in_children. rewrite Forall_forall in IH. split.
    + intros [H|[(i & c & q & H1 & H2 & ->)|H]].
      * destruct (before o) eqn:B; [|contradiction]. destruct H as [<-|[]]. exists (Node l ts). auto.
      * apply (IH c) in H2; [|eapply nth_error_In; eauto]. destruct H2 as (s & H2 & H3). exists s. cbn. rewrite H1. auto.
      * destruct (after o) eqn:B; [|contradiction]. destruct H as [<-|[]]. exists (Node l ts). auto.
    + intros (s & H1 & H2). destruct p as [|i p].
      * cbn in H1. inversion H1; subst. destruct (H2 eq_refl) as [-> | ->]; cbn; auto.
      * right. left. cbn in H1. destruct (nth_error ts i) as [c|] eqn:E; [|discriminate]. exists i, c, p. split; auto. split; auto.
        apply IH; [eapply nth_error_In; eauto|]. eauto.
Qed.
Lemma ss_app' : forall X (R : X -> X -> Prop) l m, StronglySorted R l -> StronglySorted R m ->
  (forall x y, In x l -> In y m -> R x y) -> StronglySorted R (l ++ m).
Proof.
  induction l as [|a l IH]; intros m H1 H2 H; cbn; auto. inversion H1; subst. constructor.
  - apply IH; auto. intros; apply H; auto. now right.
  - apply Forall_app. split; auto. apply Forall_forall. intros y Hy. apply H; auto. now left.
Qed.
Lemma children_sorted : forall L A (R : list nat -> list nat -> Prop) (f : tree L A -> list (list nat)) ts,
  (forall i j p q, i < j -> R (i :: p) (j :: q)) -> (forall i p q, R p q -> R (i :: p) (i :: q)) ->
  Forall (fun t => StronglySorted R (f t)) ts -> forall k,
  StronglySorted R (concat (mapi (fun i ps => map (cons i) ps) k (map f ts))).
Proof.
  intros L A R f ts H1 H2 HF. induction HF as [|t ts Ht HF IH]; intros k; cbn; [constructor|].
  apply ss_app'; auto.
  - clear - Ht H2. induction Ht; cbn; constructor; auto. rewrite Forall_forall in *. intros q Hq.
    apply in_map_iff in Hq. destruct Hq as (r & <- & Hr). auto.
  - intros x y Hx Hy. apply in_map_iff in Hx. destruct Hx as (q & <- & _). apply in_children in Hy.
    destruct Hy as (i & c & r & _ & _ & ->). apply H1. lia.
Qed.
(** pre-order: the positions of all nodes and leaves, each once: what is above
    or to the left comes first. *)
Theorem C16_treepositions_preorder : forall L A (t : tree L A),
  (forall p, In p (treepositions Preorder t) <-> getpos t p <> None) /\
  StronglySorted (fun p q => left_of p q \/ proper_prefix p q) (treepositions Preorder t).
Proof.
  intros L A t. split.
  - intros p. rewrite tp_in. split.
    + intros (s & -> & _). discriminate.
    + intros H. destruct (getpos t p) as [s|]; [|congruence]. exists s. auto.
  - induction t as [a|l ts IH] using tree_ind'; [repeat constructor|]. cbn [treepositions before after].
    rewrite app_nil_r. cbn [app]. constructor.
    + apply children_sorted; auto; [cbn; auto|]. intros i p q [H|(j & r & ->)]; [left; cbn; auto|right; exists j, r; auto].
    + apply Forall_forall. intros p Hp. apply in_children in Hp. destruct Hp as (i & c & q & _ & _ & ->). right. exists (0 + i), q. reflexivity.
Qed.
Theorem C16_treepositions_postorder : forall L A (t : tree L A),
  (forall p, In p (treepositions Postorder t) <-> getpos t p <> None) /\
  StronglySorted (fun p q => left_of p q \/ proper_prefix q p) (treepositions Postorder t).
Proof.
  intros L A t. split.
  - intros p. rewrite tp_in. split.
    + intros (s & -> & _). discriminate.
    + intros H. destruct (getpos t p) as [s|]; [|congruence]. exists s. auto.
  - induction t as [a|l ts IH] using tree_ind'; [repeat constructor|]. cbn [treepositions before after app].
    apply ss_app'.
    + apply children_sorted; auto; [cbn; auto|]. intros i p q [H|(j & r & ->)]; [left; cbn; auto|right; exists j, r; auto].
    + repeat constructor.
    + intros p q Hp [<-|[]]. apply in_children in Hp. destruct Hp as (i & c & r & _ & _ & ->). right. exists (0 + i), r. reflexivity.
Qed.
(** leaves: exactly the positions of terminals, left to right *)
Theorem C16_treepositions_leaves : forall L A (t : tree L A),
  (forall p, In p (treepositions LeavesOrder t) <-> exists a, getpos t p = Some (Leaf a)) /\
  StronglySorted left_of (treepositions LeavesOrder t) /\
  map (getpos t) (treepositions LeavesOrder t) = map (fun a => Some (Leaf a)) (leaves t).
Proof.
  intros L A t. split; [|split].
  - intros p. rewrite tp_in. cbn. split.
    + intros (s & H & N). destruct s as [a|]; [eauto|]. destruct N as [N|N]; auto; discriminate.
    + intros (a & H). exists (Leaf a). split; auto.
  - induction t as [a|l ts IH] using tree_ind'; [repeat constructor|]. cbn [treepositions before after app].
    rewrite app_nil_r. apply children_sorted; auto; cbn; auto.
  - induction t as [a|l ts IH] using tree_ind'; [reflexivity|]. cbn [treepositions before after app leaves].
    rewrite app_nil_r.
    assert (G : forall us k, Forall (fun t : tree L A => map (getpos t) (treepositions LeavesOrder t) = map (fun a => Some (Leaf a)) (leaves t)) us ->
       (forall i c, nth_error us i = Some c -> nth_error ts (k + i) = Some c) ->
       map (getpos (Node l ts)) (concat (mapi (fun i ps => map (cons i) ps) k (map (treepositions LeavesOrder) us)))
       = map (fun a => Some (Leaf a)) (flat_map leaves us)).
    { induction us as [|u us IHu]; intros k F N; [reflexivity|]. inversion F; subst. cbn [map mapi concat flat_map].
      rewrite !map_app, map_map. f_equal.
      - rewrite <- H1. apply map_ext. intros p. cbn. rewrite <- (Nat.add_0_r k). rewrite (N 0 u); auto.
      - apply IHu; auto. intros i c H. rewrite Nat.add_succ_comm. auto. }
    apply (G ts 0 IH). auto.
Qed.
(** bothorder: leaves once, nodes twice *)
Theorem C16_treepositions_bothorder : forall L A (t : tree L A) p s, getpos t p = Some s ->
  count_occ (list_eq_dec Nat.eq_dec) (treepositions Bothorder t) p = if isnode s then 2 else 1.
Proof.
  intros L A t. induction t as [a|l ts IH] using tree_ind'; intros p s H.
  - destruct p; cbn in H; inversion H; subst. reflexivity.
  - cbn [treepositions before after]. rewrite !count_occ_app.
    set (D := list_eq_dec Nat.eq_dec).
    destruct p as [|i p].
    + cbn in H. inversion H; subst. cbn [isnode]. rewrite (proj1 (count_occ_not_In D (concat (mapi (fun i ps => map (cons i) ps) 0 (map (treepositions Bothorder) ts))) [])).
      * reflexivity.
      * intros I. apply in_children in I. destruct I as (j & c & q & _ & _ & E). discriminate.
    + replace (count_occ D [[]] (i :: p)) with 0 by (cbn; destruct (D [] (i :: p)); [discriminate|reflexivity]).
      rewrite Nat.add_0_r. cbn [Nat.add].
      cbn in H. destruct (nth_error ts i) as [c|] eqn:E; [|discriminate].
      rewrite Forall_forall in IH. rewrite <- (IH c (nth_error_In _ _ E) p s H).
      assert (CO : forall (g : list (list nat)) j q, count_occ D (map (cons j) g) q = match q with x :: r => if x =? j then count_occ D g r else 0 | [] => 0 end).
      { clear. intros g j q. induction g as [|x g IH]; cbn [map count_occ]; [destruct q as [|a b]; auto; now destruct (a =? j)|].
        rewrite IH. destruct q as [|a b]; [destruct (D (j :: x) []); congruence|].
        destruct (D (j :: x) (a :: b)) as [E|E].
        - inversion E; subst. rewrite Nat.eqb_refl. destruct (D b b); congruence.
        - destruct (Nat.eqb_spec a j); auto. subst. destruct (D x b); congruence. }
      assert (G : forall us k, nth_error us i = Some c ->
        count_occ D (concat (mapi (fun i ps => map (cons i) ps) k (map (treepositions Bothorder) us))) ((k + i) :: p)
        = count_occ D (treepositions Bothorder c) p).
      { clear - CO. intros us. revert i. induction us as [|u us IHu]; intros i k Hc; [destruct i; discriminate|].
        cbn [map mapi concat]. rewrite count_occ_app, CO. destruct i as [|i]; cbn in Hc.
        - inversion Hc; subst. rewrite Nat.add_0_r, Nat.eqb_refl.
          rewrite (proj1 (count_occ_not_In D (concat _) _)); [lia|]. intros I. apply in_children in I.
          destruct I as (j & d & q & _ & _ & Eq). inversion Eq. lia.
        - replace (k + S i =? k) with false by (symmetry; apply Nat.eqb_neq; lia).
          rewrite <- Nat.add_succ_comm. rewrite IHu; auto. }
      apply (G ts 0 E).
Qed.
(** subtrees() visits the nodes in the order of treepositions('preorder') *)
Theorem C16_subtrees_positions : forall L A (t : tree L A),
  map Some (subtrees (fun _ => true) t) = filter (fun o => match o with Some s => isnode s | None => false end)
    (map (getpos t) (treepositions Preorder t)).
Proof.
  intros L A t. rewrite C16_subtrees_preorder.
  replace (filter (fun _ => true) (pre t)) with (pre t) by (induction (pre t); cbn; congruence).
  induction t as [a|l ts IH] using tree_ind'; [reflexivity|]. cbn [treepositions before after app pre map].
  rewrite app_nil_r. cbn [filter getpos isnode]. f_equal.
  assert (G : forall us k, Forall (fun t : tree L A => map Some (pre t) = filter (fun o => match o with Some s => isnode s | None => false end)
      (map (getpos t) (treepositions Preorder t))) us ->
     (forall i c, nth_error us i = Some c -> nth_error ts (k + i) = Some c) ->
     map Some (flat_map pre us) = filter (fun o => match o with Some s => isnode s | None => false end)
       (map (getpos (Node l ts)) (concat (mapi (fun i ps => map (cons i) ps) k (map (treepositions Preorder) us))))).
  { induction us as [|u us IHu]; intros k F N; [reflexivity|]. inversion F; subst. cbn [map mapi concat flat_map].
    rewrite !map_app, map_map, filter_app. f_equal.
    - rewrite H1. f_equal. apply map_ext. intros p. cbn. rewrite <- (Nat.add_0_r k). now rewrite (N 0 u).
    - apply IHu; auto. intros i c H. rewrite Nat.add_succ_comm. auto. }
  apply (G ts 0 IH). auto.
Qed.

(** ---- leaf_treeposition ---- *)
Definition psizes {L A} (st : list (tree L A * list nat)) : nat := sizes (map fst st).
Definition stack_pos {L A} (st : list (tree L A * list nat)) : list (list nat) :=
  flat_map (fun e => map (app (snd e)) (treepositions LeavesOrder (fst e))) st.
Lemma mapi_fst : forall L A (ts : list (tree L A)) (g : nat -> list nat) k, map fst (mapi (fun i c => (c, g i)) k ts) = ts.
Proof. induction ts; intros; cbn; auto. f_equal. auto. Qed.
Lemma leafpos_loop_ok : forall L A fuel (st : list (tree L A * list nat)) i, psizes st < fuel ->
  leafpos_loop fuel st i = nth_error (stack_pos st) i.
Proof.
  induction fuel; intros st i H; [lia|]. destruct st as [|[t p] st]; cbn [leafpos_loop].
  - destruct i; reflexivity.
  - unfold psizes in H. cbn [map fst] in H. rewrite sizes_cons in H. destruct t as [a|l ts].
    + cbn in H. destruct i; cbn; [now rewrite app_nil_r|]. apply IHfuel. unfold psizes. lia.
    + rewrite size_node in H. rewrite IHfuel.
      * f_equal. unfold stack_pos. rewrite flat_map_app. cbn [flat_map fst snd treepositions before after app].
        rewrite app_nil_r. f_equal. clear. generalize 0 as k. induction ts as [|t ts IH]; intros k; cbn; auto.
        rewrite map_app, IH, map_map. f_equal. apply map_ext. intros q. rewrite <- app_assoc. reflexivity.
      * unfold psizes. rewrite map_app, mapi_fst, sizes_app. lia.
Qed.
Lemma leaf_pos_nth : forall L A (t : tree L A) i, leaf_treeposition t i = nth_error (treepositions LeavesOrder t) i.
Proof.
  intros. unfold leaf_treeposition. rewrite leafpos_loop_ok by (unfold psizes; cbn; lia).
  unfold stack_pos. cbn. rewrite app_nil_r. f_equal. now rewrite map_id.
Qed.
Theorem C16_leaf_treeposition : forall L A (t : tree L A) i,
  match nth_error (leaves t) i with
  | Some a => exists p, leaf_treeposition t i = Some p /\ getpos t p = Some (Leaf a)
  | None => leaf_treeposition t i = None
  end.
Proof.
  intros L A t i. rewrite leaf_pos_nth. destruct (C16_treepositions_leaves L A t) as (_ & _ & M).
  pose proof (f_equal (fun l => nth_error l i) M) as N. cbn beta in N. rewrite !nth_error_map in N.
  destruct (nth_error (leaves t) i) as [a|], (nth_error (treepositions LeavesOrder t) i) as [p|]; cbn in N; try discriminate; auto.
  inversion N. eauto.
Qed.

(** ---- treeposition_spanning_leaves ---- *)
Lemma common_prefix : forall p q, prefix (common p q) p /\ prefix (common p q) q.
Proof.
  induction p as [|x p IH]; intros q; cbn; [split; [exists []|exists q]; auto|].
  destruct q as [|y q]; [split; [exists (x :: p)|exists []]; auto|]. destruct (Nat.eqb_spec x y).
  - subst. destruct (IH q) as [[r E1] [s E2]]. split; [exists r|exists s]; cbn; congruence.
  - split; [exists (x :: p)|exists (y :: q)]; auto.
Qed.
Lemma common_greatest : forall p q r, prefix r p -> prefix r q -> prefix r (common p q).
Proof.
  induction p as [|x p IH]; intros q r [a E1] [b E2]; cbn.
  - destruct r; [exists []; auto|discriminate].
  - destruct r as [|z r]; [exists (match q with [] => [] | y :: q' => if x =? y then x :: common p q' else [] end); auto|].
    cbn in *. subst q. inversion E1; subst. rewrite Nat.eqb_refl. destruct (IH (r ++ b) r) as [c E]; [now exists a|now exists b|].
    exists c. cbn. congruence.
Qed.
Lemma left_between : forall r p q x, prefix r p -> prefix r q -> left_of p x \/ p = x -> left_of x q \/ x = q -> prefix r x.
Proof.
  induction r as [|z r IH]; intros p q x [a Ea] [b Eb] H1 H2; [now exists x|].
  subst p q. cbn in *. destruct x as [|y x].
  - destruct H1 as [H1|H1]; [contradiction|discriminate].
  - assert (E : y = z /\ (left_of (r ++ a) x \/ r ++ a = x) /\ (left_of x (r ++ b) \/ x = r ++ b)).
    { destruct H1 as [[H1|[H1 H1']]|H1]; destruct H2 as [[H2|[H2 H2']]|H2]; try (inversion H1; subst); try (inversion H2; subst); try lia; auto. }
    destruct E as (-> & E1 & E2). destruct (IH (r ++ a) (r ++ b) x) as [c ->]; [now exists a|now exists b|auto|auto|].
    exists c. reflexivity.
Qed.
Lemma ss_nth : forall X (R : X -> X -> Prop) l, StronglySorted R l -> forall i j a b, i < j ->
  nth_error l i = Some a -> nth_error l j = Some b -> R a b.
Proof.
  induction 1; intros i j x y Hij Hi Hj; [destruct i; discriminate|]. destruct j; [lia|]. destruct i; cbn in *.
  - inversion Hi; subst. rewrite Forall_forall in H0. apply H0. eapply nth_error_In; eauto.
  - eapply IHStronglySorted; [|eauto|eauto]. lia.
Qed.
(** The result is a position above (or at) all of the leaves start..end-1, and
    every other such position is above it. *)
Theorem C16_spanning_leaves : forall L A (t : tree L A) s e, s < e -> e <= length (leaves t) ->
  exists p, treeposition_spanning_leaves t s e = SpOk p /\ getpos t p <> None /\
    (forall i q, s <= i < e -> leaf_treeposition t i = Some q -> prefix p q) /\
    (forall p', (forall i q, s <= i < e -> leaf_treeposition t i = Some q -> prefix p' q) -> prefix p' p).
Proof.
  intros L A t s e Hse He.
  assert (EX : forall i, i < length (leaves t) -> exists q, leaf_treeposition t i = Some q).
  { intros i Hi. pose proof (C16_leaf_treeposition L A t i) as H. destruct (nth_error (leaves t) i) eqn:E.
    - destruct H as (p & H & _). eauto.
    - apply nth_error_None in E. lia. }
  destruct (EX s) as [p Hp]; [lia|]. destruct (EX (e - 1)) as [q Hq]; [lia|].
  unfold treeposition_spanning_leaves. replace (e <=? s) with false by (symmetry; apply Nat.leb_gt; lia).
  rewrite Hp, Hq. exists (common p q). destruct (common_prefix p q) as [C1 C2]. split; auto. split; [|split].
  - assert (V : getpos t p <> None).
    { rewrite leaf_pos_nth in Hp. apply nth_error_In in Hp. apply C16_treepositions_leaves in Hp. destruct Hp as [a ->]. discriminate. }
    destruct C1 as [r C1]. rewrite C1 in V. revert V. generalize (common p q) as c. clear. intros c. revert t.
    induction c as [|i c IH]; intros t V; cbn in *; [discriminate|]. destruct t as [a|l ts]; auto.
    destruct (nth_error ts i); auto.
  - intros i x Hi Hx. destruct (C16_treepositions_leaves L A t) as (_ & S & _). rewrite leaf_pos_nth in *.
    apply (left_between _ p q x C1 C2).
    + destruct (Nat.eq_dec s i); [right; congruence|]. left. eapply (ss_nth _ _ _ S s i); eauto. lia.
    + destruct (Nat.eq_dec (e - 1) i); [right; congruence|]. left. eapply (ss_nth _ _ _ S i (e - 1)); eauto. lia.
  - intros p' H. apply common_greatest; [apply (H s)|apply (H (e - 1))]; auto; lia.
Qed.
Theorem C16_spanning_errors : forall L A (t : tree L A) s e,
  (e <= s -> treeposition_spanning_leaves t s e = SpValueError) /\
  (s < e -> length (leaves t) < e -> treeposition_spanning_leaves t s e = SpIndexError).
Proof.
  intros L A t s e. unfold treeposition_spanning_leaves. split.
  - intros H. now replace (e <=? s) with true by (symmetry; apply Nat.leb_le; lia).
  - intros H1 H2. replace (e <=? s) with false by (symmetry; apply Nat.leb_gt; lia).
    pose proof (C16_leaf_treeposition L A t (e - 1)) as H. replace (nth_error (leaves t) (e - 1)) with (@None A) in H.
    + rewrite H. destruct (leaf_treeposition t s); reflexivity.
    + symmetry. apply nth_error_None. lia.
Qed.

(** ---- height ---- *)
(** the longest path downwards from the node *)
Theorem C16_height : forall L A (t : tree L A),
  (exists p, getpos t p <> None /\ height t = S (length p)) /\
  (forall p, getpos t p <> None -> S (length p) <= height t).
Proof.
  intros L A t. induction t as [a|l ts IH] using tree_ind'.
  - split; [exists []; split; [discriminate|reflexivity]|]. intros [|i p] H; [auto|]. cbn in H. congruence.
  - cbn [height].
    assert (G : forall us m, Forall (fun t : tree L A => (exists p, getpos t p <> None /\ height t = S (length p)) /\
        (forall p, getpos t p <> None -> S (length p) <= height t)) us ->
      let r := fold_left (fun m c => max m (height c)) us m in
      m <= r /\ (r = m \/ exists i c, nth_error us i = Some c /\ r = height c) /\
      (forall i c, nth_error us i = Some c -> height c <= r)).
    { induction us as [|u us IHu]; intros m F; cbn.
      - split; auto. split; auto. intros i c H. destruct i; discriminate.
      - inversion F; subst. destruct (IHu (max m (height u)) H2) as (A1 & A2 & A3). split; [lia|]. split.
        + destruct A2 as [A2|(i & c & A2 & A4)]; [|right; exists (S i), c; auto].
          rewrite A2. destruct (Nat.max_spec m (height u)) as [[_ ->]|[_ ->]]; [right; exists 0, u; auto|left; auto].
        + intros i c H. destruct i; cbn in H; [inversion H; subst; lia|]. eauto. }
    destruct (G ts 0 IH) as (_ & A2 & A3). rewrite Forall_forall in IH. split.
    + destruct A2 as [A2|(i & c & A2 & A4)].
      * exists []. rewrite A2. split; [discriminate|reflexivity].
      * destruct (IH c (nth_error_In _ _ A2)) as [(p & P1 & P2) _]. exists (i :: p). cbn. rewrite A2. split; auto. congruence.
    + intros [|i p] H; cbn; [lia|]. cbn in H. destruct (nth_error ts i) as [c|] eqn:E; [|congruence].
      destruct (IH c (nth_error_In _ _ E)) as [_ P]. specialize (P p H). specialize (A3 i c E). lia.
Qed.

Example C16_ex : let t : tree nat nat := Node 0 [Node 1 [Node 2 [Leaf 10]; Node 3 [Leaf 11]]; Node 4 [Leaf 12]] in
  unmixed t = true /\ treeposition_spanning_leaves t 0 2 = SpOk [0] /\ treeposition_spanning_leaves t 0 3 = SpOk [] /\
  leaf_treeposition t 1 = Some [0; 1; 0] /\ pos t = [(10, 2); (11, 3); (12, 4)].
Proof. cbn. auto. Qed.
Example C16_ex_ids : let t : tree (nat * nat) nat := Node (0, 0) [Node (1, 1) [Leaf 10]; Node (2, 1) [Leaf 11]] in
  NoDup (ids t) /\ length (postorder (fun _ => true) t) = 3.
Proof. split; [repeat constructor; cbn; intuition congruence|reflexivity]. Qed.
Print Assumptions C16_subtrees_preorder.
Print Assumptions C16_postorder.
Print Assumptions C16_pos_order.
Print Assumptions C16_treepositions_preorder.
Print Assumptions C16_treepositions_postorder.
Print Assumptions C16_treepositions_leaves.
Print Assumptions C16_treepositions_bothorder.
Print Assumptions C16_subtrees_positions.
Print Assumptions C16_leaf_treeposition.
Print Assumptions C16_spanning_leaves.
Print Assumptions C16_height.
