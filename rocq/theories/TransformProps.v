(** Tree transformations.

    C25 introducepreterminals
    C26 removeterminals
    C27 canonicalize
    C28 fan-out markers
    C37 contsets *)
From Coq Require Import String.
From Coq Require Import List Bool Arith NArith ZArith Lia Permutation Sorted.
From Verif Require Import PyStr TreeModel BracketModel BracketProofs BinarizeModel UtilModel UtilProps SortProofs ContsetsProofs TreeProps BinarizeProps TransformModel.
Import ListNotations.
Open Scope list_scope.

(** ---- specification vocabulary ---- *)
(** a tree in which every terminal is the only child of its preterminal and no
    node is empty *)
Inductive ptree {L A} : tree L A -> Prop :=
  | pt_pre : forall l a, ptree (Node l [Leaf a])
  | pt_node : forall l ts, ts <> [] -> (forall c, In c ts -> ptree c) -> ptree (Node l ts).
(** the preterminals with their terminals, left to right *)
Fixpoint preterminals {L A} (t : tree L A) : list (L * A) :=
  match t with
  | Leaf _ => []
  | Node l ts => flat_map (fun c => match c with Leaf a => [(l, a)] | Node _ _ => preterminals c end) ts
  end.
(** the constituents in pre-order, with their terminals *)
Fixpoint constituents {L A} (t : tree L A) : list (L * list A) :=
  match t with Leaf _ => [] | Node l ts => (l, leaves t) :: flat_map constituents ts end.
Definition children {L A} (t : tree L A) : list (tree L A) := match t with Node _ ts => ts | Leaf _ => [] end.
Definition rootlabel {L A} (t : tree L A) : option L := match t with Node l _ => Some l | Leaf _ => None end.

(** ---- C25 ---- *)
Theorem C25_yield : forall word t, leaves (introducepreterminals word t) = leaves t.
Proof.
  intros word t. induction t as [a|l ts IH] using tree_ind'; [reflexivity|]. cbn [introducepreterminals]. rewrite !TreeProps.leaves_node.
  generalize (1 <? length ts) as b. intros b. induction IH as [|c ts H _ IH2]; [reflexivity|]. cbn [map flat_map]. rewrite IH2. f_equal.
  destruct c as [a|m us]; [destruct b; reflexivity|exact H].
Qed.
Definition terminals_alone (l : pystr) (ts : list (tree pystr nat)) : Prop := forall a, In (Leaf a) ts -> length ts = 1.
Theorem C25_preterminals : forall word t, every_node terminals_alone (introducepreterminals word t).
Proof.
  intros word t. induction t as [a|l ts IH] using tree_ind'; [exact I|]. cbn [introducepreterminals every_node]. rewrite fold_and. split.
  - intros a Ha. rewrite map_length. apply in_map_iff in Ha. destruct Ha as (c & E & Hc). destruct c as [b|m us].
    + destruct (Nat.ltb_spec 1 (length ts)) as [|G]; [discriminate|]. destruct ts; [contradiction|]. cbn in *. lia.
    + discriminate.
  - apply Forall_forall. intros c Hc. apply in_map_iff in Hc. destruct Hc as (d & E & Hd). rewrite Forall_forall in IH. destruct d as [b|m us].
    + destruct (1 <? length ts); subst c; [|exact I]. cbn. repeat split.
    + subst c. now apply IH.
Qed.
Theorem C25_untouched : forall word t, every_node terminals_alone t -> introducepreterminals word t = t.
Proof.
  intros word t. induction t as [a|l ts IH] using tree_ind'; intros H; [reflexivity|]. cbn [introducepreterminals]. cbn [every_node] in H.
  rewrite fold_and in H. destruct H as [H1 H2]. f_equal. transitivity (map (fun c => c) ts); [|apply map_id].
  apply map_ext_in. intros c Hc. rewrite Forall_forall in *. destruct c as [a|m us]; [|auto].
  rewrite (H1 a Hc). reflexivity.
Qed.
Corollary C25_idempotent : forall w1 w2 t, introducepreterminals w2 (introducepreterminals w1 t) = introducepreterminals w1 t.
Proof. intros. apply C25_untouched, C25_preterminals. Qed.
(** new preterminals are labelled parent/word; all constituents stay *)
Theorem C25_constituents : forall word t,
  (forall l a, In (l, a) (preterminals (introducepreterminals word t)) ->
     In (l, a) (preterminals t) \/ exists p, In (p, a) (preterminals t) /\ l = p ++ str "/" ++ word a) /\
  (forall l s, In (l, s) (constituents t) -> In (l, s) (constituents (introducepreterminals word t))).
Proof.
  intros word t. induction t as [a|l ts IH] using tree_ind'; [split; auto|]. rewrite Forall_forall in IH. split.
  - intros m a H. cbn [introducepreterminals preterminals] in *. apply in_flat_map in H. destruct H as (c & Hc & H). apply in_map_iff in Hc. destruct Hc as (d & E & Hd).
    destruct d as [b|n us].
    + assert (X : In (l, b) (preterminals (Node l ts))) by (apply in_flat_map; exists (Leaf b); split; [exact Hd|now left]).
      destruct (1 <? length ts); subst c; cbn in H; destruct H as [H|[]]; injection H as <- <-; auto. right. exists l. auto.
    + destruct (introducepreterminals word (Node n us)) as [|n' us'] eqn:E2; [discriminate|]. subst c.
      destruct (proj1 (IH _ Hd) m a) as [H'|(p & H1 & H2)]; [rewrite E2; exact H|left|right; exists p; split; [|auto]]; apply in_flat_map; exists (Node n us); auto.
  - intros m s H. cbn [introducepreterminals]. cbn [constituents] in *. destruct H as [H|H].
    + left. rewrite <- H. f_equal. apply (C25_yield word (Node l ts)).
    + right. apply in_flat_map in H. destruct H as (c & Hc & H). apply in_flat_map. destruct c as [b|n us]; [contradiction|].
      exists (introducepreterminals word (Node n us)). split; [|now apply (IH _ Hc)]. apply in_map_iff. exists (Node n us). auto.
Qed.

(** ---- C26 ---- *)
(** the number of kept terminals before a *)
Definition rank (ks : list nat) (a : nat) : nat := length (filter (fun b => b <? a) ks).
Lemma rank_index_sorted : forall ls a, StronglySorted lt ls -> In a ls -> index_of a ls = rank ls a.
Proof.
  induction ls as [|b ls IH]; intros a S H; [contradiction|]. inversion S as [|? ? S1 S2]; subst. cbn [index_of]. unfold rank. cbn [filter].
  destruct (Nat.eqb_spec a b) as [->|NE].
  - rewrite Nat.ltb_irrefl. destruct (filter (fun c => c <? b) ls) as [|x r] eqn:E; [reflexivity|]. exfalso.
    assert (X : In x (filter (fun c => c <? b) ls)) by (rewrite E; now left). apply filter_In in X. destruct X as [X1 X2].
    rewrite Forall_forall in S2. specialize (S2 _ X1). apply Nat.ltb_lt in X2. lia.
  - destruct H as [H|H]; [congruence|]. rewrite Forall_forall in S2. specialize (S2 _ H). replace (b <? a) with true by (symmetry; now apply Nat.ltb_lt).
    cbn. f_equal. now apply IH.
Qed.
Lemma filter_perm : forall X (f : X -> bool) l l', Permutation l l' -> Permutation (filter f l) (filter f l').
Proof.
  intros X f l l' P. induction P; cbn; auto.
  - destruct (f x); auto.
  - destruct (f x), (f y); auto. apply perm_swap.
  - eapply perm_trans; eauto.
Qed.
Lemma rank_perm : forall l l' a, Permutation l l' -> rank l a = rank l' a.
Proof. intros l l' a P. unfold rank. apply Permutation_length. now apply filter_perm. Qed.
Lemma sort_lt : forall l, NoDup l -> StronglySorted lt (sort Nat.leb l).
Proof.
  intros l ND. assert (ND2 : NoDup (sort Nat.leb l)) by (eapply Permutation_NoDup; [apply sort_perm|exact ND]).
  pose proof (sort_sorted Nat.leb leb_total leb_trans l) as S. revert ND2 S. generalize (sort Nat.leb l) as s. induction s as [|x s IH]; intros N S; constructor.
  - inversion N; inversion S; subst. apply IH; auto.
  - inversion N as [|? ? N1 N2]; inversion S as [|? ? S1 S2]; subst. rewrite Forall_forall in *. intros y Hy. specialize (S2 y Hy). apply Nat.leb_le in S2.
    assert (x <> y) by congruence. lia.
Qed.
Lemma index_rank : forall ks a, NoDup ks -> In a ks -> index_of a (sort Nat.leb ks) = rank ks a.
Proof.
  intros ks a ND H. rewrite rank_index_sorted; [|now apply sort_lt|now apply sort_In]. apply rank_perm. apply Permutation_sym, sort_perm.
Qed.
Lemma index_nth : forall ls a, In a ls -> nth_error ls (index_of a ls) = Some a.
Proof.
  induction ls as [|b ls IH]; intros a H; [contradiction|]. cbn. destruct (Nat.eqb_spec a b) as [->|N]; [reflexivity|]. apply IH. destruct H; congruence.
Qed.
Lemma flat_map_flat_map : forall X Y Z (f : X -> list Y) (g : Y -> list Z) l, flat_map g (flat_map f l) = flat_map (fun x => flat_map g (f x)) l.
Proof. intros X Y Z f g l. induction l as [|x l IH]; [reflexivity|]. cbn. now rewrite flat_map_app, IH. Qed.
Lemma filter_flat_map : forall X Y (f : X -> list Y) g l, filter g (flat_map f l) = flat_map (fun x => filter g (f x)) l.
Proof. intros. induction l as [|x l IH]; [reflexivity|]. cbn. now rewrite filter_app, IH. Qed.
Lemma map_flat_map : forall X Y Z (f : X -> list Y) (g : Y -> Z) l, map g (flat_map f l) = flat_map (fun x => map g (f x)) l.
Proof. intros. induction l as [|x l IH]; [reflexivity|]. cbn. now rewrite map_app, IH. Qed.
Lemma flat_map_ext_in : forall X Y (f g : X -> list Y) l, (forall x, In x l -> f x = g x) -> flat_map f l = flat_map g l.
Proof. intros X Y f g l H. rewrite !flat_map_concat_map. f_equal. now apply map_ext_in. Qed.
Section C26.
Context {L W : Type}.
Notation T := (tree L nat).
Variables (func : W -> L -> bool) (d : W) (sent : list W).
Notation sel := (fun i (l : L) => func (nth i sent d) l).
(** the indices of the terminals that are kept *)
Definition kept (t : T) : list nat := map snd (filter (fun p => negb (func (nth (snd p) sent d) (fst p))) (preterminals t)).
Lemma ptree_node : forall t : T, ptree t -> exists l ts, t = Node l ts /\ ts <> [] /\ ((exists a, ts = [Leaf a]) \/ forall c, In c ts -> ptree c).
Proof. intros t H. inversion H; subst; eauto 8. exists l, [Leaf a]. split; auto. split; [discriminate|eauto]. Qed.
Lemma ptree_inv : forall (l : L) ts, ptree (Node l ts) -> (exists a, ts = [Leaf a]) \/ (forall c : T, In c ts -> ptree c).
Proof. intros l ts H. inversion H; subst; eauto. Qed.
Lemma ptree_ne : forall (l : L) ts, ptree (Node l ts : T) -> ts <> [].
Proof. intros l ts H. inversion H; subst; [discriminate|auto]. Qed.
Lemma noleaf : forall a, ~ ptree (Leaf a : T).
Proof. intros a H. inversion H. Qed.
Lemma preterminals_leaves : forall t : T, (exists l ts, t = Node l ts) -> map snd (preterminals t) = leaves t.
Proof.
  intros t. induction t as [a|l ts IH] using tree_ind'; intros (? & ? & E); [discriminate|]. clear E. rewrite TreeProps.leaves_node. cbn [preterminals].
  induction IH as [|c ts H _ IH2]; [reflexivity|]. cbn. rewrite map_app, IH2. f_equal. destruct c; [reflexivity|]. apply H. eauto.
Qed.
Lemma kept_node : forall l ts, (forall c, In c ts -> ptree c) -> kept (Node l ts) = flat_map kept ts.
Proof.
  intros l ts H. unfold kept. cbn [preterminals]. induction ts as [|c ts IH]; [reflexivity|]. cbn. rewrite filter_app, map_app.
  rewrite IH by (intros; apply H; now right). f_equal. destruct c as [a|m us]; [|reflexivity]. exfalso. apply (noleaf a). apply H. now left.
Qed.
Lemma keptindices_kept : forall t, (forall c, In c (children t) -> ptree c) -> keptindices sel t = kept t.
Proof.
  intros t. induction t as [a|l ts IH] using tree_ind'; intros H; [reflexivity|]. rewrite kept_node by exact H. cbn [keptindices]. cbn in H.
  rewrite !flat_map_concat_map. f_equal. apply map_ext_in. intros c Hc. specialize (H c Hc). rewrite Forall_forall in IH. specialize (IH c Hc).
  destruct c as [a|m us]; [exfalso; eapply noleaf; eauto|]. pose proof (ptree_ne _ _ H). apply ptree_inv in H. destruct H as [[a ->]|H].
  - unfold kept. cbn. destruct (func (nth a sent d) m); reflexivity.
  - destruct us as [|u us]; [congruence|]. destruct u as [a|]; [exfalso; apply (noleaf a); apply H; now left|]. apply IH. exact H.
Qed.
(** the constituents below the root after pruning *)
Definition keptb (ks : list nat) (a : nat) : bool := existsb (Nat.eqb a) ks.
Lemma keptb_in : forall ks a, keptb ks a = true <-> In a ks.
Proof.
  intros. unfold keptb. rewrite existsb_exists. split; [intros (x & H & E); apply Nat.eqb_eq in E; now subst|intros H; exists a; now rewrite Nat.eqb_refl].
Qed.
Lemma kept_incl : forall t, (exists l ts, t = Node l ts) -> incl (kept t) (leaves t).
Proof.
  intros t H a Ha. rewrite <- preterminals_leaves by exact H. unfold kept in Ha. apply in_map_iff in Ha. destruct Ha as (p & <- & Hp).
  apply filter_In in Hp. apply in_map. tauto.
Qed.
(** pruning, for a non-root node that is visited *)
Definition survives (c : T) : list T :=
  match c with
  | Leaf a => [Leaf a]
  | Node m us => match us with
                 | [] => [c]
                 | Leaf a :: _ => if func (nth a sent d) m then [] else [c]
                 | Node _ _ :: _ => match prune sel c with Node _ [] => [] | c' => [c'] end
                 end
  end.
Lemma prune_node : forall l ts, prune sel (Node l ts) = Node l (flat_map survives ts).
Proof. reflexivity. Qed.

Notation unsel := (fun p : L * nat => negb (func (nth (snd p) sent d) (fst p))).
Lemma kept_filter : forall c ks, (exists l ts, c = Node l ts) -> NoDup (leaves c) -> (forall a, In a (leaves c) -> In a ks <-> In a (kept c)) ->
  kept c = filter (keptb ks) (leaves c).
Proof.
  intros c ks HN ND H. rewrite <- preterminals_leaves in * by exact HN. unfold kept in *.
  assert (G : forall p, In p (preterminals c) -> unsel p = keptb ks (snd p)).
  { intros p Hp. specialize (H (snd p) (in_map snd _ _ Hp)). destruct (unsel p) eqn:E.
    - symmetry. apply keptb_in, H. apply in_map. apply filter_In. auto.
    - symmetry. apply not_true_is_false. intros K. apply keptb_in, H, in_map_iff in K. destruct K as (q & E2 & Hq). apply filter_In in Hq. destruct Hq as [Hq Eq].
      assert (p = q).
      { clear - ND Hp Hq E2. induction (preterminals c) as [|r l0 IH]; [contradiction|]. cbn in ND. inversion ND as [|? ? N1 N2]; subst.
        destruct Hp as [->|Hp], Hq as [->|Hq]; auto; exfalso; apply N1; [rewrite <- E2|rewrite E2]; now apply in_map. }
      subst q. congruence. }
  clear H ND. induction (preterminals c) as [|p l0 IH]; [reflexivity|]. cbn [filter map]. rewrite <- G by now left. destruct (unsel p); cbn; rewrite IH; auto; intros q Hq; apply G; now right.
Qed.
Lemma ptree_leaves : forall t : T, ptree t -> leaves t <> [].
Proof.
  intros t. induction t as [a|l ts IH] using tree_ind'; intros H; [discriminate|]. pose proof (ptree_ne _ _ H) as NE. apply ptree_inv in H.
  destruct H as [[a ->]|H]; [discriminate|]. destruct ts as [|c ts]; [congruence|]. cbn. intros E. apply app_eq_nil in E. destruct E as [E _].
  inversion IH; subst. revert E. apply H2. apply H. now left.
Qed.
Lemma nodup_child : forall (ts : list T) c, In c ts -> NoDup (flat_map leaves ts) -> NoDup (leaves c).
Proof.
  induction ts as [|x ts IH]; intros c H ND; [contradiction|]. cbn in ND. destruct H as [->|H].
  - clear IH. induction (leaves c) as [|y l IH]; [constructor|]. cbn in ND. inversion ND; subst. constructor; auto. intros K. apply H1. apply in_or_app. now left.
  - apply IH; auto. now apply nodup_r in ND.
Qed.
Lemma nodup_child_unique : forall (ts : list T) c c' a, In c ts -> In c' ts -> NoDup (flat_map leaves ts) -> In a (leaves c) -> In a (leaves c') -> c = c'.
Proof.
  induction ts as [|x ts IH]; intros c c' a H H' ND Ha Ha'; [contradiction|]. cbn in ND.
  assert (D : In a (leaves x) -> In a (flat_map leaves ts) -> False).
  { intros A B. apply in_split in A. destruct A as (u & v & E). rewrite E, <- app_assoc in ND. cbn in ND. apply NoDup_remove_2 in ND. apply ND.
    apply in_or_app. right. apply in_or_app. now right. }
  destruct H as [->|H], H' as [->|H']; auto.
  - exfalso. apply D; auto. apply in_flat_map. eauto.
  - exfalso. apply D; auto. apply in_flat_map. eauto.
  - eapply IH; eauto. now apply nodup_r in ND.
Qed.
Lemma preterminals_node : forall l ts, (forall c, In c ts -> ptree c) -> preterminals (Node l ts : T) = flat_map preterminals ts.
Proof. intros l ts H. cbn [preterminals]. apply flat_map_ext_in. intros c Hc. specialize (H c Hc). destruct c; [exfalso; eapply noleaf; eauto|reflexivity]. Qed.
Lemma ptree_isnode : forall c : T, ptree c -> exists l ts, c = Node l ts.
Proof. intros c H. inversion H; eauto. Qed.
Lemma renumber_node : forall f l ts, (forall c : T, In c ts -> exists m us, c = Node m us) -> renumber f (Node l ts) = Node l (map (renumber f) ts).
Proof.
  intros f l ts H. destruct ts as [|c ts]; [reflexivity|]. destruct (H c ltac:(now left)) as (m & us & ->). reflexivity.
Qed.
Lemma renumber_isnode : forall f (c : T), (exists m us, renumber f c = Node m us) -> exists m us, c = Node m us.
Proof. intros f [a|l ts] (m & us & E); [discriminate|eauto]. Qed.
(** the children of a node that are left, with their own descendants *)
Definition ok_children (f : nat -> nat) (ks : list nat) (ts : list T) : Prop :=
  let s := map (renumber f) (flat_map survives ts) in
  (forall c', In c' s -> ptree c') /\
  flat_map preterminals s = map (fun p => (fst p, f (snd p))) (filter unsel (flat_map preterminals ts)) /\
  flat_map constituents s = map (fun p => (fst p, map f (snd p))) (filter (fun p => negb (match snd p with [] => true | _ => false end))
     (map (fun p => (fst p, filter (keptb ks) (snd p))) (flat_map constituents ts))).
Lemma ok_children_app : forall f ks a b, ok_children f ks a -> ok_children f ks b -> ok_children f ks (a ++ b).
Proof.
  intros f ks a b (A1 & A2 & A3) (B1 & B2 & B3). unfold ok_children in *. cbn zeta. rewrite !flat_map_app, !map_app. split; [|split].
  - intros c H. apply in_app_or in H. destruct H; auto.
  - rewrite flat_map_app, A2, B2, filter_app, map_app. reflexivity.
  - rewrite flat_map_app, A3, B3, filter_app, map_app. reflexivity.
Qed.
Lemma kept_child : forall ts c ks, (forall c, In c ts -> ptree c) -> NoDup (flat_map leaves ts) -> In c ts ->
  (forall a, In a (flat_map leaves ts) -> In a ks <-> In a (flat_map kept ts)) -> forall a, In a (leaves c) -> In a ks <-> In a (kept c).
Proof.
  intros ts c ks HP ND HI H a Ha. rewrite H by (apply in_flat_map; eauto). rewrite in_flat_map. split.
  - intros (c' & Hc' & Ka). assert (c' = c); [|now subst]. eapply nodup_child_unique; eauto. apply kept_incl; [apply ptree_isnode; auto|exact Ka].
  - intros Ka. eauto.
Qed.
Lemma survives_spec : forall c f ks, ptree c -> NoDup (leaves c) -> (forall a, In a (leaves c) -> In a ks <-> In a (kept c)) -> ok_children f ks [c].
Proof.
  intros c f ks. induction c as [a|m us IH] using tree_ind'; intros HP ND HK; [exfalso; eapply noleaf; eauto|].
  pose proof (ptree_ne _ _ HP) as NE. pose proof HP as HP0. apply ptree_inv in HP. destruct HP as [[a ->]|HP].
  - unfold ok_children, kept in *. cbn in *. specialize (HK a (or_introl eq_refl)). destruct (func (nth a sent d) m) eqn:E; cbn in *.
    + replace (keptb ks a) with false by (symmetry; apply not_true_is_false; intros K; apply keptb_in in K; tauto). cbn. repeat split; auto. intros c [].
    + replace (keptb ks a) with true by (symmetry; apply keptb_in; tauto). cbn. repeat split; auto. intros c [<-|[]]. constructor.
  - pose proof (kept_filter (Node m us) ks ltac:(eauto) ND HK) as KF. cbn [leaves] in ND, HK. rewrite kept_node in HK by exact HP.
    assert (OK : ok_children f ks us).
    { assert (G : forall vs, incl vs us -> ok_children f ks vs).
      { induction vs as [|v vs IHv]; intros HI.
        - unfold ok_children. cbn. repeat split. intros c' [].
        - change (v :: vs) with ([v] ++ vs). apply ok_children_app; [|apply IHv; intros x Hx; apply HI; now right].
          assert (Hv : In v us) by (apply HI; now left). rewrite Forall_forall in IH. apply IH; auto.
          + eapply nodup_child; eauto.
          + eapply kept_child; eauto. }
      apply G. apply incl_refl. }
    clear IH. unfold ok_children in OK |- *. cbn zeta in OK |- *. cbn [flat_map]. rewrite !app_nil_r.
    assert (SV : survives (Node m us) = match flat_map survives us with [] => [] | _ => [Node m (flat_map survives us)] end).
    { destruct us as [|u us]; [congruence|]. destruct u as [a|l0 ts0]; [exfalso; eapply noleaf; apply HP; now left|].
      unfold survives at 1. rewrite prune_node. destruct (flat_map survives (Node l0 ts0 :: us)); reflexivity. }
    rewrite SV. rewrite (preterminals_node m us) by exact HP. cbn [constituents]. cbn [map filter fst snd].
    destruct OK as (O1 & O2 & O3). unfold kept in KF. rewrite (preterminals_node m us) in KF by exact HP.
    set (F := flat_map survives us) in *. clearbody F. destruct F as [|v vs].
    + cbn [map flat_map] in *. symmetry in O2, O3. rewrite O2, <- KF. apply map_eq_nil in O2. rewrite O2. cbn. repeat split; auto.
    + assert (NODES : forall c, In c (v :: vs) -> exists m us, c = Node m us).
      { intros c Hc. apply (renumber_isnode f). apply ptree_isnode. apply O1. now apply in_map. }
      rewrite <- KF. change (map (renumber f) [Node m (v :: vs)]) with [renumber f (Node m (v :: vs))]. rewrite renumber_node by exact NODES.
      assert (PN : preterminals (Node m (map (renumber f) (v :: vs))) = flat_map preterminals (map (renumber f) (v :: vs))) by (apply preterminals_node; exact O1).
      assert (LV : leaves (Node m (map (renumber f) (v :: vs))) = map f (map snd (filter unsel (flat_map preterminals us)))).
      { rewrite <- preterminals_leaves by eauto. rewrite PN, O2. rewrite !map_map. apply map_ext. reflexivity. }
      split; [|split].
      * intros c [<-|[]]. constructor; [discriminate|exact O1].
      * cbn [flat_map]. rewrite app_nil_r, PN. exact O2.
      * cbn [flat_map]. rewrite app_nil_r. cbn [constituents]. rewrite LV, O3.
        destruct (map snd (filter unsel (flat_map preterminals us))) as [|x r] eqn:E; [|reflexivity].
        exfalso. apply (ptree_leaves (renumber f v)); [apply O1; now left|].
        cbn [leaves map flat_map] in LV. apply app_eq_nil in LV. apply LV.
Qed.
Lemma ok_all : forall f ks ts, (forall c, In c ts -> ptree c) -> NoDup (flat_map leaves ts) ->
  (forall a, In a (flat_map leaves ts) -> In a ks <-> In a (flat_map kept ts)) -> ok_children f ks ts.
Proof.
  intros f ks ts HP ND HK. assert (G : forall vs, incl vs ts -> ok_children f ks vs).
  { induction vs as [|v vs IHv]; intros HI.
    - unfold ok_children. cbn. repeat split. intros c' [].
    - change (v :: vs) with ([v] ++ vs). apply ok_children_app; [|apply IHv; intros x Hx; apply HI; now right].
      assert (Hv : In v ts) by (apply HI; now left). apply survives_spec; auto.
      + eapply nodup_child; eauto.
      + eapply kept_child; eauto. }
  apply G. apply incl_refl.
Qed.
End C26.
Lemma NoDup_filter_map : forall X Y (g : X -> Y) f l, NoDup (map g l) -> NoDup (map g (filter f l)).
Proof.
  intros X Y g f l. induction l as [|x l IH]; cbn; intros H; [constructor|]. inversion H as [|? ? N1 N2]; subst. destruct (f x); cbn; auto. constructor; auto.
  intros K. apply N1. apply in_map_iff in K. destruct K as (y & <- & Hy). apply filter_In in Hy. apply in_map. tauto.
Qed.
(** The tree and sentence after removeterminals: [kept] are the indices of the
    preterminals not selected, [rank ks a] is the number of kept indices below a. *)
Theorem C26_removeterminals : forall L W (func : W -> L -> bool) d sent l ts t' sent',
  let t := Node l ts in
  (forall c, In c ts -> ptree c) -> NoDup (leaves t) -> (forall a, In a (leaves t) -> a < length sent) ->
  removeterminals func d t sent = (t', sent') ->
  let ks := kept func d sent t in
  (* the root stays, no other empty node is left *)
  rootlabel t' = Some l /\ (forall c, In c (children t') -> ptree c) /\
  (* exactly the unselected preterminals remain, in the same order, renumbered *)
  preterminals t' = map (fun p => (fst p, rank ks (snd p))) (filter (fun p => negb (func (nth (snd p) sent d) (fst p))) (preterminals t)) /\
  (* every constituent keeps its remaining terminals; constituents without any disappear *)
  flat_map constituents (children t') = map (fun p => (fst p, map (rank ks) (snd p)))
    (filter (fun p => negb (match snd p with [] => true | _ => false end))
      (map (fun p => (fst p, filter (keptb ks) (snd p))) (flat_map constituents ts))) /\
  (* the indices still denote the same words, and number the new sentence *)
  (forall a, In a ks -> nth_error sent' (rank ks a) = nth_error sent a) /\
  length sent' = length ks /\ Permutation (leaves t') (seq 0 (length sent')).
Proof.
  intros L W func d sent l ts t' sent' t HP ND HB HR ks.
  assert (KI : keptindices (fun i l => func (nth i sent d) l) t = ks) by (apply keptindices_kept; exact HP).
  assert (NDK : NoDup ks). { apply NoDup_filter_map. rewrite preterminals_leaves by (unfold t; eauto). exact ND. }
  assert (INC : incl ks (leaves t)) by (apply kept_incl; unfold t; eauto).
  unfold removeterminals in HR. cbn zeta in HR. rewrite KI in HR. apply pair_equal_spec in HR. destruct HR as [<- <-].
  set (f := fun a => index_of a (sort Nat.leb ks)).
  assert (OK : ok_children func d sent f ks ts).
  { apply ok_all; auto. intros a Ha. unfold ks, t. rewrite kept_node by exact HP. tauto. }
  unfold t. rewrite prune_node. destruct OK as (O1 & O2 & O3).
  rewrite renumber_node.
  2:{ intros c Hc. apply (renumber_isnode f). apply ptree_isnode. apply O1. now apply in_map. }
  cbn [rootlabel children]. fold f.
  assert (FR : forall a, In a ks -> f a = rank ks a) by (intros a Ha; apply index_rank; auto).
  set (cs := map (renumber f) (flat_map (survives func d sent) ts)) in *.
  assert (PT : preterminals (Node l cs) = map (fun p => (fst p, rank ks (snd p))) (filter (fun p => negb (func (nth (snd p) sent d) (fst p))) (preterminals (Node l ts)))).
  { rewrite preterminals_node by exact O1. rewrite O2. rewrite (preterminals_node l ts) by exact HP. apply map_ext_in. intros p Hp.
    rewrite FR; auto. unfold ks, kept, t. rewrite preterminals_node by exact HP. now apply in_map. }
  split; [reflexivity|]. split; [exact O1|]. split; [exact PT|]. split; [|split; [|split]].
  - rewrite O3. apply map_ext_in. intros p Hp. f_equal. apply map_ext_in. intros a Ha. apply FR. apply filter_In in Hp. destruct Hp as [Hp _].
    apply in_map_iff in Hp. destruct Hp as (q & <- & _). cbn in Ha. apply filter_In in Ha. now apply keptb_in.
  - intros a Ha. rewrite <- FR by auto. rewrite nth_error_map. unfold f. rewrite index_nth by now apply sort_In. cbn.
    symmetry. apply nth_error_nth'. apply HB. now apply INC.
  - now rewrite map_length, sort_length.
  - rewrite map_length, sort_length. rewrite <- preterminals_leaves by eauto. rewrite PT, map_map. cbn [snd].
    replace (map (fun x => rank ks (snd x)) _) with (map (rank ks) ks) by (unfold ks at 2, kept; now rewrite map_map).
    assert (E1 : map (rank ks) ks = map f ks) by (apply map_ext_in; intros a Ha; symmetry; auto). rewrite E1.
    eapply perm_trans; [apply Permutation_map; apply (sort_perm Nat.leb)|]. replace (length ks) with (length (sort Nat.leb ks)) by apply sort_length.
    unfold f. assert (ND3 : NoDup (sort Nat.leb ks)) by (eapply Permutation_NoDup; [apply sort_perm|exact NDK]). revert ND3. generalize (sort Nat.leb ks) as s.
    clear. intros s ND. replace (map (fun a => index_of a s) s) with (seq 0 (length s)); [auto|].
    assert (G : forall k, seq k (length s) = map (fun a => k + index_of a s) s).
    { induction s as [|x s IH]; intros k; [reflexivity|]. inversion ND as [|? ? N1 N2]; subst. cbn [length seq map index_of]. rewrite Nat.eqb_refl. f_equal; [lia|].
      rewrite IH by auto. apply map_ext_in. intros a Ha. destruct (Nat.eqb_spec a x); [congruence|lia]. }
    rewrite (G 0). reflexivity.
Qed.
(** when nothing is selected, nothing changes *)
Lemma prune_id : forall L (sel : nat -> L -> bool) t, (forall l a, In (l, a) (preterminals t) -> sel a l = false) -> (forall c, In c (children t) -> ptree c) -> prune sel t = t.
Proof.
  intros L sel t. induction t as [a|l ts IH] using tree_ind'; intros H HP; [reflexivity|]. cbn in HP. cbn [prune]. f_equal.
  transitivity (flat_map (fun c => [c]) ts); [|clear; induction ts; cbn; congruence].
  apply flat_map_ext_in. intros c Hc. rewrite Forall_forall in IH. specialize (IH c Hc). specialize (HP c Hc). destruct c as [a|m us]; [reflexivity|].
  assert (H' : forall l a, In (l, a) (preterminals (Node m us)) -> sel a l = false).
  { intros l0 a Ha. apply H. cbn [preterminals]. apply in_flat_map. exists (Node m us). auto. }
  pose proof (ptree_ne _ _ HP) as NE. apply ptree_inv in HP. destruct HP as [[a ->]|HP].
  - rewrite (H' m a); [reflexivity|]. cbn. now left.
  - destruct us as [|u us]; [congruence|]. destruct u as [a|]; [exfalso; apply (noleaf (L := L) a); apply HP; now left|]. rewrite IH; auto.
Qed.
Lemma renumber_id : forall L f (t : tree L nat), (forall a, In a (leaves t) -> f a = a) -> renumber f t = t.
Proof.
  intros L f t. induction t as [a|l ts IH] using tree_ind'; intros H; [reflexivity|]. rewrite leaves_node in H. cbn [renumber].
  assert (G : map (renumber f) ts = ts).
  { transitivity (map (fun c : tree L nat => c) ts); [|apply map_id]. apply map_ext_in. intros c Hc. rewrite Forall_forall in IH. apply IH; auto.
    intros a Ha. apply H. apply in_flat_map. eauto. }
  destruct ts as [|c ts]; [reflexivity|]. destruct c as [a|m us]; [|now rewrite G]. rewrite H; [reflexivity|]. cbn. now left.
Qed.
Lemma nth_error_ext : forall X (l m : list X), (forall i, nth_error l i = nth_error m i) -> l = m.
Proof.
  induction l as [|x l IH]; intros [|y m] H; auto; try (specialize (H 0); discriminate). pose proof (H 0) as E. injection E as ->. f_equal.
  apply IH. intros i. apply (H (S i)).
Qed.
Theorem C26_nothing_selected : forall L W (func : W -> L -> bool) d sent l ts, let t := Node l ts in
  (forall c, In c ts -> ptree c) -> Permutation (leaves t) (seq 0 (length sent)) ->
  (forall l a, In (l, a) (preterminals t) -> func (nth a sent d) l = false) -> removeterminals func d t sent = (t, sent).
Proof.
  intros L W func d sent l ts t HP P H. unfold removeterminals. cbn zeta. rewrite (keptindices_kept func d sent t HP).
  assert (K : kept func d sent t = leaves t).
  { rewrite <- preterminals_leaves by (unfold t; eauto). unfold kept. f_equal. clear - H. induction (preterminals t) as [|[m a] r IH]; [reflexivity|]. cbn.
    rewrite (H m a) by now left. cbn. f_equal. apply IH. intros. apply H. now right. }
  assert (S : sort Nat.leb (kept func d sent t) = seq 0 (length sent)) by (rewrite K; apply nat_sort_unique; [apply seq_sorted|exact P]). rewrite S. f_equal.
  - rewrite prune_id; auto. apply renumber_id. intros a Ha. apply (Permutation_in _ P), in_seq in Ha. destruct Ha as [_ Ha]. cbn in Ha.
    assert (G : forall n k a, k <= a < k + n -> index_of a (seq k n) = a - k).
    { clear. induction n as [|n IH]; intros k a H; [lia|]. cbn. destruct (Nat.eqb_spec a k); [lia|]. rewrite IH by lia. lia. }
    rewrite G by lia. lia.
  - apply nth_error_ext. intros i. rewrite nth_error_map. destruct (Nat.lt_ge_cases i (length sent)) as [G|G].
    + rewrite (nth_error_nth' _ 0) by now rewrite seq_length. cbn. rewrite seq_nth by auto. symmetry. now apply nth_error_nth'.
    + rewrite (proj2 (nth_error_None (seq 0 (length sent)) i)) by now rewrite seq_length. symmetry. now apply nth_error_None.
Qed.

(** ---- C27 ---- *)
(** equal up to the order of children *)
Inductive tperm {L A} : tree L A -> tree L A -> Prop :=
  | tp_leaf : forall a, tperm (Leaf a) (Leaf a)
  | tp_node : forall l ts us vs, Forall2 tperm ts us -> Permutation us vs -> tperm (Node l ts) (Node l vs).
(** terminals have no siblings *)
Definition alone {L A} (l : L) (ts : list (tree L A)) : Prop := forall a, In (Leaf a) ts -> length ts = 1.
Lemma canon_perm : forall L (us : list (tree L nat)),
  Permutation us (if (1 <? length us) && (match us with u :: _ => is_node u | [] => false end) then sort leaves_le us else us).
Proof. intros. destruct ((1 <? length us) && _); [apply sort_perm|auto]. Qed.
Theorem C27_same_tree : forall L (t : tree L nat), tperm t (canonicalize t).
Proof.
  intros L t. induction t as [a|l ts IH] using tree_ind'; [constructor|]. cbn [canonicalize]. eapply tp_node; [|apply canon_perm].
  clear - IH. induction IH; cbn; constructor; auto.
Qed.
Lemma tperm_leaves : forall L A (s : tree L A), forall t, tperm s t -> Permutation (leaves s) (leaves t).
Proof.
  intros L A s. induction s as [a|l ts IH] using tree_ind'; intros t H; inversion H; subst; [auto|]. rewrite !leaves_node.
  eapply perm_trans; [|apply Permutation_flat_map; eassumption]. clear - IH H2. induction H2 as [|x y ts us Hxy H2 IH2]; [auto|]. inversion IH; subst. cbn.
  apply Permutation_app; auto.
Qed.
Corollary C27_leaves : forall L (t : tree L nat), Permutation (leaves t) (leaves (canonicalize t)).
Proof. intros. apply tperm_leaves, C27_same_tree. Qed.
Lemma canon_leaf : forall L (t : tree L nat) a, canonicalize t = Leaf a -> t = Leaf a.
Proof. intros L [b|l ts] a H; [exact H|discriminate]. Qed.
Lemma canon_alone : forall L (t : tree L nat), every_node alone t -> every_node alone (canonicalize t).
Proof.
  intros L t. induction t as [a|l ts IH] using tree_ind'; intros H; [exact I|]. cbn [every_node] in H. rewrite fold_and in H. destruct H as [H1 H2].
  cbn [canonicalize every_node]. rewrite fold_and. set (us := map canonicalize ts). pose proof (canon_perm L us) as P.
  remember (if (1 <? length us) && match us with [] => false | u :: _ => is_node u end then sort leaves_le us else us) as vs eqn:Evs. clear Evs. split.
  - intros a Ha. rewrite <- (Permutation_length P). unfold us. rewrite map_length. apply (H1 a).
    apply Permutation_in with (l' := us) in Ha; [|now apply Permutation_sym]. unfold us in Ha. apply in_map_iff in Ha. destruct Ha as (c & E & Hc).
    apply canon_leaf in E. now subst.
  - eapply Permutation_Forall; [exact P|]. unfold us. rewrite Forall_forall in *. intros c Hc. apply in_map_iff in Hc. destruct Hc as (x & <- & Hx). auto.
Qed.
Lemma leaves_le_total : forall L (x y : tree L nat), leaves_le x y = true \/ leaves_le y x = true.
Proof. intros. apply lex_total. Qed.
Lemma leaves_le_trans : forall L (x y z : tree L nat), leaves_le x y = true -> leaves_le y z = true -> leaves_le x z = true.
Proof. intros L x y z. apply lex_trans. Qed.
(** sorted: every node's children are in the order of their lists of terminals *)
Definition ordered {L} (l : L) (ts : list (tree L nat)) : Prop := StronglySorted (fun x y => lex_le (leaves x) (leaves y) = true) ts.
Lemma ordered_short : forall L l (ts : list (tree L nat)), length ts <= 1 -> ordered l ts.
Proof. intros L l [|x [|y ts]] H; unfold ordered; cbn in *; [constructor|repeat constructor|lia]. Qed.
Theorem C27_ordered : forall L (t : tree L nat), every_node alone t -> every_node ordered (canonicalize t).
Proof.
  intros L t. induction t as [a|l ts IH] using tree_ind'; intros H; [exact I|]. cbn [every_node] in H. rewrite fold_and in H. destruct H as [H1 H2].
  cbn [canonicalize every_node]. rewrite fold_and. set (us := map canonicalize ts). split.
  - destruct (Nat.ltb_spec 1 (length us)) as [LT|LT]; cbn [andb]; [|now apply ordered_short].
    destruct us as [|u us'] eqn:E; [now apply ordered_short|]. destruct u as [a|m ks]; cbn [is_node].
    + exfalso. assert (X : In (Leaf a) ts).
      { assert (Y : In (Leaf a) us) by (rewrite E; now left). unfold us in Y. apply in_map_iff in Y. destruct Y as (c & Ec & Hc). apply canon_leaf in Ec. now subst. }
      apply H1 in X. rewrite <- E in LT. unfold us in LT. rewrite map_length in LT. lia.
    + apply sort_sorted; [apply leaves_le_total|apply leaves_le_trans].
  - eapply Permutation_Forall; [apply canon_perm|]. unfold us. rewrite Forall_forall in *. intros c Hc. apply in_map_iff in Hc. destruct Hc as (x & <- & Hx). auto.
Qed.
(** a tree that is in order is not changed *)
Theorem C27_fixed : forall L (t : tree L nat), every_node ordered t -> canonicalize t = t.
Proof.
  intros L t. induction t as [a|l ts IH] using tree_ind'; intros H; [reflexivity|]. cbn [every_node] in H. rewrite fold_and in H. destruct H as [H1 H2].
  cbn [canonicalize]. assert (G : map canonicalize ts = ts).
  { transitivity (map (fun c : tree L nat => c) ts); [|apply map_id]. apply map_ext_in. intros c Hc. rewrite Forall_forall in *. auto. }
  rewrite G. f_equal. destruct ((1 <? length ts) && _); [|reflexivity]. apply sorted_sort_id. exact H1.
Qed.
Corollary C27_idempotent : forall L (t : tree L nat), every_node alone t -> canonicalize (canonicalize t) = canonicalize t.
Proof. intros. now apply C27_fixed, C27_ordered. Qed.
(** a normal form: it depends only on the tree up to the order of children *)
Lemma Forall2_in_l : forall X Y (R : X -> Y -> Prop) l m x, Forall2 R l m -> In x l -> exists y, In y m /\ R x y.
Proof. intros X Y R l m x H. induction H; intros HI; [contradiction|]. destruct HI as [->|HI]; [exists y; split; [now left|auto]|]. destruct (IHForall2 HI) as (z & A & B). exists z. split; [now right|auto]. Qed.
Theorem C27_normal_form : forall L (s t : tree L nat), tperm s t ->
  every_node alone s -> every_node (fun _ ts => ts <> []) s -> NoDup (leaves s) -> canonicalize s = canonicalize t.
Proof.
  intros L s. induction s as [a|l ts IH] using tree_ind'; intros t HT HA HE ND; inversion HT as [|? ? us vs F P]; subst; [reflexivity|].
  cbn [every_node] in HA, HE. rewrite fold_and in HA, HE. destruct HA as [A1 A2], HE as [E1 E2]. rewrite leaves_node in ND.
  assert (M : map canonicalize ts = map canonicalize us).
  { assert (ND' : forall c, In c ts -> NoDup (leaves c)) by (intros; eapply nodup_child; eauto).
    clear - IH A2 E2 ND' F. induction F as [|x y ts us Hxy F IH2]; [reflexivity|]. inversion IH; inversion A2; inversion E2; subst. cbn. f_equal.
    - apply H1; auto. apply ND'. now left.
    - apply IH2; auto. intros. apply ND'. now right. }
  cbn [canonicalize]. f_equal. rewrite M. set (us' := map canonicalize us). set (vs' := map canonicalize vs).
  assert (P' : Permutation us' vs') by now apply Permutation_map.
  assert (LEN : length us' = length ts) by (unfold us'; rewrite <- M; apply map_length).
  assert (LEN2 : length vs' = length ts) by (rewrite <- (Permutation_length P'); exact LEN).
  destruct (Nat.le_gt_cases (length ts) 1) as [LE|GT].
  - replace (1 <? length us') with false by (symmetry; apply Nat.ltb_ge; lia). replace (1 <? length vs') with false by (symmetry; apply Nat.ltb_ge; lia). cbn [andb].
    destruct us' as [|u [|u2 us']]; destruct vs' as [|v [|v2 vs']]; cbn in LEN, LEN2; try lia; auto. apply Permutation_length_1 in P'. now subst.
  - assert (NL : forall c a, In c us' -> c <> Leaf a).
    { intros c a Hc E. subst c. unfold us' in Hc. rewrite <- M in Hc. apply in_map_iff in Hc. destruct Hc as (c & E & Hc). apply canon_leaf in E. subst.
      specialize (A1 a Hc). lia. }
    replace (1 <? length us') with true by (symmetry; apply Nat.ltb_lt; lia). replace (1 <? length vs') with true by (symmetry; apply Nat.ltb_lt; lia). cbn [andb].
    assert (H1 : match us' with [] => false | u :: _ => is_node u end = true).
    { destruct us' as [|u us'']; [cbn in LEN; lia|]. destruct u; [exfalso; eapply NL; [now left|reflexivity]|reflexivity]. }
    assert (H2 : match vs' with [] => false | u :: _ => is_node u end = true).
    { destruct vs' as [|u vs'']; [cbn in LEN2; lia|]. destruct u; [exfalso; eapply NL; [eapply Permutation_in; [apply Permutation_sym; exact P'|now left]|reflexivity]|reflexivity]. }
    rewrite H1, H2.
    eapply sorted_unique; [apply sort_sorted; [apply leaves_le_total|apply leaves_le_trans]|apply sort_sorted; [apply leaves_le_total|apply leaves_le_trans]| |].
    + eapply perm_trans; [apply Permutation_sym, sort_perm|]. eapply perm_trans; [exact P'|apply sort_perm].
    + intros x y Hx Hy Hxy Hyx. apply sort_In in Hx, Hy. pose proof (lex_antisym _ _ Hxy Hyx) as EL. unfold us' in Hx, Hy. rewrite <- M in Hx, Hy.
      apply in_map_iff in Hx, Hy. destruct Hx as (cx & <- & Hx), Hy as (cy & <- & Hy). f_equal.
      assert (NE : exists a, In a (leaves cx)).
      { rewrite Forall_forall in E2. specialize (E2 _ Hx). clear - E2. induction cx as [a|l ts IH] using tree_ind'; [exists a; now left|].
        cbn [every_node] in E2. rewrite fold_and in E2. destruct E2 as [B1 B2]. destruct ts as [|c ts]; [congruence|]. inversion IH; inversion B2; subst.
        destruct (H1 H5) as [a Ha]. exists a. cbn. apply in_or_app. now left. }
      destruct NE as [a Ha]. eapply nodup_child_unique; eauto. apply Permutation_in with (l := leaves (canonicalize cy)); [apply Permutation_sym, C27_leaves|].
      rewrite <- EL. eapply Permutation_in; [apply C27_leaves|exact Ha].
Qed.

(** ---- C28 ---- *)
(** the fan-out of a set of terminals: the number of maximal runs (C37) of its
    increasing enumeration *)
Definition is_fanout (ls : list nat) (k : nat) : Prop :=
  exists s, StronglySorted lt s /\ (forall a, In a s <-> In a ls) /\ k = length (ranges (map Z.of_nat s)).
Lemma dedup_in : forall l a, In a (TransformModel.dedup l) <-> In a l.
Proof.
  induction l as [|x l IH]; intros a; [tauto|]. cbn. destruct (existsb (Nat.eqb x) l) eqn:E.
  - rewrite IH. split; auto. intros [->|H]; auto. apply existsb_exists in E. destruct E as (y & H & E). apply Nat.eqb_eq in E. now subst.
  - cbn. rewrite IH. tauto.
Qed.
Lemma dedup_nodup : forall l, NoDup (TransformModel.dedup l).
Proof.
  induction l as [|x l IH]; [constructor|]. cbn. destruct (existsb (Nat.eqb x) l) eqn:E; auto. constructor; auto. rewrite dedup_in. intros H.
  assert (existsb (Nat.eqb x) l = true); [|congruence]. apply existsb_exists. exists x. now rewrite Nat.eqb_refl.
Qed.
Lemma ss_map_Z : forall s, StronglySorted lt s -> StronglySorted Z.lt (map Z.of_nat s).
Proof.
  intros s H. induction H as [|x s H IH F]; cbn; constructor; auto. apply Forall_forall. intros y Hy. apply in_map_iff in Hy. destruct Hy as (z & <- & Hz).
  rewrite Forall_forall in F. specialize (F z Hz). lia.
Qed.
Lemma fanout_of_correct : forall ls, is_fanout ls (fanout_of ls).
Proof.
  intros ls. exists (sort Nat.leb (TransformModel.dedup ls)). split; [apply sort_lt, dedup_nodup|]. split; [intros; rewrite sort_In; apply dedup_in|].
  unfold fanout_of. set (s := sort Nat.leb (TransformModel.dedup ls)). assert (S : StronglySorted lt s) by apply sort_lt, dedup_nodup.
  assert (M : forall a, In a ls <-> In a s) by (intros; unfold s; rewrite sort_In; symmetry; apply dedup_in). clearbody s.
  pose proof (C37_rangeheads _ (ss_map_Z s S)) as R. apply (f_equal (@length Z)) in R. rewrite map_length in R. rewrite <- R. unfold rangeheads.
  assert (G : forall r, length (filter (fun a => negb (existsb (Z.eqb (a - 1)) (map Z.of_nat s))) (map Z.of_nat r)) =
     length (filter (fun a => match a with 0 => true | S p => negb (existsb (Nat.eqb p) ls) end) r)); [|now rewrite G].
  induction r as [|a r IH]; [reflexivity|]. cbn [map filter].
  replace (negb (existsb (Z.eqb (Z.of_nat a - 1)) (map Z.of_nat s))) with (match a with 0 => true | S p => negb (existsb (Nat.eqb p) ls) end).
  - destruct (match a with 0 => true | S p => negb (existsb (Nat.eqb p) ls) end); cbn [length]; now rewrite IH.
  - destruct a as [|p].
    + symmetry. apply negb_true_iff, not_true_is_false. intros X. apply existsb_exists in X. destruct X as (z & Hz & E). apply in_map_iff in Hz. destruct Hz as (n & <- & _).
      apply Z.eqb_eq in E. lia.
    + f_equal. apply eq_true_iff_eq. rewrite !existsb_exists. split.
      * intros (x & Hx & E). apply Nat.eqb_eq in E. subst x. exists (Z.of_nat p). split; [apply in_map; now apply M|]. apply Z.eqb_eq. lia.
      * intros (z & Hz & E). apply in_map_iff in Hz. destruct Hz as (n & <- & Hn). apply Z.eqb_eq in E. exists p. split; [|apply Nat.eqb_refl].
        apply M. replace p with n by lia. exact Hn.
Qed.
Lemma is_fanout_unique : forall ls j k, is_fanout ls j -> is_fanout ls k -> j = k.
Proof.
  intros ls j k (s & S & Ms & ->) (s' & S' & Ms' & ->). f_equal. f_equal. f_equal.
  assert (ND : forall s, StronglySorted lt s -> NoDup s).
  { clear. induction 1 as [|x s H IH F]; constructor; auto. intros X. rewrite Forall_forall in F. specialize (F _ X). lia. }
  assert (P : Permutation s s') by (apply NoDup_Permutation; auto; intros; rewrite Ms, Ms'; tauto).
  eapply sorted_unique; [exact S|exact S'|exact P|]. intros x y _ _ H1 H2. lia.
Qed.
(** addfanoutmarkers appends _k to the label of exactly those constituents that
    have fan-out k > 1 (unless the label already ends in _k); nothing else changes *)
Definition marked (l : pystr) (k : nat) : pystr :=
  if k <=? 1 then l else if endswith l (str "_" ++ dec k) then l else l ++ str "_" ++ dec k.
Inductive relabels : tree pystr nat -> tree pystr nat -> Prop :=
  | rl_leaf : forall a, relabels (Leaf a) (Leaf a)
  | rl_node : forall l ts us k, is_fanout (leaves (Node l ts)) k -> Forall2 relabels ts us -> relabels (Node l ts) (Node (marked l k) us).
Theorem C28_marks : forall t, relabels t (addfanoutmarkers t).
Proof.
  intros t. induction t as [a|l ts IH] using tree_ind'; [constructor|]. cbn [addfanoutmarkers].
  replace (if (1 <? fanout_of (leaves (Node l ts))) && negb (endswith l (str "_" ++ dec (fanout_of (leaves (Node l ts)))))
    then l ++ str "_" ++ dec (fanout_of (leaves (Node l ts))) else l) with (marked l (fanout_of (leaves (Node l ts)))).
  - constructor; [apply fanout_of_correct|]. clear - IH. induction IH; constructor; auto.
  - unfold marked. rewrite (Nat.leb_antisym). destruct (1 <? fanout_of (leaves (Node l ts))); cbn [negb andb]; [|reflexivity]. destruct (endswith _ _); reflexivity.
Qed.
Lemma span_none : forall p s, forallb p s = true -> span p s = (s, []).
Proof. intros p s H. rewrite <- (app_nil_r s) at 1. apply BracketProofs.span_app; [exact H|exact I]. Qed.
Lemma rsplit1_mark : forall l d, ~ In 95%N d -> rsplit1 (l ++ str "_" ++ d) = l.
Proof.
  intros l d H. unfold rsplit1. rewrite !rev_app_distr. cbn [str map list_ascii_of_string rev app]. rewrite <- app_assoc. cbn [app].
  rewrite BracketProofs.span_app.
  - cbn [snd]. apply rev_involutive.
  - apply forallb_forall. intros c Hc. apply in_rev in Hc. destruct (N.eqb_spec c 95); [subst; contradiction|reflexivity].
  - reflexivity.
Qed.
Lemma dec_no_underscore : forall n, ~ In 95%N (dec n).
Proof. intros n H. pose proof (dec_digits n) as D. rewrite forallb_forall in D. specialize (D _ H). discriminate. Qed.
Lemma contains_char : forall s c, contains s [c] = true <-> In c s.
Proof.
  intros s c. rewrite contains_iff. split.
  - intros (a & b & ->). apply in_or_app. right. now left.
  - intros H. apply in_split in H. destruct H as (a & b & ->). exists a, b. reflexivity.
Qed.
Theorem C28_remove_add : forall t, every_node (fun l _ => ~ In 95%N l) t -> removefanoutmarkers (addfanoutmarkers t) = t.
Proof.
  intros t. induction t as [a|l ts IH] using tree_ind'; intros H; [reflexivity|]. cbn [every_node] in H. rewrite fold_and in H. destruct H as [H1 H2].
  cbn [addfanoutmarkers removefanoutmarkers]. rewrite map_map. f_equal.
  - set (f := fanout_of (leaves (Node l ts))). destruct ((1 <? f) && _).
    + replace (contains (l ++ str "_" ++ dec f) (str "_")) with true; [apply rsplit1_mark, dec_no_underscore|].
      symmetry. apply (contains_char _ 95%N). apply in_or_app. right. now left.
    + replace (contains l (str "_")) with false; [reflexivity|]. symmetry. apply not_true_is_false. intros X. apply H1. now apply (contains_char _ 95%N).
  - transitivity (map (fun c : tree pystr nat => c) ts); [|apply map_id]. apply map_ext_in. intros c Hc. rewrite Forall_forall in *. auto.
Qed.
Lemma addfanout_leaves : forall t, leaves (addfanoutmarkers t) = leaves t.
Proof.
  intros t. induction t as [a|l ts IH] using tree_ind'; [reflexivity|]. cbn [addfanoutmarkers]. rewrite !leaves_node. induction IH as [|c ts H _ IH2]; [reflexivity|].
  cbn [map flat_map]. now rewrite H, IH2.
Qed.
Lemma startswith_app_self : forall p s, startswith (p ++ s) p = true.
Proof. intros. apply startswith_iff. eauto. Qed.
Theorem C28_add_idempotent : forall t, addfanoutmarkers (addfanoutmarkers t) = addfanoutmarkers t.
Proof.
  intros t. induction t as [a|l ts IH] using tree_ind'; [reflexivity|]. pose proof (addfanout_leaves (Node l ts)) as E. cbn [addfanoutmarkers] in E |- *.
  rewrite E. set (f := fanout_of (leaves (Node l ts))). f_equal.
  - destruct (1 <? f); cbn [andb]; [|reflexivity]. destruct (endswith l (str "_" ++ dec f)) eqn:E2; cbn [negb]; [rewrite E2; reflexivity|].
    replace (endswith (l ++ str "_" ++ dec f) (str "_" ++ dec f)) with true; [reflexivity|]. unfold endswith. rewrite (rev_app_distr l). now rewrite startswith_app_self.
  - rewrite map_map. apply map_ext_in. intros c Hc. rewrite Forall_forall in IH. auto.
Qed.
(** the underscore condition is needed *)
Theorem C28_underscore_refuted : exists t, removefanoutmarkers (addfanoutmarkers t) <> t.
Proof. exists (Node (str "NP_x") [Leaf 0]). intros H. vm_compute in H. discriminate H. Qed.

(** ---- C37: contsets ---- *)
(** the terminals of a set of nodes form an interval *)
Definition contiguous {L} (b : list (tree L nat)) : Prop := exists a k, 0 < k /\ Permutation (flat_map leaves b) (seq a k).
Theorem C37_contsets : forall L (ns : list (tree L nat)), (forall n, In n ns -> contiguous [n]) -> NoDup (flat_map leaves ns) ->
  (* a partition of the nodes *)
  Permutation (concat (contsets ns)) ns /\
  (* into contiguous, non-empty sets *)
  (forall b, In b (contsets ns) -> b <> [] /\ contiguous b) /\
  (* in order, with a gap between successive sets *)
  (forall i b c, nth_error (contsets ns) i = Some b -> nth_error (contsets ns) (S i) = Some c ->
     exists m, (forall x, In x (flat_map leaves b) -> x < m) /\ (forall y, In y (flat_map leaves c) -> m < y)) /\
  (* and within each set the nodes are ordered by their first terminal *)
  StronglySorted (fun s t => minleaf s <= minleaf t) (concat (contsets ns)).
Proof.
  intros L ns HI ND.
  assert (G : good_nodes ns).
  { split; auto. intros n Hn. destruct (HI n Hn) as (a & k & K & P). cbn in P. rewrite app_nil_r in P. exists a, k. auto. }
  rewrite contsets_blocks by exact G. rewrite blocks_concat.
  pose proof (sort_perm min_le ns) as P. pose proof (good_perm _ _ P G) as G2.
  pose proof (sort_sorted min_le min_total min_trans ns) as S. pose proof (sorted_chained _ G2 S) as C.
  split; [now apply Permutation_sym|]. split; [|split].
  - intros b Hb. split; [eapply blocks_ne; eauto|]. destruct (sort min_le ns) as [|n r]; [contradiction|].
    destruct (interval_seq _ n (proj1 G2 n ltac:(now left))) as [Pn Nn]. assert (0 < length (leaves n)) by (destruct (leaves n); [congruence|cbn; lia]).
    assert (F : Forall block_interval (blocks (n :: r))).
    { apply (blocks_from_spec _ r [n] (minleaf n) (hi n)); unfold hi; try lia; auto. cbn [flat_map]. rewrite app_nil_r.
      replace (minleaf n + length (leaves n) - minleaf n) with (length (leaves n)) by lia. exact Pn. }
    rewrite Forall_forall in F. exact (F b Hb).
  - destruct (sort min_le ns) as [|n r]; [intros [|i]; discriminate|].
    destruct (interval_seq _ n (proj1 G2 n ltac:(now left))) as [Pn Nn]. assert (0 < length (leaves n)) by (destruct (leaves n); [congruence|cbn; lia]).
    assert (HN : forall x, In x (leaves n) <-> minleaf n <= x < hi n).
    { intros x. split; intros Hx; [apply (Permutation_in _ Pn) in Hx; now apply in_seq in Hx|]. eapply Permutation_in; [apply Permutation_sym; exact Pn|]. now apply in_seq. }
    apply (blocks_from_gap _ r [n] (hi n)); auto; cbn [flat_map]; rewrite app_nil_r.
    + intros x Hx. now apply HN in Hx.
    + apply HN. unfold hi. lia.
    + exists (minleaf n). apply HN. unfold hi. lia.
  - clear - S. induction S as [|x s S IH F]; constructor; auto. eapply Forall_impl; [|exact F]. intros y Hy. now apply Nat.leb_le in Hy.
Qed.

(** ---- examples ---- *)
Definition pre (l : string) (i : nat) : tree pystr nat := Node (str l) [Leaf i].
Definition ext_tree : tree pystr nat :=
  Node (str "S") [Node (str "VP") [Node (str "VP") [Node (str "PP") [pre "APPR" 0; pre "ART" 1; pre "NN" 2]; pre "CARD" 4; pre "VVPP" 5]; pre "VAINF" 6]; pre "VMFIN" 3].
Lemma ext_ptree : ptree ext_tree.
Proof.
  assert (G : forall l (ts : list (tree pystr nat)), ts <> [] -> Forall ptree ts -> ptree (Node l ts)) by (intros l ts N F; constructor; [auto|now apply Forall_forall]).
  unfold ext_tree, pre. repeat first [apply pt_pre | apply G; [discriminate|] | apply Forall_nil | apply Forall_cons].
Qed.
Example C25_ex : introducepreterminals (fun i => nth i [str "a"; str "b"] []) (Node (str "S") [Leaf 0; Node (str "X") [Leaf 1]])
  = Node (str "S") [Node (str "S/a") [Leaf 0]; Node (str "X") [Leaf 1]].
Proof. reflexivity. Qed.
Example C26_hyps : (forall c, In c (children ext_tree) -> ptree c) /\ NoDup (leaves ext_tree) /\ (forall a, In a (leaves ext_tree) -> a < 7).
Proof.
  split; [|split].
  - pose proof ext_ptree as H. apply ptree_inv in H. destruct H as [[a H]|H]; [discriminate|exact H].
  - cbn. repeat (constructor; [cbn; intuition discriminate|]). constructor.
  - cbn. intros a H. repeat (destruct H as [<-|H]; [lia|]). contradiction.
Qed.
Example C26_ex : removeterminals (fun w _ => existsb (Nat.eqb w) [10; 11; 12; 15]) 0 ext_tree [10; 11; 12; 13; 14; 15; 16]
  = (Node (str "S") [Node (str "VP") [Node (str "VP") [pre "CARD" 1]; pre "VAINF" 2]; pre "VMFIN" 0], [13; 14; 16]).
Proof. reflexivity. Qed.
Example C27_ex : canonicalize (Node 0 [Node 1 [Leaf 3]; Node 2 [Node 3 [Leaf 4]; Node 4 [Leaf 0]]])
  = Node 0 [Node 2 [Node 4 [Leaf 0]; Node 3 [Leaf 4]]; Node 1 [Leaf 3]].
Proof. reflexivity. Qed.
Example C27_hyps : every_node alone ext_tree /\ every_node (fun _ ts => ts <> []) ext_tree /\ NoDup (leaves ext_tree).
Proof.
  split; [|split; [|apply C26_hyps]]; cbn; repeat match goal with |- _ /\ _ => split end; try exact I; try discriminate.
  all: intros a H; repeat (destruct H as [H|H]; [first [discriminate|reflexivity]|]); contradiction.
Qed.
Example C28_ex : addfanoutmarkers ext_tree = Node (str "S") [Node (str "VP_2") [Node (str "VP_2") [Node (str "PP") [pre "APPR" 0; pre "ART" 1; pre "NN" 2]; pre "CARD" 4; pre "VVPP" 5]; pre "VAINF" 6]; pre "VMFIN" 3].
Proof. vm_compute. reflexivity. Qed.
Example C37_contsets_ex : contsets [Node 0 [Leaf 4]; Node 1 [Leaf 1; Leaf 0]; Node 2 [Leaf 5; Leaf 6]; Node 3 [Leaf 2]]
  = [[Node 1 [Leaf 1; Leaf 0]; Node 3 [Leaf 2]]; [Node 0 [Leaf 4]; Node 2 [Leaf 5; Leaf 6]]].
Proof. reflexivity. Qed.
Print Assumptions C25_constituents. Print Assumptions C26_removeterminals. Print Assumptions C26_nothing_selected. Print Assumptions C27_normal_form.
Print Assumptions C28_marks. Print Assumptions C28_remove_add. Print Assumptions C28_add_idempotent. Print Assumptions C37_contsets.
