(** C29: extracted productions describe the tree *)
From Coq Require Import String.
From Coq Require Import List Bool Arith NArith ZArith Lia Permutation Sorted.
From Verif Require Import PyStr TreeModel BracketModel BinarizeModel UtilModel UtilProps SortProofs ContsetsProofs TreeProps BinarizeProps TransformModel TransformProps SplitProofs LcfrsModel.
Import ListNotations.
Open Scope list_scope.
Local Notation pre := TreeProps.pre.

(** ---- specification ---- *)
(** A yield function over daughters ts: there is a way to write a range of
    positions for each of its variables, such that each argument is a range of the
    mother, all of the mother's ranges are there in order, and what is written for
    the variables of daughter n, from left to right, are the ranges of daughter n. *)
Definition fills (ts : list (tree pystr nat)) (yf : list (list nat)) : Prop :=
  exists G : list (list (nat * list nat)),
    map (map fst) G = yf /\
    map (fun arg => concat (map snd arg)) G = components (flat_map leaves ts) /\
    (forall n c, nth_error ts n = Some c -> map snd (filter (fun b => fst b =? n) (concat G)) = components (leaves c)) /\
    (forall b, In b (concat G) -> fst b < length ts).
(** what a production says about the node it was read off from *)
Definition describes (sent : list (option pystr)) (st : tree pystr nat) (p : prod) : Prop :=
  match p with
  | Lexical l w => exists a x, st = Node l [Leaf a] /\ nth_error sent a = Some (Some x) /\ w = escape (Some x)
  | Frontier l => exists a r, st = Node l (Leaf a :: r) /\ (r = [] -> nth_error sent a = Some None)
  | Phrasal l rhs yf => exists ts, st = Node l ts /\ ts <> [] /\ Forall2 (fun m c => exists us, c = Node m us) rhs ts /\ fills ts yf
  end.
Definition is_frontier (p : prod) : bool := match p with Frontier _ => true | _ => false end.

(** ---- proofs ---- *)
(** ranges with the daughters they come from *)
Fixpoint gl (P : list (nat * nat)) : list (list (nat * list nat)) :=
  match P with
  | [] => []
  | (i, p) :: r =>
    match gl r with
    | ((q, j :: js) :: arg) :: args =>
      if j =? i + 1 then if p =? q then ((p, i :: j :: js) :: arg) :: args else ((p, [i]) :: (q, j :: js) :: arg) :: args
      else [(p, [i])] :: ((q, j :: js) :: arg) :: args
    | gs => [(p, [i])] :: gs
    end
  end.
Definition glue (arg : list nat) (yf : list (list nat)) : list (list nat) :=
  match yf with [] => [arg] | a :: r => (arg ++ a) :: r end.
Lemma gl_head : forall P i p, exists js arg args, gl ((i, p) :: P) = ((p, i :: js) :: arg) :: args.
Proof.
  intros P i p. cbn [gl]. destruct (gl P) as [|[|[q [|j js]] arg] args]; try (repeat eexists; fail).
  destruct (j =? i + 1); [destruct (p =? q)|]; repeat eexists.
Qed.
Lemma append_last_snoc : forall yf a p, append_last (yf ++ [a]) p = yf ++ [a ++ [p]].
Proof. intros. unfold append_last. now rewrite removelast_last, last_last. Qed.
Lemma yfloop_gl : forall ls i p yf arg, yfloop ls i p (yf ++ [arg ++ [p]]) = yf ++ glue arg (map (map fst) (gl ((i, p) :: ls))).
Proof.
  induction ls as [|[i2 p2] ls IH]; intros i p yf arg; [reflexivity|]. cbn [yfloop]. destruct (gl_head ls i2 p2) as (js & a & args & E).
  assert (G : gl ((i, p) :: (i2, p2) :: ls) = if i2 =? i + 1 then if p =? p2 then ((p, i :: i2 :: js) :: a) :: args else ((p, [i]) :: (p2, i2 :: js) :: a) :: args
      else [(p, [i])] :: ((p2, i2 :: js) :: a) :: args).
  { cbn [gl] in E |- *. rewrite E. reflexivity. }
  rewrite G. clear G. destruct (Nat.eqb_spec i2 (i + 1)) as [->|N]; cbn [negb].
  - rewrite (Nat.eqb_sym p2 p). destruct (Nat.eqb_spec p p2) as [->|N]; cbn [negb].
    + rewrite IH, E. reflexivity.
    + rewrite append_last_snoc, <- app_assoc. change ([p] ++ [p2]) with ([p] ++ [p2]). rewrite app_assoc. rewrite IH, E. cbn [map glue fst]. now rewrite <- app_assoc.
  - replace ((yf ++ [arg ++ [p]]) ++ [[p2]]) with ((yf ++ [arg ++ [p]]) ++ [[] ++ [p2]]) by reflexivity. rewrite IH, E. cbn [map glue fst]. now rewrite <- app_assoc.
Qed.
Definition span_of (arg : list (nat * list nat)) : list nat := concat (map snd arg).
Definition inc (P : list (nat * nat)) : Prop := StronglySorted (fun a b => fst a < fst b) P.
Definition seqs (rs : list (list nat)) : Prop := Forall (fun r => exists a k, 0 < k /\ r = seq a k) rs.

Lemma gl_concat : forall P, concat (map span_of (gl P)) = map fst P.
Proof.
  induction P as [|[i p] P IH]; [reflexivity|]. cbn [map fst]. rewrite <- IH. cbn [gl]. destruct (gl P) as [|[|[q [|j js]] arg] args]; try reflexivity.
  destruct (j =? i + 1); [destruct (p =? q)|]; reflexivity.
Qed.
Lemma gl_blocks : forall P b a, In b (concat (gl P)) -> In a (snd b) -> In (a, fst b) P.
Proof.
  induction P as [|[i p] P IH]; intros b a Hb Ha; [contradiction|]. cbn [gl] in Hb.
  assert (G : forall b0, (b0 = (p, [i]) \/ In b0 (concat (gl P)) \/ (exists js, In (p, js) (concat (gl P)) /\ b0 = (p, i :: js))) -> In a (snd b0) -> In (a, fst b0) ((i, p) :: P)).
  { intros b0 [->|[H|(js & H & ->)]] K.
    - destruct K as [<-|[]]. now left.
    - right. now apply IH.
    - destruct K as [<-|K]; [now left|]. right. now apply (IH (p, js)). }
  apply G; auto. clear G. destruct (gl P) as [|[|[q [|j js]] arg] args]; try (cbn in Hb |- *; intuition; fail).
  destruct (j =? i + 1); [destruct (Nat.eqb_spec p q) as [->|N]|]; cbn in Hb |- *; intuition.
  right. right. eexists. split; [left; reflexivity|auto].
Qed.
Lemma gl_nonempty : forall P b, In b (concat (gl P)) -> snd b <> [].
Proof.
  induction P as [|[i p] P IH]; intros b H; [contradiction|]. cbn [gl] in H. destruct (gl P) as [|[|[q [|j js]] arg] args] eqn:E;
    try (cbn in H; destruct H as [<-|H]; [discriminate|]; apply IH; exact H).
  destruct (j =? i + 1); [destruct (p =? q)|]; cbn in H; (destruct H as [<-|H]; [discriminate|]); apply IH; cbn; auto.
Qed.
(** the arguments are the ranges of the mother *)
Lemma gl_args : forall P, inc P -> seqs (map span_of (gl P)) /\ separated_nat (map span_of (gl P)).
Proof.
  induction P as [|[i p] P IH]; intros I; [split; [constructor|exact Logic.I]|]. inversion I as [|? ? I1 I2]; subst. destruct (IH I1) as [A B].
  destruct P as [|[i2 p2] P]; [split; [repeat constructor; exists i, 1; auto|exact Logic.I]|].
  destruct (gl_head P i2 p2) as (js & arg & args & E). 
  assert (G : gl ((i, p) :: (i2, p2) :: P) = if i2 =? i + 1 then if p =? p2 then ((p, i :: i2 :: js) :: arg) :: args else ((p, [i]) :: (p2, i2 :: js) :: arg) :: args
      else [(p, [i])] :: ((p2, i2 :: js) :: arg) :: args).
  { cbn [gl] in E |- *. rewrite E. reflexivity. }
  rewrite G. rewrite E in A, B. inversion I2 as [|? ? I3 _]; subst. cbn in I3. cbn [map] in A, B. inversion A as [|? ? (a & k & K & EQ) A2]; subst.
  assert (Ea : a = i2) by (destruct k; [lia|]; cbn in EQ; injection EQ; auto). subst a.
  destruct (Nat.eqb_spec i2 (i + 1)) as [->|N].
  - assert (X : forall blk, span_of blk = i :: span_of ((p2, (i + 1) :: js) :: arg) -> seqs (map span_of (blk :: args)) /\ separated_nat (map span_of (blk :: args))).
    { intros blk EB. cbn [map]. rewrite EB, EQ. split.
      - constructor; auto. exists i, (S k). split; [lia|]. cbn. now rewrite Nat.add_1_r.
      - destruct (map span_of args) as [|r rs]; [exact Logic.I|]. cbn [separated_nat] in B |- *. rewrite EQ in B. destruct B as [B1 B2]. split; auto.
        destruct k as [|k]; [lia|]. exact B1. }
    destruct (p =? p2); apply X; reflexivity.
  - cbn [map]. split; [constructor; auto; exists i, 1; auto|]. cbn [separated_nat]. split; [|exact B]. cbn. lia.
Qed.
(** the blocks of daughter n are its ranges *)
Definition blocks_of (n : nat) (g : list (list (nat * list nat))) : list (list nat) := map snd (filter (fun b => fst b =? n) (concat g)).
Lemma gl_daughter_concat : forall n P, concat (blocks_of n (gl P)) = map fst (filter (fun x => snd x =? n) P).
Proof.
  intros n P. induction P as [|[i p] P IH]; [reflexivity|]. cbn [filter snd].
  assert (X : forall b, concat (map snd (filter (fun b : nat * list nat => fst b =? n) ((p, [i]) :: b))) = if p =? n then i :: concat (map snd (filter (fun b => fst b =? n) b)) else concat (map snd (filter (fun b => fst b =? n) b))).
  { intros b. cbn [filter fst]. destruct (p =? n); reflexivity. }
  unfold blocks_of in *. cbn [gl]. destruct (gl P) as [|[|[q [|j js]] arg] args].
  1-3: (cbn [concat app] in *; rewrite X; destruct (p =? n); cbn [map fst]; now rewrite IH).
  destruct (j =? i + 1); [destruct (Nat.eqb_spec p q) as [->|N]|]; cbn [concat app] in *.
  - cbn [filter fst] in *. destruct (q =? n); cbn [map fst snd concat app] in *; [now rewrite <- IH|exact IH].
  - rewrite X. destruct (p =? n); cbn [map fst]; now rewrite IH.
  - rewrite X. destruct (p =? n); cbn [map fst]; now rewrite IH.
Qed.
Lemma gl_daughter : forall n P, inc P -> seqs (blocks_of n (gl P)) /\ separated_nat (blocks_of n (gl P)).
Proof.
  intros n P. induction P as [|[i p] P IH]; intros I; [split; [constructor|exact Logic.I]|]. inversion I as [|? ? I1 I2]; subst. destruct (IH I1) as [A B].
  destruct P as [|[i2 p2] P]; [unfold blocks_of; cbn; destruct (p =? n); (split; [repeat constructor; exists i, 1; auto|exact Logic.I])|].
  destruct (gl_head P i2 p2) as (js & arg & args & E).
  assert (G : gl ((i, p) :: (i2, p2) :: P) = if i2 =? i + 1 then if p =? p2 then ((p, i :: i2 :: js) :: arg) :: args else ((p, [i]) :: (p2, i2 :: js) :: arg) :: args
      else [(p, [i])] :: ((p2, i2 :: js) :: arg) :: args).
  { cbn [gl] in E |- *. rewrite E. reflexivity. }
  rewrite G. clear G. inversion I2 as [|? ? I3 I4]; subst. cbn in I3.
  assert (NEW : i2 <> i + 1 \/ p <> p2 -> forall g, concat g = (p, [i]) :: concat (gl ((i2, p2) :: P)) -> seqs (blocks_of n g) /\ separated_nat (blocks_of n g)).
  { intros D g Eg. unfold blocks_of in *. rewrite Eg. cbn [filter fst]. destruct (Nat.eqb_spec p n) as [->|N]; [|auto]. cbn [map snd]. split; [constructor; auto; exists i, 1; auto|].
    destruct (filter (fun b => fst b =? n) (concat (gl ((i2, p2) :: P)))) as [|b bs] eqn:F; [exact Logic.I|]. cbn [map separated_nat last]. split; [|exact B].
    assert (Hb : In b (concat (gl ((i2, p2) :: P))) /\ fst b = n).
    { assert (Q : In b (filter (fun b => fst b =? n) (concat (gl ((i2, p2) :: P))))) by (rewrite F; now left). apply filter_In in Q. destruct Q as [Q1 Q2]. apply Nat.eqb_eq in Q2. auto. }
    destruct Hb as [Hb En]. pose proof (gl_nonempty _ _ Hb) as NE. destruct (snd b) as [|a r] eqn:Eb; [congruence|]. cbn [hd].
    pose proof (gl_blocks _ b a Hb ltac:(rewrite Eb; now left)) as Q. rewrite En in Q. destruct Q as [Q|Q].
    - apply pair_equal_spec in Q. destruct Q as [-> ->]. lia.
    - inversion I1 as [|? ? _ I5]; subst. rewrite Forall_forall in I5. specialize (I5 _ Q). cbn in I5. lia. }
  destruct (Nat.eqb_spec i2 (i + 1)) as [->|N]; [destruct (Nat.eqb_spec p p2) as [<-|N]|].
  - rewrite E in A, B. unfold blocks_of in *. cbn [concat app filter fst] in *. destruct (p =? n); [|auto]. cbn [map snd] in *. inversion A as [|? ? (a & k & K & EQ) A2]; subst. split.
    + constructor; auto. exists i, (S k). split; [lia|]. cbn. rewrite EQ. destruct k; [lia|]. cbn in EQ. injection EQ as <- _. now rewrite Nat.add_1_r.
    + destruct (map snd (filter (fun b => fst b =? n) (arg ++ concat args))) as [|r rs]; [exact Logic.I|]. exact B.
  - apply NEW; [auto|]. rewrite E. reflexivity.
  - apply NEW; [auto|]. rewrite E. reflexivity.
Qed.
(** ---- one node ---- *)
Lemma enumerate_nth : forall X (xs : list X) k n x, In (n, x) (enumerate k xs) <-> k <= n /\ nth_error xs (n - k) = Some x.
Proof.
  induction xs as [|y xs IH]; intros k n x; cbn [enumerate In].
  - split; [contradiction|]. intros [_ H]. destruct (n - k); discriminate.
  - rewrite IH. split.
    + intros [H|[H1 H2]]; [apply pair_equal_spec in H; destruct H as [-> ->]; split; [lia|]; now rewrite Nat.sub_diag|]. split; [lia|]. replace (n - k) with (S (n - S k)) by lia. exact H2.
    + intros [H1 H2]. destruct (Nat.eq_dec n k) as [->|N]; [rewrite Nat.sub_diag in H2; cbn in H2; injection H2 as ->; auto|]. right. split; [lia|]. replace (n - k) with (S (n - S k)) in H2 by lia. exact H2.
Qed.
Lemma indexed_fst : forall ts, map fst (indexed ts) = flat_map leaves ts.
Proof.
  intros ts. unfold indexed. generalize 0 as k. induction ts as [|c ts IH]; intros k; [reflexivity|]. cbn [enumerate flat_map snd fst]. rewrite map_app, IH. f_equal. rewrite map_map. apply map_id.
Qed.
Lemma indexed_filter : forall ts n c, nth_error ts n = Some c -> map fst (filter (fun x => snd x =? n) (indexed ts)) = leaves c.
Proof.
  intros ts n c. unfold indexed. assert (G : forall k n, nth_error ts n = Some c -> map fst (filter (fun x => snd x =? k + n) (flat_map (fun p => map (fun idx => (idx, fst p)) (leaves (snd p))) (enumerate k ts))) = leaves c); [|apply (G 0)].
  assert (ALL : forall k l, filter (fun x : nat * nat => snd x =? k) (map (fun idx : nat => (idx, k)) l) = map (fun idx => (idx, k)) l).
  { intros k l. induction l as [|x l IH]; [reflexivity|]. cbn. now rewrite Nat.eqb_refl, IH. }
  assert (NONE : forall k m l, k <> m -> filter (fun x : nat * nat => snd x =? m) (map (fun idx : nat => (idx, k)) l) = []).
  { intros k m l H. induction l as [|x l IH]; [reflexivity|]. cbn. now rewrite (proj2 (Nat.eqb_neq k m) H), IH. }
  assert (LATE : forall (xs : list (tree pystr nat)) k m, m < k -> filter (fun x : nat * nat => snd x =? m) (flat_map (fun p => map (fun idx => (idx, fst p)) (leaves (snd p))) (enumerate k xs)) = []).
  { induction xs as [|x xs IH]; intros k m H; [reflexivity|]. cbn [enumerate flat_map fst snd]. rewrite filter_app, NONE, IH by lia. reflexivity. }
  clear n. induction ts as [|x ts IH]; intros k n H; [destruct n; discriminate|]. cbn [enumerate flat_map fst snd]. rewrite filter_app, map_app. destruct n as [|n].
  - cbn in H. injection H as ->. rewrite Nat.add_0_r, ALL, LATE by lia. rewrite map_map, app_nil_r. apply map_id.
  - rewrite NONE by lia. cbn [map app]. replace (k + S n) with (S k + n) by lia. apply IH. exact H.
Qed.
Lemma filter_perm : forall X (f : X -> bool) l l', Permutation l l' -> Permutation (filter f l) (filter f l').
Proof.
  intros X f l l' H. induction H as [|x a b H IH|x y a|a b c H1 IH1 H2 IH2]; [constructor| | |eauto using perm_trans]; cbn; destruct (f x); auto; destruct (f y); auto. constructor.
Qed.
Lemma inc_lt : forall P, inc P -> StronglySorted lt (map fst P).
Proof. intros P H. induction H as [|x P H IH F]; constructor; auto. apply Forall_map. exact F. Qed.
Lemma filter_inc : forall f P, inc P -> inc (filter f P).
Proof.
  intros f P H. induction H as [|x P H IH F]; [constructor|]. cbn. destruct (f x); auto. constructor; auto. rewrite Forall_forall in *. intros y Hy. apply filter_In in Hy. apply F. tauto.
Qed.
Lemma lt_sort_id : forall l, StronglySorted lt l -> forall l', Permutation l' l -> sort Nat.leb l' = l.
Proof.
  intros l H l' Q. apply nat_sort_unique; auto. clear Q. induction H as [|x l H IH F]; constructor; auto. eapply Forall_impl; [|exact F]. intros y Hy. apply Nat.leb_le. lia.
Qed.
Lemma rev_sorted : forall X (R : X -> X -> Prop) l, StronglySorted R l -> StronglySorted (fun a b => R b a) (rev l).
Proof.
  intros X R l H. induction H as [|x l H IH F]; [constructor|]. cbn.
  assert (A : forall u v, StronglySorted (fun a b => R b a) u -> Forall (fun a => R v a) u -> StronglySorted (fun a b => R b a) (u ++ [v])).
  { induction u as [|y u IHu]; intros v Hu Fu; [repeat constructor|]. inversion Hu; inversion Fu; subst. cbn. constructor; auto. apply Forall_app. split; auto. }
  apply A; auto. apply Forall_rev. exact F.
Qed.
Lemma sorted_pairs : forall ts, NoDup (flat_map leaves ts) -> inc (rev (sort idx_ge (indexed ts))).
Proof.
  intros ts ND. pose proof (sort_perm idx_ge (indexed ts)) as Q.
  assert (SS : StronglySorted (fun a b => idx_ge a b = true) (sort idx_ge (indexed ts))).
  { apply sort_sorted; unfold idx_ge; intros; [apply leb_total|eapply leb_trans; eauto]. }
  apply rev_sorted in SS. assert (NDr : NoDup (map fst (rev (sort idx_ge (indexed ts))))).
  { eapply Permutation_NoDup; [apply Permutation_map; eapply perm_trans; [exact Q|apply Permutation_rev]|]. now rewrite indexed_fst. }
  revert SS NDr. generalize (rev (sort idx_ge (indexed ts))) as P. intros P SS. induction SS as [|x P H IH F]; intros NDr; constructor.
  - apply IH. now inversion NDr.
  - cbn in NDr. inversion NDr as [|? ? N1 N2]; subst. rewrite Forall_forall in *. intros y Hy. specialize (F y Hy). unfold idx_ge in F. apply Nat.leb_le in F.
    assert (fst x <> fst y); [|lia]. intros E. apply N1. rewrite E. now apply in_map.
Qed.
Lemma yieldfunction_fills : forall ts yf, NoDup (flat_map leaves ts) -> yieldfunction ts = Some yf -> fills ts yf.
Proof.
  intros ts yf ND H. pose proof (sorted_pairs ts ND) as I. unfold yieldfunction in H. set (P := rev (sort idx_ge (indexed ts))) in *.
  assert (Q : Permutation (indexed ts) P) by (unfold P; eapply perm_trans; [apply sort_perm|apply Permutation_rev]).
  clearbody P. destruct P as [|[i p] ls]; [discriminate|]. injection H as <-.
  change [[p]] with ([] ++ [[] ++ [p]]). rewrite yfloop_gl. destruct (gl_head ls i p) as (js & arg & args & E).
  exists (gl ((i, p) :: ls)). split; [|split; [|split]].
  - rewrite E. reflexivity.
  - symmetry. destruct (gl_args _ I) as [A B]. apply components_unique; auto. fold (map span_of (gl ((i, p) :: ls))). rewrite gl_concat. symmetry. apply lt_sort_id; [now apply inc_lt|].
    rewrite <- indexed_fst. now apply Permutation_map.
  - intros n c Hc. symmetry. destruct (gl_daughter n _ I) as [A B]. apply components_unique; auto. fold (blocks_of n (gl ((i, p) :: ls))). rewrite gl_daughter_concat. symmetry. apply lt_sort_id; [apply inc_lt, filter_inc, I|].
    rewrite <- (indexed_filter _ _ _ Hc). apply Permutation_map, filter_perm, Q.
  - intros b Hb. pose proof (gl_nonempty _ _ Hb) as NE. destruct (snd b) as [|a r] eqn:Eb; [congruence|]. pose proof (gl_blocks _ b a Hb ltac:(rewrite Eb; now left)) as X.
    eapply Permutation_in in X; [|apply Permutation_sym; exact Q]. unfold indexed in X. apply in_flat_map in X. destruct X as ([n c] & X1 & X2). apply in_map_iff in X2. destruct X2 as (z & X2 & _).
    apply pair_equal_spec in X2. destruct X2 as [_ X2]. cbn in X2. rewrite <- X2. apply enumerate_nth in X1. destruct X1 as [_ X1]. rewrite Nat.sub_0_r in X1. apply nth_error_Some. congruence.
Qed.
Lemma yieldfunction_some : forall ts, flat_map leaves ts <> [] -> exists yf, yieldfunction ts = Some yf.
Proof.
  intros ts H. unfold yieldfunction. destruct (rev (sort idx_ge (indexed ts))) as [|[i p] ls] eqn:E; [|eauto]. exfalso. apply H. rewrite <- indexed_fst.
  assert (Q : Permutation (indexed ts) []) by (rewrite <- E; eapply perm_trans; [apply sort_perm|apply Permutation_rev]). apply Permutation_sym, Permutation_nil in Q. now rewrite Q.
Qed.
Lemma pre_nodup : forall (t : tree pystr nat) l ts, NoDup (leaves t) -> In (Node l ts) (pre t) -> NoDup (flat_map leaves ts).
Proof.
  intros t. induction t as [a|m us IH] using tree_ind'; intros l ts ND H; [contradiction|]. cbn [pre] in H. destruct H as [H|H]; [injection H as -> ->; exact ND|].
  apply in_flat_map in H. destruct H as (c & Hc & H). rewrite Forall_forall in IH. eapply IH; eauto. cbn [leaves] in ND. eapply nodup_child; eauto.
Qed.
Lemma pre_leaves : forall (t s : tree pystr nat), In s (pre t) -> incl (leaves s) (leaves t).
Proof.
  intros t. induction t as [a|m us IH] using tree_ind'; intros s H; [contradiction|]. cbn [pre] in H. destruct H as [<-|H]; [apply incl_refl|].
  apply in_flat_map in H. destruct H as (c & Hc & H). rewrite Forall_forall in IH. intros x Hx. cbn [leaves]. apply in_flat_map. exists c. split; auto. eapply IH; eauto.
Qed.
Lemma production_describes : forall sent st p, NoDup (leaves st) -> (forall a, In a (leaves st) -> a < length sent) -> production true sent st = SRule p -> describes sent st p.
Proof.
  intros sent st p ND R H. destruct st as [a|l ts]; [discriminate|]. destruct ts as [|c ts]; [discriminate|]. destruct c as [a|m us].
  - cbn [production] in H. assert (L : a < length sent) by (apply R; cbn; auto). destruct (nth_error sent a) as [w|] eqn:E; [|apply nth_error_None in E; lia]. destruct ts as [|c ts].
    + destruct w as [w|]; injection H as <-; cbn; [exists a, w; auto|]. exists a, []. auto.
    + injection H as <-. exists a, (c :: ts). split; auto. discriminate.
  - cbn [production] in H. destruct (forallb is_node (Node m us :: ts)) eqn:F; [|discriminate]. destruct (yieldfunction (Node m us :: ts)) as [yf|] eqn:Y; [|discriminate]. injection H as <-.
    exists (Node m us :: ts). split; auto. split; [discriminate|]. split; [|now apply yieldfunction_fills].
    clear - F. change (m :: map (fun c => match c with Leaf _ => [] | Node l _ => l end) ts) with (map (fun c : tree pystr nat => match c with Leaf _ => [] | Node l _ => l end) (Node m us :: ts)).
    induction (Node m us :: ts) as [|c cs IH]; [constructor|]. cbn in F. apply andb_prop in F. destruct F as [F1 F2]. cbn. constructor; auto. destruct c; [discriminate|eauto].
Qed.
Lemma nodupb_spec : forall l, nodupb l = true <-> NoDup l.
Proof.
  induction l as [|x l IH]; cbn; [split; constructor|]. rewrite andb_true_iff, negb_true_iff, IH. split.
  - intros [A B]. constructor; auto. intros H. apply not_true_iff_false in A. apply A. apply existsb_exists. exists x. split; auto. apply Nat.eqb_refl.
  - intros H. inversion H as [|? ? A B]; subst. split; auto. apply not_true_is_false. intros E. apply existsb_exists in E. destruct E as (y & Hy & E). apply Nat.eqb_eq in E. now subst.
Qed.
Lemma filter_true : forall X (l : list X), filter (fun _ => true) l = l.
Proof. induction l as [|x l IH]; [reflexivity|]. cbn. now rewrite IH. Qed.
Lemma accepted_inv : forall t sent fr ps, lcfrsproductions t sent fr = PRules ps ->
  NoDup (leaves t) /\ sent <> [] /\ (forall a, In a (leaves t) -> a < length sent) /\ collect (map (production fr sent) (pre t)) = PRules ps.
Proof.
  intros t sent fr ps H. unfold lcfrsproductions in H. destruct (nodupb (leaves t)) eqn:N; [|discriminate]. apply nodupb_spec in N. cbn [negb] in H. destruct sent as [|w sent]; [discriminate|].
  destruct (forallb _ _) eqn:F; [|discriminate]. cbn [negb] in H. rewrite C16_subtrees_preorder, filter_true in H. split; auto. split; [discriminate|]. split; auto.
  intros a Ha. rewrite forallb_forall in F. apply Nat.ltb_lt, F, Ha.
Qed.
(** With frontiers=True there is one production for every node, in the order of
    subtrees(), and it describes that node.  *)
Theorem C29_productions_describe : forall t sent ps, lcfrsproductions t sent true = PRules ps -> Forall2 (describes sent) (pre t) ps.
Proof.
  intros t sent ps H. apply accepted_inv in H. destruct H as (ND & _ & R & H).
  assert (G : forall s, In s (pre t) -> (exists l ts, s = Node l ts) /\ NoDup (leaves s) /\ (forall a, In a (leaves s) -> a < length sent)).
  { intros s Hs. assert (X : exists l ts, s = Node l ts).
    { clear - Hs. revert Hs. induction t as [a|l ts IH] using tree_ind'; intros H; [contradiction|]. destruct H as [<-|H]; [eauto|]. apply in_flat_map in H. destruct H as (c & Hc & H). rewrite Forall_forall in IH. eauto. }
    split; auto. destruct X as (l & ts & ->). split; [cbn; eapply pre_nodup; eauto|]. intros a Ha. apply R. eapply pre_leaves; eauto. }
  revert ps H G. generalize (pre t) as ss. induction ss as [|s ss IH]; intros ps H G; cbn [map collect] in H; [injection H as <-; constructor|].
  destruct (G s (or_introl eq_refl)) as ((l & ts & ->) & N & A).
  destruct (production true sent (Node l ts)) as [p| |] eqn:E; [| |discriminate].
  - destruct (collect (map (production true sent) ss)) as [qs|]; [|discriminate]. injection H as <-. constructor; [now apply production_describes|]. apply IH; auto. intros. apply G. now right.
  - exfalso. cbn in E. destruct ts as [|[a|m us] ts]; [discriminate| |].
    + destruct ts; [destruct (nth_error sent a) as [[w|]|]|]; discriminate.
    + destruct (forallb is_node _); [|discriminate]. destruct (yieldfunction _); discriminate.
Qed.
(** Without frontiers the productions of the frontier nodes are left out. *)
Theorem C29_without_frontiers : forall t sent, lcfrsproductions t sent false =
  match lcfrsproductions t sent true with PRules ps => PRules (filter (fun p => negb (is_frontier p)) ps) | PError => PError end.
Proof.
  intros t sent. unfold lcfrsproductions. destruct (negb (nodupb (leaves t))); [reflexivity|]. destruct sent as [|w sent]; [reflexivity|]. destruct (negb (forallb _ _)); [reflexivity|].
  generalize (subtrees (fun _ : tree pystr nat => true) t) as ss. induction ss as [|s ss IH]; [reflexivity|]. cbn [map collect].
  assert (X : production false (w :: sent) s = match production true (w :: sent) s with SRule p => if is_frontier p then SSkip else SRule p | r => r end).
  { destruct s as [a|l ts]; [reflexivity|]. destruct ts as [|[a|m us] ts]; [reflexivity| |].
    - cbn [production]. destruct ts; [destruct (nth_error (w :: sent) a) as [[x|]|]|]; reflexivity.
    - cbn [production]. destruct (forallb is_node _); [|reflexivity]. destruct (yieldfunction _); reflexivity. }
  rewrite X, IH. destruct (production true (w :: sent) s) as [p| |]; [destruct p; cbn [is_frontier]|reflexivity|reflexivity];
    destruct (collect (map (production true (w :: sent)) ss)); reflexivity.
Qed.
(** Every tree whose terminals are unique, have no siblings and point to words is
    accepted and none of its nodes is left out. *)
Theorem C29_accepted : forall t sent, ptree t -> NoDup (leaves t) -> (forall a, In a (leaves t) -> exists w, nth_error sent a = Some (Some w)) ->
  exists ps, lcfrsproductions t sent false = PRules ps /\ Forall2 (describes sent) (pre t) ps.
Proof.
  intros t sent HP ND W.
  assert (R : forall a, In a (leaves t) -> a < length sent) by (intros a Ha; destruct (W a Ha) as [w E]; apply nth_error_Some; congruence).
  assert (OK : exists ps, lcfrsproductions t sent true = PRules ps /\ filter (fun p => negb (is_frontier p)) ps = ps).
  { unfold lcfrsproductions. rewrite (proj2 (nodupb_spec _) ND). cbn [negb]. pose proof (ptree_leaves _ HP) as NE.
    destruct sent as [|w0 sent]; [exfalso; destruct (leaves t) as [|a r]; [congruence|]; specialize (R a (or_introl eq_refl)); cbn in R; lia|]. set (sn := w0 :: sent) in *.
    rewrite (proj2 (forallb_forall (fun a => a <? length sn) (leaves t))) by (intros a Ha; apply Nat.ltb_lt; auto). cbn [negb]. rewrite C16_subtrees_preorder, filter_true.
    assert (G : forall s, In s (pre t) -> exists p, production true sn s = SRule p /\ is_frontier p = false).
    { intros s Hs. clear - HP W Hs. induction HP as [l a|l ts NE HP IH].
      - cbn in Hs. destruct Hs as [<-|[]]. cbn [production]. destruct (W a) as [w E]; [cbn; auto|]. rewrite E. eauto.
      - cbn [pre] in Hs. destruct Hs as [<-|Hs].
        + destruct ts as [|c ts]; [congruence|]. pose proof (HP c (or_introl eq_refl)) as Hc. assert (N : forallb is_node (c :: ts) = true).
          { apply forallb_forall. intros x Hx. specialize (HP x Hx). inversion HP; reflexivity. }
          destruct c as [a|m us]; [inversion Hc|]. cbn [production]. rewrite N. destruct (yieldfunction_some (Node m us :: ts)) as [yf E]; [|rewrite E; eauto].
          intros X. cbn [flat_map] in X. apply app_eq_nil in X. destruct X as [X _]. now apply (ptree_leaves _ Hc).
        + apply in_flat_map in Hs. destruct Hs as (c & Hc & Hs). apply (IH c Hc); auto. intros a Ha. apply W. cbn [leaves]. apply in_flat_map. eauto. }
    revert G. generalize (pre t) as ss. induction ss as [|s ss IH]; intros G; [exists []; split; reflexivity|]. destruct (G s (or_introl eq_refl)) as (p & E & Fp).
    destruct IH as (ps & E2 & F2); [intros; apply G; now right|]. cbn [map collect]. rewrite E, E2. exists (p :: ps). split; auto. cbn. rewrite Fp. cbn. now rewrite F2. }
  destruct OK as (ps & E & F). exists ps. split; [now rewrite C29_without_frontiers, E, F|]. now apply C29_productions_describe.
Qed.
(** The yield function has one argument for each range of the mother, and mentions
    each daughter once for each of its ranges. *)
Lemma count_filter : forall (G : list (nat * list nat)) n, count_occ Nat.eq_dec (map fst G) n = length (map snd (filter (fun b => fst b =? n) G)).
Proof.
  induction G as [|[m r] G IH]; intros n; [reflexivity|]. cbn [map fst filter]. destruct (Nat.eqb_spec m n) as [->|N].
  - rewrite count_occ_cons_eq by reflexivity. cbn. now rewrite IH.
  - rewrite count_occ_cons_neq by auto. apply IH.
Qed.
Theorem C29_counts : forall ts yf, fills ts yf ->
  length yf = length (components (flat_map leaves ts)) /\
  (forall n c, nth_error ts n = Some c -> count_occ Nat.eq_dec (concat yf) n = length (components (leaves c))) /\
  (forall n, In n (concat yf) -> n < length ts).
Proof.
  intros ts yf (G & <- & A & B & C). split; [|split].
  - rewrite <- A. now rewrite !map_length.
  - intros n c Hc. rewrite <- (B n c Hc), <- concat_map. apply count_filter.
  - intros n Hn. rewrite <- concat_map in Hn. apply in_map_iff in Hn. destruct Hn as (b & <- & Hb). auto.
Qed.
(** In a tree in canonical order the rules are monotone: daughters are mentioned
    for the first time in the order in which they stand in the rule. *)
Lemma concat_span : forall G : list (list (nat * list nat)), concat (map (fun arg => concat (map snd arg)) G) = concat (map snd (concat G)).
Proof. induction G as [|g G IH]; [reflexivity|]. cbn. rewrite map_app, concat_app. now rewrite IH. Qed.
Theorem C29_monotone : forall l ts yf, ptree (Node l ts) -> NoDup (flat_map leaves ts) -> every_node ordered (Node l ts) -> fills ts yf ->
  forall i j x y, i < j -> concat yf = x ++ j :: y -> In i x.
Proof.
  intros l ts yf HP ND HO (G & <- & A & B & C) i j x y Hij E. rewrite <- concat_map in E.
  assert (Hj : j < length ts).
  { assert (X : In j (map fst (concat G))) by (rewrite E; apply in_or_app; right; now left). apply in_map_iff in X. destruct X as (b & <- & Hb). auto. }
  apply map_eq_app in E. destruct E as (gx & gy & EG & <- & E). destruct gy as [|b gy]; [discriminate|]. cbn in E. injection E as Eb _.
  destruct (nth_error ts i) as [ci|] eqn:Ei; [|apply nth_error_None in Ei; lia]. destruct (nth_error ts j) as [cj|] eqn:Ej; [|apply nth_error_None in Ej; lia].
  pose proof (ptree_okt_children _ _ _ HP) as OC. rewrite Forall_forall in OC. assert (Oi := OC ci (nth_error_In _ _ Ei)). assert (Oj := OC cj (nth_error_In _ _ Ej)).
  cbn [every_node] in HO. rewrite fold_and in HO. destruct HO as [HO1 HO2]. rewrite Forall_forall in HO2.
  assert (LT : minleaf ci < minleaf cj).
  { assert (LE : lex_le (leaves ci) (leaves cj) = true) by (eapply (ss_nth _ _ _ HO1 i j); eauto).
    destruct (minleaf_spec _ _ (okt_ne _ _ Oi)) as [Mi _]. destruct (minleaf_spec _ _ (okt_ne _ _ Oj)) as [Mj _].
    assert (minleaf ci <> minleaf cj).
    { intros X. rewrite X in Mi. pose proof (indexed_filter ts i ci Ei) as Fi. pose proof (indexed_filter ts j cj Ej) as Fj. rewrite <- Fi in Mi. rewrite <- Fj in Mj.
      apply in_map_iff in Mi, Mj. destruct Mi as ([a p] & E1 & Q1), Mj as ([a' p'] & E2 & Q2). apply filter_In in Q1, Q2. cbn in *. destruct Q1 as [Q1 Q3], Q2 as [Q2 Q4]. apply Nat.eqb_eq in Q3, Q4. subst.
      pose proof ND as ND'. rewrite <- indexed_fst in ND'. apply (NoDup_map_inv) in ND' as _. pose proof ND as ND2. rewrite <- indexed_fst in ND2.
      assert (INJ : forall (P : list (nat * nat)) u v, NoDup (map fst P) -> In u P -> In v P -> fst u = fst v -> u = v).
      { clear. induction P as [|z P IH]; intros u v ND Hu Hv E; [contradiction|]. cbn in ND. inversion ND as [|? ? N1 N2]; subst. destruct Hu as [->|Hu], Hv as [->|Hv]; auto.
        - exfalso. apply N1. rewrite E. now apply in_map.
        - exfalso. apply N1. rewrite <- E. now apply in_map. }
      specialize (INJ _ _ _ ND2 Q1 Q2 eq_refl). injection INJ. lia. }
    assert (HD : forall t : tree pystr nat, okt t -> every_node ordered t -> hd 0 (leaves t) = minleaf t).
    { clear. intros t. induction t as [a|l ts IH] using tree_ind'; intros O H; [reflexivity|]. cbn [every_node] in H. rewrite fold_and in H. destruct H as [H1 H2].
      pose proof (ptree_okt_children _ _ _ O) as OC. pose proof (ptree_ne _ _ O) as NE. symmetry. destruct ts as [|c ts]; [congruence|].
      inversion OC as [|? ? O1 O2]; inversion H2 as [|? ? E1 E2]; inversion IH as [|? ? I1 I2]; subst. pose proof (okt_ne _ _ O1) as NL. cbn [leaves flat_map].
      replace (hd 0 (leaves c ++ flat_map leaves ts)) with (hd 0 (leaves c)) by (destruct (leaves c); [congruence|reflexivity]). apply minleaf_unique.
      - cbn [leaves flat_map]. apply in_or_app. left. rewrite (I1 O1 E1). now apply minleaf_spec.
      - intros a Ha. rewrite (I1 O1 E1). cbn [leaves flat_map] in Ha. apply in_app_or in Ha. destruct Ha as [Ha|Ha]; [now apply minleaf_spec|].
        apply in_flat_map in Ha. destruct Ha as (z & Hz & Ha). unfold ordered in H1. inversion H1 as [|? ? _ F]; subst. rewrite Forall_forall in F, O2, E2, I2. specialize (F z Hz).
        assert (LX : hd 0 (leaves c) <= hd 0 (leaves z)).
        { revert F NL. clear. unfold leaves_le. generalize (leaves c) as p, (leaves z) as q. intros [|p0 p] [|q0 q] F NL; try congruence; cbn in *; [discriminate|]. destruct (Nat.eqb_spec p0 q0); [lia|]. apply Nat.ltb_lt in F. lia. }
        rewrite (I1 O1 E1), (I2 z Hz (O2 z Hz) (E2 z Hz)) in LX. destruct (minleaf_spec _ z (okt_ne _ _ (O2 z Hz))) as [_ M]. specialize (M a Ha). lia. }
    pose proof (HD _ Oi (HO2 _ (nth_error_In _ _ Ei))) as H1. pose proof (HD _ Oj (HO2 _ (nth_error_In _ _ Ej))) as H2.
    pose proof (okt_ne _ _ Oi) as Ni. destruct (leaves ci) as [|p0 p]; [congruence|]. destruct (leaves cj) as [|q0 q]; cbn in *; [discriminate|]. destruct (Nat.eqb_spec p0 q0); [lia|]. apply Nat.ltb_lt in LE. lia. }
  (* the block that contains the least terminal of daughter i *)
  destruct (minleaf_spec _ _ (okt_ne _ _ Oi)) as [Mi _].
  assert (Bi : exists bi, In bi (concat G) /\ fst bi = i /\ In (minleaf ci) (snd bi)).
  { assert (X : In (minleaf ci) (concat (components (leaves ci)))) by (rewrite components_concat; now apply sort_In). rewrite <- (B i ci Ei) in X. apply in_concat in X. destruct X as (r & X1 & X2).
    apply in_map_iff in X1. destruct X1 as (bi & <- & X1). apply filter_In in X1. destruct X1 as [X1 X3]. apply Nat.eqb_eq in X3. eauto. }
  destruct Bi as (bi & H1 & H2 & H3).
  assert (Bj : snd b <> [] /\ forall z, In z (snd b) -> In z (leaves cj)).
  { assert (X : In (snd b) (components (leaves cj))).
    { rewrite <- (B j cj Ej). apply in_map, filter_In. split; [rewrite EG; apply in_or_app; right; now left|]. now apply Nat.eqb_eq. }
    split.
    - intros Z. rewrite Z in X. unfold components in X. apply in_map_iff in X. destruct X as (r & X1 & X2). destruct (C37_ranges (map Z.of_nat (sort Nat.leb (leaves cj)))) as (_ & F & _).
      rewrite Forall_forall in F. destruct (F r X2) as [F1 _]. destruct r; [congruence|discriminate].
    - intros z Hz. apply (sort_In Nat.leb). rewrite <- components_concat. apply in_concat. eauto. }
  destruct Bj as [Bj1 Bj2]. rewrite EG in H1. apply in_app_or in H1. destruct H1 as [H1|H1]; [rewrite <- H2; now apply in_map|]. exfalso.
  destruct H1 as [<-|H1]; [lia|].
  (* bi comes after b: contradiction with the order of terminals *)
  assert (SS : StronglySorted lt (concat (map snd (concat G)))).
  { rewrite <- concat_span, A, components_concat. now apply sort_lt. }
  rewrite EG in SS. rewrite map_app, concat_app in SS. cbn [map concat] in SS.
  assert (AP : forall u v p q, StronglySorted lt (u ++ v) -> In p u -> In q v -> p < q).
  { clear. induction u as [|z u IH]; intros v p q H Hp Hq; [contradiction|]. cbn in H. inversion H as [|? ? H1 H2]; subst. destruct Hp as [->|Hp]; [|eauto].
    rewrite Forall_forall in H2. apply H2. apply in_or_app. now right. }
  assert (SS2 : StronglySorted lt (snd b ++ concat (map snd gy))).
  { clear - SS. induction (concat (map snd gx)) as [|z u IH]; [exact SS|]. inversion SS; auto. }
  destruct (snd b) as [|z r] eqn:Z; [congruence|].
  assert (z < minleaf ci).
  { eapply (AP (z :: r) (concat (map snd gy))); [exact SS2|now left|]. apply in_concat. exists (snd bi). split; [now apply in_map|auto]. }
  destruct (minleaf_spec _ _ (okt_ne _ _ Oj)) as [_ M]. specialize (M z (Bj2 z (or_introl eq_refl))). lia.
Qed.
(** When a terminal is followed by a sibling the node is silently left out,
    although its sentence has words for all terminals; if a constituent comes first
    it is an error. *)
Theorem C29_terminal_with_siblings_refuted : exists t sent ps, NoDup (leaves t) /\ (forall a, In a (leaves t) -> exists w, nth_error sent a = Some (Some w)) /\
  lcfrsproductions t sent false = PRules ps /\ length ps < length (pre t).
Proof.
  exists (Node (str "S") [Leaf 0; Node (str "A") [Leaf 1]]), [Some (str "a"); Some (str "b")], [Lexical (str "A") (str "b")]. split; [|split; [|split]].
  - repeat constructor; cbn; intuition lia.
  - cbn. intros a [<-|[<-|[]]]; eexists; reflexivity.
  - vm_compute. reflexivity.
  - cbn. lia.
Qed.
(** the example of the documentation *)
Definition doc_tree : tree pystr nat := Node (str "S") [Node (str "VP_2") [Node (str "V") [Leaf 0]; Node (str "ADJ") [Leaf 2]]; Node (str "NP") [Leaf 1]].
Definition doc_sent : list (option pystr) := [Some (str "is"); Some (str "Mary"); Some (str "happy")].
Example C29_ex : lcfrsproductions doc_tree doc_sent false = PRules [Phrasal (str "S") [str "VP_2"; str "NP"] [[0; 1; 0]]; Phrasal (str "VP_2") [str "V"; str "ADJ"] [[0]; [1]];
  Lexical (str "V") (str "is"); Lexical (str "ADJ") (str "happy"); Lexical (str "NP") (str "Mary")].
Proof. vm_compute. reflexivity. Qed.
Example C29_hyps : ptree doc_tree /\ NoDup (leaves doc_tree) /\ every_node ordered doc_tree /\ (forall a, In a (leaves doc_tree) -> exists w, nth_error doc_sent a = Some (Some w)).
Proof.
  split; [|split; [|split]].
  - repeat (constructor; try (intros; cbn in *; intuition (subst; try congruence))).
  - repeat constructor; cbn; intuition lia.
  - cbn. repeat split; unfold ordered; repeat constructor.
  - cbn. intros a [<-|[<-|[<-|[]]]]; eexists; reflexivity.
Qed.
Print Assumptions C29_productions_describe.
Print Assumptions C29_without_frontiers.
Print Assumptions C29_accepted.
Print Assumptions C29_counts.
Print Assumptions C29_monotone.
Print Assumptions C29_terminal_with_siblings_refuted.
