(** C39: parent pointers of ParentedTree *)
From Coq Require Import String.
From Coq Require Import List Bool Arith ZArith Lia Permutation.
From Verif Require Import PyStr UtilModel UtilProps ParentModel.
Import ListNotations.
Open Scope list_scope.
Open Scope nat_scope.

(** ---- specification ---- *)
(** p is the parent of c exactly when c is among the children of p; and a node
    is at most once among the children of a node *)
Definition nodesof (l : list item) : list nat := flat_map (fun it => match it with INode c => [c] | ILeaf _ => [] end) l.
Definition consistent (h : heap) : Prop :=
  (forall c p, par_of h c = Some p <-> In (INode c) (kids_of h p)) /\ (forall p, NoDup (nodesof (kids_of h p))).
(** the objects that an operation is applied to exist, ... *)
Definition exists_item (h : heap) (x : item) : Prop := match x with INode c => c < length h | ILeaf _ => True end.
Definition valid_op (h : heap) (o : op) : Prop :=
  match o with
  | New _ xs => Forall (exists_item h) xs
  | Append p x | Insert p _ x | SetInt p _ x => p < length h /\ exists_item h x
  | Remove p _ => p < length h
  | Extend p xs | SetSlice p _ xs => p < length h /\ Forall (exists_item h) xs
  | Pop p _ | DelInt p _ | DelSlice p _ | Disown p | Detach p | SpliceAbove p _ | SpliceBelow p _ | Prune p => p < length h
  end.
(** ... and the sequences given to slice assignments and constructors do not
    repeat a node *)
Definition no_repeat (o : op) : Prop :=
  match o with New _ xs | SetSlice _ _ xs => NoDup (nodesof xs) | _ => True end.
Inductive history (same : heap -> item -> item -> bool) : heap -> Prop :=
| history_start : history same []
| history_step : forall h o, history same h -> valid_op h o -> no_repeat o -> history same (fst (exec same h o)).

(** ---- the heap ---- *)
Definition lab_of (h : heap) (c : nat) : option pystr := option_map lab (nth_error h c).
Lemma upd_length : forall h i f, length (upd h i f) = length h.
Proof. induction h as [|n h IH]; intros [|i] f; cbn; auto. Qed.
Lemma upd_nth : forall h i f j, nth_error (upd h i f) j = if j =? i then option_map f (nth_error h j) else nth_error h j.
Proof.
  induction h as [|n h IH]; intros i f j; [destruct i; cbn [upd]; destruct (j =? _), j; reflexivity|]. destruct i, j; cbn; auto.
Qed.
Lemma par_setpar : forall h c v d, c < length h -> par_of (setpar h c v) d = if d =? c then v else par_of h d.
Proof.
  intros h c v d Hc. unfold par_of, setpar. rewrite upd_nth. destruct (d =? c) eqn:E; auto. apply Nat.eqb_eq in E. subst d. apply nth_error_Some in Hc. destruct (nth_error h c); [reflexivity|congruence].
Qed.
Lemma kids_setpar : forall h c v q, kids_of (setpar h c v) q = kids_of h q.
Proof. intros. unfold kids_of, setpar. rewrite upd_nth. destruct (q =? c) eqn:E; auto. destruct (nth_error h q); reflexivity. Qed.
Lemma par_setkids : forall h p l c, par_of (setkids h p l) c = par_of h c.
Proof. intros. unfold par_of, setkids. rewrite upd_nth. destruct (c =? p); auto. destruct (nth_error h c); reflexivity. Qed.
Lemma kids_setkids : forall h p l q, p < length h -> kids_of (setkids h p l) q = if q =? p then l else kids_of h q.
Proof.
  intros h p l q Hp. unfold kids_of, setkids. rewrite upd_nth. destruct (q =? p) eqn:E; auto. apply Nat.eqb_eq in E. subst q. apply nth_error_Some in Hp. destruct (nth_error h p); [reflexivity|congruence].
Qed.
Lemma setpar_length : forall h c v, length (setpar h c v) = length h.
Proof. intros. apply upd_length. Qed.
Lemma setkids_length : forall h c v, length (setkids h c v) = length h.
Proof. intros. apply upd_length. Qed.
Lemma lab_setpar : forall h c v d, lab_of (setpar h c v) d = lab_of h d.
Proof. intros. unfold lab_of, setpar. rewrite upd_nth. destruct (d =? c); auto. destruct (nth_error h d); reflexivity. Qed.
Lemma lab_setkids : forall h c v d, lab_of (setkids h c v) d = lab_of h d.
Proof. intros. unfold lab_of, setkids. rewrite upd_nth. destruct (d =? c); auto. destruct (nth_error h d); reflexivity. Qed.
Lemma in_nodesof : forall l c, In c (nodesof l) <-> In (INode c) l.
Proof.
  intros l c. unfold nodesof. rewrite in_flat_map. split; [intros ([d|a] & H & Hc); [destruct Hc as [->|[]]; auto|destruct Hc]|intros H; exists (INode c); cbn; auto].
Qed.
Lemma nodesof_app : forall a b, nodesof (a ++ b) = nodesof a ++ nodesof b.
Proof. intros. unfold nodesof. apply flat_map_app. Qed.
Lemma par_valid : forall h c p, par_of h c = Some p -> c < length h.
Proof. intros h c p H. unfold par_of in H. apply nth_error_Some. destruct (nth_error h c); congruence. Qed.
Lemma kids_valid : forall h p, kids_of h p <> [] -> p < length h.
Proof. intros h p H. unfold kids_of in H. apply nth_error_Some. destruct (nth_error h p); congruence. Qed.
Lemma mem_dec : forall (c : nat) l, In c l \/ ~ In c l.
Proof. intros c l. destruct (in_dec Nat.eq_dec c l); auto. Qed.

(** ---- [h'] is [h] where the children of p have become l ---- *)
Definition relinked (h : heap) (p : nat) (l : list item) (h' : heap) : Prop :=
  length h' = length h /\ kids_of h' p = l /\ (forall q, q <> p -> kids_of h' q = kids_of h q) /\
  (forall c, In c (nodesof l) -> par_of h' c = Some p) /\
  (forall c, ~ In c (nodesof l) -> par_of h' c = if eqo (par_of h c) p then None else par_of h c) /\
  (forall c, lab_of h' c = lab_of h c).
Lemma eqo_true : forall o p, eqo o p = true <-> o = Some p.
Proof. intros [q|] p; cbn; [rewrite Nat.eqb_eq|]; split; intros; congruence. Qed.
(** the new children were children of p before, or had no parent *)
Definition adoptable (h : heap) (p : nat) (l : list item) : Prop := forall c, In c (nodesof l) -> par_of h c = None \/ par_of h c = Some p.
Lemma relinked_consistent : forall h p l h', consistent h -> NoDup (nodesof l) -> adoptable h p l -> relinked h p l h' -> consistent h'.
Proof.
  intros h p l h' [C1 C2] ND AD (L & K1 & K2 & P1 & P2 & _). split.
  - intros c q. destruct (Nat.eq_dec q p) as [->|NE].
    + rewrite K1, <- in_nodesof. split; [|apply P1]. intros H. destruct (mem_dec c (nodesof l)) as [|N]; auto. rewrite (P2 c N) in H. destruct (eqo (par_of h c) p) eqn:E; [discriminate|]. rewrite H in E. cbn in E. rewrite Nat.eqb_refl in E. discriminate.
    + rewrite (K2 q NE), <- C1. destruct (mem_dec c (nodesof l)) as [I0|N].
      * rewrite (P1 c I0). split; [congruence|]. intros H. destruct (AD c I0); congruence.
      * rewrite (P2 c N). destruct (eqo (par_of h c) p) eqn:E; [|tauto]. apply eqo_true in E. rewrite E. split; congruence.
  - intros q. destruct (Nat.eq_dec q p) as [->|NE]; [now rewrite K1|now rewrite (K2 q NE)].
Qed.

(** ---- _delparent and _setparent ---- *)
Lemma delall_ok : forall its h p, NoDup (nodesof its) -> (forall c, In c (nodesof its) -> par_of h c = Some p) ->
  exists h', delall h p its = (h', true) /\ length h' = length h /\ (forall q, kids_of h' q = kids_of h q) /\ (forall c, lab_of h' c = lab_of h c) /\
    (forall c, In c (nodesof its) -> par_of h' c = None) /\ (forall c, ~ In c (nodesof its) -> par_of h' c = par_of h c).
Proof.
  induction its as [|[c|a] its IH]; intros h p ND H.
  - exists h. repeat split; auto. intros c [].
  - cbn [nodesof flat_map app] in ND, H. change (flat_map _ its) with (nodesof its) in *. inversion ND as [|? ? N1 N2]; subst. assert (Hc := H c (or_introl eq_refl)). cbn [delall]. rewrite (proj2 (eqo_true _ _) Hc). assert (V := par_valid _ _ _ Hc).
    destruct (IH (setpar h c None) p N2) as (h' & E & L & K & LB & P1 & P2). { intros d Hd. rewrite par_setpar by auto. destruct (d =? c) eqn:Ed; [apply Nat.eqb_eq in Ed; subst; contradiction|]. apply H. now right. }
    exists h'. split; auto. split; [now rewrite L, setpar_length|]. split; [intros q; now rewrite K, kids_setpar|]. split; [intros q; now rewrite LB, lab_setpar|]. cbn [nodesof flat_map app]. change (flat_map _ its) with (nodesof its). split.
    + intros d [<-|Hd]; [|auto]. rewrite P2 by auto. rewrite par_setpar by auto. now rewrite Nat.eqb_refl.
    + intros d Hd. rewrite P2 by (intros X; apply Hd; now right). rewrite par_setpar by auto. destruct (d =? c) eqn:Ed; auto. apply Nat.eqb_eq in Ed. subst. exfalso. apply Hd. now left.
  - cbn [nodesof flat_map app] in ND, H. destruct (IH h p ND H) as (h' & E). exists h'. exact E.
Qed.
Lemma setall_ok : forall its h p, NoDup (nodesof its) -> (forall c, In c (nodesof its) -> c < length h /\ par_of h c = None) ->
  exists h', setall h p its = (h', true) /\ length h' = length h /\ (forall q, kids_of h' q = kids_of h q) /\ (forall c, lab_of h' c = lab_of h c) /\
    (forall c, In c (nodesof its) -> par_of h' c = Some p) /\ (forall c, ~ In c (nodesof its) -> par_of h' c = par_of h c).
Proof.
  induction its as [|[c|a] its IH]; intros h p ND H.
  - exists h. repeat split; auto. intros c [].
  - cbn [nodesof flat_map app] in ND, H. change (flat_map _ its) with (nodesof its) in *. inversion ND as [|? ? N1 N2]; subst. destruct (H c (or_introl eq_refl)) as [V Hc]. cbn [setall orphan]. rewrite Hc.
    destruct (IH (setpar h c (Some p)) p N2) as (h' & E & L & K & LB & P1 & P2). { intros d Hd. rewrite setpar_length, par_setpar by auto. destruct (d =? c) eqn:Ed; [apply Nat.eqb_eq in Ed; subst; contradiction|]. apply H. now right. }
    exists h'. split; auto. split; [now rewrite L, setpar_length|]. split; [intros q; now rewrite K, kids_setpar|]. split; [intros q; now rewrite LB, lab_setpar|]. cbn [nodesof flat_map app]. change (flat_map _ its) with (nodesof its). split.
    + intros d [<-|Hd]; [|auto]. rewrite P2 by auto. rewrite par_setpar by auto. now rewrite Nat.eqb_refl.
    + intros d Hd. rewrite P2 by (intros X; apply Hd; now right). rewrite par_setpar by auto. destruct (d =? c) eqn:Ed; auto. apply Nat.eqb_eq in Ed. subst. exfalso. apply Hd. now left.
  - cbn [nodesof flat_map app] in ND, H. destruct (IH h p ND H) as (h' & E). exists h'. exact E.
Qed.
Lemma orphan_iff : forall h xs, forallb (orphan h) xs = true <-> forall c, In c (nodesof xs) -> par_of h c = None.
Proof.
  intros h xs. rewrite forallb_forall. split.
  - intros H c Hc. apply in_nodesof in Hc. specialize (H _ Hc). cbn in H. destruct (par_of h c); [discriminate|auto].
  - intros H [c|a] Hx; auto. cbn. apply in_nodesof in Hx. now rewrite (H c Hx).
Qed.
Lemma exists_items : forall h xs, Forall (exists_item h) xs -> forall c, In c (nodesof xs) -> c < length h.
Proof. intros h xs F c Hc. apply in_nodesof in Hc. rewrite Forall_forall in F. exact (F _ Hc). Qed.

(** ---- slices ---- *)
Lemma nodup_mid : forall (a b c d : list nat), NoDup (a ++ b ++ c) -> NoDup d -> (forall x, In x d -> ~ In x (a ++ c)) -> NoDup (a ++ d ++ c).
Proof.
  induction a as [|x a IH]; intros b c d N D X; cbn in *.
  - induction D as [|y d Hy D IHd]; cbn; [clear - N; induction b; cbn in *; auto; inversion N; auto|]. constructor; [rewrite in_app_iff; intros [A|A]; [auto|apply (X y); auto; now left]|]. apply IHd. intros z Hz. apply X. now right.
  - inversion N as [|? ? N1 N2]; subst. constructor; [|eapply IH; eauto; intros y Hy A; apply (X y Hy); now right]. rewrite !in_app_iff. intros [A|[A|A]]; [apply N1; rewrite in_app_iff; auto|apply (X x A); now left|apply N1; rewrite !in_app_iff; auto].
Qed.
Lemma split3 : forall (l : list item) a b, a <= b -> firstn a l ++ firstn (b - a) (skipn a l) ++ skipn b l = l.
Proof.
  intros l a b H. rewrite <- (firstn_skipn a l) at 4. f_equal. rewrite <- (firstn_skipn (b - a) (skipn a l)) at 2. f_equal.
  revert b H l. induction a as [|a IH]; intros b H l; [cbn; f_equal; lia|]. destruct b as [|b]; [lia|]. destruct l as [|x l]; [cbn; now rewrite skipn_nil|]. cbn [skipn Nat.sub]. apply IH. lia.
Qed.
Lemma py_range : forall len s, (0 <= len)%Z -> (0 <= py_lo len s <= py_hi len s)%Z /\ (py_hi len s <= len)%Z.
Proof. intros len s H. unfold py_hi, py_lo, clip. destruct (sl_start s) as [i|], (sl_stop s) as [j|]; ifs; lia. Qed.
Lemma bounds_segment : forall l s a b st, slice_bounds (zlen l) s false = SOk a b st -> segment l a b = segment l (py_lo (zlen l) s) (py_hi (zlen l) s).
Proof.
  intros l s a b st H. assert (HL : (0 <= zlen l)%Z) by (unfold zlen; lia). unfold slice_bounds in H. assert (K : (py_lo (zlen l) s < py_hi (zlen l) s /\ a = py_lo (zlen l) s /\ b = py_hi (zlen l) s)%Z \/ (py_lo (zlen l) s = py_hi (zlen l) s /\ a = b)%Z).
  { destruct s as [i j [k|]]; cbn [sl_start sl_stop sl_step] in *; [destruct (k =? 1)%Z; [|discriminate]|]; injection H as <- <- <-; unfold py_hi, py_lo, clip; cbn [sl_start sl_stop]; destruct i as [i|], j as [j|]; ifs; lia. }
  destruct K as [(_ & -> & ->)|(E & ->)]; [reflexivity|]. rewrite E. unfold segment. now rewrite !Z.sub_diag.
Qed.
Lemma bounds_none : forall l s, (forall a b st, slice_bounds (zlen l) s false <> SOk a b st) <-> (exists k, sl_step s = Some k /\ k <> 1%Z).
Proof.
  intros l [i j k]. cbn [sl_step]. unfold slice_bounds. cbn [sl_step sl_start sl_stop]. split.
  - intros H. destruct k as [k|]; [|exfalso; eapply H; reflexivity]. exists k. split; auto. intros ->. cbn in H. eapply H. reflexivity.
  - intros (k' & -> & NE) a b st. destruct (k' =? 1)%Z eqn:E; [apply Z.eqb_eq in E; congruence|discriminate].
Qed.
Section Slices.
Variables (h : heap) (p : nat).
Hypothesis C : consistent h.
Hypothesis V : p < length h.
Notation l := (kids_of h p).
Lemma kid_par : forall c, In c (nodesof l) -> par_of h c = Some p.
Proof. intros c H. apply C. now apply in_nodesof. Qed.
(** replacing a segment [seg] of the children, l = pre ++ seg ++ post *)
Lemma replaced : forall pre seg post value, l = pre ++ seg ++ post -> NoDup (nodesof value) -> (forall c, In c (nodesof value) -> c < length h /\ par_of h c = None) ->
  exists h1 h2, delall h p seg = (h1, true) /\ setall h1 p value = (h2, true) /\ (forall q, kids_of h2 q = kids_of h q) /\
    relinked h p (pre ++ value ++ post) (setkids h2 p (pre ++ value ++ post)) /\ NoDup (nodesof (pre ++ value ++ post)) /\ adoptable h p (pre ++ value ++ post).
Proof using C V.
  intros pre seg post value EL ND AV. assert (NL : NoDup (nodesof pre ++ nodesof seg ++ nodesof post)) by (rewrite <- !nodesof_app, <- EL; apply C).
  assert (SP : forall c, In c (nodesof seg) -> par_of h c = Some p) by (intros c Hc; apply kid_par; rewrite EL, !nodesof_app, !in_app_iff; auto).
  assert (PP : forall c, In c (nodesof (pre ++ post)) -> par_of h c = Some p) by (intros c Hc; apply kid_par; rewrite EL; rewrite !nodesof_app, !in_app_iff in *; tauto).
  assert (NS : NoDup (nodesof seg)) by (clear - NL; induction (nodesof pre); cbn in NL; [|inversion NL; auto]; clear - NL; induction (nodesof seg) as [|x s IH]; [constructor|]; cbn in NL; inversion NL as [|? ? A B]; constructor; auto; rewrite in_app_iff in A; auto).
  destruct (delall_ok seg h p NS SP) as (h1 & E1 & L1 & K1 & B1 & P1 & Q1). destruct (setall_ok value h1 p ND) as (h2 & E2 & L2 & K2 & B2 & P2 & Q2).
  { intros c Hc. destruct (AV c Hc) as [A B]. split; [lia|]. destruct (mem_dec c (nodesof seg)) as [I0|N]; [now apply P1|now rewrite Q1]. }
  exists h1, h2. split; auto. split; auto. split; [intros q; now rewrite K2, K1|]. assert (L0 : p < length h2) by lia.
  assert (DJ : forall c, In c (nodesof seg) -> ~ In c (nodesof (pre ++ post))).
  { intros c H1 H2. rewrite nodesof_app, in_app_iff in H2. clear - NL H1 H2. induction (nodesof pre) as [|x a IH]; cbn in *.
    - destruct H2 as [[]|H2]. induction (nodesof seg) as [|y s IHs]; [destruct H1|]. cbn in NL. inversion NL as [|? ? A B]; subst. destruct H1 as [->|H1]; [apply A; rewrite in_app_iff; auto|auto].
    - inversion NL as [|? ? A B]; subst. destruct H2 as [[->|H2]|H2]; auto. apply A. rewrite !in_app_iff. auto. }
  split; [|split].
  - repeat split.
    + rewrite setkids_length. lia.
    + rewrite kids_setkids by auto. now rewrite Nat.eqb_refl.
    + intros q NE. rewrite kids_setkids by auto. rewrite (proj2 (Nat.eqb_neq q p) NE). now rewrite K2, K1.
    + intros c Hc. rewrite par_setkids. destruct (mem_dec c (nodesof value)) as [I0|N]; [now apply P2|]. rewrite Q2 by auto. rewrite !nodesof_app, !in_app_iff in Hc. assert (I1 : In c (nodesof (pre ++ post))) by (rewrite nodesof_app, in_app_iff; tauto). rewrite Q1; [now apply PP|]. intros I2. now apply (DJ c).
    + intros c Hc. rewrite !nodesof_app, !in_app_iff in Hc. rewrite par_setkids, Q2 by tauto. destruct (mem_dec c (nodesof seg)) as [I0|N].
      * rewrite P1 by auto. rewrite (SP c I0). cbn. now rewrite Nat.eqb_refl.
      * rewrite Q1 by auto. destruct (eqo (par_of h c) p) eqn:E; auto. exfalso. apply eqo_true in E. apply C in E. apply in_nodesof in E. rewrite EL, !nodesof_app, !in_app_iff in E. tauto.
    + intros c. now rewrite lab_setkids, B2, B1.
  - rewrite !nodesof_app. eapply nodup_mid; eauto. intros c Hc H. destruct (AV c Hc) as [_ A]. rewrite <- nodesof_app in H. rewrite (PP c H) in A. discriminate.
  - intros c Hc. destruct (mem_dec c (nodesof value)) as [I0|N]; [left; now apply AV|]. right. apply PP. rewrite !nodesof_app, !in_app_iff in Hc. rewrite nodesof_app, in_app_iff. tauto.
Qed.
Definition good_result (newl : list item) (r : heap * bool) : Prop :=
  snd r = true /\ relinked h p newl (fst r) /\ NoDup (nodesof newl) /\ adoptable h p newl.
Lemma set_slice_ok : forall s value, NoDup (nodesof value) -> Forall (exists_item h) value -> (set_slice h p s value = (h, false) /\ (forallb (orphan h) value = false \/ exists k, sl_step s = Some k /\ k <> 1%Z)) \/
   (forallb (orphan h) value = true /\ good_result (replace_slice l s value) (set_slice h p s value)).
Proof using C V.
  intros s value ND FV. unfold set_slice. destruct (slice_bounds (zlen l) s false) as [a b st| |] eqn:E; [|left; split; auto; right; apply (bounds_none l); intros; congruence..]. destruct (forallb (orphan h) value) eqn:O; [|left; auto]. right. split; auto.
  rewrite (bounds_segment _ _ _ _ _ E). assert (R := py_range (zlen l) s ltac:(unfold zlen; lia)). set (lo := py_lo (zlen l) s) in *. set (hi := py_hi (zlen l) s) in *.
  assert (SEG : segment l lo hi = firstn (Z.to_nat hi - Z.to_nat lo) (skipn (Z.to_nat lo) l)) by (unfold segment; f_equal; lia).
  destruct (replaced (firstn (Z.to_nat lo) l) (segment l lo hi) (skipn (Z.to_nat hi) l) value) as (h1 & h2 & E1 & E2 & KE & RL & ND' & AD); auto.
  - rewrite SEG. symmetry. apply split3. lia.
  - intros c Hc. split; [now apply (exists_items h value FV)|now apply (orphan_iff h value)].
  - rewrite E1, E2. unfold good_result. cbn [fst snd]. rewrite (KE p). unfold replace_slice at 2. fold lo hi. split; auto.
Qed.
Lemma del_slice_ok : forall s, (del_slice h p s = (h, false) /\ exists k, sl_step s = Some k /\ k <> 1%Z) \/ good_result (replace_slice l s []) (del_slice h p s).
Proof using C V.
  intros s. unfold del_slice. destruct (slice_bounds (zlen l) s false) as [a b st| |] eqn:E; [|left; split; auto; apply (bounds_none l); intros; congruence..]. right.
  rewrite (bounds_segment _ _ _ _ _ E). assert (R := py_range (zlen l) s ltac:(unfold zlen; lia)). set (lo := py_lo (zlen l) s) in *. set (hi := py_hi (zlen l) s) in *.
  assert (SEG : segment l lo hi = firstn (Z.to_nat hi - Z.to_nat lo) (skipn (Z.to_nat lo) l)) by (unfold segment; f_equal; lia).
  destruct (replaced (firstn (Z.to_nat lo) l) (segment l lo hi) (skipn (Z.to_nat hi) l) []) as (h1 & h2 & E1 & E2 & KE & RL & ND' & AD); auto.
  - rewrite SEG. symmetry. apply split3. lia.
  - constructor.
  - intros c [].
  - rewrite E1. cbn in E2. injection E2 as <-. unfold good_result. cbn [fst snd]. rewrite (KE p). unfold replace_slice at 2. fold lo hi. split; auto.
Qed.
Lemma del_nth_ok : forall n, n < length l -> good_result (remove_nth l n) (del_nth h p n).
Proof using C V.
  intros n Hn. unfold del_nth. destruct (replaced (firstn n l) (firstn 1 (skipn n l)) (skipn (S n) l) []) as (h1 & h2 & E1 & E2 & KE & RL & ND' & AD); auto.
  - rewrite <- (split3 l n (S n)) at 1 by lia. do 2 f_equal. f_equal. lia.
  - constructor.
  - intros c [].
  - rewrite E1. cbn in E2. injection E2 as <-. unfold good_result. cbn [fst snd]. rewrite (KE p). unfold remove_nth. split; auto.
Qed.
Lemma setall1 : forall x, exists_item h x -> (orphan h x = false /\ setall h p [x] = (h, false)) \/ (orphan h x = true /\ NoDup (nodesof [x]) /\ forall c, In c (nodesof [x]) -> c < length h /\ par_of h c = None).
Proof.
  intros [c|a] H; cbn in *.
  - destruct (par_of h c) eqn:E; [left; auto|]. right. split; auto. split; [repeat constructor; auto|]. intros d [<-|[]]. auto.
  - right. split; auto. split; [constructor|]. intros d [].
Qed.
Lemma append_ok : forall x, exists_item h x -> (orphan h x = false /\ append h p x = (h, false)) \/ (orphan h x = true /\ good_result (l ++ [x]) (append h p x)).
Proof using C V.
  intros x Hx. unfold append. destruct (setall1 x Hx) as [[O ->]|(O & ND & AV)]; [left; auto|right; split; auto].
  destruct (replaced l [] [] [x]) as (h1 & h2 & E1 & E2 & KE & RL & ND' & AD); auto; [now rewrite !app_nil_r|]. cbn in E1. injection E1 as <-. rewrite E2. unfold good_result. cbn [fst snd]. rewrite (KE p). cbn [app] in RL, ND', AD. auto.
Qed.
Lemma insert_ok : forall i x, exists_item h x -> (orphan h x = false /\ insert h p i x = (h, false)) \/ (orphan h x = true /\ exists n, good_result (insert_nth l n x) (insert h p i x) /\ n = Z.to_nat (if (i <? 0)%Z then i + zlen l else i)%Z).
Proof using C V.
  intros i x Hx. unfold insert. destruct (setall1 x Hx) as [[O ->]|(O & ND & AV)]; [left; auto|right; split; auto]. set (z := if (i <? 0)%Z then (i + zlen l)%Z else i). exists (Z.to_nat z). split; auto. replace (Z.to_nat (Z.max 0 z)) with (Z.to_nat z) by lia. set (n := Z.to_nat z).
  destruct (replaced (firstn n l) [] (skipn n l) [x]) as (h1 & h2 & E1 & E2 & KE & RL & ND' & AD); auto; [cbn; symmetry; apply firstn_skipn|]. cbn in E1. injection E1 as <-. rewrite E2. unfold good_result. cbn [fst snd]. rewrite (KE p). unfold insert_nth. cbn [app] in RL, ND', AD. auto.
Qed.
Lemma replaced_swap : forall pre old post x, l = pre ++ [old] ++ post -> orphan h x = true -> exists_item h x ->
  exists h1 h2, setall h p [x] = (h1, true) /\ delall h1 p [old] = (h2, true) /\ (forall q, kids_of h2 q = kids_of h q) /\
    relinked h p (pre ++ [x] ++ post) (setkids h2 p (pre ++ [x] ++ post)) /\ NoDup (nodesof (pre ++ [x] ++ post)) /\ adoptable h p (pre ++ [x] ++ post).
Proof using C V.
  intros pre old post x EL O EX. destruct (setall1 x EX) as [[O' _]|(_ & ND & AV)]; [congruence|].
  destruct (replaced pre [old] post [x] EL ND AV) as (g1 & g2 & F1 & F2 & _ & (RL1 & RL2 & RL3 & RL4 & RL5 & RL6) & ND' & AD).
  destruct (setall_ok [x] h p ND AV) as (h1 & E1 & L1 & K1 & B1 & P1 & Q1).
  assert (SP : forall c, In c (nodesof [old]) -> par_of h c = Some p) by (intros c Hc; apply kid_par; rewrite EL, !nodesof_app, !in_app_iff; auto).
  assert (NV : forall c, In c (nodesof [old]) -> ~ In c (nodesof [x])) by (intros c H1 H2; destruct (AV c H2) as [_ A]; rewrite (SP c H1) in A; discriminate).
  assert (NS : NoDup (nodesof [old])) by (destruct old; repeat constructor; auto).
  destruct (delall_ok [old] h1 p NS) as (h2 & E2 & L2 & K2 & B2 & P2 & Q2). { intros c Hc. rewrite Q1; auto. }
  exists h1, h2. split; auto. split; auto. split; [intros q; now rewrite K2, K1|]. split; [|auto].
  assert (NL : forall c, In c (nodesof [old]) -> ~ In c (nodesof (pre ++ post))).
  { intros c H1 H2. assert (N0 : NoDup (nodesof pre ++ nodesof [old] ++ nodesof post)) by (rewrite <- !nodesof_app, <- EL; apply C). destruct old as [o|o]; [|destruct H1]. destruct H1 as [<-|[]]. cbn [nodesof flat_map app] in N0. apply NoDup_remove_2 in N0. rewrite nodesof_app in H2. now apply N0. }
  repeat split.
  - rewrite setkids_length. lia.
  - rewrite kids_setkids by lia. now rewrite Nat.eqb_refl.
  - intros q NE. rewrite kids_setkids by lia. rewrite (proj2 (Nat.eqb_neq q p) NE). now rewrite K2, K1.
  - intros c Hc. rewrite par_setkids. assert (~ In c (nodesof [old])). { intros I0. rewrite !nodesof_app, !in_app_iff in Hc. destruct Hc as [Hc|[Hc|Hc]]; [|apply (NV c); auto|]; (apply (NL c I0); rewrite nodesof_app, in_app_iff; auto). }
    rewrite Q2 by auto. destruct (mem_dec c (nodesof [x])) as [I0|N]; [now apply P1|]. rewrite Q1 by auto. apply kid_par. rewrite EL. rewrite !nodesof_app, !in_app_iff in *. tauto.
  - intros c Hc. rewrite par_setkids. rewrite !nodesof_app, !in_app_iff in Hc. destruct (mem_dec c (nodesof [old])) as [I0|N].
    + rewrite P2 by auto. rewrite (SP c I0). cbn. now rewrite Nat.eqb_refl.
    + rewrite Q2, Q1 by tauto. destruct (eqo (par_of h c) p) eqn:E; auto. exfalso. apply eqo_true in E. apply C in E. apply in_nodesof in E. rewrite EL, !nodesof_app, !in_app_iff in E. tauto.
  - intros c. now rewrite lab_setkids, B2, B1.
Qed.
Lemma index_of_lt : forall i n, index_of l i = Some n -> n < length l /\ n = Z.to_nat (if (i <? 0)%Z then (i + zlen l)%Z else i).
Proof. intros i n H. unfold index_of in H. destruct (i <? 0)%Z; ifs; try discriminate; injection H as <-; split; auto; now apply Nat.ltb_lt. Qed.
Lemma nth_split3 : forall n (x : item) (ll : list item), nth_error ll n = Some x -> ll = firstn n ll ++ [x] ++ skipn (S n) ll.
Proof. induction n as [|n IH]; intros x [|y ll] H; cbn in *; try discriminate; [congruence|]. f_equal. now apply IH. Qed.
Lemma set_int_ok : forall i x, exists_item h x ->
  (set_int h p i x = (h, false) /\ (index_of l i = None \/ orphan h x = false)) \/
  exists n old, index_of l i = Some n /\ nth_error l n = Some old /\ ((x = old /\ set_int h p i x = (h, true)) \/ (x <> old /\ orphan h x = true /\ good_result (firstn n l ++ [x] ++ skipn (S n) l) (set_int h p i x))).
Proof using C V.
  intros i x Hx. unfold set_int. destruct (index_of l i) as [n|] eqn:EI; [|left; auto]. destruct (index_of_lt i n EI) as [Hn _]. destruct (nth_error l n) as [old|] eqn:EN; [|apply nth_error_None in EN; lia].
  assert (IE : itemeqb x old = true <-> x = old) by (destruct x as [c|a], old as [d|b]; cbn; try (split; congruence); [rewrite Nat.eqb_eq|rewrite eqs_eq]; split; congruence).
  destruct (itemeqb x old) eqn:E; [right; exists n, old; split; auto; split; auto; left; split; auto; now apply IE|]. destruct (orphan h x) eqn:O.
  - right. exists n, old. split; auto. split; auto. right. split; [intros ->; assert (false = true) by (apply IE; reflexivity); discriminate|]. split; auto.
    destruct (replaced_swap (firstn n l) old (skipn (S n) l) x (nth_split3 n old l EN) O Hx) as (h1 & h2 & E1 & E2 & KE & RL & ND' & AD). rewrite E1, E2. unfold good_result. cbn [fst snd]. rewrite (KE p). cbn [app] in *. auto.
  - left. split; auto. destruct (setall1 x Hx) as [[_ ->]|(O' & _)]; [reflexivity|congruence].
Qed.
Lemma good_consistent : forall newl r, good_result newl r -> consistent (fst r).
Proof using C. intros newl r (_ & R & N & A). eapply relinked_consistent; eauto. Qed.
End Slices.
Lemma relinked_length : forall h p l h', relinked h p l h' -> length h' = length h.
Proof. intros h p l h' H. apply H. Qed.
(** ---- detach ---- *)
Lemma find_index_some : forall {X} (f : X -> bool) l n, find_index f l = Some n -> exists x, nth_error l n = Some x /\ f x = true.
Proof.
  intros X f. induction l as [|x l IH]; intros n H; [discriminate|]. cbn in H. destruct (f x) eqn:E; [injection H as <-; exists x; auto|]. destruct (find_index f l) as [m|]; [|discriminate]. injection H as <-. destruct (IH m eq_refl) as (y & A & B). exists y. auto.
Qed.
Lemma find_index_none : forall {X} (f : X -> bool) l, find_index f l = None -> forall x, In x l -> f x = false.
Proof.
  intros X f. induction l as [|x l IH]; intros H y Hy; [destruct Hy|]. cbn in H. destruct (f x) eqn:E; [discriminate|]. destruct (find_index f l); [discriminate|]. destruct Hy as [<-|Hy]; auto.
Qed.
Lemma itemeqb_eq : forall a b, itemeqb a b = true <-> a = b.
Proof. intros [c|a] [d|b]; cbn; try (split; congruence); [rewrite Nat.eqb_eq|rewrite eqs_eq]; split; congruence. Qed.
(** parent_index finds the node *)
Lemma parent_index_ok : forall h c p, consistent h -> par_of h c = Some p -> exists i, parent_index h c = Some i /\ nth_error (kids_of h p) i = Some (INode c).
Proof.
  intros h c p C E. unfold parent_index. rewrite E. destruct (find_index (itemeqb (INode c)) (kids_of h p)) as [i|] eqn:F.
  - exists i. split; auto. destruct (find_index_some _ _ _ F) as (x & A & B). apply itemeqb_eq in B. now subst.
  - exfalso. apply C in E. assert (A := find_index_none _ _ F _ E). rewrite (proj2 (itemeqb_eq _ _) eq_refl) in A. discriminate.
Qed.
Lemma detach_ok : forall h c, consistent h -> (par_of h c = None /\ detach h c = (h, true)) \/
  exists p i, par_of h c = Some p /\ parent_index h c = Some i /\ nth_error (kids_of h p) i = Some (INode c) /\ p < length h /\ good_result h p (remove_nth (kids_of h p) i) (detach h c).
Proof.
  intros h c C. unfold detach. destruct (par_of h c) as [p|] eqn:E; [|left; auto]. right. destruct (parent_index_ok h c p C E) as (i & EI & EN). exists p, i. rewrite EI. assert (Hi : i < length (kids_of h p)) by (apply nth_error_Some; congruence). assert (V : p < length h) by (apply kids_valid; destruct (kids_of h p); cbn in *; [lia|congruence]).
  do 4 (split; auto). unfold del_int, index_of. destruct (Z.of_nat i <? 0)%Z eqn:Z0; [lia|]. rewrite Z0. rewrite Nat2Z.id. rewrite (proj2 (Nat.ltb_lt _ _) Hi). now apply del_nth_ok.
Qed.
Lemma disown_ok : forall h p, consistent h -> p < length h -> good_result h p [] (disown h p).
Proof.
  intros h p C V. unfold disown. destruct (set_slice_ok h p C V (Sl None None None) []) as [E|[_ H]]; [constructor|constructor| |].
  - exfalso. destruct E as [_ [E|(k & E & _)]]; discriminate.
  - assert (R : replace_slice (kids_of h p) (Sl None None None) [] = []). { unfold replace_slice, py_hi, py_lo. cbn [sl_start sl_stop Z.to_nat firstn app]. apply skipn_all2. unfold zlen. lia. }
    now rewrite R in H.
Qed.
(** ---- the constructor ---- *)
Definition fresh (h : heap) (l : pystr) : heap := h ++ [mkNode l [] None].
Lemma nth_fresh : forall (h : heap) (n : node) (i : nat), nth_error (h ++ [n]) i = if i =? length h then Some n else nth_error h i.
Proof.
  intros h n i. destruct (Nat.eqb_spec i (length h)) as [->|NE]; [rewrite nth_error_app2, Nat.sub_diag by lia; reflexivity|]. destruct (le_lt_dec (length h) i) as [A|A]; [|now apply nth_error_app1]. rewrite nth_error_app2 by auto. rewrite (proj2 (nth_error_None h i) A). destruct (i - length h) eqn:E; [lia|]. destruct n0; reflexivity.
Qed.
Lemma par_fresh : forall h l ks c, par_of (h ++ [mkNode l ks None]) c = par_of h c.
Proof. intros. unfold par_of. rewrite nth_fresh. destruct (Nat.eqb_spec c (length h)) as [->|NE]; auto. now rewrite (proj2 (nth_error_None h (length h)) (le_n _)). Qed.
Lemma kids_fresh : forall h l ks c, kids_of (h ++ [mkNode l ks None]) c = if c =? length h then ks else kids_of h c.
Proof. intros. unfold kids_of. rewrite nth_fresh. destruct (Nat.eqb_spec c (length h)) as [->|NE]; auto. Qed.
Lemma kids_new : forall h, kids_of h (length h) = [].
Proof. intros. unfold kids_of. now rewrite (proj2 (nth_error_None h (length h)) (le_n _)). Qed.
Lemma fresh_consistent : forall h l, consistent h -> consistent (fresh h l).
Proof.
  intros h l [C1 C2]. unfold fresh. split.
  - intros c p. rewrite par_fresh, kids_fresh. destruct (Nat.eqb_spec p (length h)) as [->|NE]; [|apply C1]. split; [|intros []]. intros H. apply C1 in H. now rewrite kids_new in H.
  - intros p. rewrite kids_fresh. destruct (p =? length h); [constructor|apply C2].
Qed.
Lemma construct_ok : forall h l xs, consistent h -> NoDup (nodesof xs) -> Forall (exists_item h) xs -> (forallb (orphan h) xs = false /\ construct h l xs = (h, false)) \/
  (forallb (orphan h) xs = true /\ good_result (fresh h l) (length h) xs (construct h l xs)).
Proof.
  intros h l xs C ND F. unfold construct. assert (OE : forallb (orphan (h ++ [mkNode l xs None])) xs = forallb (orphan h) xs).
  { clear. generalize xs at 1 as ks. intros ks. induction xs as [|[c|a] xs IH]; cbn [forallb orphan]; auto. rewrite IH, par_fresh. reflexivity. }
  rewrite OE. destruct (forallb (orphan h) xs) eqn:O; [right; split; auto|left; auto]. rewrite orphan_iff in O. assert (EX := exists_items h xs F).
  destruct (setall_ok xs (h ++ [mkNode l xs None]) (length h) ND) as (h' & E & L & K & B & P & Q). { intros c Hc. rewrite app_length, par_fresh. cbn. specialize (EX c Hc). specialize (O c Hc). split; [lia|auto]. }
  rewrite E. unfold good_result. cbn [fst snd]. split; auto. split; [|split; auto].
  - unfold fresh. repeat split.
    + rewrite L, !app_length. reflexivity.
    + rewrite K, kids_fresh. now rewrite Nat.eqb_refl.
    + intros q NE. rewrite K, !kids_fresh. now rewrite (proj2 (Nat.eqb_neq _ _) NE).
    + exact P.
    + intros c Hc. rewrite Q, !par_fresh by auto. destruct (eqo (par_of h c) (length h)) eqn:EO; auto. apply eqo_true in EO. exfalso. apply C in EO. now rewrite kids_new in EO.
    + intros c. rewrite B. unfold lab_of. rewrite !nth_fresh. destruct (c =? length h); reflexivity.
  - intros c Hc. left. unfold fresh. rewrite par_fresh. auto.
Qed.
(** ---- every operation keeps parents and children in agreement ---- *)
Lemma extend_ok : forall xs h p, consistent h -> p < length h -> Forall (exists_item h) xs -> consistent (fst (extend h p xs)) /\ length (fst (extend h p xs)) = length h.
Proof.
  induction xs as [|x xs IH]; intros h p C V F; [auto|]. inversion F as [|? ? F1 F2]; subst. cbn [extend]. destruct (append_ok h p C V x F1) as [[_ ->]|[_ G]]; [auto|].
  assert (C' := good_consistent h p C _ _ G). destruct (append h p x) as [h1 ok]. destruct G as (T & R & _). cbn in T, R, C'. subst ok. assert (L := relinked_length _ _ _ _ R). destruct (IH h1 p C') as [A B]; [lia| |split; [auto|lia]].
  eapply Forall_impl; [|exact F2]. intros [c|a]; cbn; lia.
Qed.
Lemma del_int_ok : forall h p i, consistent h -> p < length h -> (del_int h p i = (h, false) /\ index_of (kids_of h p) i = None) \/ exists n, index_of (kids_of h p) i = Some n /\ good_result h p (remove_nth (kids_of h p) n) (del_int h p i).
Proof.
  intros h p i C V. unfold del_int. destruct (index_of (kids_of h p) i) as [n|] eqn:E; [|left; auto]. right. exists n. split; auto. apply del_nth_ok; auto. now apply index_of_lt in E.
Qed.
Lemma kids_exist : forall h p, consistent h -> Forall (exists_item h) (kids_of h p).
Proof. intros h p C. apply Forall_forall. intros [c|a] H; [|exact Logic.I]. apply C in H. now apply par_valid in H. Qed.
Lemma after_disown : forall h c, consistent h -> c < length h -> exists h1, disown h c = (h1, true) /\ consistent h1 /\ length h1 = length h /\ relinked h c [] h1 /\
  NoDup (nodesof (kids_of h c)) /\ Forall (exists_item h1) (kids_of h c) /\ (forall d, In d (nodesof (kids_of h c)) -> par_of h1 d = None).
Proof.
  intros h c C V. assert (G := disown_ok h c C V). assert (C' := good_consistent h c C _ _ G). destruct (disown h c) as [h1 ok]. destruct G as (T & R & _). cbn in T, R, C'. subst ok. exists h1. split; auto. split; auto. assert (L := relinked_length _ _ _ _ R). split; auto. split; auto. split; [apply C|]. split.
  - eapply Forall_impl; [|apply (kids_exist h c C)]. intros [d|a]; cbn; lia.
  - intros d Hd. destruct R as (_ & _ & _ & _ & P2 & _). rewrite P2 by (intros []). apply in_nodesof in Hd. apply C in Hd. rewrite Hd. cbn. now rewrite Nat.eqb_refl.
Qed.
Lemma fresh_length : forall h l, length (fresh h l) = S (length h).
Proof. intros. unfold fresh. rewrite app_length. cbn. lia. Qed.
(** what spliceabove, splicebelow and prune do *)
Lemma spliceabove_ok : forall h c l, consistent h -> c < length h ->
  (par_of h c = None /\ snd (spliceabove h c l) = false /\ good_result (fresh h l) (length h) [INode c] (fst (spliceabove h c l), true)) \/
  exists p i h1 h2, par_of h c = Some p /\ p < length h /\ nth_error (kids_of h p) i = Some (INode c) /\ snd (spliceabove h c l) = true /\
    consistent h1 /\ relinked h p (remove_nth (kids_of h p) i) h1 /\ consistent h2 /\ relinked (fresh h1 l) (length h) [INode c] h2 /\
    good_result h2 p (insert_nth (remove_nth (kids_of h p) i) i (INode (length h))) (spliceabove h c l).
Proof.
  intros h c l C V. unfold spliceabove. destruct (detach_ok h c C) as [[EP ->]|(p & i & EP & EI & EN & VP & G)].
  - left. rewrite EP. split; auto. destruct (construct_ok h l [INode c] C) as [[O _]|[_ G]]; [repeat constructor; auto|repeat constructor; auto|cbn in O; rewrite EP in O; discriminate|]. destruct (construct h l [INode c]) as [h2 ok]. destruct G as (T & G). cbn in T, G. subst ok. cbn. split; auto. split; auto.
  - right. rewrite EP, EI. exists p, i. assert (C1 := good_consistent h p C _ _ G). destruct (detach h c) as [h1 ok]. destruct G as (T & R & ND1 & AD1). cbn in T, R, C1. subst ok. assert (L := relinked_length _ _ _ _ R).
    assert (NC : ~ In c (nodesof (remove_nth (kids_of h p) i))). { intros H. destruct C as [_ C2]. specialize (C2 p). rewrite (nth_split3 i (INode c) _ EN) in C2. unfold remove_nth in H. rewrite !nodesof_app in C2. rewrite nodesof_app in H. cbn [nodesof flat_map app] in C2. now apply NoDup_remove_2 in C2. }
    assert (E1 : par_of h1 c = None). { destruct R as (_ & _ & _ & _ & P2 & _). rewrite P2 by auto. rewrite EP. cbn. now rewrite Nat.eqb_refl. }
    destruct (construct_ok h1 l [INode c] C1) as [[O _]|[_ G]]; [repeat constructor; auto|repeat constructor; cbn; lia|cbn in O; rewrite E1 in O; discriminate|].
    assert (C2 := good_consistent (fresh h1 l) (length h1) (fresh_consistent h1 l C1) _ _ G). destruct (construct h1 l [INode c]) as [h2 ok]. destruct G as (T & R2 & ND2 & AD2). cbn in T, R2, C2. subst ok. assert (L2 := relinked_length _ _ _ _ R2). rewrite fresh_length in L2. rewrite L in *.
    assert (K2 : kids_of h2 p = remove_nth (kids_of h p) i). { destruct R2 as (_ & _ & K2 & _). rewrite K2 by lia. unfold fresh. rewrite kids_fresh. rewrite (proj2 (Nat.eqb_neq p (length h1))) by lia. apply R. }
    assert (EN2 : par_of h2 (length h) = None). { destruct R2 as (_ & _ & _ & _ & P2 & _). rewrite P2 by (cbn; lia). unfold fresh. rewrite par_fresh. destruct (par_of h1 (length h)) eqn:EE; [apply par_valid in EE; lia|reflexivity]. }
    exists h1, h2. do 3 (split; auto).
    destruct (insert_ok h2 p C2 ltac:(lia) (Z.of_nat i) (INode (length h))) as [[O _]|(_ & n & G & En)]; [cbn; lia|cbn in O; rewrite EN2 in O; discriminate|].
    assert (n = i) by (subst n; destruct (Z.of_nat i <? 0)%Z eqn:Z0; lia). subst n. rewrite H, K2 in G. split; [exact (proj1 G)|]. do 4 (split; auto).
Qed.
Lemma splicebelow_ok : forall h c l, consistent h -> c < length h -> exists h1 h2, snd (splicebelow h c l) = true /\
    consistent h1 /\ relinked h c [] h1 /\ consistent h2 /\ relinked (fresh h1 l) (length h) (kids_of h c) h2 /\
    good_result h2 c [INode (length h)] (splicebelow h c l).
Proof.
  intros h c l C V. unfold splicebelow. destruct (after_disown h c C V) as (h1 & E & C1 & L & R & ND & FE & PN). rewrite E.
  destruct (construct_ok h1 l (kids_of h c) C1 ND FE) as [[O _]|[_ G]]; [rewrite (proj2 (orphan_iff h1 _) PN) in O; discriminate|].
  assert (C2 := good_consistent (fresh h1 l) (length h1) (fresh_consistent h1 l C1) _ _ G). destruct (construct h1 l (kids_of h c)) as [h2 ok]. destruct G as (T & R2 & ND2 & AD2). cbn in T, R2, C2. subst ok. assert (L2 := relinked_length _ _ _ _ R2). rewrite fresh_length in L2. rewrite L in *.
  assert (K2 : kids_of h2 c = []). { destruct R2 as (_ & _ & K2 & _). rewrite K2 by lia. unfold fresh. rewrite kids_fresh. rewrite (proj2 (Nat.eqb_neq c (length h1))) by lia. apply R. }
  assert (EN2 : par_of h2 (length h) = None). { destruct R2 as (_ & _ & _ & _ & P2 & _). rewrite P2. - unfold fresh. rewrite par_fresh. destruct (par_of h1 (length h)) eqn:EE; [apply par_valid in EE; lia|reflexivity]. - intros H. assert (X := exists_items h1 _ FE _ H). lia. }
  exists h1, h2. destruct (append_ok h2 c C2 ltac:(lia) (INode (length h))) as [[O _]|(_ & G)]; [cbn; lia|cbn in O; rewrite EN2 in O; discriminate|]. rewrite K2 in G. split; [exact (proj1 G)|]. do 4 (split; auto).
Qed.
Lemma prune_ok : forall h c, consistent h -> c < length h -> par_of h c <> Some c -> exists h1, consistent h1 /\ relinked h c [] h1 /\
  ((par_of h c = None /\ prune h c = (h1, false)) \/
   exists p i, par_of h c = Some p /\ nth_error (kids_of h p) i = Some (INode c) /\ p < length h /\ good_result h1 p (firstn i (kids_of h p) ++ kids_of h c ++ skipn (S i) (kids_of h p)) (prune h c)).
Proof.
  intros h c C V NS. unfold prune. destruct (after_disown h c C V) as (h1 & E & C1 & L & R & ND & FE & PN). rewrite E. exists h1. split; auto. split; auto.
  assert (EP1 : par_of h1 c = par_of h c). { destruct R as (_ & _ & _ & _ & P2 & _). rewrite P2 by (intros []). destruct (eqo (par_of h c) c) eqn:EO; auto. apply eqo_true in EO. congruence. }
  rewrite EP1. destruct (par_of h c) as [p|] eqn:EP; [right|left; auto]. destruct (parent_index_ok h c p C EP) as (i & EI & EN). rewrite EI. exists p, i. split; auto. split; auto. assert (VP : p < length h). { apply kids_valid. intros X. rewrite X in EN. destruct i; discriminate. } split; auto.
  assert (NP : p <> c) by congruence. assert (K1 : kids_of h1 p = kids_of h p) by (now apply R).
  destruct (set_slice_ok h1 p C1 ltac:(lia) (Sl (Some (Z.of_nat i)) (Some (Z.of_nat i + 1)%Z) None) (kids_of h c) ND FE) as [(_ & [O|(k & X & _)])|(_ & G)]; [rewrite (proj2 (orphan_iff h1 _) PN) in O; discriminate|discriminate|].
  assert (Hi : i < length (kids_of h p)) by (apply nth_error_Some; congruence).
  assert (RS : replace_slice (kids_of h1 p) (Sl (Some (Z.of_nat i)) (Some (Z.of_nat i + 1)%Z) None) (kids_of h c) = firstn i (kids_of h p) ++ kids_of h c ++ skipn (S i) (kids_of h p)).
  { rewrite K1. unfold replace_slice, py_hi, py_lo, clip, zlen. cbn [sl_start sl_stop]. f_equal; [f_equal; ifs; lia|]. f_equal. f_equal. ifs; lia. }
  now rewrite RS in G.
Qed.
Lemma prune_self : forall h c, consistent h -> c < length h -> par_of h c = Some c -> consistent (fst (prune h c)).
Proof.
  intros h c C V NS. unfold prune. destruct (after_disown h c C V) as (h1 & E & C1 & L & R & ND & FE & PN). rewrite E.
  destruct (par_of h1 c) as [p|] eqn:EP; [|exact C1]. destruct (parent_index h c) as [i|]; [|exact C1]. assert (VP : p < length h1). { apply kids_valid. intros X. apply C1 in EP. rewrite X in EP. destruct EP. }
  destruct (set_slice_ok h1 p C1 VP (Sl (Some (Z.of_nat i)) (Some (Z.of_nat i + 1)%Z) None) (kids_of h c) ND FE) as [[-> _]|(_ & G)]; [exact C1|]. now apply (good_consistent h1 p C1 _ _ G).
Qed.
Lemma exec_consistent : forall same h o, consistent h -> valid_op h o -> no_repeat o -> consistent (fst (exec same h o)).
Proof.
  intros same h o C V N. destruct o as [l xs|p x|p xs|p i x|p i|p x|p i x|p s xs|p i|p s|c|p|c l|c l|c]; cbn [exec valid_op no_repeat] in *.
  - destruct (construct_ok h l xs C N V) as [[_ ->]|[_ G]]; [auto|]. exact (good_consistent _ _ (fresh_consistent h l C) _ _ G).
  - destruct V as [V1 V2]. destruct (append_ok h p C V1 x V2) as [[_ ->]|[_ G]]; [auto|]. exact (good_consistent _ _ C _ _ G).
  - destruct V as [V1 V2]. now apply extend_ok.
  - destruct V as [V1 V2]. destruct (insert_ok h p C V1 i x V2) as [[_ ->]|(_ & n & G & _)]; [auto|]. exact (good_consistent _ _ C _ _ G).
  - destruct (del_int_ok h p i C V) as [[-> _]|(n & _ & G)]; [auto|]. exact (good_consistent _ _ C _ _ G).
  - unfold remove. destruct (find_index _ _) as [n|] eqn:E; [|auto]. apply find_index_some in E. destruct E as (y & E & _). assert (Hn : n < length (kids_of h p)) by (apply nth_error_Some; congruence). exact (good_consistent _ _ C _ _ (del_nth_ok h p C V n Hn)).
  - destruct V as [V1 V2]. destruct (set_int_ok h p C V1 i x V2) as [[-> _]|(n & old & _ & _ & [(_ & ->)|(_ & _ & G)])]; [auto..|]. exact (good_consistent _ _ C _ _ G).
  - destruct V as [V1 V2]. destruct (set_slice_ok h p C V1 s xs N V2) as [[-> _]|(_ & G)]; [auto|]. exact (good_consistent _ _ C _ _ G).
  - destruct (del_int_ok h p i C V) as [[-> _]|(n & _ & G)]; [auto|]. exact (good_consistent _ _ C _ _ G).
  - destruct (del_slice_ok h p C V s) as [[-> _]|G]; [auto|]. exact (good_consistent _ _ C _ _ G).
  - destruct (detach_ok h c C) as [[_ ->]|(p & i & _ & _ & _ & _ & G)]; [auto|]. exact (good_consistent _ _ C _ _ G).
  - exact (good_consistent _ _ C _ _ (disown_ok h p C V)).
  - destruct (spliceabove_ok h c l C V) as [(_ & _ & G)|(p & i & h1 & h2 & _ & _ & _ & _ & C1 & _ & C2 & _ & G)]; [exact (good_consistent _ _ (fresh_consistent h l C) _ _ G)|exact (good_consistent _ _ C2 _ _ G)].
  - destruct (splicebelow_ok h c l C V) as (h1 & h2 & _ & C1 & _ & C2 & _ & G). exact (good_consistent _ _ C2 _ _ G).
  - destruct (par_of h c) as [q|] eqn:E; [destruct (Nat.eq_dec q c) as [->|NE]; [now apply prune_self|]|]; destruct (prune_ok h c C V) as (h1 & C1 & _ & [(_ & ->)|(p & i & _ & _ & _ & G)]); try congruence; auto; exact (good_consistent _ _ C1 _ _ G).
Qed.
(** After any sequence of operations (whether they succeed or raise an
    exception), a node's parent is the one node that has it as a child. *)
Theorem C39_parent_pointers : forall same h, history same h -> consistent h.
Proof.
  intros same h H. induction H as [|h o H IH V N]; [|now apply exec_consistent]. split.
  - intros c p. unfold par_of, kids_of. destruct c, p; cbn; split; intros X; try discriminate X; destruct X.
  - intros p. unfold kids_of. destruct p; constructor.
Qed.
(** so no node is shared: it is a child of at most one node, once *)
Corollary C39_single_parent : forall same h, history same h -> forall c p q i j,
  nth_error (kids_of h p) i = Some (INode c) -> nth_error (kids_of h q) j = Some (INode c) -> p = q /\ i = j.
Proof.
  intros same h H c p q i j A B. apply C39_parent_pointers in H. destruct H as [C1 C2]. assert (p = q). { apply nth_error_In in A, B. apply C1 in A, B. congruence. } subst q. split; auto. specialize (C2 p). remember (kids_of h p) as l. clear - A B C2. revert i j A B. induction l as [|x l IH]; intros i j A B; [destruct i; discriminate|].
  assert (N : NoDup (nodesof l)) by (destruct x; [now inversion C2|exact C2]).
  destruct i, j; cbn in A, B; auto; try (injection A as ->); try (injection B as ->).
  - exfalso. inversion C2 as [|? ? X _]. apply X. apply in_nodesof. eapply nth_error_In; eauto.
  - exfalso. inversion C2 as [|? ? X _]. apply X. apply in_nodesof. eapply nth_error_In; eauto.
Qed.
(** parent_index is the position of the node in its parent *)
Theorem C39_parent_index : forall same h, history same h -> forall c,
  match par_of h c with
  | None => parent_index h c = None
  | Some p => exists i, parent_index h c = Some i /\ nth_error (kids_of h p) i = Some (INode c) /\ (forall j, nth_error (kids_of h p) j = Some (INode c) -> j = i) /\
      left_sibling h c = (match i with O => None | S k => nth_error (kids_of h p) k end) /\ right_sibling h c = nth_error (kids_of h p) (S i)
  end.
Proof.
  intros same h H c. destruct (par_of h c) as [p|] eqn:E; [|unfold parent_index; now rewrite E]. destruct (parent_index_ok h c p (C39_parent_pointers _ _ H) E) as (i & A & B). exists i. split; auto. split; auto. split; [intros j Hj; now apply (C39_single_parent _ _ H c p p)|].
  unfold left_sibling, right_sibling. rewrite E, A. assert (i < length (kids_of h p)) by (apply nth_error_Some; congruence). split.
  - destruct i; [reflexivity|]. cbn. now rewrite Nat.sub_0_r.
  - destruct (Nat.ltb_spec i (length (kids_of h p) - 1)) as [L|L]; [f_equal; lia|]. symmetry. apply nth_error_None. lia.
Qed.
(** ---- the operations change the list of children like Python's list ---- *)
Definition free (h : heap) (x : item) : Prop := match x with INode c => par_of h c = None | ILeaf _ => True end.
(** position denoted by an index into a sequence of length len *)
Definition denotes (i : Z) (len n : nat) : Prop := i = Z.of_nat n \/ i = (Z.of_nat n - Z.of_nat len)%Z.
(** position at which list.insert(i, x) inserts *)
Definition inspos (i : Z) (len : nat) : nat := if (i <? 0)%Z then Z.to_nat (i + Z.of_nat len) else Nat.min (Z.to_nat i) len.
(** [edits same h o p l]: o is to make l the list of children of p *)
Inductive edits (same : heap -> item -> item -> bool) (h : heap) : op -> nat -> list item -> Prop :=
| e_append : forall p x, free h x -> edits same h (Append p x) p (kids_of h p ++ [x])
| e_insert : forall p i x pre post, free h x -> kids_of h p = pre ++ post -> length pre = inspos i (length (kids_of h p)) -> edits same h (Insert p i x) p (pre ++ x :: post)
| e_pop : forall p i pre y post, kids_of h p = pre ++ y :: post -> denotes i (length (kids_of h p)) (length pre) -> edits same h (Pop p i) p (pre ++ post)
| e_del : forall p i pre y post, kids_of h p = pre ++ y :: post -> denotes i (length (kids_of h p)) (length pre) -> edits same h (DelInt p i) p (pre ++ post)
| e_remove : forall p x pre y post, kids_of h p = pre ++ y :: post -> same h y x = true -> (forall z, In z pre -> same h z x = false) -> edits same h (Remove p x) p (pre ++ post)
| e_set : forall p i x pre y post, kids_of h p = pre ++ y :: post -> denotes i (length (kids_of h p)) (length pre) -> x = y \/ free h x -> edits same h (SetInt p i x) p (pre ++ x :: post)
| e_setslice : forall p s xs pre seg post, (sl_step s = None \/ sl_step s = Some 1%Z) -> Forall (free h) xs -> kids_of h p = pre ++ seg ++ post ->
    Z.of_nat (length pre) = py_lo (zlen (kids_of h p)) s -> Z.of_nat (length (pre ++ seg)) = py_hi (zlen (kids_of h p)) s -> edits same h (SetSlice p s xs) p (pre ++ xs ++ post)
| e_delslice : forall p s pre seg post, (sl_step s = None \/ sl_step s = Some 1%Z) -> kids_of h p = pre ++ seg ++ post ->
    Z.of_nat (length pre) = py_lo (zlen (kids_of h p)) s -> Z.of_nat (length (pre ++ seg)) = py_hi (zlen (kids_of h p)) s -> edits same h (DelSlice p s) p (pre ++ post)
| e_detach : forall c p pre post, kids_of h p = pre ++ INode c :: post -> edits same h (Detach c) p (pre ++ post)
| e_disown : forall p, edits same h (Disown p) p [].
(** only the children of p change, and only the parents of the nodes that
    leave or enter p *)
Definition edited (h : heap) (p : nat) (l : list item) (h' : heap) : Prop :=
  length h' = length h /\ kids_of h' p = l /\ (forall q, q <> p -> kids_of h' q = kids_of h q) /\ (forall c, lab_of h' c = lab_of h c).
Definition single (o : op) : Prop :=
  match o with New _ _ | Extend _ _ | SpliceAbove _ _ | SpliceBelow _ _ | Prune _ => False | _ => True end.

Lemma good_edited : forall h p l r, good_result h p l r -> snd r = true /\ edited h p l (fst r).
Proof. intros h p l r (T & (A & B & D & _ & _ & E) & _). split; auto. repeat split; auto. Qed.
Lemma same_edited : forall h p l, kids_of h p = l -> edited h p l h.
Proof. intros h p l E. repeat split; auto. Qed.
Lemma firstn_pre : forall (pre post : list item), firstn (length pre) (pre ++ post) = pre.
Proof. intros. rewrite firstn_app, Nat.sub_diag, firstn_all. cbn. apply app_nil_r. Qed.
Lemma skipn_pre : forall (pre post : list item), skipn (length pre) (pre ++ post) = post.
Proof. intros. rewrite skipn_app, Nat.sub_diag, skipn_all. reflexivity. Qed.
Lemma skipn_Spre : forall (pre post : list item) y, skipn (S (length pre)) (pre ++ y :: post) = post.
Proof. induction pre as [|x pre IH]; intros; [reflexivity|]. exact (IH post y). Qed.
Lemma index_of_iff : forall l i n, index_of l i = Some n <-> n < length l /\ denotes i (length l) n.
Proof.
  intros l i n. unfold index_of, denotes, zlen. split.
  - intros H. assert (X : n < length l /\ n = Z.to_nat (if (i <? 0)%Z then (i + Z.of_nat (length l))%Z else i) /\ (0 <= (if (i <? 0)%Z then i + Z.of_nat (length l) else i))%Z).
    { destruct (i <? 0)%Z eqn:E0.
      - destruct (i + Z.of_nat (length l) <? 0)%Z eqn:E1; [discriminate|]. destruct (Z.to_nat (i + Z.of_nat (length l)) <? length l) eqn:E2; [|discriminate]. injection H as <-. apply Nat.ltb_lt in E2. split; auto. split; auto. lia.
      - rewrite E0 in H. destruct (Z.to_nat i <? length l) eqn:E2; [|discriminate]. injection H as <-. apply Nat.ltb_lt in E2. split; auto. split; auto. lia. }
    destruct X as (A & B & D). split; auto. destruct (i <? 0)%Z; lia.
  - intros (A & B). destruct (i <? 0)%Z eqn:E0.
    + destruct (i + Z.of_nat (length l) <? 0)%Z eqn:E1; [lia|]. replace (Z.to_nat (i + Z.of_nat (length l))) with n by lia. rewrite (proj2 (Nat.ltb_lt _ _) A). reflexivity.
    + rewrite E0. replace (Z.to_nat i) with n by lia. rewrite (proj2 (Nat.ltb_lt _ _) A). reflexivity.
Qed.
Lemma orphan_free : forall h x, orphan h x = true <-> free h x.
Proof. intros h [c|a]; cbn; [destruct (par_of h c); split; congruence|tauto]. Qed.
Lemma orphans_free : forall h xs, forallb (orphan h) xs = true <-> Forall (free h) xs.
Proof. intros h xs. rewrite forallb_forall, Forall_forall. split; intros H x Hx; apply orphan_free; auto. Qed.
Lemma nodup_split : forall pre pre' post post' (c : nat), NoDup (nodesof (pre ++ INode c :: post)) -> pre ++ INode c :: post = pre' ++ INode c :: post' -> pre = pre' /\ post = post'.
Proof.
  induction pre as [|x pre IH]; intros pre' post post' c ND E; destruct pre' as [|x' pre']; cbn in E.
  - injection E as <-. auto.
  - injection E as <- E. exfalso. cbn [app nodesof flat_map] in ND. inversion ND as [|? ? X _]. apply X. apply in_nodesof. rewrite E, in_app_iff. right. now left.
  - injection E as -> E. exfalso. cbn [app nodesof flat_map] in ND. inversion ND as [|? ? X _]. apply X. change (flat_map _ ?l) with (nodesof l). apply in_nodesof. rewrite in_app_iff. right. now left.
  - injection E as <- E. assert (N : NoDup (nodesof (pre ++ INode c :: post))) by (destruct x; [now inversion ND|exact ND]). destruct (IH pre' post post' c N E) as [-> ->]. auto.
Qed.
Lemma del_edits : forall h p i pre y post, kids_of h p = pre ++ y :: post -> denotes i (length (kids_of h p)) (length pre) -> index_of (kids_of h p) i = Some (length pre) /\ remove_nth (kids_of h p) (length pre) = pre ++ post.
Proof.
  intros h p i pre y post E D. split; [apply index_of_iff; split; auto; rewrite E, app_length; cbn; lia|]. unfold remove_nth. rewrite E, firstn_pre, skipn_Spre. reflexivity.
Qed.
Lemma slice_edits : forall l s (pre seg post xs : list item), l = pre ++ seg ++ post -> Z.of_nat (length pre) = py_lo (zlen l) s -> Z.of_nat (length (pre ++ seg)) = py_hi (zlen l) s -> replace_slice l s xs = pre ++ xs ++ post.
Proof.
  intros l s pre seg post xs E A B. unfold replace_slice. rewrite <- A, <- B, !Nat2Z.id, E. rewrite firstn_pre. f_equal. f_equal. rewrite app_assoc. apply skipn_pre.
Qed.
Lemma slice_split : forall l s, exists pre seg post, l = pre ++ seg ++ post /\ Z.of_nat (length pre) = py_lo (zlen l) s /\ Z.of_nat (length (pre ++ seg)) = py_hi (zlen l) s.
Proof.
  intros l s. assert (R := py_range (zlen l) s ltac:(unfold zlen; lia)). set (lo := py_lo (zlen l) s) in *. set (hi := py_hi (zlen l) s) in *. assert (L : zlen l = Z.of_nat (length l)) by reflexivity.
  exists (firstn (Z.to_nat lo) l), (firstn (Z.to_nat hi - Z.to_nat lo) (skipn (Z.to_nat lo) l)), (skipn (Z.to_nat hi) l). split; [symmetry; apply split3; lia|]. rewrite app_length, !firstn_length, skipn_length. split; lia.
Qed.
(** 1. what an operation is to do is done *)
Theorem C39_edits_done : forall same h, history same h -> forall o p l, valid_op h o -> no_repeat o -> edits same h o p l ->
  snd (exec same h o) = true /\ edited h p l (fst (exec same h o)).
Proof.
  intros same h H o p l V N E. apply C39_parent_pointers in H. destruct E as [p x F|p i x pre post F EL En|p i pre y post EL D|p i pre y post EL D|p x pre y post EL E1 E2|p i x pre y post EL D F|p s xs pre seg post St F EL A B|p s pre seg post St EL A B|c p pre post EL|p]; cbn [exec valid_op no_repeat] in *.
  - destruct V as [V1 V2]. destruct (append_ok h p H V1 x V2) as [[O _]|[_ G]]; [apply orphan_free in F; congruence|now apply good_edited].
  - destruct V as [V1 V2]. destruct (insert_ok h p H V1 i x V2) as [[O _]|(_ & n & G & EN)]; [apply orphan_free in F; congruence|]. apply good_edited.
    assert (L := f_equal (@length item) EL). rewrite app_length in L.
    assert (X : insert_nth (kids_of h p) n x = pre ++ x :: post); [|now rewrite X in G]. unfold insert_nth. unfold inspos in En. unfold zlen in EN. destruct (i <? 0)%Z eqn:E0.
    + rewrite <- En in EN. subst n. rewrite EL, firstn_pre, skipn_pre. reflexivity.
    + destruct (le_lt_dec n (length (kids_of h p))) as [Q|Q].
      * assert (length pre = n) by lia. subst n. rewrite EL, <- H0, firstn_pre, skipn_pre. reflexivity.
      * assert (length pre = length (kids_of h p)) by lia. assert (post = []) by (destruct post; cbn in L; [auto|lia]). subst post. rewrite app_nil_r in EL. rewrite EL in *. rewrite firstn_all2, skipn_all2 by lia. reflexivity.
  - destruct (del_edits h p i pre y post EL D) as [A B]. destruct (del_int_ok h p i H V) as [[_ X]|(n & X & G)]; [congruence|]. rewrite A in X. injection X as <-. rewrite B in G. now apply good_edited.
  - destruct (del_edits h p i pre y post EL D) as [A B]. destruct (del_int_ok h p i H V) as [[_ X]|(n & X & G)]; [congruence|]. rewrite A in X. injection X as <-. rewrite B in G. now apply good_edited.
  - unfold remove. assert (X : find_index (fun z => same h z x) (kids_of h p) = Some (length pre)). { rewrite EL. clear - E1 E2. induction pre as [|z pre IH]; cbn; [now rewrite E1|]. rewrite (E2 z) by now left. rewrite IH; [reflexivity|]. intros w Hw. apply E2. now right. }
    rewrite X. apply good_edited. assert (Hn : length pre < length (kids_of h p)) by (rewrite EL, app_length; cbn; lia). assert (G := del_nth_ok h p H V _ Hn). unfold remove_nth in G. rewrite EL in G at 1 2. now rewrite firstn_pre, skipn_Spre in G.
  - destruct V as [V1 V2]. destruct (del_edits h p i pre y post EL D) as [A B]. assert (Y : nth_error (kids_of h p) (length pre) = Some y) by (rewrite EL, nth_error_app2, Nat.sub_diag by lia; reflexivity).
    destruct (set_int_ok h p H V1 i x V2) as [[_ [X|X]]|(n & old & X & Z & [(-> & ->)|(_ & _ & G)])]; [congruence| | |].
    + destruct F as [->|F]; [|apply orphan_free in F; congruence]. unfold set_int. rewrite A, Y, (proj2 (itemeqb_eq _ _) eq_refl). split; auto. now apply same_edited.
    + rewrite A in X. injection X as <-. split; auto. apply same_edited. rewrite Y in Z. now injection Z as <-.
    + rewrite A in X. injection X as <-. rewrite EL in G at 1 2. rewrite firstn_pre, skipn_Spre in G. now apply good_edited.
  - destruct V as [V1 V2]. destruct (set_slice_ok h p H V1 s xs N V2) as [[_ [X|(k & X & X')]]|(_ & G)]; [apply orphans_free in F; congruence|destruct St; congruence|]. rewrite (slice_edits _ s pre seg post xs EL A B) in G. now apply good_edited.
  - destruct (del_slice_ok h p H V s) as [[_ (k & X & X')]|G]; [destruct St; congruence|]. rewrite (slice_edits _ s pre seg post [] EL A B) in G. now apply good_edited.
  - assert (EP : par_of h c = Some p) by (apply H; rewrite EL, in_app_iff; right; now left). destruct (detach_ok h c H) as [[X _]|(p' & i & X & _ & Y & _ & G)]; [congruence|]. rewrite EP in X. injection X as <-. assert (E2 := nth_split3 i _ _ Y). destruct (nodup_split pre (firstn i (kids_of h p)) post (skipn (S i) (kids_of h p)) c) as [-> ->]; [rewrite <- EL; apply H|rewrite <- EL; exact E2|]. now apply good_edited.
  - apply good_edited. now apply disown_ok.
Qed.
(** 2. an operation that returns normally was to do something, apart from
    detaching a node without parent *)
Theorem C39_only_edits : forall same h, history same h -> forall o, valid_op h o -> no_repeat o -> single o -> snd (exec same h o) = true ->
  (exists p l, edits same h o p l) \/ (exists c, o = Detach c /\ par_of h c = None /\ fst (exec same h o) = h).
Proof.
  intros same h H o V N S0 T. apply C39_parent_pointers in H. destruct o as [l xs|p x|p xs|p i x|p i|p x|p i x|p s xs|p i|p s|c|p|c l|c l|c]; cbn [exec valid_op no_repeat single] in *; try contradiction.
  - left. destruct V as [V1 V2]. destruct (append_ok h p H V1 x V2) as [[_ X]|[O G]]; [rewrite X in T; discriminate|]. exists p, (kids_of h p ++ [x]). constructor. now apply orphan_free.
  - left. destruct V as [V1 V2]. destruct (insert_ok h p H V1 i x V2) as [[_ X]|[O G]]; [rewrite X in T; discriminate|]. exists p. eexists. apply (e_insert same h p i x (firstn (inspos i (length (kids_of h p))) (kids_of h p)) (skipn (inspos i (length (kids_of h p))) (kids_of h p))); [now apply orphan_free|symmetry; apply firstn_skipn|]. rewrite firstn_length. unfold inspos. destruct (i <? 0)%Z eqn:E0; lia.
  - left. destruct (del_int_ok h p i H V) as [[X _]|(n & X & G)]; [rewrite X in T; discriminate|]. apply index_of_iff in X. destruct X as [X1 X2]. destruct (nth_error (kids_of h p) n) as [y|] eqn:Y; [|apply nth_error_None in Y; lia]. exists p. eexists. apply (e_pop same h p i (firstn n (kids_of h p)) y (skipn (S n) (kids_of h p))); [exact (nth_split3 n y _ Y)|]. rewrite firstn_length. now rewrite Nat.min_l by lia.
  - left. unfold remove in T. destruct (find_index _ _) as [n|] eqn:E; [|discriminate]. destruct (find_index_some _ _ _ E) as (y & Y & Y2). exists p. eexists. apply (e_remove same h p x (firstn n (kids_of h p)) y (skipn (S n) (kids_of h p))); [exact (nth_split3 n y _ Y)|exact Y2|]. clear - E. revert n E. induction (kids_of h p) as [|w l IH]; intros n E z Hz; [discriminate|]. cbn in E. destruct (same h w x) eqn:W; [injection E as <-; destruct Hz|]. destruct (find_index (fun z => same h z x) l) as [m|]; [|discriminate]. injection E as <-. destruct Hz as [<-|Hz]; auto. now apply (IH m eq_refl).
  - left. destruct V as [V1 V2]. destruct (set_int_ok h p H V1 i x V2) as [[X _]|(n & old & X & Y & Q)]; [rewrite X in T; discriminate|]. apply index_of_iff in X. destruct X as [X1 X2]. exists p. eexists. apply (e_set same h p i x (firstn n (kids_of h p)) old (skipn (S n) (kids_of h p))); [exact (nth_split3 n old _ Y)|rewrite firstn_length; now rewrite Nat.min_l by lia|]. destruct Q as [[-> _]|(_ & O & _)]; [now left|right; now apply orphan_free].
  - left. destruct V as [V1 V2]. destruct (slice_split (kids_of h p) s) as (pre & seg & post & EL & A & B). exists p. eexists. apply (e_setslice same h p s xs pre seg post); auto.
    + destruct (sl_step s) as [k|] eqn:K; [|now left]. right. f_equal. destruct (Z.eq_dec k 1) as [|NE]; auto. exfalso. unfold set_slice in T. destruct (slice_bounds _ _ _) as [a b st| |] eqn:BB; try discriminate. exact (proj2 (bounds_none (kids_of h p) s) (ex_intro _ k (conj K NE)) _ _ _ BB).
    + destruct (set_slice_ok h p H V1 s xs N V2) as [[X _]|(O & G)]; [rewrite X in T; discriminate|]. now apply orphans_free.
  - left. destruct (del_int_ok h p i H V) as [[X _]|(n & X & G)]; [rewrite X in T; discriminate|]. apply index_of_iff in X. destruct X as [X1 X2]. destruct (nth_error (kids_of h p) n) as [y|] eqn:Y; [|apply nth_error_None in Y; lia]. exists p. eexists. apply (e_del same h p i (firstn n (kids_of h p)) y (skipn (S n) (kids_of h p))); [exact (nth_split3 n y _ Y)|]. rewrite firstn_length. now rewrite Nat.min_l by lia.
  - left. destruct (slice_split (kids_of h p) s) as (pre & seg & post & EL & A & B). exists p. eexists. apply (e_delslice same h p s pre seg post); auto.
    destruct (sl_step s) as [k|] eqn:K; [|now left]. right. f_equal. destruct (Z.eq_dec k 1) as [|NE]; auto. exfalso. unfold del_slice in T. destruct (slice_bounds _ _ _) as [a b st| |] eqn:BB; try discriminate. exact (proj2 (bounds_none (kids_of h p) s) (ex_intro _ k (conj K NE)) _ _ _ BB).
  - destruct (detach_ok h c H) as [[X Y]|(p & i & X & _ & Y & _ & G)]; [right; exists c; split; auto; split; auto; now rewrite Y|left]. exists p. eexists. apply (e_detach same h c p (firstn i (kids_of h p)) (skipn (S i) (kids_of h p))). exact (nth_split3 i _ _ Y).
  - left. exists p, []. constructor.
Qed.
(** 3. an operation that raises an exception changes nothing *)
Theorem C39_failed_unchanged : forall same h, history same h -> forall o, valid_op h o -> no_repeat o -> single o \/ (exists l xs, o = New l xs) \/ (exists c l, o = SpliceBelow c l) ->
  snd (exec same h o) = false -> fst (exec same h o) = h.
Proof.
  intros same h H o V N S0 T. apply C39_parent_pointers in H. destruct o as [l xs|p x|p xs|p i x|p i|p x|p i x|p s xs|p i|p s|c|p|c l|c l|c]; cbn [exec valid_op no_repeat] in *.
  - destruct (construct_ok h l xs H N V) as [[_ ->]|[_ (X & _)]]; [auto|congruence].
  - destruct V as [V1 V2]. destruct (append_ok h p H V1 x V2) as [[_ ->]|[_ (X & _)]]; [auto|congruence].
  - destruct S0 as [[]|[(? & ? & X)|(? & ? & X)]]; discriminate X.
  - destruct V as [V1 V2]. destruct (insert_ok h p H V1 i x V2) as [[_ ->]|(_ & n & (X & _) & _)]; [auto|congruence].
  - destruct (del_int_ok h p i H V) as [[-> _]|(n & _ & (X & _))]; [auto|congruence].
  - unfold remove in *. destruct (find_index _ _) as [n|] eqn:E; [|auto]. apply find_index_some in E. destruct E as (y & E & _). assert (Hn : n < length (kids_of h p)) by (apply nth_error_Some; congruence). destruct (del_nth_ok h p H V n Hn) as (X & _). congruence.
  - destruct V as [V1 V2]. destruct (set_int_ok h p H V1 i x V2) as [[-> _]|(n & old & _ & _ & [(_ & ->)|(_ & _ & (X & _))])]; [auto..|congruence].
  - destruct V as [V1 V2]. destruct (set_slice_ok h p H V1 s xs N V2) as [[-> _]|(_ & (X & _))]; [auto|congruence].
  - destruct (del_int_ok h p i H V) as [[-> _]|(n & _ & (X & _))]; [auto|congruence].
  - destruct (del_slice_ok h p H V s) as [[-> _]|(X & _)]; [auto|congruence].
  - destruct (detach_ok h c H) as [[_ ->]|(p & i & _ & _ & _ & _ & (X & _))]; [auto|congruence].
  - destruct (disown_ok h p H V) as (X & _). congruence.
  - destruct S0 as [[]|[(? & ? & X)|(? & ? & X)]]; discriminate X.
  - destruct (splicebelow_ok h c l H V) as (h1 & h2 & X & _). congruence.
  - destruct S0 as [[]|[(? & ? & X)|(? & ? & X)]]; discriminate X.
Qed.
(** the constructor *)
Theorem C39_constructor : forall same h, history same h -> forall l xs, valid_op h (New l xs) -> no_repeat (New l xs) ->
  let '(h', ok) := exec same h (New l xs) in
  (ok = true <-> Forall (free h) xs) /\
  (ok = true -> length h' = S (length h) /\ kids_of h' (length h) = xs /\ lab_of h' (length h) = Some l /\ (forall q, q < length h -> kids_of h' q = kids_of h q /\ lab_of h' q = lab_of h q)).
Proof.
  intros same h H l xs V N. apply C39_parent_pointers in H. cbn [exec valid_op no_repeat] in *. destruct (construct_ok h l xs H N V) as [[O ->]|[O G]].
  - split; [split; [discriminate|]|discriminate]. intros F. apply orphans_free in F. congruence.
  - destruct (construct h l xs) as [h' ok]. destruct G as (T & (A & B & D & _ & _ & E) & _). cbn in T, A, B, D, E. subst ok. split; [split; auto; intros _; now apply orphans_free|]. intros _. rewrite fresh_length in A. split; auto. split; auto. split; [rewrite E; unfold lab_of, fresh; rewrite nth_fresh, Nat.eqb_refl; reflexivity|]. intros q Hq. split.
    + rewrite D by lia. unfold fresh. rewrite kids_fresh. now rewrite (proj2 (Nat.eqb_neq q (length h))) by lia.
    + rewrite E. unfold lab_of, fresh. rewrite nth_fresh. now rewrite (proj2 (Nat.eqb_neq q (length h))) by lia.
Qed.
(** extend: the nodes in front of the first one that cannot be added are added *)
Theorem C39_extend : forall same h, history same h -> forall p xs, valid_op h (Extend p xs) ->
  exists ys zs, xs = ys ++ zs /\ edited h p (kids_of h p ++ ys) (fst (exec same h (Extend p xs))) /\
   (snd (exec same h (Extend p xs)) = true <-> zs = []) /\ (snd (exec same h (Extend p xs)) = true <-> Forall (free h) xs /\ NoDup (nodesof xs)).
Proof.
  intros same h H p xs [V F]. apply C39_parent_pointers in H. cbn [exec]. revert h H V F. induction xs as [|x xs IH]; intros h H V F.
  - exists [], []. split; auto. rewrite app_nil_r. split; [now apply same_edited|]. cbn. split; [tauto|]. split; auto. intros _. split; constructor.
  - inversion F as [|? ? F1 F2]; subst. cbn [extend]. destruct (append_ok h p H V x F1) as [[O ->]|[O G]].
    + exists [], (x :: xs). split; auto. rewrite app_nil_r. split; [now apply same_edited|]. cbn. split; [split; discriminate|]. split; [discriminate|]. intros [Q _]. inversion Q as [|? ? Q1 Q2]. apply orphan_free in Q1. congruence.
    + assert (C' := good_consistent h p H _ _ G). destruct (append h p x) as [h1 ok]. destruct G as (T & R & ND & _). cbn in T, R, C'. subst ok. assert (L := relinked_length _ _ _ _ R). destruct (IH h1 C') as (ys & zs & -> & ED & T1 & T2); [lia|eapply Forall_impl; [|exact F2]; intros [c|a]; cbn; lia|].
      exists (x :: ys), zs. split; auto. destruct R as (_ & K1 & K2 & P1 & P2 & LB). split; [|split; auto].
      * destruct ED as (A & B & D & E). split; [lia|]. split; [rewrite B, K1, <- app_assoc; reflexivity|]. split; [intros q NE; rewrite D, K2; auto|]. intros c. now rewrite E, LB.
      * rewrite T2. apply orphan_free in O. split.
        { intros [A B]. split.
          - constructor; auto. rewrite Forall_forall in A |- *. intros [c|a] Hc; [|exact Logic.I]. specialize (A _ Hc). cbn in A |- *. destruct (mem_dec c (nodesof (kids_of h p ++ [x]))) as [I0|NI]; [rewrite (P1 c I0) in A; discriminate|]. rewrite (P2 c NI) in A. destruct (eqo (par_of h c) p) eqn:EE; [|exact A]. exfalso. apply NI. apply eqo_true in EE. apply H in EE. apply in_nodesof in EE. rewrite nodesof_app, in_app_iff. now left.
          - destruct x as [c|a]; [|exact B]. cbn [nodesof flat_map app]. constructor; [|exact B]. change (flat_map _ (ys ++ zs)) with (nodesof (ys ++ zs)). intros I0. apply in_nodesof in I0. rewrite Forall_forall in A. specialize (A _ I0). cbn in A. rewrite P1 in A; [discriminate|]. rewrite nodesof_app, in_app_iff. right. now left. }
        { intros [A B]. inversion A as [|? ? A1 A2]; subst. split; [|destruct x; [now inversion B|exact B]]. rewrite Forall_forall in A2 |- *. intros [c|a] Hc; [|exact Logic.I]. specialize (A2 _ Hc). cbn in A2 |- *. rewrite P2; [now rewrite A2|]. rewrite nodesof_app, in_app_iff. intros [I0|I0].
          - apply in_nodesof in I0. apply H in I0. congruence.
          - destruct x as [d|a]; [|destruct I0]. destruct I0 as [->|[]]. cbn [nodesof flat_map app] in B. inversion B as [|? ? X _]. apply X. now apply in_nodesof. }
Qed.
(** spliceabove puts a new node between the node and its parent, splicebelow
    between the node and its children, and prune replaces the node by its
    children *)
Definition replaced_child (h : heap) (p : nat) (c : nat) (xs : list item) (l : list item) : Prop :=
  exists pre post, kids_of h p = pre ++ INode c :: post /\ l = pre ++ xs ++ post.
Theorem C39_spliceabove : forall same h, history same h -> forall c l p, par_of h c = Some p ->
  let '(h', ok) := exec same h (SpliceAbove c l) in
  ok = true /\ length h' = S (length h) /\ lab_of h' (length h) = Some l /\ kids_of h' (length h) = [INode c] /\
  replaced_child h p c [INode (length h)] (kids_of h' p) /\
  (forall q, q <> p -> q < length h -> kids_of h' q = kids_of h q) /\ (forall q, q < length h -> lab_of h' q = lab_of h q).
Proof.
  intros same h H c l p EP. apply C39_parent_pointers in H. assert (V := par_valid _ _ _ EP). cbn [exec]. destruct (spliceabove_ok h c l H V) as [(X & _)|(p' & i & h1 & h2 & X & VP & EN & T & C1 & R1 & C2 & R2 & G)]; [congruence|].
  rewrite EP in X. injection X as <-. destruct (spliceabove h c l) as [h' ok]. cbn in T. subst ok. destruct G as (_ & R3 & _). cbn in R3.
  destruct R1 as (L1 & K1 & N1 & _ & _ & B1), R2 as (L2 & K2 & N2 & _ & _ & B2), R3 as (L3 & K3 & N3 & _ & _ & B3). rewrite fresh_length in L2.
  assert (KF : forall q, q < length h -> kids_of (fresh h1 l) q = kids_of h1 q) by (intros q Hq; unfold fresh; rewrite kids_fresh; now rewrite (proj2 (Nat.eqb_neq q (length h1))) by lia).
  assert (BF : forall q, q < length h -> lab_of (fresh h1 l) q = lab_of h1 q) by (intros q Hq; unfold fresh, lab_of; rewrite nth_fresh; now rewrite (proj2 (Nat.eqb_neq q (length h1))) by lia).
  split; auto. split; [lia|]. split; [rewrite B3, B2; unfold fresh, lab_of; rewrite nth_fresh, L1, Nat.eqb_refl; reflexivity|]. split; [rewrite N3 by lia; exact K2|]. split.
  - exists (firstn i (kids_of h p)), (skipn (S i) (kids_of h p)). split; [exact (nth_split3 i _ _ EN)|]. rewrite K3. assert (Hi : i < length (kids_of h p)) by (apply nth_error_Some; congruence). unfold insert_nth, remove_nth.
    assert (LF : length (firstn i (kids_of h p)) = i) by (rewrite firstn_length; lia). rewrite <- LF at 1 4. rewrite firstn_pre, skipn_pre. reflexivity.
  - split; [intros q NE Hq; rewrite N3, N2, KF, N1 by lia; reflexivity|]. intros q Hq. rewrite B3, B2, BF, B1 by lia. reflexivity.
Qed.
Theorem C39_splicebelow : forall same h, history same h -> forall c l, c < length h ->
  let '(h', ok) := exec same h (SpliceBelow c l) in
  ok = true /\ length h' = S (length h) /\ lab_of h' (length h) = Some l /\ kids_of h' c = [INode (length h)] /\ kids_of h' (length h) = kids_of h c /\
  (forall q, q <> c -> q < length h -> kids_of h' q = kids_of h q) /\ (forall q, q < length h -> lab_of h' q = lab_of h q).
Proof.
  intros same h H c l V. apply C39_parent_pointers in H. cbn [exec]. destruct (splicebelow_ok h c l H V) as (h1 & h2 & T & C1 & R1 & C2 & R2 & G).
  destruct (splicebelow h c l) as [h' ok]. cbn in T. subst ok. destruct G as (_ & R3 & _). cbn in R3.
  destruct R1 as (L1 & K1 & N1 & _ & _ & B1), R2 as (L2 & K2 & N2 & _ & _ & B2), R3 as (L3 & K3 & N3 & _ & _ & B3). rewrite fresh_length in L2.
  assert (KF : forall q, q < length h -> kids_of (fresh h1 l) q = kids_of h1 q) by (intros q Hq; unfold fresh; rewrite kids_fresh; now rewrite (proj2 (Nat.eqb_neq q (length h1))) by lia).
  assert (BF : forall q, q < length h -> lab_of (fresh h1 l) q = lab_of h1 q) by (intros q Hq; unfold fresh, lab_of; rewrite nth_fresh; now rewrite (proj2 (Nat.eqb_neq q (length h1))) by lia).
  split; auto. split; [lia|]. split; [rewrite B3, B2; unfold fresh, lab_of; rewrite nth_fresh, L1, Nat.eqb_refl; reflexivity|]. split; auto. split; [rewrite N3 by lia; exact K2|].
  split; [intros q NE Hq; rewrite N3, N2, KF, N1 by lia; reflexivity|]. intros q Hq. rewrite B3, B2, BF, B1 by lia. reflexivity.
Qed.
Theorem C39_prune : forall same h, history same h -> forall c p, par_of h c = Some p -> p <> c ->
  let '(h', ok) := exec same h (Prune c) in
  ok = true /\ length h' = length h /\ kids_of h' c = [] /\ replaced_child h p c (kids_of h c) (kids_of h' p) /\ par_of h' c = None /\
  (forall q, q <> p -> q <> c -> kids_of h' q = kids_of h q) /\ (forall q, lab_of h' q = lab_of h q).
Proof.
  intros same h H c p EP NP. apply C39_parent_pointers in H. assert (V := par_valid _ _ _ EP). cbn [exec]. destruct (prune_ok h c H V) as (h1 & C1 & R1 & [(X & _)|(p' & i & X & EN & VP & G)]); [congruence|congruence|]. rewrite EP in X. injection X as <-.
  assert (C' := good_consistent h1 p C1 _ _ G). destruct (prune h c) as [h' ok]. destruct G as (T & R3 & ND3 & _). cbn in T, R3, C'. subst ok.
  destruct R1 as (L1 & K1 & N1 & _ & _ & B1), R3 as (L3 & K3 & N3 & _ & P3 & B3).
  assert (NC : ~ In c (nodesof (firstn i (kids_of h p) ++ kids_of h c ++ skipn (S i) (kids_of h p)))).
  { assert (N0 := proj2 H p). rewrite (nth_split3 i _ _ EN) in N0. rewrite !nodesof_app in *. cbn [nodesof flat_map app] in N0. apply NoDup_remove_2 in N0. rewrite !in_app_iff in *. intros [A|[A|A]]; [tauto| |tauto]. apply in_nodesof in A. apply H in A. congruence. }
  split; auto. split; [lia|]. split; [rewrite N3 by congruence; exact K1|]. split; [exists (firstn i (kids_of h p)), (skipn (S i) (kids_of h p)); split; [exact (nth_split3 i _ _ EN)|exact K3]|].
  split; [|split; [intros q A B; rewrite N3, N1; auto|intros q; now rewrite B3, B1]].
  destruct (par_of h' c) as [q|] eqn:EQ; auto. exfalso. destruct (Nat.eq_dec q p) as [->|NE].
  - apply C' in EQ. rewrite K3 in EQ. apply in_nodesof in EQ. contradiction.
  - rewrite P3 in EQ by auto. destruct (eqo (par_of h1 c) p) eqn:EO; [discriminate|]. assert (In (INode c) (kids_of h1 q)) by (apply C1; exact EQ). destruct (Nat.eq_dec q c) as [->|NQ]; [rewrite K1 in H0; destruct H0|]. rewrite N1 in H0 by auto. apply H in H0. congruence.
Qed.

(** ---- no cycles; root and treeposition ---- *)
(** following the parents from c ends at a node without parent *)
Inductive rooted (h : heap) : nat -> Prop :=
| rooted_top : forall c, par_of h c = None -> rooted h c
| rooted_up : forall c p, par_of h c = Some p -> rooted h p -> rooted h c.
(** [anc h a c]: a is c, or an ancestor of c *)
Inductive anc (h : heap) : nat -> nat -> Prop :=
| anc_self : forall c, anc h c c
| anc_up : forall a q c, anc h a c -> par_of h a = Some q -> anc h q c.
(** nodes are not inserted below themselves *)
Definition no_cycle (h : heap) (o : op) : Prop :=
  match o with
  | Append p x | Insert p _ x | SetInt p _ x => match x with INode c => par_of h c = None -> ~ anc h c p | ILeaf _ => True end
  | Extend p xs | SetSlice p _ xs => forall c, In (INode c) xs -> par_of h c = None -> ~ anc h c p
  | _ => True
  end.
Inductive history_nc (same : heap -> item -> item -> bool) : heap -> Prop :=
| nc_start : history_nc same []
| nc_step : forall h o, history_nc same h -> valid_op h o -> no_repeat o -> no_cycle h o -> history_nc same (fst (exec same h o)).
Lemma nc_history : forall same h, history_nc same h -> history same h.
Proof. intros same h H. induction H; constructor; auto. Qed.
Definition acyclic (h : heap) : Prop := forall c, rooted h c.
Lemma relinked_acyclic : forall h p l h', consistent h -> acyclic h -> relinked h p l h' -> (forall c, In c (nodesof l) -> par_of h c = None \/ par_of h c = Some p) ->
  (forall c, In c (nodesof l) -> par_of h c = None -> ~ anc h c p) -> acyclic h'.
Proof.
  intros h p l h' C A (_ & _ & _ & P1 & P2 & _) AD NA.
  assert (UP : forall a, rooted h a -> anc h a p -> rooted h' a).
  { intros a R. induction R as [a E|a q E R IH]; intros AN.
    - destruct (mem_dec a (nodesof l)) as [I0|N]; [exfalso; now apply (NA a)|]. apply rooted_top. rewrite P2 by auto. now rewrite E.
    - assert (RQ := IH (anc_up h a q p AN E)). destruct (mem_dec a (nodesof l)) as [I0|N].
      + destruct (AD a I0) as [X|X]; [congruence|]. rewrite E in X. injection X as ->. apply (rooted_up h' a p); auto.
      + rewrite <- (P2 a N) in * || idtac. destruct (eqo (par_of h a) p) eqn:EO; [apply rooted_top; rewrite P2 by auto; now rewrite EO|]. apply (rooted_up h' a q); auto. rewrite P2 by auto. now rewrite EO. }
  assert (RP : rooted h' p) by (apply UP; [apply A|constructor]). intros a. induction (A a) as [a E|a q E R IH].
  - destruct (mem_dec a (nodesof l)) as [I0|N]; [apply (rooted_up h' a p); auto|]. apply rooted_top. rewrite P2 by auto. now rewrite E.
  - destruct (mem_dec a (nodesof l)) as [I0|N]; [apply (rooted_up h' a p); auto|]. destruct (eqo (par_of h a) p) eqn:EO; [apply rooted_top; rewrite P2 by auto; now rewrite EO|]. apply (rooted_up h' a q); auto. rewrite P2 by auto. now rewrite EO.
Qed.
Inductive rootedn (h : heap) : nat -> nat -> Prop :=
| rn_top : forall c, par_of h c = None -> rootedn h c 0
| rn_up : forall c p n, par_of h c = Some p -> rootedn h p n -> rootedn h c (S n).
Lemma rooted_n : forall h c, rooted h c -> exists n, rootedn h c n.
Proof. intros h c R. induction R as [c E|c p E R [n IH]]; [exists 0; now constructor|exists (S n); econstructor; eauto]. Qed.
Lemma rootedn_det : forall h c n, rootedn h c n -> forall m, rootedn h c m -> n = m.
Proof. intros h c n R. induction R as [c E|c p n E R IH]; intros m Hm; inversion Hm; subst; try congruence. f_equal. apply IH. congruence. Qed.
Lemma anc_depth : forall h a c, anc h a c -> forall n, rootedn h c n -> exists m, rootedn h a m /\ m <= n.
Proof.
  intros h a c H. induction H as [c|a q c H IH E]; intros n R; [exists n; auto|]. destruct (IH n R) as (m & RM & LM). inversion RM; subst; [congruence|]. exists n0. assert (p = q) by congruence. subst. split; auto. lia.
Qed.
Lemma not_anc_child : forall h c p, acyclic h -> par_of h c = Some p -> ~ anc h c p.
Proof.
  intros h c p A E H. destruct (rooted_n h p (A p)) as [n R]. destruct (anc_depth h c p H n R) as (m & RM & LM). assert (rootedn h c (S n)) by (econstructor; eauto). assert (m = S n) by (eapply rootedn_det; eauto). lia.
Qed.
Lemma not_anc_grandchild : forall h d c p, acyclic h -> par_of h d = Some c -> par_of h c = Some p -> ~ anc h d p.
Proof.
  intros h d c p A E1 E2 H. apply (not_anc_child h c p A E2). apply (anc_up h d c p H E1).
Qed.
Lemma anc_mono : forall h h' (D : nat -> Prop) x p, (forall a, D a \/ par_of h' a = None \/ par_of h' a = par_of h a) -> anc h' x p -> anc h x p \/ exists d, D d /\ anc h d p.
Proof.
  intros h h' D x p HD H. induction H as [c|a q c H IH E]; [left; constructor|]. destruct IH as [IH|IH]; [|right; exact IH]. destruct (HD a) as [Da|[X|X]]; [right; eauto|congruence|]. left. apply (anc_up h a q c); auto. congruence.
Qed.
Lemma fresh_acyclic : forall h l, acyclic h -> acyclic (fresh h l).
Proof. intros h l A c. unfold fresh. induction (A c) as [c E|c p E R IH]; [apply rooted_top; now rewrite par_fresh|apply (rooted_up _ c p); auto; now rewrite par_fresh]. Qed.
Lemma anc_lonely : forall h a n, par_of h n = None -> anc h a n -> a = n.
Proof. intros h a n E H. induction H as [|a q c H IH X]; auto. specialize (IH E). subst a. congruence. Qed.
Lemma good_acyclic : forall h p l r, consistent h -> acyclic h -> good_result h p l r -> (forall c, In c (nodesof l) -> par_of h c = None -> ~ anc h c p) -> acyclic (fst r).
Proof. intros h p l r C A (_ & R & _ & AD) NA. eapply relinked_acyclic; eauto. Qed.
Lemma sub_no_new : forall h p l, consistent h -> (forall c, In c (nodesof l) -> In c (nodesof (kids_of h p))) -> forall c, In c (nodesof l) -> par_of h c = None -> ~ anc h c p.
Proof. intros h p l C H c Hc E. specialize (H c Hc). apply in_nodesof in H. apply C in H. congruence. Qed.
Lemma firstn_in : forall (l : list item) n c, In c (nodesof (firstn n l)) -> In c (nodesof l).
Proof. intros l n c H. rewrite <- (firstn_skipn n l), nodesof_app, in_app_iff. auto. Qed.
Lemma skipn_in : forall (l : list item) n c, In c (nodesof (skipn n l)) -> In c (nodesof l).
Proof. intros l n c H. rewrite <- (firstn_skipn n l), nodesof_app, in_app_iff. auto. Qed.
Lemma remove_no_new : forall h p n, consistent h -> forall c, In c (nodesof (remove_nth (kids_of h p) n)) -> par_of h c = None -> ~ anc h c p.
Proof. intros h p n C. apply sub_no_new; auto. intros c H. unfold remove_nth in H. rewrite nodesof_app, in_app_iff in H. destruct H as [H|H]; [eapply firstn_in|eapply skipn_in]; eauto. Qed.
Lemma in_kid : forall h p c, consistent h -> In c (nodesof (kids_of h p)) -> par_of h c = None -> False.
Proof. intros h p c C H E. apply in_nodesof in H. apply C in H. congruence. Qed.
Lemma extend_acyclic : forall xs h p, consistent h -> acyclic h -> p < length h -> Forall (exists_item h) xs -> (forall c, In (INode c) xs -> par_of h c = None -> ~ anc h c p) -> acyclic (fst (extend h p xs)).
Proof.
  induction xs as [|x xs IH]; intros h p C A V F NA; [auto|]. inversion F as [|? ? F1 F2]; subst. cbn [extend]. destruct (append_ok h p C V x F1) as [[_ ->]|[O G]]; [auto|].
  assert (C' := good_consistent h p C _ _ G). assert (NX : forall c, In c (nodesof [x]) -> par_of h c = None -> ~ anc h c p). { intros c Hc. apply NA. apply in_nodesof in Hc. destruct Hc as [->|[]]. now left. }
  assert (A' : acyclic (fst (append h p x))). { apply (good_acyclic h p (kids_of h p ++ [x])); auto. intros c Hc E. rewrite nodesof_app, in_app_iff in Hc. destruct Hc as [Hc|Hc]; [exfalso; exact (in_kid h p c C Hc E)|exact (NX c Hc E)]. }
  destruct (append h p x) as [h1 ok]. destruct G as (T & R & _ & AD). cbn in T, R, C', A'. subst ok. assert (L := relinked_length _ _ _ _ R). apply IH; auto; [lia|eapply Forall_impl; [|exact F2]; intros [c|a]; cbn; lia|].
  destruct R as (_ & K1 & K2 & P1 & P2 & _). intros c Hc E AN. assert (NI : ~ In c (nodesof (kids_of h p ++ [x]))) by (intros I0; rewrite (P1 c I0) in E; discriminate). rewrite P2 in E by auto. destruct (eqo (par_of h c) p) eqn:EO.
  { apply NI. apply eqo_true in EO. apply C in EO. apply in_nodesof in EO. rewrite nodesof_app, in_app_iff. auto. }
  apply (NA c); [now right|auto|]. destruct (anc_mono h h1 (fun a => In a (nodesof [x])) c p) as [Y|(d & D & Y)]; auto.
  - intros a. destruct (mem_dec a (nodesof (kids_of h p ++ [x]))) as [I0|N].
    + rewrite nodesof_app, in_app_iff in I0. destruct I0 as [I0|I0]; [|now left]. right. right. rewrite (P1 a); [|rewrite nodesof_app, in_app_iff; auto]. apply in_nodesof in I0. symmetry. now apply C.
    + right. rewrite P2 by auto. destruct (eqo (par_of h a) p) eqn:EA; auto.
  - exfalso. apply (NX d); auto. destruct x as [e|a]; [|destruct D]. destruct D as [->|[]]. cbn in O. destruct (par_of h d); [discriminate|reflexivity].
Qed.
Lemma exec_acyclic : forall same h o, consistent h -> acyclic h -> valid_op h o -> no_repeat o -> no_cycle h o -> acyclic (fst (exec same h o)).
Proof.
  intros same h o C A V N NC. destruct o as [l xs|p x|p xs|p i x|p i|p x|p i x|p s xs|p i|p s|c|p|c l|c l|c]; cbn [exec valid_op no_repeat no_cycle] in *.
  - destruct (construct_ok h l xs C N V) as [[_ ->]|[_ G]]; [auto|]. apply (good_acyclic _ _ _ _ (fresh_consistent h l C) (fresh_acyclic h l A) G). intros c Hc E AN. apply anc_lonely in AN; [|unfold fresh; rewrite par_fresh; destruct (par_of h (length h)) eqn:EE; [apply par_valid in EE; lia|auto]]. subst c. assert (X := exists_items h xs V _ Hc). lia.
  - destruct V as [V1 V2]. destruct (append_ok h p C V1 x V2) as [[_ ->]|[_ G]]; [auto|]. apply (good_acyclic _ _ _ _ C A G). intros c Hc E. rewrite nodesof_app, in_app_iff in Hc. destruct Hc as [Hc|Hc]; [exfalso; eapply in_kid; eauto|]. destruct x as [d|a]; [|destruct Hc]. destruct Hc as [->|[]]. auto.
  - destruct V as [V1 V2]. now apply extend_acyclic.
  - destruct V as [V1 V2]. destruct (insert_ok h p C V1 i x V2) as [[_ ->]|(_ & n & G & _)]; [auto|]. apply (good_acyclic _ _ _ _ C A G). intros c Hc E. unfold insert_nth in Hc. change (x :: ?t) with ([x] ++ t) in Hc. rewrite !nodesof_app, !in_app_iff in Hc. destruct Hc as [Hc|[Hc|Hc]]; [apply firstn_in in Hc; exfalso; eapply in_kid; eauto| |apply skipn_in in Hc; exfalso; eapply in_kid; eauto]. destruct x as [d|a]; [|destruct Hc]. destruct Hc as [->|[]]. auto.
  - destruct (del_int_ok h p i C V) as [[-> _]|(n & _ & G)]; [auto|]. apply (good_acyclic _ _ _ _ C A G). now apply remove_no_new.
  - unfold remove. destruct (find_index _ _) as [n|] eqn:E; [|auto]. apply find_index_some in E. destruct E as (y & E & _). assert (Hn : n < length (kids_of h p)) by (apply nth_error_Some; congruence). apply (good_acyclic _ _ _ _ C A (del_nth_ok h p C V n Hn)). now apply remove_no_new.
  - destruct V as [V1 V2]. destruct (set_int_ok h p C V1 i x V2) as [[-> _]|(n & old & _ & _ & [(_ & ->)|(_ & _ & G)])]; [auto..|]. apply (good_acyclic _ _ _ _ C A G). intros c Hc E. rewrite !nodesof_app, !in_app_iff in Hc. destruct Hc as [Hc|[Hc|Hc]]; [apply firstn_in in Hc; exfalso; eapply in_kid; eauto| |apply skipn_in in Hc; exfalso; eapply in_kid; eauto]. destruct x as [d|a]; [|destruct Hc]. destruct Hc as [->|[]]. auto.
  - destruct V as [V1 V2]. destruct (set_slice_ok h p C V1 s xs N V2) as [[-> _]|(_ & G)]; [auto|]. apply (good_acyclic _ _ _ _ C A G). intros c Hc E. unfold replace_slice in Hc. rewrite !nodesof_app, !in_app_iff in Hc. destruct Hc as [Hc|[Hc|Hc]]; [apply firstn_in in Hc; exfalso; eapply in_kid; eauto| |apply skipn_in in Hc; exfalso; eapply in_kid; eauto]. apply in_nodesof in Hc. auto.
  - destruct (del_int_ok h p i C V) as [[-> _]|(n & _ & G)]; [auto|]. apply (good_acyclic _ _ _ _ C A G). now apply remove_no_new.
  - destruct (del_slice_ok h p C V s) as [[-> _]|G]; [auto|]. apply (good_acyclic _ _ _ _ C A G). intros c Hc E. unfold replace_slice in Hc. rewrite !nodesof_app, !in_app_iff in Hc. destruct Hc as [Hc|[[]|Hc]]; [apply firstn_in in Hc|apply skipn_in in Hc]; exfalso; eapply in_kid; eauto.
  - destruct (detach_ok h c C) as [[_ ->]|(p & i & _ & _ & _ & _ & G)]; [auto|]. apply (good_acyclic _ _ _ _ C A G). now apply remove_no_new.
  - apply (good_acyclic _ _ _ _ C A (disown_ok h p C V)). intros c [].
  - destruct (spliceabove_ok h c l C V) as [(EP & _ & G)|(p & i & h1 & h2 & EP & VP & EN & _ & C1 & R1 & C2 & R2 & G)].
    + apply (good_acyclic _ _ _ _ (fresh_consistent h l C) (fresh_acyclic h l A) G). intros d [<-|[]] _ AN. apply anc_lonely in AN; [lia|]. unfold fresh. rewrite par_fresh. destruct (par_of h (length h)) eqn:EE; [apply par_valid in EE; lia|auto].
    + assert (A1 : acyclic h1). { apply (relinked_acyclic h p _ h1 C A R1); [|now apply remove_no_new]. intros d Hd. right. unfold remove_nth in Hd. rewrite nodesof_app, in_app_iff in Hd. apply C. apply in_nodesof. destruct Hd as [Hd|Hd]; [eapply firstn_in|eapply skipn_in]; eauto. }
      assert (L1 := relinked_length _ _ _ _ R1). assert (NN : par_of h1 (length h) = None) by (destruct (par_of h1 (length h)) eqn:EE; [apply par_valid in EE; lia|auto]).
      assert (PD : forall a, a = c \/ par_of h1 a = None \/ par_of h1 a = par_of h a). { intros a. right. destruct R1 as (_ & _ & _ & P1 & P2 & _). destruct (mem_dec a (nodesof (remove_nth (kids_of h p) i))) as [I0|N0]; [right|rewrite P2 by auto; destruct (eqo (par_of h a) p); auto]. rewrite P1 by auto. symmetry. apply C. apply in_nodesof. unfold remove_nth in I0. rewrite nodesof_app, in_app_iff in I0. destruct I0 as [I0|I0]; [eapply firstn_in|eapply skipn_in]; eauto. }
      assert (E1 : par_of h1 c = None). { destruct (par_of h1 c) as [q|] eqn:EQ; auto. exfalso. assert (NC0 : ~ In c (nodesof (remove_nth (kids_of h p) i))). { intros H. destruct C as [_ CC]. specialize (CC p). rewrite (nth_split3 i (INode c) _ EN) in CC. unfold remove_nth in H. rewrite !nodesof_app in CC. rewrite nodesof_app in H. cbn [nodesof flat_map app] in CC. now apply NoDup_remove_2 in CC. } destruct R1 as (_ & _ & _ & _ & P2 & _). rewrite P2 in EQ by auto. rewrite EP in EQ. cbn in EQ. rewrite Nat.eqb_refl in EQ. discriminate. }
      assert (A2 : acyclic h2). { apply (relinked_acyclic (fresh h1 l) (length h) [INode c] h2); auto; [now apply fresh_consistent|now apply fresh_acyclic| |]; intros d [<-|[]]; [left; unfold fresh; now rewrite par_fresh|]. intros _ AN. apply anc_lonely in AN; [lia|]. unfold fresh. now rewrite par_fresh. }
      apply (good_acyclic h2 p _ _ C2 A2 G). intros d Hd E. unfold insert_nth in Hd. change (INode ?t :: ?r) with ([INode t] ++ r) in Hd. rewrite !nodesof_app, !in_app_iff in Hd.
      assert (KP : kids_of h2 p = remove_nth (kids_of h p) i). { destruct R2 as (_ & _ & K2 & _). rewrite K2 by lia. unfold fresh. rewrite kids_fresh. rewrite (proj2 (Nat.eqb_neq p (length h1))) by lia. apply R1. }
      destruct Hd as [Hd|[Hd|Hd]]; [apply firstn_in in Hd; rewrite <- KP in Hd; exfalso; eapply in_kid; [exact C2|exact Hd|exact E]| |apply skipn_in in Hd; rewrite <- KP in Hd; exfalso; eapply in_kid; [exact C2|exact Hd|exact E]]. destruct Hd as [<-|[]]. intros AN.
      apply (not_anc_child h c p A EP). assert (X : anc h (length h) p \/ exists e, e = c /\ anc h e p). { apply (anc_mono h h2 (fun a => a = c) (length h) p); auto. intros a. destruct R2 as (_ & _ & _ & P1 & P2 & _). destruct (Nat.eq_dec a c) as [|NE]; [now left|]. right. rewrite P2 by (cbn; intuition). unfold fresh. rewrite par_fresh. destruct (eqo (par_of h1 a) (length h)); [now left|]. destruct (PD a) as [X|[X|X]]; [congruence|auto|auto]. }
      destruct X as [X|(e & -> & X)]; auto. exfalso. inversion X as [|a q c0 Y Z]; subst; [lia|]. apply C in Z. now rewrite kids_new in Z.
  - destruct (splicebelow_ok h c l C V) as (h1 & h2 & _ & C1 & R1 & C2 & R2 & G). assert (L1 := relinked_length _ _ _ _ R1). assert (NN : par_of h1 (length h) = None) by (destruct (par_of h1 (length h)) eqn:EE; [apply par_valid in EE; lia|auto]).
    assert (P1' : forall a, par_of h1 a = if eqo (par_of h a) c then None else par_of h a) by (intros a; destruct R1 as (_ & _ & _ & _ & P2 & _); apply P2; intros []).
    assert (KN : forall d, In d (nodesof (kids_of h c)) -> par_of h d = Some c) by (intros d Hd; apply C; now apply in_nodesof).
    assert (A1 : acyclic h1) by (apply (relinked_acyclic h c [] h1 C A R1); intros d []).
    assert (A2 : acyclic h2). { apply (relinked_acyclic (fresh h1 l) (length h) (kids_of h c) h2); auto; [now apply fresh_consistent|now apply fresh_acyclic| |]; intros d Hd.
      - left. unfold fresh. rewrite par_fresh, P1', (KN d Hd). cbn. now rewrite Nat.eqb_refl.
      - intros _ AN. apply anc_lonely in AN; [|unfold fresh; now rewrite par_fresh]. subst d. apply KN in Hd. apply par_valid in Hd. lia. }
    apply (good_acyclic h2 c _ _ C2 A2 G). intros d [<-|[]] _ AN. assert (X : anc h (length h) c \/ exists e, In e (nodesof (kids_of h c)) /\ anc h e c).
    { apply (anc_mono h h2 (fun a => In a (nodesof (kids_of h c))) (length h) c); auto. intros a. destruct (mem_dec a (nodesof (kids_of h c))) as [I0|N0]; [now left|right]. destruct R2 as (_ & _ & _ & P1 & P2 & _). rewrite P2 by auto. unfold fresh. rewrite par_fresh. destruct (eqo (par_of h1 a) (length h)); [now left|]. rewrite P1'. destruct (eqo (par_of h a) c); auto. }
    destruct X as [X|(e & He & X)]; [|exact (not_anc_child h e c A (KN e He) X)]. inversion X as [|a q c0 Y Z]; subst; [lia|]. apply C in Z. now rewrite kids_new in Z.
  - destruct (prune_ok h c C V) as (h1 & C1 & R1 & Q). { intros E. exact (not_anc_child h c c A E (anc_self h c)). }
    assert (P1' : forall a, par_of h1 a = if eqo (par_of h a) c then None else par_of h a) by (intros a; destruct R1 as (_ & _ & _ & _ & P2 & _); apply P2; intros []).
    assert (A1 : acyclic h1) by (apply (relinked_acyclic h c [] h1 C A R1); intros d []). destruct Q as [(_ & ->)|(p & i & EP & EN & VP & G)]; [exact A1|]. apply (good_acyclic h1 p _ _ C1 A1 G). intros d Hd E AN.
    rewrite !nodesof_app, !in_app_iff in Hd. assert (AH : anc h d p). { destruct (anc_mono h h1 (fun _ => False) d p) as [X|(e & [] & _)]; auto. intros a. right. rewrite P1'. destruct (eqo (par_of h a) c); auto. }
    assert (HP : In d (nodesof (kids_of h p)) -> False). { intros I0. apply in_nodesof in I0. apply C in I0. exact (not_anc_child h d p A I0 AH). }
    destruct Hd as [Hd|[Hd|Hd]]; [apply firstn_in in Hd; auto| |apply skipn_in in Hd; auto]. apply in_nodesof in Hd. apply C in Hd. exact (not_anc_grandchild h d c p A Hd EP AH).
Qed.
(** If no node was inserted below itself, there are no cycles: root and
    treeposition end, and root[treeposition] is the node. *)
Theorem C39_acyclic : forall same h, history_nc same h -> forall c, rooted h c.
Proof.
  intros same h H. induction H as [|h o H IH V N NC]; [|apply exec_acyclic; auto; apply (C39_parent_pointers same), nc_history, H]. intros c. apply rooted_top. unfold par_of. destruct c; reflexivity.
Qed.
Lemma getitem_app : forall h pos c d i x, getitem h c pos = Some (INode d) -> nth_error (kids_of h d) i = Some x -> getitem h c (pos ++ [i]) = Some x.
Proof.
  intros h. induction pos as [|j pos IH]; intros c d i x A B; cbn in *.
  - injection A as <-. rewrite B. destruct x; reflexivity.
  - destruct (nth_error (kids_of h c) j) as [[e|a]|]; [eapply IH; eauto|destruct pos; discriminate|discriminate].
Qed.
Theorem C39_treeposition : forall same h, history_nc same h -> forall c, exists f r pos,
  (forall g, f <= g -> root g h c = Some r /\ treeposition g h c = Some pos) /\ par_of h r = None /\ anc h r c /\ getitem h r pos = Some (INode c).
Proof.
  intros same h H c. assert (C := C39_parent_pointers same h (nc_history _ _ H)). induction (C39_acyclic same h H c) as [c E|c p E R (f & r & pos & G & T & AN & GI)].
  - exists 1, c, []. split; [|split; [auto|split; [constructor|reflexivity]]]. intros [|g] Hg; [lia|]. cbn. now rewrite E.
  - destruct (parent_index_ok h c p C E) as (i & EI & EN). exists (S f), r, (pos ++ [i]). split; [|split; [auto|split; [|now apply (getitem_app h pos r p i)]]].
    + intros [|g] Hg; [lia|]. cbn. rewrite E, EI. destruct (G g) as [-> ->]; [lia|]. auto.
    + assert (X : forall a b d, anc h a b -> anc h b d -> anc h a d) by (intros a b d H1; induction H1 as [|a q b H1 IH Q]; intros H2; auto; apply (anc_up h a q d); auto). apply (X r p c); auto. apply (anc_up h c p c); [constructor|auto].
Qed.

(** ---- what the checks do not prevent ---- *)
Definition byname (h : heap) (a b : item) : bool := itemeqb a b.
Notation run := (fold_left (fun h o => fst (exec byname h o))).
Definition lbl (s : string) : pystr := str s.
(** a node that is repeated in a slice assignment: the exception is raised after
    its parent was set, while it is not among the children *)
Theorem C39_repeated_refuted : exists h o, history byname h /\ valid_op h o /\ snd (exec byname h o) = false /\ ~ consistent (fst (exec byname h o)).
Proof.
  exists (run [New (lbl "S") []; New (lbl "A") []] []), (SetSlice 0 (Sl None None None) [INode 1; INode 1]). split.
  - cbn [fold_left]. apply history_step; [apply history_step; [constructor| |]| |]; cbn; repeat constructor.
  - split; [cbn; repeat constructor|]. split; [reflexivity|]. intros [X _]. specialize (X 1 0). vm_compute in X. destruct X as [X _]. destruct (X eq_refl).
Qed.
(** a node can be appended to itself *)
Theorem C39_cycle_refuted : exists h o, history byname h /\ valid_op h o /\ snd (exec byname h o) = true /\ ~ rooted (fst (exec byname h o)) 0.
Proof.
  exists (run [New (lbl "S") []] []), (Append 0 (INode 0)). split; [cbn [fold_left]; apply history_step; [constructor| |]; cbn; repeat constructor|]. split; [cbn; repeat constructor|]. split; [reflexivity|]. intros R. set (h := fst _) in R. assert (E : par_of h 0 = Some 0) by reflexivity. clearbody h. assert (G : forall c, rooted h c -> c <> 0) by (intros c R0; induction R0 as [c X|c p X R0 IH]; intros ->; [congruence|]; apply IH; congruence). exact (G 0 R eq_refl).
Qed.
(** pruning a node without parent raises an exception but has removed its children *)
Theorem C39_prune_root_refuted : exists h c, history byname h /\ c < length h /\ snd (exec byname h (Prune c)) = false /\ kids_of h c = [INode 0] /\ kids_of (fst (exec byname h (Prune c))) c = [].
Proof.
  exists (run [New (lbl "A") []; New (lbl "S") [INode 0]] []), 1. split; [cbn [fold_left]; apply history_step; [apply history_step; [constructor| |]| |]; cbn; repeat constructor; auto|]. repeat split; vm_compute; auto.
Qed.
(** ---- an example: build S(A B), splice X above B, prune X again ---- *)
Definition demo := [New (lbl "A") [ILeaf (lbl "0")]; New (lbl "B") [ILeaf (lbl "1")]; New (lbl "S") [INode 0; INode 1]; SpliceAbove 1 (lbl "X")].
Example demo_history : history_nc byname (run demo []).
Proof.
  cbn [fold_left demo]. repeat (apply nc_step; [| | |]); try constructor; cbn; repeat constructor; intuition (try discriminate); try lia.
Qed.
Example demo_result : map (fun n => (kids n, par n)) (run demo []) = [([ILeaf (lbl "0")], Some 2); ([ILeaf (lbl "1")], Some 3); ([INode 0; INode 3], None); ([INode 1], Some 2)] /\
  map (fun n => (kids n, par n)) (fst (exec byname (run demo []) (Prune 3))) = [([ILeaf (lbl "0")], Some 2); ([ILeaf (lbl "1")], Some 2); ([INode 0; INode 1], None); ([], None)] /\
  treeposition 5 (run demo []) 1 = Some [1; 0].
Proof. repeat split; vm_compute; reflexivity. Qed.
Print Assumptions C39_parent_pointers. Print Assumptions C39_edits_done. Print Assumptions C39_acyclic. Print Assumptions C39_treeposition.
