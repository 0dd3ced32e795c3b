From Coq Require Import List Bool Arith ZArith Lia Permutation ZifyBool ZifyNat Sorted.
From Verif Require Import HeapqModel HeapqProofs AgendaModel AgendaSpec.
Import ListNotations.

Section Proofs.
Context {K V : Type}.
Variable keqb : K -> K -> bool.
Variable vlt veq : V -> V -> bool.
Hypothesis keqb_ok : forall a b, keqb a b = true <-> a = b.
Hypothesis vlt_irrefl : forall a, vlt a a = false.
Hypothesis vlt_trans : forall a b c, vlt a b = true -> vlt b c = true -> vlt a c = true.
Hypothesis vge_trans : forall a b c, vlt a b = false -> vlt b c = false -> vlt a c = false.
Hypothesis veq_ok : forall a b, veq a b = true <-> (vlt a b = false /\ vlt b a = false).

Notation entry := (@entry K V).
Notation agenda := (@agenda K V).
Notation lt := (@entry_lt K V vlt veq).
Notation dget := (dget keqb). Notation dput := (dput keqb). Notation drop := (drop keqb).

(** order by value only *)
Definition Rv (a b : entry) : Prop := vlt (evalue b) (evalue a) = false.
(** order by value and count *)
Definition Rc (a b : entry) : Prop := lt b a = false.

Lemma vlt_asym : forall a b, vlt a b = true -> vlt b a = false.
Proof. intros a b H. destruct (vlt b a) eqn:E; auto.
  pose proof (vlt_trans _ _ _ H E) as X. rewrite vlt_irrefl in X. discriminate. Qed.
Lemma Rv_trans : forall a b c, Rv a b -> Rv b c -> Rv a c.
Proof. unfold Rv. intros. eapply vge_trans; eauto. Qed.
Lemma lt_Rv : forall a b, lt a b = true -> Rv a b.
Proof.
  unfold entry_lt, Rv. intros a b H. apply orb_prop in H. destruct H as [H|H]; [now apply vlt_asym|].
  apply andb_prop in H. destruct H as [H _]. now apply veq_ok in H.
Qed.
Lemma nlt_Rv : forall a b, lt a b = false -> Rv b a.
Proof. unfold entry_lt, Rv. intros a b H. now apply orb_false_elim in H. Qed.

Lemma lt_cases : forall a b, lt a b = true <->
  vlt (evalue a) (evalue b) = true \/
  (vlt (evalue a) (evalue b) = false /\ vlt (evalue b) (evalue a) = false /\ ecount a < ecount b).
Proof.
  intros. unfold entry_lt. rewrite orb_true_iff, andb_true_iff, veq_ok, Nat.ltb_lt.
  destruct (vlt (evalue a) (evalue b)); intuition.
Qed.
Lemma lt_Rc : forall a b, lt a b = true -> Rc a b.
Proof.
  intros a b H. unfold Rc. destruct (lt b a) eqn:E; auto. apply lt_cases in H, E.
  destruct H as [H|(H1 & H2 & H3)], E as [E|(E1 & E2 & E3)]; try congruence; try lia.
  apply vlt_asym in H. congruence.
Qed.
Lemma Rc_cases : forall a b, Rc a b <->
  vlt (evalue a) (evalue b) = true \/
  (vlt (evalue a) (evalue b) = false /\ vlt (evalue b) (evalue a) = false /\ ecount a <= ecount b).
Proof.
  intros a b. unfold Rc. destruct (lt b a) eqn:E.
  - apply lt_cases in E. split; [discriminate|]. intros H. exfalso.
    destruct H as [H|(H1 & H2 & H3)], E as [E|(E1 & E2 & E3)]; try congruence; try lia.
    apply vlt_asym in H. congruence.
  - split; auto. intros _. destruct (vlt (evalue a) (evalue b)) eqn:L; auto. right.
    assert (N : ~ lt b a = true) by congruence. rewrite lt_cases in N.
    destruct (vlt (evalue b) (evalue a)) eqn:L2; [exfalso; auto|]. repeat split; auto.
    destruct (le_lt_dec (ecount a) (ecount b)); auto. exfalso. apply N. auto.
Qed.
Lemma Rc_trans : forall a b c, Rc a b -> Rc b c -> Rc a c.
Proof.
  intros a b c H1 H2. rewrite Rc_cases in *.
  assert (TR : forall x y z, vlt x y = true -> vlt z y = false -> vlt x z = true).
  { intros x y z A B. destruct (vlt x z) eqn:C; auto. rewrite (vge_trans _ _ _ C B) in A. discriminate. }
  assert (TL : forall x y z, vlt y x = false -> vlt y z = true -> vlt x z = true).
  { intros x y z A B. destruct (vlt x z) eqn:C; auto. rewrite (vge_trans _ _ _ A C) in B. discriminate. }
  destruct H1 as [H1|(A1 & A2 & A3)], H2 as [H2|(B1 & B2 & B3)]; eauto.
  right. repeat split; [eapply vge_trans; eauto|eapply vge_trans; eauto|lia].
Qed.

Definition contents (m : list (K * entry)) : list (K * V) :=
  map (fun ke => (fst ke, evalue (snd ke))) m.

Record Inv0 (h : list entry) (m : list (K * entry)) (cnt nid : nat) : Prop := {
  I_nodup : NoDup (map fst m);
  I_map : forall k e, In (k, e) m -> ekey e = k /\ ecount e <> 0 /\ In e h;
  I_heap : forall e, In e h -> ecount e <> 0 -> In (ekey e, e) m;
  I_ids : NoDup (map eid h);
  I_fresh : forall e, In e h -> eid e < nid;
  I_cnt : 0 < cnt }.

(** ** dict facts *)
Lemma dget_Some : forall X (m : list (K * X)) k x, dget m k = Some x -> In (k, x) m.
Proof.
  induction m as [|[k' x'] m IH]; cbn; intros k x H; [discriminate|].
  destruct (keqb k k') eqn:E; [|auto]. apply keqb_ok in E. inversion H; subst. auto.
Qed.
Lemma dget_None : forall X (m : list (K * X)) k, dget m k = None <-> ~ In k (map fst m).
Proof.
  induction m as [|[k' x'] m IH]; cbn; intros k; [tauto|].
  destruct (keqb k k') eqn:E.
  - apply keqb_ok in E. subst. split; [discriminate|]. intros H. exfalso; auto.
  - rewrite IH. split; [|tauto]. intros H [H1|H1]; auto. subst. rewrite (proj2 (keqb_ok k k)) in E; congruence.
Qed.
Lemma dput_new : forall X (m : list (K * X)) k x, dget m k = None -> dput m k x = m ++ [(k, x)].
Proof.
  induction m as [|[k' x'] m IH]; cbn; intros k x H; auto. destruct (keqb k k'); [discriminate|].
  now rewrite IH.
Qed.
Lemma keqb_refl : forall k, keqb k k = true.
Proof. intros. now apply keqb_ok. Qed.
Lemma dget_split : forall X (m : list (K * X)) k x, dget m k = Some x ->
  exists m1 m2, m = m1 ++ (k, x) :: m2 /\ ~ In k (map fst m1).
Proof.
  induction m as [|[k' x'] m IH]; cbn; intros k x H; [discriminate|].
  destruct (keqb k k') eqn:E.
  - apply keqb_ok in E. inversion H; subst. exists [], m. auto.
  - destruct (IH _ _ H) as (m1 & m2 & -> & N). exists ((k', x') :: m1), m2. split; auto.
    cbn. intros [->|B]; auto. rewrite keqb_refl in E. discriminate.
Qed.
Lemma keqb_neq : forall a b, a <> b -> keqb a b = false.
Proof. intros. destruct (keqb a b) eqn:E; auto. apply keqb_ok in E. contradiction. Qed.
Lemma dput_old : forall X m1 m2 k (x y : X), ~ In k (map fst m1) ->
  dput (m1 ++ (k, x) :: m2) k y = m1 ++ (k, y) :: m2.
Proof.
  induction m1 as [|[k' x'] m IH]; cbn; intros m2 k x y H.
  - now rewrite keqb_refl.
  - rewrite keqb_neq by intuition. rewrite IH; intuition.
Qed.
Lemma drop_old : forall X m1 m2 k (x : X), ~ In k (map fst m1) ->
  drop (m1 ++ (k, x) :: m2) k = m1 ++ m2.
Proof.
  induction m1 as [|[k' x'] m IH]; cbn; intros m2 k x H.
  - now rewrite keqb_refl.
  - rewrite keqb_neq by intuition. rewrite IH; intuition.
Qed.
Lemma in_dget : forall X (m : list (K * X)) k x, NoDup (map fst m) -> In (k, x) m -> dget m k = Some x.
Proof.
  intros X m k x N H. induction m as [|[k' x'] m IH]; [contradiction|]. cbn in *. inversion N; subst.
  destruct H as [H|H].
  - inversion H; subst. now rewrite keqb_refl.
  - rewrite keqb_neq; auto. intros ->. apply H2. now apply (in_map fst) in H.
Qed.
Lemma contents_keys : forall m, map fst (contents m) = map fst m.
Proof. intros. unfold contents. rewrite map_map. reflexivity. Qed.
Lemma has_contents : forall m k, has (contents m) k <-> In k (map fst m).
Proof.
  intros. rewrite <- contents_keys. unfold has. split.
  - intros [v H]. now apply (in_map fst) in H.
  - intros H. apply in_map_iff in H. destruct H as ([k' v] & E & H). cbn in E. subst. eauto.
Qed.

(** ** invalidate *)
Definition inval (i : nat) (e : entry) : entry :=
  if eid e =? i then E (ekey e) (evalue e) 0 (eid e) else e.
Lemma inval_id : forall i e, eid (inval i e) = eid e.
Proof. intros. unfold inval. destruct (_ =? _); auto. Qed.
Lemma inval_value : forall i e, evalue (inval i e) = evalue e.
Proof. intros. unfold inval. destruct (_ =? _); auto. Qed.
Lemma invalidate_ids : forall i (h : list entry), map eid (invalidate i h) = map eid h.
Proof. intros. unfold invalidate. rewrite map_map. apply map_ext. apply inval_id. Qed.
Lemma in_invalidate : forall i (h : list entry) e, ecount e <> 0 ->
  (In e (invalidate i h) <-> In e h /\ eid e <> i).
Proof.
  intros i h e Hc. unfold invalidate. rewrite in_map_iff. split.
  - intros (x & E & H). destruct (eid x =? i) eqn:Ei; subst; [cbn in Hc; lia|]. split; auto. lia.
  - intros [H Hi]. exists e. replace (eid e =? i) with false by lia. auto.
Qed.
Lemma ids_inj : forall (h : list entry) a b, NoDup (map eid h) -> In a h -> In b h -> eid a = eid b -> a = b.
Proof.
  induction h as [|x h IH]; intros a b N Ha Hb E; [contradiction|]. cbn in N. inversion N; subst.
  destruct Ha as [->|Ha], Hb as [->|Hb]; auto.
  - exfalso. apply H1. rewrite E. now apply in_map.
  - exfalso. apply H1. rewrite <- E. now apply in_map.
Qed.
Lemma invalidate_heap_v : forall i h, is_heap Rv h -> is_heap Rv (invalidate i h).
Proof.
  intros i h H j d Hj Hp. unfold invalidate in *. rewrite map_length in Hj.
  pose proof (parent_lt j ltac:(lia)).
  assert (N : forall n, n < length h -> evalue (nth n (map (inval i) h) d) = evalue (nth n h d)).
  { intros n Hn. rewrite (nth_indep _ d (inval i d)) by (rewrite map_length; lia).
    rewrite map_nth. apply inval_value. }
  unfold Rv in *. fold (inval i). change (fun e : entry => inval i e) with (inval i) in *.
  rewrite !N by lia. now apply H.
Qed.

(** ** preservation of the structural invariant *)
Lemma inv0_perm : forall h h' m c n, Permutation h h' -> Inv0 h m c n -> Inv0 h' m c n.
Proof.
  intros h h' m c n P [H1 H2 H3 H4 H5 H6]. constructor; auto.
  - intros k e H. destruct (H2 k e H) as (A & B & C). repeat split; auto. eapply Permutation_in; eauto.
  - intros e H. apply H3. eapply Permutation_in; [symmetry; eauto|auto].
  - eapply Permutation_NoDup; [apply Permutation_map; eauto|auto].
  - intros e H. apply H5. eapply Permutation_in; [symmetry; eauto|auto].
Qed.
Lemma inv0_push_new : forall h m c n k v, Inv0 h m c n -> dget m k = None ->
  Inv0 (E k v c n :: h) (dput m k (E k v c n)) (S c) (S n).
Proof.
  intros h m c n k v [H1 H2 H3 H4 H5 H6] G. rewrite dput_new by auto. apply dget_None in G.
  constructor.
  - rewrite map_app. cbn. eapply Permutation_NoDup; [apply Permutation_cons_append|]. now constructor.
  - intros k' e H. apply in_app_or in H. destruct H as [H|[H|[]]].
    + destruct (H2 _ _ H) as (A & B & C). cbn; auto.
    + inversion H; subst. cbn. repeat split; auto. lia.
  - intros e [<-|H] Hc; apply in_or_app; [right; now left|left; auto].
  - cbn. constructor; auto. intros H. apply in_map_iff in H. destruct H as (x & E & H).
    apply H5 in H. lia.
  - intros e [<-|H]; cbn; [lia|]. apply H5 in H. lia.
  - lia.
Qed.
Lemma inv0_push_old : forall h m c n k v old, Inv0 h m c n -> dget m k = Some old ->
  Inv0 (E k v (ecount old) n :: invalidate (eid old) h) (dput m k (E k v (ecount old) n)) c (S n).
Proof.
  intros h m c n k v old HI G.
  destruct (dget_split _ _ _ _ G) as (m1 & m2 & -> & N). rewrite dput_old by auto.
  destruct HI as [H1 H2 H3 H4 H5 H6].
  assert (Hold : In (k, old) (m1 ++ (k, old) :: m2)) by (apply in_elt).
  destruct (H2 _ _ Hold) as (O1 & O2 & O3).
  assert (NK : ~ In k (map fst (m1 ++ m2))).
  { rewrite map_app in *. cbn in H1. now apply NoDup_remove_2 in H1. }
  constructor; auto.
  - rewrite map_app in *. exact H1.
  - intros k' e H.
    assert (C : (k', e) = (k, E k v (ecount old) n) \/ In (k', e) (m1 ++ m2)).
    { apply in_app_or in H. destruct H as [H|[H|H]]; auto; right; apply in_or_app; auto. }
    destruct C as [C|C].
    + inversion C; subst. cbn. repeat split; auto.
    + assert (In (k', e) (m1 ++ (k, old) :: m2)).
      { apply in_app_or in C. apply in_or_app. destruct C; [left|right; right]; auto. }
      destruct (H2 _ _ H0) as (A & B & D). repeat split; auto. right. apply in_invalidate; auto.
      split; auto. intros Ei. apply ids_inj with (h := h) in Ei; auto.
      subst e. assert (k' = k) by (rewrite <- A; exact O1). subst. apply NK. now apply (in_map fst) in C.
  - intros e [<-|H] Hc; [apply in_elt|]. apply in_invalidate in H; auto. destruct H as [H Hi].
    apply H3 in H; auto. apply in_app_or in H. apply in_or_app.
    destruct H as [H|[H|H]]; [left; auto| |right; right; auto]. inversion H. congruence.
  - cbn. rewrite invalidate_ids. constructor; auto. intros H. apply in_map_iff in H.
    destruct H as (x & E & H). apply H5 in H. lia.
  - intros e [<-|H]; cbn; [lia|]. unfold invalidate in H. apply in_map_iff in H.
    destruct H as (x & E & H). apply H5 in H. subst. destruct (eid x =? eid old); cbn; lia.
Qed.
Lemma inv0_del : forall h m c n k old, Inv0 h m c n -> dget m k = Some old ->
  Inv0 (invalidate (eid old) h) (drop m k) c n.
Proof.
  intros h m c n k old HI G.
  destruct (dget_split _ _ _ _ G) as (m1 & m2 & -> & N). rewrite drop_old by auto.
  destruct HI as [H1 H2 H3 H4 H5 H6].
  assert (Hold : In (k, old) (m1 ++ (k, old) :: m2)) by (apply in_elt).
  destruct (H2 _ _ Hold) as (O1 & O2 & O3).
  rewrite map_app in H1. cbn in H1. pose proof (NoDup_remove_2 _ _ _ H1) as NK. apply NoDup_remove_1 in H1.
  rewrite <- map_app in *.
  constructor; auto.
  - intros k' e C.
    assert (In (k', e) (m1 ++ (k, old) :: m2)).
    { apply in_app_or in C. apply in_or_app. destruct C; [left|right; right]; auto. }
    destruct (H2 _ _ H) as (A & B & D). repeat split; auto. apply in_invalidate; auto.
    split; auto. intros Ei. apply ids_inj with (h := h) in Ei; auto.
    subst e. assert (k' = k) by (rewrite <- A; exact O1). rewrite H0 in C. apply NK. now apply (in_map fst) in C.
  - intros e H Hc. apply in_invalidate in H; auto. destruct H as [H Hi].
    apply H3 in H; auto. apply in_app_or in H. apply in_or_app.
    destruct H as [H|[H|H]]; auto. inversion H. congruence.
  - now rewrite invalidate_ids.
  - intros e H. unfold invalidate in H. apply in_map_iff in H.
    destruct H as (x & E & H). apply H5 in H. subst. destruct (eid x =? eid old); cbn; lia.
Qed.
Lemma inv0_pop_valid : forall e h m c n, Inv0 (e :: h) m c n -> ecount e <> 0 ->
  dget m (ekey e) = Some e /\ Inv0 h (drop m (ekey e)) c n.
Proof.
  intros e h m c n HI Hc. pose proof HI as [H1 H2 H3 H4 H5 H6].
  assert (G : dget m (ekey e) = Some e) by (apply in_dget; auto; apply H3; [now left|auto]).
  split; auto.
  destruct (dget_split _ _ _ _ G) as (m1 & m2 & -> & N). rewrite drop_old by auto.
  rewrite map_app in H1. cbn in H1. pose proof (NoDup_remove_2 _ _ _ H1) as NK. apply NoDup_remove_1 in H1.
  rewrite <- map_app in *. cbn in H4. inversion H4; subst.
  constructor; auto.
  - intros k' x C.
    assert (In (k', x) (m1 ++ (ekey e, e) :: m2)).
    { apply in_app_or in C. apply in_or_app. destruct C; [left|right; right]; auto. }
    destruct (H2 _ _ H) as (A & B & D). repeat split; auto. destruct D as [D|D]; auto.
    exfalso. subst x. rewrite A in *. apply NK. now apply (in_map fst) in C.
  - intros x H Hx. pose proof (H3 x (or_intror H) Hx) as D. apply in_app_or in D. apply in_or_app.
    destruct D as [D|[D|D]]; auto. exfalso. inversion D. subst x. apply H7. now apply in_map.
  - intros x H. apply H5. now right.
Qed.
Lemma inv0_pop_invalid : forall e h m c n, Inv0 (e :: h) m c n -> ecount e = 0 -> Inv0 h m c n.
Proof.
  intros e h m c n [H1 H2 H3 H4 H5 H6] Hc. cbn in H4. inversion H4; subst. constructor; auto.
  - intros k x H. destruct (H2 k x H) as (A & B & [D|D]); [subst; lia|auto].
  - intros x H. apply H3. now right.
  - intros x H. apply H5. now right.
Qed.
Lemma inv0_nil : forall c n, 0 < c -> Inv0 [] [] c n.
Proof. intros. constructor; try constructor; try (intros; contradiction); auto. Qed.

(** pop_valid, for any heap order [R] that [lt] decides *)
Lemma pop_valid_ok : forall (R : entry -> entry -> Prop),
  (forall a b c, R a b -> R b c -> R a c) -> (forall a b, lt a b = true -> R a b) ->
  (forall a b, lt a b = false -> R b a) ->
  forall fuel h m c n, length h < fuel -> is_heap R h -> Inv0 h m c n ->
  match pop_valid vlt veq fuel h with
  | (h', None) => m = [] /\ Inv0 h' m c n /\ is_heap R h' /\ h' = []
  | (h', Some e) => Inv0 h' (drop m (ekey e)) c n /\ is_heap R h' /\ ecount e <> 0 /\
                    dget m (ekey e) = Some e /\
                    (forall k x, In (k, x) m -> x = e \/ R e x)
  end.
Proof.
  intros R T1 T2 T3. induction fuel; intros h m c n Hf Hh HI; [lia|]. cbn [pop_valid].
  destruct (heappop lt h) as [[e h']|] eqn:P.
  - pose proof (heappop_perm _ _ _ _ P) as PP. pose proof (heappop_length _ _ _ _ P) as PL.
    pose proof (heappop_heap _ R T1 T2 T3 _ _ _ P Hh) as Hh'.
    pose proof (heappop_min _ R T1 T2 T3 _ _ _ P Hh) as MIN.
    pose proof (inv0_perm _ _ _ _ _ PP HI) as HI2.
    destruct (ecount e =? 0) eqn:C.
    + apply IHfuel; auto; [lia|]. eapply inv0_pop_invalid; eauto. lia.
    + destruct (inv0_pop_valid _ _ _ _ _ HI2 ltac:(lia)) as [G HI3]. repeat (split; auto).
      * lia.
      * intros k x H. destruct (I_map _ _ _ _ HI2 k x H) as (_ & _ & [D|D]); auto.
        right. rewrite Forall_forall in MIN. auto.
  - apply heappop_nil in P. subst h. split; [|auto].
    destruct m as [|[k e] m]; auto. destruct (I_map _ _ _ _ HI k e (or_introl eq_refl)) as (_ & _ & []).
Qed.

(** ** Refinement *)
Definition vltP (a b : V) : Prop := vlt a b = true.
Record Inv (s : agenda) (d : list (K * V)) : Prop := {
  Inv_0 : Inv0 (heap s) (mapping s) (counter s) (next_id s);
  Inv_heap : is_heap Rv (heap s);
  Inv_d : d = contents (mapping s) }.

Lemma puts_contents_new : forall m k e, dget m k = None ->
  puts k (evalue e) (contents m) (contents (dput m k e)).
Proof.
  intros m k e G. rewrite dput_new by auto. apply dget_None in G.
  unfold contents. rewrite map_app. cbn. apply puts_new. rewrite (has_contents m k). exact G.
Qed.
Lemma puts_contents_old : forall m k e old, dget m k = Some old ->
  puts k (evalue e) (contents m) (contents (dput m k e)).
Proof.
  intros m k e old G. destruct (dget_split _ _ _ _ G) as (m1 & m2 & -> & N).
  rewrite dput_old by auto. unfold contents. rewrite !map_app. cbn. apply puts_old.
  rewrite (has_contents m1 k). exact N.
Qed.
Lemma removes_contents : forall m k e, dget m k = Some e ->
  removes k (evalue e) (contents m) (contents (drop m k)).
Proof.
  intros m k e G. destruct (dget_split _ _ _ _ G) as (m1 & m2 & -> & N).
  rewrite drop_old by auto. unfold contents. rewrite !map_app. cbn. constructor.
  rewrite (has_contents m1 k). exact N.
Qed.
Lemma drop_length : forall X (m : list (K * X)) k x, dget m k = Some x -> length m = S (length (drop m k)).
Proof.
  intros X m k x G. destruct (dget_split _ _ _ _ G) as (m1 & m2 & -> & N). rewrite drop_old by auto.
  rewrite !app_length. cbn. lia.
Qed.
Lemma dput_length_old : forall X (m : list (K * X)) k x y, dget m k = Some x -> length (dput m k y) = length m.
Proof.
  intros X m k x y G. destruct (dget_split _ _ _ _ G) as (m1 & m2 & -> & N). rewrite dput_old by auto.
  rewrite !app_length. reflexivity.
Qed.

Definition lenok (s : agenda) : Prop := alen s = Z.of_nat (length (mapping s)).

Lemma setitem_ok : forall s d k v, Inv s d -> exists d', puts k v d d' /\
  Inv (setitem keqb vlt veq s k v) d' /\ (lenok s -> lenok (setitem keqb vlt veq s k v)).
Proof.
  intros s d k v [H0 H1 ->]. unfold setitem.
  destruct (dget (mapping s) k) as [old|] eqn:G.
  - exists (contents (dput (mapping s) k (E k v (ecount old) (next_id s)))). split; [|split].
    + now apply (puts_contents_old _ k (E k v (ecount old) (next_id s)) old).
    + constructor; cbn.
      * eapply inv0_perm; [symmetry; apply heappush_perm|]. now apply inv0_push_old.
      * apply (heappush_heap _ Rv Rv_trans lt_Rv nlt_Rv). now apply invalidate_heap_v.
      * reflexivity.
    + unfold lenok. cbn. intros ->. f_equal. symmetry. eapply dput_length_old. eauto.
  - exists (contents (dput (mapping s) k (E k v (counter s) (next_id s)))). split; [|split].
    + now apply (puts_contents_new _ k (E k v (counter s) (next_id s))).
    + constructor; cbn.
      * eapply inv0_perm; [symmetry; apply heappush_perm|]. now apply inv0_push_new.
      * now apply (heappush_heap _ Rv Rv_trans lt_Rv nlt_Rv).
      * reflexivity.
    + unfold lenok. cbn. intros ->. rewrite dput_new by auto. rewrite app_length. cbn. lia.
Qed.
Lemma update_ok : forall l s d, Inv s d -> exists d', puts_all l d d' /\
  Inv (fold_left (fun s kv => setitem keqb vlt veq s (fst kv) (snd kv)) l s) d' /\
  (lenok s -> lenok (fold_left (fun s kv => setitem keqb vlt veq s (fst kv) (snd kv)) l s)).
Proof.
  induction l as [|[k v] l IH]; intros s d HI; cbn.
  - exists d. split; [apply puts_all_nil|]. auto.
  - destruct (setitem_ok s d k v HI) as (d1 & P1 & I1 & L1).
    destruct (IH _ _ I1) as (d2 & P2 & I2 & L2). exists d2. split; [econstructor; eauto|]. auto.
Qed.
Lemma delitem_ok : forall s d k, Inv s d ->
  match delitem keqb s k with
  | Some (v, s') => exists d', removes k v d d' /\ Inv s' d' /\ (lenok s -> lenok s')
  | None => ~ has d k
  end.
Proof.
  intros s d k [H0 H1 ->]. unfold delitem. destruct (dget (mapping s) k) as [e|] eqn:G.
  - exists (contents (drop (mapping s) k)). split; [now apply removes_contents|]. split.
    + constructor; cbn; auto.
      * now apply inv0_del.
      * now apply invalidate_heap_v.
    + unfold lenok. cbn. intros ->. rewrite (drop_length _ _ _ _ G). lia.
  - rewrite has_contents. now apply dget_None.
Qed.
Lemma popitem_ok : forall s d, Inv s d ->
  match popitem keqb vlt veq s with
  | (s', RItem k v) => least vltP d k v /\ exists d', removes k v d d' /\ Inv s' d' /\ (lenok s -> lenok s')
  | (s', RIndexError) => d = [] /\ Inv s' d /\ (lenok s -> lenok s')
  | _ => False
  end.
Proof.
  intros s d [H0 H1 ->]. unfold popitem.
  pose proof (pop_valid_ok Rv Rv_trans lt_Rv nlt_Rv (S (length (heap s))) (heap s) _ _ _ ltac:(lia) H1 H0) as P.
  destruct (pop_valid vlt veq (S (length (heap s))) (heap s)) as [h [e|]].
  - destruct P as (P1 & P2 & P3 & P4 & P5). split.
    + split.
      * apply dget_Some in P4. unfold contents.
        apply (in_map (fun ke => (fst ke, evalue (snd ke)))) in P4. exact P4.
      * intros k' v' H. unfold contents in H. apply in_map_iff in H. destruct H as ([k2 x] & E & H).
        inversion E; subst. cbn. destruct (P5 _ _ H) as [->|R].
        -- unfold vltP. rewrite vlt_irrefl. discriminate.
        -- unfold Rv in R. unfold vltP. congruence.
    + exists (contents (drop (mapping s) (ekey e))). split; [now apply removes_contents|].
      split; [constructor; cbn; auto|]. unfold lenok. cbn. intros ->. rewrite (drop_length _ _ _ _ P4). lia.
  - destruct P as (P1 & P2 & P3 & P4). rewrite P1. split; auto. split.
    + rewrite P1 in P2. constructor; cbn; auto.
    + unfold lenok. rewrite P1. cbn. auto.
Qed.

(** Operations whose result the general theorem speaks about. *)
Definition plain (o : op K V) : Prop :=
  match o with OPeek | OLen | OBool => False | _ => True end.
Definition plainlen (o : op K V) : Prop :=
  match o with OPeek | OClear => False | _ => True end.

Lemma step_ok : forall s d o, Inv s d -> (plain o \/ plainlen o /\ lenok s) ->
  let '(s', r) := step keqb vlt veq s o in
  exists d', spec_step (least vltP) d o r d' /\ Inv s' d' /\ (plainlen o -> lenok s -> lenok s').
Proof.
  intros s d o HI HO. destruct o; cbn [step].
  - destruct (setitem_ok s d k v HI) as (d' & P & I' & L). exists d'. split; [now constructor|]. auto.
  - destruct (update_ok l s d HI) as (d' & P & I' & L). exists d'. split; [now constructor|]. auto.
  - pose proof (delitem_ok s d k HI) as D. destruct (delitem keqb s k) as [[v s']|].
    + destruct D as (d' & P & I' & L). exists d'. split; [econstructor; eauto|]. auto.
    + exists d. split; [now constructor|]. auto.
  - pose proof (delitem_ok s d k HI) as D. destruct (delitem keqb s k) as [[v s']|].
    + destruct D as (d' & P & I' & L). exists d'. split; [econstructor; eauto|]. auto.
    + exists d. split; [now constructor|]. auto.
  - pose proof (popitem_ok s d HI) as P. destruct (popitem keqb vlt veq s) as [s' r].
    destruct r; try contradiction.
    + destruct P as (-> & I' & L). exists []. split; [constructor|]. auto.
    + destruct P as (M & d' & P & I' & L). exists d'. split; [econstructor; eauto|]. auto.
  - pose proof (popitem_ok s d HI) as P. destruct (popitem keqb vlt veq s) as [s' r].
    destruct r; try contradiction.
    + destruct P as (-> & I' & L). exists []. split; [constructor|]. auto.
    + destruct P as (M & d' & P & I' & L). exists d'. split; [econstructor; eauto|]. auto.
  - destruct HO as [[]|[[] _]].
  - pose proof HI as [H0 H1 ->]. destruct (dget (mapping s) k) as [e|] eqn:G.
    + exists (contents (mapping s)). split; [|auto]. constructor.
      apply dget_Some in G. apply (in_map (fun ke => (fst ke, evalue (snd ke)))) in G. exact G.
    + exists (contents (mapping s)). split; [|auto]. constructor. rewrite has_contents. now apply dget_None.
  - pose proof HI as [H0 H1 ->]. exists (contents (mapping s)). split; [|auto].
    destruct (dget (mapping s) k) as [e|] eqn:G; constructor; rewrite has_contents.
    + apply dget_Some in G. now apply (in_map fst) in G.
    + now apply dget_None.
  - destruct HO as [[]|[_ L]]. exists d. split; [|auto]. pose proof HI as [H0 H1 ->].
    rewrite L. unfold contents. rewrite <- (map_length (fun ke => (fst ke, evalue (snd ke)))). constructor.
  - destruct HO as [[]|[_ L]]. exists d. split; [|auto]. pose proof HI as [H0 H1 ->].
    rewrite L. destruct (mapping s) as [|x m] eqn:Em; cbn; constructor. discriminate.
  - exists d. split; [|auto]. destruct HI as [H0 H1 ->]. constructor.
  - exists []. split; [constructor|]. split; [|intros []].
    constructor; cbn; auto; [apply inv0_nil; lia|]. intros i x Hi. cbn in Hi. lia.
Qed.

Lemma run_ok : forall ops s d, Inv s d ->
  (Forall plain ops \/ Forall plainlen ops /\ lenok s) ->
  spec_run (least vltP) d ops (run keqb vlt veq s ops).
Proof.
  induction ops as [|o ops IH]; intros s d HI HO; cbn [run]; [constructor|].
  pose proof (step_ok s d o HI) as ST. destruct (step keqb vlt veq s o) as [s' r].
  destruct ST as (d' & S1 & S2 & S3).
  { destruct HO as [HO|[HO L]]; inversion HO; auto. }
  econstructor; eauto. apply IH; auto.
  destruct HO as [HO|[HO L]]; inversion HO; subst; auto.
Qed.

(** ** Initialisation *)
Record InvI (s : agenda) (d : list (K * V)) : Prop := {
  InvI_0 : Inv0 (heap s) (mapping s) (counter s) (next_id s);
  InvI_cnt : forall k e, In (k, e) (mapping s) -> ecount e < counter s;
  InvI_sorted : StronglySorted (fun a b => ecount (snd a) < ecount (snd b)) (mapping s);
  InvI_d : d = contents (mapping s) }.

Lemma sorted_put_end : forall (m : list (K * entry)) k e,
  StronglySorted (fun a b => ecount (snd a) < ecount (snd b)) m ->
  (forall k' e', In (k', e') m -> ecount e' < ecount e) ->
  StronglySorted (fun a b => ecount (snd a) < ecount (snd b)) (m ++ [(k, e)]).
Proof.
  induction m as [|x m IH]; intros k e S H; cbn; [repeat constructor|].
  inversion S; subst. constructor; [apply IH; auto; intros; eapply H; right; eauto|].
  rewrite Forall_forall in *. intros y Hy. apply in_app_or in Hy. destruct Hy as [Hy|[<-|[]]]; auto.
  destruct x as [k1 e1]. apply (H k1 e1). now left.
Qed.
Lemma sorted_put_mid : forall (m1 m2 : list (K * entry)) k e old, ecount e = ecount old ->
  StronglySorted (fun a b => ecount (snd a) < ecount (snd b)) (m1 ++ (k, old) :: m2) ->
  StronglySorted (fun a b => ecount (snd a) < ecount (snd b)) (m1 ++ (k, e) :: m2).
Proof.
  induction m1 as [|x m IH]; intros m2 k e old E S; cbn in *; inversion S; subst.
  - constructor; auto. rewrite Forall_forall in *. cbn in *. rewrite E. auto.
  - constructor; [eapply IH; eauto|]. rewrite Forall_forall in *. intros y Hy. apply in_app_or in Hy.
    destruct Hy as [Hy|[<-|Hy]].
    + apply H2. apply in_or_app; auto.
    + cbn. rewrite E. apply (H2 (k, old)). apply in_elt.
    + apply H2. apply in_or_app. right. now right.
Qed.
Lemma sorted_drop : forall (m1 m2 : list (K * entry)) x,
  StronglySorted (fun a b => ecount (snd a) < ecount (snd b)) (m1 ++ x :: m2) ->
  StronglySorted (fun a b => ecount (snd a) < ecount (snd b)) (m1 ++ m2).
Proof.
  induction m1 as [|y m IH]; intros m2 x S; cbn in *; inversion S; subst; auto.
  constructor; [eapply IH; eauto|]. rewrite Forall_forall in *. intros z Hz. apply H2.
  apply in_app_or in Hz. apply in_or_app. destruct Hz; auto. right. now right.
Qed.

Lemma init_step_ok : forall s d l k v, InvI s d -> initial vltP l d ->
  exists d', initial vltP (l ++ [(k, v)]) d' /\ InvI (init_step keqb vlt veq s (k, v)) d'.
Proof.
  intros s d l k v [H0 H1 HS ->] Hd. unfold init_step.
  destruct (dget (mapping s) k) as [old|] eqn:G.
  - assert (IO : In (k, old) (mapping s)) by now apply dget_Some.
    destruct (entry_lt vlt veq (E k v (counter s) (next_id s)) old) eqn:L.
    + assert (VL : vlt v (evalue old) = true).
      { apply lt_cases in L. cbn in L. destruct L as [L|(_ & _ & L)]; auto. apply H1 in IO. lia. }
      set (e' := E k v (ecount old) (next_id s)).
      destruct (dget_split _ _ _ _ G) as (m1 & m2 & Em & N).
      exists (contents (dput (mapping s) k e')). split.
      * rewrite Em at 1. rewrite dput_old by auto. unfold contents. rewrite map_app. cbn.
        eapply initial_better; [exact Hd| |exact VL].
        rewrite Em. unfold contents. rewrite map_app. reflexivity.
      * constructor; cbn; auto.
        -- eapply inv0_perm; [apply Permutation_cons_append|]. apply inv0_push_old; auto.
        -- intros k' e H. rewrite Em in H. rewrite dput_old in H by auto.
           apply in_app_or in H. destruct H as [H|[H|H]].
           ++ apply (H1 k'). rewrite Em. apply in_or_app; auto.
           ++ inversion H; subst. cbn. eapply H1; eauto.
           ++ apply (H1 k'). rewrite Em. apply in_or_app. right. now right.
        -- rewrite Em in *. rewrite dput_old by auto. eapply sorted_put_mid; [|exact HS]. reflexivity.
    + exists (contents (mapping s)). split.
      * eapply initial_worse; [exact Hd| |].
        -- apply (in_map (fun ke => (fst ke, evalue (snd ke)))) in IO. exact IO.
        -- unfold vltP. intros C. rewrite (proj2 (lt_cases _ _)) in L; [discriminate|]. auto.
      * constructor; cbn; auto. destruct H0. constructor; auto. intros e H. apply I_fresh0 in H. lia.
  - set (e := E k v (counter s) (next_id s)).
    exists (contents (dput (mapping s) k e)). split.
    + rewrite dput_new by auto. unfold contents. rewrite map_app. cbn. apply initial_new; auto.
      rewrite (has_contents (mapping s) k). now apply dget_None.
    + constructor; cbn; auto.
      * eapply inv0_perm; [apply Permutation_cons_append|]. apply inv0_push_new; auto.
      * intros k' x H. rewrite dput_new in H by auto. apply in_app_or in H. destruct H as [H|[H|[]]].
        -- apply H1 in H. lia.
        -- inversion H; subst. cbn. lia.
      * rewrite dput_new by auto. apply sorted_put_end; auto.
Qed.
Lemma init_fold_ok : forall l s d l0, InvI s d -> initial vltP l0 d ->
  exists d', initial vltP (l0 ++ l) d' /\ InvI (fold_left (init_step keqb vlt veq) l s) d'.
Proof.
  induction l as [|[k v] l IH]; intros s d l0 HI Hd.
  - exists d. now rewrite app_nil_r.
  - destruct (init_step_ok s d l0 k v HI Hd) as (d' & D1 & I1).
    destruct (IH _ _ _ I1 D1) as (d2 & D2 & I2). exists d2. rewrite <- app_assoc in D2. cbn in D2. auto.
Qed.
Lemma empty_InvI : InvI (A [] [] 1 0%Z 0) [].
Proof. constructor; cbn; auto; [apply inv0_nil; lia|contradiction|constructor]. Qed.

Lemma init_ok : forall l, exists d, initial vltP l d /\ InvI (init keqb vlt veq l) d /\
  is_heap Rv (heap (init keqb vlt veq l)) /\ is_heap Rc (heap (init keqb vlt veq l)) /\
  lenok (init keqb vlt veq l).
Proof.
  intros l. destruct (init_fold_ok l _ _ [] empty_InvI (initial_nil _)) as (d & D & HI).
  exists d. cbn in D. split; auto. unfold init.
  set (s := fold_left (init_step keqb vlt veq) l (A [] [] 1 0%Z 0)) in *.
  destruct HI as [H0 H1 HS Hd]. split; [constructor; cbn; auto|]; [|split; [|split]].
  - eapply inv0_perm; [symmetry; apply heapify_perm|auto].
  - apply (heapify_heap _ Rv Rv_trans lt_Rv nlt_Rv).
  - apply (heapify_heap _ Rc Rc_trans lt_Rc). auto.
  - reflexivity.
Qed.
Lemma InvI_Inv : forall s d, InvI s d -> is_heap Rv (heap s) -> Inv s d.
Proof. intros s d [H0 H1 HS Hd] H. constructor; auto. Qed.

(** ** First-in first-out among ties, and peekitem, when no key is updated *)
Definition allvalid (s : agenda) : Prop := Forall (fun e => ecount e <> 0) (heap s).
Record InvF (s : agenda) (d : list (K * V)) : Prop := {
  InvF_I : InvI s d;
  InvF_heap : is_heap Rc (heap s) }.

Notation fresh_history := (fresh_history vltP).
Lemma oldest_of_min : forall m e, StronglySorted (fun a b => ecount (snd a) < ecount (snd b)) m ->
  NoDup (map fst m) -> dget m (ekey e) = Some e ->
  (forall k x, In (k, x) m -> x = e \/ Rc e x) ->
  oldest_least vltP (contents m) (ekey e) (evalue e).
Proof.
  intros m e HS ND G MIN. destruct (dget_split _ _ _ _ G) as (m1 & m2 & -> & N).
  exists (contents m1), (contents m2). split; [unfold contents; now rewrite map_app|]. split.
  - intros k' v' H. unfold contents in H. apply in_map_iff in H. destruct H as ([k x] & Ex & H).
    cbn in Ex. inversion Ex; subst.
    assert (C : ecount x < ecount e).
    { clear - HS H. induction m1 as [|y m1 IH]; [contradiction|]. cbn in HS. inversion HS; subst.
      destruct H as [->|H]; auto. rewrite Forall_forall in H3. apply (H3 (ekey e, e)). apply in_elt. }
    destruct (MIN k' x) as [->|R]; [apply in_or_app; auto|lia|].
    apply Rc_cases in R. destruct R as [R|(_ & _ & R)]; [exact R|lia].
  - intros k' v' H. unfold contents in H. apply in_map_iff in H. destruct H as ([k x] & Ex & H).
    cbn in Ex. inversion Ex; subst.
    destruct (MIN k' x) as [->|R]; [apply in_or_app; right; now right| |].
    + unfold vltP. rewrite vlt_irrefl. discriminate.
    + apply Rc_cases in R. unfold vltP. destruct R as [R|(_ & R & _)]; [apply vlt_asym in R|]; congruence.
Qed.

Lemma fresh_pop_ok : forall s d, InvF s d ->
  match popitem keqb vlt veq s with
  | (s', RItem k v) => oldest_least vltP d k v /\ exists d', removes k v d d' /\ InvF s' d' /\ (allvalid s -> allvalid s')
  | (s', RIndexError) => d = [] /\ InvF s' d /\ (allvalid s -> allvalid s')
  | _ => False
  end.
Proof.
  intros s d [[H0 H1 HS ->] H2]. unfold popitem.
  pose proof (pop_valid_ok Rc Rc_trans lt_Rc (fun a b H => H) (S (length (heap s))) (heap s) _ _ _ ltac:(lia) H2 H0) as P.
  assert (AV : forall f h, Forall (fun e : entry => ecount e <> 0) h ->
            Forall (fun e : entry => ecount e <> 0) (fst (pop_valid vlt veq f h))).
  { induction f; intros h F; cbn [pop_valid]; auto. destruct (heappop _ h) as [[e h']|] eqn:Ep; auto.
    apply heappop_perm in Ep. rewrite Forall_forall in F.
    assert (F' : Forall (fun e : entry => ecount e <> 0) h').
    { apply Forall_forall. intros x Hx. apply F. eapply Permutation_in; [symmetry; eauto|now right]. }
    destruct (ecount e =? 0); auto. }
  specialize (AV (S (length (heap s))) (heap s)).
  destruct (pop_valid vlt veq (S (length (heap s))) (heap s)) as [h [e|]].
  - destruct P as (P1 & P2 & P3 & P4 & P5). split.
    + apply oldest_of_min; auto. apply H0.
    + exists (contents (drop (mapping s) (ekey e))). split; [now apply removes_contents|].
      split; [|exact AV].
      destruct (dget_split _ _ _ _ P4) as (m1 & m2 & Em & N).
      constructor; [constructor|]; cbn; auto.
      * intros k x H. rewrite Em, drop_old in H by auto. apply (H1 k). rewrite Em.
        apply in_app_or in H. apply in_or_app. destruct H; auto. right. now right.
      * rewrite Em in *. rewrite drop_old by auto. eapply sorted_drop; eauto.
  - destruct P as (P1 & P2 & P3 & P4). rewrite P1. split; auto. split; [|exact AV].
    constructor; [constructor|]; cbn; auto; rewrite ?P1; auto; try contradiction; try constructor.
    all: try (rewrite P1 in P2; apply P2).
Qed.

Lemma peek_ok : forall s d, InvF s d -> allvalid s ->
  match peekitem vlt veq s with
  | (s', RItem k v) => s' = s /\ oldest_least vltP d k v
  | (s', RIndexError) => s' = s /\ d = []
  | _ => False
  end.
Proof.
  intros s d [[H0 H1 HS ->] H2] AV. unfold peekitem. destruct (heap s) as [|e t] eqn:Eh.
  - split; auto. destruct (mapping s) as [|[k x] m] eqn:Em; auto.
    destruct (I_map _ _ _ _ H0 k x ltac:(now left)) as (_ & _ & []).
  - unfold allvalid in AV. rewrite Eh in AV. inversion AV; subst.
    cbn [length peek_loop]. replace (ecount e =? 0) with false by lia. split.
    + destruct s; cbn in *. now subst.
    + apply oldest_of_min; auto.
      * apply H0.
      * apply in_dget; [apply H0|]. apply (I_heap _ _ _ _ H0); [now left|auto].
      * intros k x H. destruct (I_map _ _ _ _ H0 k x H) as (_ & _ & [D|D]); auto.
        right. pose proof (heap_top_min lt Rc Rc_trans lt_Rc (fun a b H => H) _ _ H2) as M.
        rewrite Forall_forall in M. auto.
Qed.

Lemma fresh_run_ok : forall peek ops s d, InvF s d -> fresh_history peek d ops ->
  (peek -> allvalid s) -> spec_run (oldest_least vltP) d ops (run keqb vlt veq s ops).
Proof.
  intros peek. induction ops as [|o ops IH]; intros s d HI HF HP; cbn [run]; [constructor|].
  inversion HF; subst.
  - cbn [step]. pose proof HI as [[X0 X1 HS ->] X3].
    assert (G : AgendaModel.dget keqb (mapping s) k = None) by (apply dget_None; now rewrite <- has_contents).
    set (e := E k v (counter s) (next_id s)).
    assert (P : puts k v (contents (mapping s)) (contents (mapping s) ++ [(k, v)])) by (now apply puts_new).
    econstructor; [apply S_set; exact P|].
    unfold setitem. rewrite G. fold e. apply IH; auto.
    + constructor; [constructor|]; cbn.
      * eapply inv0_perm; [symmetry; apply heappush_perm|]. now apply inv0_push_new.
      * intros k' x H. rewrite dput_new in H by auto. apply in_app_or in H. destruct H as [H|[H|[]]].
        -- apply X1 in H. lia.
        -- inversion H; subst. cbn. lia.
      * rewrite dput_new by auto. apply sorted_put_end; auto.
      * rewrite dput_new by auto. unfold contents. rewrite map_app. reflexivity.
      * apply (heappush_heap _ Rc Rc_trans lt_Rc); auto.
    + intros p. unfold allvalid. cbn. apply Forall_forall. intros x Hx.
      eapply Permutation_in in Hx; [|apply heappush_perm]. destruct Hx as [<-|Hx].
      * cbn. pose proof (I_cnt _ _ _ _ X0). lia.
      * specialize (HP p). unfold allvalid in HP. rewrite Forall_forall in HP. auto.
  - cbn [step]. pose proof (fresh_pop_ok s d HI) as P. destruct (popitem keqb vlt veq s) as [s' r].
    destruct r; try contradiction.
    + destruct P as (-> & I' & A'). econstructor; [constructor|]. apply IH; auto.
    + destruct P as (M & d' & P & I' & A'). econstructor; [econstructor; eauto|].
      apply IH; eauto.
  - cbn [step]. pose proof (peek_ok s d HI ltac:(auto)) as P.
    destruct (peekitem vlt veq s) as [s' r]. destruct r; try contradiction.
    + destruct P as [-> ->]. econstructor; [constructor|]. auto.
    + destruct P as [-> P]. econstructor; [constructor; exact P|]. auto.
  - cbn [step]. pose proof HI as [[X0 X1 HS ->] X3]. destruct (AgendaModel.dget keqb (mapping s) k) as [e|] eqn:G.
    + econstructor; [constructor|auto]. apply dget_Some in G.
      apply (in_map (fun ke => (fst ke, evalue (snd ke)))) in G. exact G.
    + econstructor; [constructor|auto]. rewrite has_contents. now apply dget_None.
  - cbn [step]. pose proof HI as [[X0 X1 HS ->] X3]. econstructor; [|eauto].
    destruct (AgendaModel.dget keqb (mapping s) k) as [e|] eqn:G; constructor; rewrite has_contents.
    + apply dget_Some in G. now apply (in_map fst) in G.
    + now apply dget_None.
  - cbn [step]. pose proof HI as [[X0 X1 HS ->] X3]. econstructor; [constructor|auto].
Qed.

Lemma initial_nodup : forall (l d : list (K * V)), initial vltP l d -> NoDup (map fst l) -> d = l.
Proof.
  induction 1; intros ND; auto.
  - rewrite map_app in ND. cbn in ND. rewrite IHinitial; auto. eapply NoDup_remove_1 in ND. now rewrite app_nil_r in ND.
  - exfalso. rewrite map_app in ND. cbn in ND. pose proof (NoDup_remove_1 _ _ _ ND) as ND1. rewrite app_nil_r in ND1.
    apply NoDup_remove_2 in ND. rewrite app_nil_r in ND. apply ND. rewrite <- IHinitial by auto. subst d.
    rewrite map_app. apply in_elt.
  - exfalso. rewrite map_app in ND. cbn in ND. pose proof (NoDup_remove_1 _ _ _ ND) as ND1. rewrite app_nil_r in ND1.
    apply NoDup_remove_2 in ND. rewrite app_nil_r in ND. apply ND. rewrite <- IHinitial by auto.
    now apply (in_map fst) in H0.
Qed.
Lemma init_allvalid : forall (l : list (K * V)), NoDup (map fst l) -> allvalid (init keqb vlt veq l).
Proof.
  intros l ND. unfold allvalid, init. cbn. apply Forall_forall. intros x Hx.
  eapply Permutation_in in Hx; [|apply heapify_perm].
  assert (G : forall l s, NoDup (map fst (mapping s) ++ map fst l) -> 0 < counter s ->
    Forall (fun e => ecount e <> 0) (heap s) ->
    Forall (fun e => ecount e <> 0) (heap (fold_left (init_step keqb vlt veq) l s))).
  { induction l0 as [|[k v] l0 IH]; intros s N C F; cbn; auto.
    assert (Gn : dget (mapping s) k = None).
    { apply dget_None. cbn in N. apply NoDup_remove_2 in N. intros H. apply N. apply in_or_app; auto. }
    rewrite Gn. apply IH; cbn.
    - rewrite dput_new by auto. rewrite map_app. cbn. rewrite <- app_assoc. exact N.
    - lia.
    - apply Forall_app. split; auto. constructor; auto. cbn. lia. }
  specialize (G l (A [] [] 1 0%Z 0)). cbn in G. specialize (G ND ltac:(lia) ltac:(constructor)).
  rewrite Forall_forall in G. auto.
Qed.
End Proofs.
