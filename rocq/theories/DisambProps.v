(** C65: disambiguation of the k-best derivations.  Uses the real numbers of the
    standard library (and therefore its axioms for them, listed in DESIGN.md). *)
From Coq Require Import String.
From Coq Require Import Reals Lra.
From Coq Require Import List Bool Arith NArith ZArith Lia Permutation Sorted.
From Verif Require Import PyStr DisambModel DisambSpec DisambProofs DisambProofs2 DisambProofs3.
Import ListNotations.
Open Scope R_scope.

(** ** Sums in log space *)
Theorem C65_logprobsum : forall l, logprobsum l = rsum (map exp l).
Proof. exact logprobsum_ok. Qed.

(** adding log probabilities is exact when they are less than 460 apart, and
    otherwise loses at most a fraction exp(-460) of the sum *)
Theorem C65_logprobadd : forall x y,
  (Rabs (x - y) <= 460 -> exp (logprobadd x y) = exp x + exp y)
  /\ (exp x + exp y) * (1 - exp (-460)) <= exp (logprobadd x y) <= exp x + exp y.
Proof.
  assert (EX : forall x y, exp (x + ln (1 + exp (y - x))) = exp x + exp y).
  { intros x y. rewrite exp_plus, exp_ln by (pose proof (exp_pos (y - x)); lra).
    rewrite Rmult_plus_distr_l, <- exp_plus. replace (x + (y - x)) with y by lra. lra. }
  assert (BD : forall x y, x < y - 460 ->
     (exp x + exp y) * (1 - exp (-460)) <= exp y <= exp x + exp y).
  { intros x y H. pose proof (exp_pos x) as PX. pose proof (exp_pos y) as PY.
    pose proof (exp_pos (-460)) as PE.
    assert (L : exp x <= exp y * exp (-460)).
    { rewrite <- exp_plus. left. apply exp_increasing. lra. }
    split; [|lra].
    assert (Q : 0 <= exp x * exp (-460)) by (apply Rmult_le_pos; lra).
    replace ((exp x + exp y) * (1 - exp (-460)))
      with (exp y + (exp x - exp y * exp (-460)) - exp x * exp (-460)) by ring.
    lra. }
  intros x y. unfold logprobadd.
  destruct (Rlt_dec x (y - 460)) as [H|H].
  - split; [|auto]. intros A. exfalso. unfold Rabs in A. destruct (Rcase_abs (x - y)); lra.
  - destruct (Rlt_dec y (x - 460)) as [H'|H'].
    + split; [|rewrite (Rplus_comm (exp x)); auto].
      intros A. exfalso. unfold Rabs in A. destruct (Rcase_abs (x - y)); lra.
    + split; [auto|]. rewrite EX.
      pose proof (exp_pos x) as PX. pose proof (exp_pos y) as PY. pose proof (exp_pos (-460)) as PE.
      assert (Q : 0 <= (exp x + exp y) * exp (-460)) by (apply Rmult_le_pos; lra).
      rewrite Rmult_minus_distr_l. lra.
Qed.

(** ** Most probable parse *)
Theorem C65_mpp : forall (D : Type) (key : D -> option pystr) (ds : list (D * R)),
  let r := marg_mpp key ds in
  (* each tree occurs once, and exactly the trees of the derivations occur *)
  NoDup (map (fun x => fst (fst x)) r)
  /\ (forall t, In t (map (fun x => fst (fst x)) r)
        <-> exists d c, In (d, c) ds /\ key d = Some t)
  (* the probability of a tree is the sum over its derivations *)
  /\ (forall t p f, In (t, p, f) r -> p = treeprob key ds t)
  (* no derivation is lost or counted twice *)
  /\ rsum (map (fun x => snd (fst x)) r) = mass key ds.
Proof.
  intros D key ds. cbv zeta. split; [apply marg_mpp_nodup|]. split; [apply marg_mpp_keys|].
  split; [|apply marg_mpp_mass]. intros t p f H. exact (proj1 (marg_mpp_prob _ _ _ _ _ H)).
Qed.

(** the result does not depend on the order of the derivations *)
Theorem C65_mpp_order : forall (D : Type) (key : D -> option pystr) (ds ds' : list (D * R)),
  Permutation ds ds' ->
  Permutation (map fst (marg_mpp key ds)) (map fst (marg_mpp key ds')).
Proof.
  intros D key ds ds' P.
  assert (ND : forall l, NoDup (map fst (marg_mpp key l))).
  { intros l. apply (NoDup_map_inv fst). rewrite map_map. apply marg_mpp_nodup. }
  assert (HH : forall l l', Permutation l l' -> forall x,
     In x (map fst (marg_mpp key l)) -> In x (map fst (marg_mpp key l'))).
  { intros l l' Q [t p] I. apply in_map_iff in I. destruct I as ([[t' p'] f] & E & I).
    cbn in E. inversion E; subst.
    pose proof (proj1 (marg_mpp_prob _ _ _ _ _ I)) as Ep.
    assert (It : In t (map (fun x => fst (fst x)) (marg_mpp key l'))).
    { apply marg_mpp_keys.
      assert (Il : In t (map (fun x => fst (fst x)) (marg_mpp key l))).
      { change t with ((fun x : pystr * R * option D => fst (fst x)) (t, p, f)). now apply in_map. }
      apply marg_mpp_keys in Il. destruct Il as (d & c & Id & Ed).
      exists d, c. split; [|exact Ed]. now apply (Permutation_in _ Q). }
    apply in_map_iff in It. destruct It as ([[t2 p2] f2] & E2 & I2). cbn in E2. subst t2.
    pose proof (proj1 (marg_mpp_prob _ _ _ _ _ I2)) as Ep2.
    assert (p2 = p).
    { rewrite Ep, Ep2. unfold treeprob. apply rsum_perm. apply Permutation_map.
      symmetry. clear - Q. induction Q; cbn [filter].
      - constructor.
      - destruct (yields key t (fst x)); [apply perm_skip; exact IHQ|exact IHQ].
      - destruct (yields key t (fst x)), (yields key t (fst y)); try apply perm_swap; reflexivity.
      - etransitivity; eauto. }
    apply in_map_iff. exists (t, p2, f2). split; [cbn; congruence|exact I2]. }
  apply NoDup_Permutation; [apply ND|apply ND|].
  intros x. split; [apply HH; exact P|apply HH; symmetry; exact P].
Qed.

(** the fragments reported for a tree are those of one of its most probable
    derivations, when the derivations are listed by increasing cost (k-best) *)
Theorem C65_mpp_derivation : forall (D : Type) (key : D -> option pystr) (ds : list (D * R)) t p f,
  StronglySorted (fun x y => snd x <= snd y) ds ->
  In (t, p, f) (marg_mpp key ds) ->
  exists d c, f = Some d /\ In (d, c) ds /\ key d = Some t
    /\ forall d' c', In (d', c') ds -> key d' = Some t -> c <= c'.
Proof.
  intros D key ds t p f SS I.
  assert (It : In t (map (fun x => fst (fst x)) (marg_mpp key ds))).
  { change t with ((fun x : pystr * R * option D => fst (fst x)) (t, p, f)). now apply in_map. }
  apply marg_mpp_keys in It. apply marg_mpp_prob in I. destruct I as [_ ->].
  destruct It as (d0 & c0 & I0 & E0).
  induction SS as [|[d c] ds SS IH FA]; [contradiction|].
  cbn [find fst]. destruct (yields key t d) eqn:Y.
  - exists d, c. split; [reflexivity|]. split; [now left|]. split; [now apply yields_spec|].
    intros d' c' [E|I'] _; [inversion E; lra|]. rewrite Forall_forall in FA. exact (FA _ I').
  - destruct I0 as [E|I0].
    + inversion E; subst. apply yields_spec in E0. congruence.
    + destruct (IH I0) as (d1 & c1 & A & B & C & M). exists d1, c1.
      split; [exact A|]. split; [now right|]. split; [exact C|].
      intros d' c' [E|I'] E'; [|eauto]. inversion E; subst. apply yields_spec in E'. congruence.
Qed.

(** the parse selected by the parser is the most probable one among all trees *)
Theorem C65_mpp_best : forall (D : Type) (key : D -> option pystr) (ds : list (D * R)) x l,
  marg_mpp key ds = x :: l ->
  let '(t, p, _) := maxby x (fun y => snd (fst y)) l in
  (exists d c, In (d, c) ds /\ key d = Some t) /\ p = treeprob key ds t
  /\ forall t', treeprob key ds t' <= p.
Proof.
  intros D key ds x l E. destruct (maxby_spec _ (fun y : pystr * R * option D => snd (fst y)) l x) as [I M].
  destruct (maxby x (fun y => snd (fst y)) l) as [[t p] f]. rewrite <- E in I, M. cbn in M.
  pose proof (proj1 (marg_mpp_prob _ _ _ _ _ I)) as Ep.
  split.
  { apply marg_mpp_keys. change t with ((fun x : pystr * R * option D => fst (fst x)) (t, p, f)).
    now apply in_map. }
  split; [exact Ep|]. intros t'.
  destruct (in_dec (list_eq_dec N.eq_dec) t' (map (fun x => fst (fst x)) (marg_mpp key ds))) as [J|J].
  - apply in_map_iff in J. destruct J as ([[t2 p2] f2] & E2 & I2). cbn in E2. subst t2.
    rewrite <- (proj1 (marg_mpp_prob _ _ _ _ _ I2)). exact (M _ I2).
  - rewrite marg_mpp_keys in J. unfold treeprob.
    replace (filter (fun x0 => yields key t' (fst x0)) ds) with (@nil (D * R)).
    + cbn. rewrite Ep. unfold treeprob. clear.
      induction (filter (fun x => yields key t (fst x)) ds) as [|y r IH]; cbn [map].
      * cbn. lra.
      * rewrite rsum_cons. pose proof (exp_pos (- snd y)). lra.
    + destruct (filter (fun x0 => yields key t' (fst x0)) ds) as [|[d c] r] eqn:F; [reflexivity|].
      exfalso. apply J. exists d, c. rewrite <- yields_spec.
      assert (Q : In (d, c) (filter (fun x => yields key t' (fst x)) ds)) by (rewrite F; now left).
      apply filter_In in Q. exact Q.
Qed.

(** ** Derivations of a DOP reduction: the tree of a derivation string *)
Theorem C65_tree_of_derivation : forall d, wf d ->
  removeids [] (show d) = show (forget d)
  /\ removeids [64; 49]%N (show d) = show (anonymize d).
Proof.
  intros d W. split; rewrite removeids_show by assumption;
    [apply showr_forget|apply showr_anonymize].
Qed.
(** two derivations are merged iff they yield the same parse tree *)
Theorem C65_same_tree : forall d d', wf d -> wf d' ->
  (removeids [] (show d) = removeids [] (show d') <-> forget d = forget d').
Proof.
  intros d d' W W'. rewrite !removeids_show, !showr_forget by assumption. split; [|congruence].
  apply show_injective; now apply wf_forget.
Qed.
Theorem C65_mpp_dop : forall (ds : list (dt * R)) t p f,
  Forall (fun x => wf (fst x)) ds ->
  In (t, p, f) (marg_mpp (fun s => Some (removeids [] s))
                  (map (fun x => (show (fst x), snd x)) ds)) ->
  p = rsum (map (fun x => exp (- snd x))
        (filter (fun x => eqs (show (forget (fst x))) t) ds)).
Proof.
  intros ds t p f W I. apply marg_mpp_prob in I. destruct I as [-> _].
  unfold treeprob. f_equal. induction W as [|[d c] ds Wd W IH]; [reflexivity|].
  cbn [map filter fst snd].
  assert (Y : yields (fun s => Some (removeids [] s)) t (show d) = eqs (show (forget d)) t).
  { unfold yields. now rewrite (removeids_show _ _ Wd), showr_forget. }
  rewrite Y. destruct (eqs (show (forget d)) t); cbn [map fst snd]; now rewrite IH.
Qed.

(** ** Most probable derivation *)
Theorem C65_mpd : forall (D : Type) (key : D -> option pystr) (final : pystr -> pystr)
    (ds : list (D * R)),
  let r := marg_mpd key final ds in
  (* every entry reports the most probable derivation with its key *)
  (forall t p f, In (t, p, f) r -> exists k d c,
      t = final k /\ f = Some d /\ p = exp (- c) /\ In (d, c) ds /\ key d = Some k
      /\ forall d' c', In (d', c') ds -> key d' = Some k -> c <= c')
  (* every derivation is represented by an entry that is at least as probable *)
  /\ (forall d c k, In (d, c) ds -> key d = Some k ->
       exists p f, In (final k, p, f) r /\ exp (- c) <= p)
  (* there is one entry per key *)
  /\ (forall ks, NoDup ks -> (forall k, In k ks <-> exists d c, In (d, c) ds /\ key d = Some k) ->
       Permutation (map (fun x => fst (fst x)) r) (map final ks)).
Proof.
  intros D key final ds. cbv zeta. split; [|split].
  - intros t p f I. apply marg_mpd_sound in I. destruct I as (k & d & c & A & B & C & I & E & M).
    exists k, d, c. auto 10.
  - intros d c k I E. exact (marg_mpd_complete key final ds d c k I E).
  - intros. now apply marg_mpd_length.
Qed.
(** the parse selected by the parser belongs to the most probable derivation *)
Theorem C65_mpd_best : forall (D : Type) (key : D -> option pystr) (final : pystr -> pystr)
    (ds : list (D * R)) x l,
  marg_mpd key final ds = x :: l ->
  let '(t, p, f) := maxby x (fun y => snd (fst y)) l in
  exists k d c, t = final k /\ f = Some d /\ p = exp (- c) /\ In (d, c) ds /\ key d = Some k
    /\ forall d' c' k', In (d', c') ds -> key d' = Some k' -> c <= c'.
Proof.
  intros D key final ds x l E.
  destruct (maxby_spec _ (fun y : pystr * R * option D => snd (fst y)) l x) as [I M].
  destruct (maxby x (fun y => snd (fst y)) l) as [[t p] f]. rewrite <- E in I, M. cbn in M.
  apply marg_mpd_sound in I. destruct I as (k & d & c & A & B & C & J & Ed & _).
  exists k, d, c. repeat split; auto. intros d' c' k' I' E'.
  destruct (marg_mpd_complete key final ds d' c' k' I' E') as (p' & f' & Ip & Le).
  specialize (M _ Ip). cbn in M. subst p. destruct (Rle_dec c c') as [|N]; [assumption|].
  assert (H : exp (- c) < exp (- c')) by (apply exp_increasing; lra). lra.
Qed.
(** with a DOP reduction, derivations with the same fragment boundaries are
    merged, but the same parse tree can be listed several times *)
Theorem C65_mpd_duplicate_refuted : exists (ds : list (pystr * R)),
  map (fun x => fst (fst x))
    (marg_mpd (fun s => Some (removeids [64; 49]%N s)) (removeids []) ds)
  = [str "(S (A 0))"; str "(S (A 0))"]%string.
Proof.
  exists [(str "(S (A@3 0))"%string, 1); (str "(S (A 0))"%string, 2)].
  unfold marg_mpd, mpd_step. cbn [fold_left get put].
  match goal with |- context [eqs ?a ?b] => let E := fresh in assert (E : eqs a b = false) by reflexivity; rewrite E end.
  reflexivity.
Qed.

(** ** Most probable shortest derivation *)
(** the cost of a derivation under the 'shortest' model is ln 2 per fragment *)
Definition lencost {D} (len : D -> nat) (x : D * R) : Prop := snd x = INR (len (fst x)) * ln 2.
Lemma onlyshortest_len : forall (D : Type) (len : D -> nat) (ds : list (D * R)) d c,
  Forall (lencost len) ds ->
  (In (d, c) (onlyshortest ds) <-> In (d, c) ds /\ forall d' c', In (d', c') ds -> (len d <= len d')%nat).
Proof.
  intros D len ds d c L. rewrite Forall_forall in L. rewrite onlyshortest_spec.
  assert (LN : 0 < ln 2) by (rewrite <- ln_1; apply ln_increasing; lra).
  split; intros [I M]; (split; [exact I|]); intros d' c' I'.
  - specialize (M _ _ I'). pose proof (L _ I) as A. pose proof (L _ I') as B. unfold lencost in *.
    cbn in A, B. subst. apply INR_le. apply Rmult_le_reg_r with (ln 2); lra.
  - specialize (M _ _ I'). pose proof (L _ I) as A. pose proof (L _ I') as B. unfold lencost in *.
    cbn in A, B. subst. apply Rmult_le_compat_r; [lra|]. now apply le_INR.
Qed.
(** [short ds len d]: d is a listed derivation of minimal length *)
Definition isshort {D} (len : D -> nat) (ds : list (D * R)) (d : D) : Prop :=
  (exists c, In (d, c) ds) /\ forall d' c', In (d', c') ds -> (len d <= len d')%nat.

Theorem C65_shortest : forall (D : Type) (len : D -> nat) (key : D -> option pystr)
    (final : pystr -> pystr) (newprob : D -> R) (dopreduction : bool) (ds : list (D * R)),
  Forall (lencost len) ds ->
  let r := marg_shortest dopreduction key final newprob ds in
  (* only shortest derivations are considered; their number of fragments is
     reported *)
  (forall t z b f, In (t, (z, b), f) r -> exists k d,
     t = final k /\ f = Some d /\ isshort len ds d /\ key d = Some k
     /\ z = Z.of_nat (len d)
     (* ties are broken by the probability in the other model *)
     /\ b = (if dopreduction
             then rsum (map (fun x => exp (- newprob (fst x)))
               (filter (fun x => yields key k (fst x) && (len (fst x) =? len d)%nat) ds))
             else exp (- newprob d))
     /\ (dopreduction = false -> forall d', isshort len ds d' -> key d' = Some k ->
           newprob d <= newprob d'))
  (* all shortest derivations are represented *)
  /\ (forall d k, isshort len ds d -> key d = Some k ->
       exists z b f, In (final k, (z, b), f) r).
Proof.
  intros D len key final newprob red ds L. cbv zeta.
  set (os := onlyshortest ds).
  assert (OS : forall d c, In (d, c) os <-> In (d, c) ds /\ forall d' c', In (d', c') ds -> (len d <= len d')%nat)
    by (intros; now apply onlyshortest_len).
  assert (SH : forall d, isshort len ds d <-> exists c, In (d, c) os).
  { intros d. unfold isshort. split.
    - intros [[c I] M]. exists c. apply OS. auto.
    - intros [c I]. apply OS in I. destruct I as [I M]. split; [exists c; exact I|exact M]. }
  assert (HZ : exists n, forall d c, In (d, c) os -> len d = n).
  { destruct os as [|[d0 c0] os'] eqn:E; [exists O; intros ? ? []|].
    exists (len d0). intros d c I. apply Nat.le_antisymm.
    - apply (proj2 (proj1 (OS d c) I) d0 c0). apply (proj1 (proj1 (OS d0 c0) (or_introl eq_refl))).
    - apply (proj2 (proj1 (OS d0 c0) (or_introl eq_refl)) d c). apply (proj1 (proj1 (OS d c) I)). }
  destruct HZ as [n HN].
  assert (HT : forall d c, In (d, c) os -> trunc (c / ln (1 / 2)) = (- Z.of_nat n)%Z).
  { intros d c I. rewrite Forall_forall in L. pose proof (L _ (proj1 (proj1 (OS d c) I))) as Q.
    unfold lencost in Q. cbn in Q. subst c. rewrite (HN _ _ I). apply trunc_len. }
  unfold marg_shortest. fold os. destruct red.
  - pose proof (shortest_inv_red key newprob os (- Z.of_nat n)%Z HT) as H.
    destruct (fold_left (shortest_step true key newprob) os ([], [])) as [m dv].
    destruct H as (ND & K & V & W). split.
    + intros t z b f I. apply in_map_iff in I. destruct I as ([k [a b']] & E & I).
      inversion E; subst. destruct (V _ _ _ I) as [-> ->].
      assert (Ik : In k (map fst m)).
      { change k with (fst (k, ((- Z.of_nat n)%Z, rsum (map (fun x => alt newprob (fst x)) (filter (fun x => yields key k (fst x)) os))))).
        now apply in_map. }
      destruct (W _ Ik) as (d & c & G & Id & Ed). exists k, d.
      split; [reflexivity|]. split; [exact G|]. split; [apply SH; eauto|]. split; [exact Ed|].
      split; [rewrite (HN _ _ Id); lia|]. split; [|discriminate].
      unfold alt. f_equal. f_equal. unfold os. rewrite (onlyshortest_filter ds d c Id).
      assert (Q : forall x, In x ds ->
        ((if Req_EM_T (snd x) c then true else false) && yields key k (fst x))%bool
        = (yields key k (fst x) && (len (fst x) =? len d)%nat)%bool).
      { intros x Ix. rewrite andb_comm. f_equal. rewrite Forall_forall in L.
        pose proof (L _ Ix) as Lx. pose proof (L _ (proj1 (proj1 (OS d c) Id))) as Lc.
        unfold lencost in *. cbn in Lc.
        assert (LN : 0 < ln 2) by (rewrite <- ln_1; apply ln_increasing; lra).
        destruct (Req_EM_T (snd x) c) as [Ec|Nc]; symmetry.
        - apply Nat.eqb_eq. apply INR_eq. apply Rmult_eq_reg_r with (ln 2); lra.
        - apply Nat.eqb_neq. intros F. apply Nc. rewrite Lx, Lc, F. reflexivity. }
      clear - Q. induction ds as [|x ds IH]; [reflexivity|]. cbn [filter].
      pose proof (Q x (or_introl eq_refl)) as Qx. rewrite <- Qx.
      destruct (Req_EM_T (snd x) c); cbn [andb filter].
      * destruct (yields key k (fst x)); rewrite IH; auto; intros; apply Q; now right.
      * apply IH. intros; apply Q; now right.
    + intros d k S E. apply SH in S. destruct S as [c I].
      assert (Ik : In k (map fst m)) by (apply K; eauto).
      apply in_map_iff in Ik. destruct Ik as ([k' [a b]] & Q & J). cbn in Q. subst k'.
      exists (- a)%Z, b, (get k dv). apply in_map_iff. exists (k, (a, b)). auto.
  - pose proof (shortest_inv_2dop key newprob os (- Z.of_nat n)%Z HT) as H.
    destruct (fold_left (shortest_step false key newprob) os ([], [])) as [m dv].
    destruct H as (ND & K & V). split.
    + intros t z b f I. apply in_map_iff in I. destruct I as ([k [a b']] & E & I).
      inversion E; subst. destruct (V _ _ _ I) as (-> & d & c & G & Id & Ed & Eb & M).
      exists k, d. split; [reflexivity|]. split; [exact G|]. split; [apply SH; eauto|].
      split; [exact Ed|]. split; [rewrite (HN _ _ Id); lia|]. split; [exact Eb|].
      intros _ d' S' E'. apply SH in S'. destruct S' as [c' I'].
      specialize (M _ _ I' E'). subst b. unfold alt in M.
      destruct (Rle_dec (newprob d) (newprob d')) as [|N]; [assumption|].
      assert (Q : exp (- newprob d) < exp (- newprob d')) by (apply exp_increasing; lra). lra.
    + intros d k S E. apply SH in S. destruct S as [c I].
      assert (Ik : In k (map fst m)) by (apply K; eauto).
      apply in_map_iff in Ik. destruct Ik as ([k' [a b]] & Q & J). cbn in Q. subst k'.
      exists (- a)%Z, b, (get k dv). apply in_map_iff. exists (k, (a, b)). auto.
Qed.

(** ** Simplicity-likelihood DOP over the k-best list *)
Theorem C65_fragment_count : forall d, wf d -> numfrags (show d) = Z.of_nat (nfrags d).
Proof. exact numfrags_show. Qed.

Theorem C65_sldop_simple : forall n (ds : list (pystr * R)),
  NoDup (map fst ds) ->
  let r := sldop_simple n ds in
  (* the n most probable trees are selected, each once *)
  NoDup (map (fun x => fst (fst x)) r)
  /\ (forall t z p d, In (t, (z, p), d) r ->
       p = treeprob (fun s => Some (removeids [] s)) ds t
       (* with the smallest number of fragments of any listed derivation *)
       /\ z = (- numfrags d)%Z /\ (exists c, In (d, c) ds) /\ removeids [] d = t
       /\ (forall d' c', In (d', c') ds -> removeids [] d' = t -> (numfrags d <= numfrags d')%Z))
  /\ (forall d c, In (d, c) ds ->
        let t := removeids [] d in
        In t (map (fun x => fst (fst x)) r)
        \/ (length r = n /\ forall y, In y r ->
              treeprob (fun s => Some (removeids [] s)) ds t <= snd (snd (fst y)))).
Proof.
  intros n ds ND. cbv zeta. rewrite sldop_simple_eq.
  destruct (sltrees_spec ds ND) as (NT & K & V).
  set (f := fun x : pystr * (R * list pystr) => fst (snd x)).
  destruct (nlargest_spec _ f n (sltrees ds)) as (rest & P & LN & M).
  set (sel := nlargest n f (sltrees ds)) in *.
  assert (SUB : forall x, In x sel -> In x (sltrees ds)).
  { intros x I. apply (Permutation_in _ (Permutation_sym P)). apply in_or_app. now left. }
  set (g := fun x : pystr * (R * list pystr) => match x with (t, (p, l)) =>
      match map (fun d => (numfrags d, d)) l with
      | [] => []
      | c :: cs => let best := minby cand_lt c cs in [(t, ((- fst best)%Z, p), snd best)]
      end end).
  change (flat_map _ sel) with (flat_map g sel).
  assert (G : forall x, In x sel -> exists z d, g x = [(fst x, (z, fst (snd x)), d)]
     /\ z = (- numfrags d)%Z /\ In d (snd (snd x)) /\ forall d', In d' (snd (snd x)) -> (numfrags d <= numfrags d')%Z).
  { intros [t [p l]] I. destruct (V _ _ _ (SUB _ I)) as (_ & NE & _).
    destruct l as [|d0 l]; [congruence|]. cbn [g map]. cbv zeta.
    destruct (minby_spec (map (fun d => (numfrags d, d)) l) (numfrags d0, d0)) as [J MM].
    set (best := minby cand_lt (numfrags d0, d0) (map (fun d => (numfrags d, d)) l)) in *.
    change ((numfrags d0, d0) :: map (fun d => (numfrags d, d)) l) with (map (fun d => (numfrags d, d)) (d0 :: l)) in J, MM.
    apply in_map_iff in J. destruct J as (d1 & E & I1). rewrite <- E in *. cbn [fst snd] in *.
    exists (- numfrags d1)%Z, d1. split; [reflexivity|]. split; [reflexivity|]. split; [exact I1|].
    intros d' I'. specialize (MM (numfrags d', d')). apply MM.
    change (numfrags d', d') with ((fun d => (numfrags d, d)) d'). now apply in_map. }
  assert (KEYS : map (fun x => fst (fst x)) (flat_map g sel) = map fst sel
                 /\ length (flat_map g sel) = length sel).
  { clear - G. induction sel as [|x sel IH]; [split; reflexivity|].
    destruct (G x (or_introl eq_refl)) as (z & d & E & _). cbn [flat_map map]. rewrite E.
    destruct IH as [A B]; [intros; apply G; now right|]. cbn [app map length fst].
    now rewrite A, B. }
  destruct KEYS as [KEYS LEN].
  assert (NS : NoDup (map fst sel)).
  { apply (Permutation_map fst) in P. rewrite map_app in P.
    pose proof (Permutation_NoDup P NT) as Q. clear - Q. induction (map fst sel) as [|x l IH]; [constructor|].
    cbn in Q. inversion Q; subst. constructor; [|auto]. intros I. apply H1. apply in_or_app. now left. }
  split; [now rewrite KEYS|]. split.
  - intros t z p d I. apply in_flat_map in I. destruct I as ([t' [p' l]] & Ix & I).
    destruct (G _ Ix) as (z0 & d0 & E & Ez & Id & MM). rewrite E in I. destruct I as [I|[]].
    inversion I; subst. cbn [fst snd] in *. destruct (V _ _ _ (SUB _ Ix)) as (Ep & _ & Vl).
    split; [exact Ep|]. split; [reflexivity|]. apply Vl in Id. destruct Id as (c & Id & Et).
    split; [eauto|]. split; [exact Et|]. intros d' c' I' E'. apply MM. apply Vl. eauto.
  - intros d c I. rewrite KEYS, LEN.
    assert (It : In (removeids [] d) (map fst (sltrees ds))) by (apply K; eauto).
    apply in_map_iff in It. destruct It as ([t' [p' l]] & Et & It). cbn in Et. subst t'.
    pose proof (Permutation_in _ P It) as J. apply in_app_or in J. destruct J as [J|J].
    + left. change (removeids [] d) with (fst (removeids [] d, (p', l))). now apply in_map.
    + right. split.
      * rewrite LN. apply Nat.min_l. pose proof (Permutation_length P) as PL.
        rewrite app_length in PL. destruct rest; [contradiction|]. cbn in PL. lia.
      * intros y Iy. apply in_flat_map in Iy. destruct Iy as (x & Ix & Iy).
        destruct (G _ Ix) as (z0 & d0 & E & _). rewrite E in Iy. destruct Iy as [<-|[]].
        cbn [fst snd]. destruct (V _ _ _ It) as (Ep & _).
        change (fun s => Some (removeids [] s)) with dopkey. rewrite <- Ep.
        exact (M _ _ Ix J).
Qed.

(** ** Constraints on the parse trees *)
Theorem C65_constraints : forall (S V F : Type) (eqS : S -> S -> bool) (spans : pystr -> list S)
    (require block : list S) (results : list (pystr * V * F)),
  (forall a b, eqS a b = true <-> a = b) ->
  forall t v f, In (t, v, f) (constrain eqS spans require block results)
  <-> In (t, v, f) results /\ (forall s, In s require -> In s (spans t))
      /\ (forall s, In s block -> ~ In s (spans t)).
Proof.
  intros S V F eqS spans require block results HE t v f.
  assert (T : testconstraints eqS spans require block t = true
    <-> (forall s, In s require -> In s (spans t)) /\ (forall s, In s block -> ~ In s (spans t))).
  { unfold testconstraints. rewrite andb_true_iff, !forallb_forall.
    assert (EI : forall s, existsb (eqS s) (spans t) = true <-> In s (spans t)).
    { intros s. rewrite existsb_exists. split.
      - intros (x & I & E). apply HE in E. now subst.
      - intros I. exists s. split; [exact I|now apply HE]. }
    split; intros [A B]; split; intros s I.
    - now apply EI, A.
    - intros J. apply EI in J. specialize (B s I). now rewrite J in B.
    - apply EI. now apply A.
    - destruct (existsb (eqS s) (spans t)) eqn:E; [|reflexivity]. apply EI in E. now apply B in I. }
  unfold constrain. destruct require as [|r0 require], block as [|b0 block];
    try (rewrite filter_In; cbn [fst]; rewrite T; tauto).
  split; [|tauto]. intros I. split; [exact I|]. split; intros ? [].
Qed.

(** ** Non-vacuity *)
Definition ex_d1 : dt := DNode (str "S") None [DNode (str "A") (Some (str "3")) [DLeaf 0]; DNode (str "B") None [DLeaf 1]]%string.
Definition ex_d2 : dt := DNode (str "S") None [DNode (str "A") None [DLeaf 0]; DNode (str "B") (Some (str "4-1")) [DLeaf 1]]%string.
Definition ex_d3 : dt := DNode (str "S") None [DNode (str "C") None [DLeaf 0]; DNode (str "B") None [DLeaf 1]]%string.
Example C65_ex_wf : Forall wf [ex_d1; ex_d2; ex_d3].
Proof.
  repeat (constructor; try discriminate; try (intros; lia); try (left; reflexivity); try (right; reflexivity)).
Qed.
Example C65_ex_show : show ex_d2 = str "(S (A 0) (B@4-1 1))"%string
  /\ removeids [] (show ex_d1) = removeids [] (show ex_d2)
  /\ numfrags (show ex_d1) = 2%Z /\ numfrags (show ex_d3) = 3%Z.
Proof. split; [|split; [|split]]; vm_compute; reflexivity. Qed.
(** two derivations of cost ln 4 of the same tree against one of cost ln 3: the
    most probable parse has probability 1/2, its derivations only 1/4 *)
Example C65_ex_mpp :
  map fst (marg_mpp (fun s => Some (removeids [] s))
    [(show ex_d3, ln 3); (show ex_d1, ln 4); (show ex_d2, ln 4)])
  = [(str "(S (C 0) (B 1))", / 3); (str "(S (A 0) (B 1))", 1 / 2)]%string.
Proof.
  unfold marg_mpp. cbn [fold_left mpp_step setdefault].
  repeat match goal with
         | |- context [removeids ?r ?s] =>
             let v := eval vm_compute in (removeids r s) in change (removeids r s) with v
         end.
  cbn [get put setdefault eqs app N.eqb Pos.eqb andb map fst].
  rewrite !logprobsum_ok. cbn [map rsum fold_right].
  assert (E : forall x, 0 < x -> exp (- ln x) = / x).
  { intros x H. rewrite exp_Ropp, exp_ln by assumption. reflexivity. }
  rewrite !E by lra.
  match goal with |- [(?a, ?x); (?b, ?y)] = _ => replace x with (/ 3) by lra; replace y with (1 / 2) by lra end.
  reflexivity.
Qed.
Example C65_ex_sorted :
  StronglySorted (fun x y : pystr * R => snd x <= snd y)
    [(show ex_d3, ln 3); (show ex_d1, ln 4); (show ex_d2, ln 4)].
Proof.
  assert (ln 3 < ln 4) by (apply ln_increasing; lra).
  repeat constructor; cbn; lra.
Qed.
Example C65_ex_lencost : Forall (lencost nfrags)
  [(ex_d1, 2 * ln 2); (ex_d2, 2 * ln 2); (ex_d3, 3 * ln 2)].
Proof. repeat constructor; unfold lencost; cbn; lra. Qed.

(** Removing ids leaves a text alone in which no '@' is followed by a digit or '-';
    e.g. a label or word with an '@' of its own. *)
Theorem C65_removeids_other : forall repl s,
  (forall a d b, s = a ++ 64%N :: d :: b -> d <> 45%N /\ ~ (48 <= d <= 57)%N) -> removeids repl s = s.
Proof.
  intros repl s. unfold removeids. induction s as [|c s IH]; intros H; [reflexivity|].
  cbn [subids andb]. destruct s as [|d s']; [reflexivity|].
  assert (E : N.eqb c at_char && idchar d = false).
  { destruct (N.eqb_spec c at_char) as [->|NE]; [|reflexivity]. cbn [andb].
    destruct (H [] d s' eq_refl) as [A B]. unfold idchar, isdigit. apply orb_false_iff. split; [now apply N.eqb_neq|].
    destruct (48 <=? d)%N eqn:E1; [|reflexivity]. destruct (d <=? 57)%N eqn:E2; [|reflexivity].
    apply N.leb_le in E1. apply N.leb_le in E2. exfalso. apply B. split; assumption. }
  rewrite E. f_equal. apply IH. intros a e b Q. apply (H (c :: a) e b). now rewrite Q.
Qed.
Example C65_removeids_other_ex : forall a d b, [78; 64; 65; 64]%N = a ++ 64%N :: d :: b -> d <> 45%N /\ ~ (48 <= d <= 57)%N.
Proof.
  intros a d b E. destruct a as [|x a]; [discriminate|]. destruct a as [|y a].
  - injection E as _ <- _. split; [discriminate|lia].
  - destruct a as [|z a]; [discriminate|]. destruct a as [|w a]; [discriminate|]. destruct a; discriminate.
Qed.
