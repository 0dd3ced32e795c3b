(** Proofs for C65, part 1: sums in log space, dictionaries, mpp. *)
From Coq Require Import Reals Lra.
From Coq Require Import List Bool Arith NArith ZArith Lia Permutation.
From Verif Require Import PyStr DisambModel DisambSpec.
Import ListNotations.
Open Scope R_scope.

Lemma rsum_cons : forall x a, rsum (x :: a) = x + rsum a.
Proof. reflexivity. Qed.
Lemma rsum_app : forall a b, rsum (a ++ b) = rsum a + rsum b.
Proof.
  induction a as [|x a IH]; intros; cbn [app].
  - change (rsum []) with 0. lra.
  - rewrite !rsum_cons, IH. lra.
Qed.
Lemma rsum_perm : forall a b, Permutation a b -> rsum a = rsum b.
Proof. induction 1; rewrite ?rsum_cons in *; lra. Qed.

Lemma lps_inv : forall l m r,
  (let '(m', r') := fold_left lps_step l (m, r) in exp m' * r')
  = exp m * r + rsum (map exp l).
Proof.
  induction l as [|x l IH]; intros m r.
  - cbn. lra.
  - cbn [fold_left map]. rewrite rsum_cons. unfold lps_step at 2.
    destruct (Rle_dec x m) as [H|H]; rewrite IH.
    + rewrite Rmult_plus_distr_l, <- exp_plus. replace (m + (x - m)) with x by lra. lra.
    + rewrite Rmult_plus_distr_l.
      replace (exp x * (r * exp (m - x))) with (exp x * exp (m - x) * r) by ring.
      rewrite <- exp_plus. replace (x + (m - x)) with m by lra. lra.
Qed.
Lemma logprobsum_ok : forall l, logprobsum l = rsum (map exp l).
Proof.
  intros. unfold logprobsum. pose proof (lps_inv l (-800) 0) as H.
  destruct (fold_left lps_step l (-800, 0)). rewrite H. lra.
Qed.

(** *** dictionaries *)
Lemma get_put_same : forall V k (v : V) m, get k (put k v m) = Some v.
Proof.
  induction m as [|[k' v'] m IH]; cbn; [now rewrite eqs_refl|].
  destruct (eqs k k') eqn:E; cbn; rewrite E; auto.
Qed.
Lemma get_put_other : forall V k k' (v : V) m, k <> k' -> get k (put k' v m) = get k m.
Proof.
  induction m as [|[k2 v2] m IH]; intros N; cbn.
  - destruct (eqs k k') eqn:E; [apply eqs_eq in E; contradiction|reflexivity].
  - destruct (eqs k' k2) eqn:E; cbn.
    + apply eqs_eq in E. subst k2.
      destruct (eqs k k') eqn:E; [apply eqs_eq in E; contradiction|reflexivity].
    + destruct (eqs k k2); auto.
Qed.
Lemma get_in : forall V k (v : V) m, get k m = Some v -> In (k, v) m.
Proof.
  induction m as [|[k' v'] m IH]; cbn; intros H; [discriminate|].
  destruct (eqs k k') eqn:E; [apply eqs_eq in E; left; congruence|right; auto].
Qed.
Lemma get_none : forall V k (m : list (pystr * V)), get k m = None <-> ~ In k (map fst m).
Proof.
  induction m as [|[k' v'] m IH]; cbn; [tauto|].
  destruct (eqs k k') eqn:E.
  - apply eqs_eq in E. subst. split; [discriminate|intros H; exfalso; auto].
  - apply eqs_neq in E. rewrite IH. intuition.
Qed.
Lemma in_get : forall V k (v : V) m, NoDup (map fst m) -> In (k, v) m -> get k m = Some v.
Proof.
  induction m as [|[k' v'] m IH]; cbn; intros ND H; [contradiction|].
  inversion ND; subst. destruct H as [H|H].
  - inversion H; subst. now rewrite eqs_refl.
  - destruct (eqs k k') eqn:E; [|auto]. apply eqs_eq in E. subst.
    exfalso. apply H2. change k' with (fst (k', v)). now apply in_map.
Qed.
Lemma put_keys : forall V k (v : V) m x,
  In x (map fst (put k v m)) <-> x = k \/ In x (map fst m).
Proof.
  induction m as [|[k' v'] m IH]; intros; cbn; [intuition|].
  destruct (eqs k k') eqn:E; cbn.
  - apply eqs_eq in E. subst. intuition.
  - rewrite IH. intuition.
Qed.
Lemma put_nodup : forall V k (v : V) m, NoDup (map fst m) -> NoDup (map fst (put k v m)).
Proof.
  induction m as [|[k' v'] m IH]; intros ND; cbn; [repeat constructor; auto|].
  inversion ND; subst. destruct (eqs k k') eqn:E; cbn; [now constructor|].
  constructor; [|auto]. rewrite put_keys. intros [F|F]; [|contradiction].
  apply eqs_neq in E. congruence.
Qed.
(** the members of an updated dictionary *)
Lemma in_put : forall V k (v : V) m x y, NoDup (map fst m) ->
  (In (x, y) (put k v m) <-> (x = k /\ y = v) \/ (x <> k /\ In (x, y) m)).
Proof.
  intros V k v m x y ND. pose proof (put_nodup _ k v m ND) as ND'.
  split.
  - intros H. apply in_get in H; auto. destruct (eqs_dec x k) as [->|N].
    + rewrite get_put_same in H. left. split; congruence.
    + rewrite get_put_other in H by auto. right. split; [exact N|now apply get_in].
  - intros [[-> ->]|[N H]].
    + apply get_in, get_put_same.
    + apply get_in. rewrite get_put_other by auto. now apply in_get.
Qed.
(** summing over an updated dictionary *)
Lemma put_total : forall V (f : V -> R) k v m,
  NoDup (map fst m) ->
  rsum (map (fun x => f (snd x)) (put k v m))
  = rsum (map (fun x => f (snd x)) m)
    - match get k m with Some o => f o | None => 0 end + f v.
Proof.
  induction m as [|[k' v'] m IH]; intros ND.
  - cbn. lra.
  - inversion ND; subst. cbn [put get]. destruct (eqs k k') eqn:E; cbn [map snd]; rewrite ?rsum_cons.
    + lra.
    + rewrite IH by assumption. lra.
Qed.

Lemma fold_left_snoc : forall A B (f : A -> B -> A) l x a,
  fold_left f (l ++ [x]) a = f (fold_left f l a) x.
Proof. intros. rewrite fold_left_app. reflexivity. Qed.

Section Mpp.
  Context {D : Type}.
  Variable key : D -> option pystr.
  Let st ds := fold_left (mpp_step key) ds ([], []).

  (** costs of the derivations of [t], in order *)
  Definition costs (t : pystr) (ds : list (D * R)) : list R :=
    map (fun x => - snd x) (filter (fun x => yields key t (fst x)) ds).

  Lemma costs_snoc : forall t ds d c,
    costs t (ds ++ [(d, c)]) = costs t ds ++ (if yields key t d then [- c] else []).
  Proof.
    intros. unfold costs. rewrite filter_app, map_app. cbn [filter fst].
    now destruct (yields key t d).
  Qed.
  Lemma yields_spec : forall t d, yields key t d = true <-> key d = Some t.
  Proof.
    intros. unfold yields. destruct (key d) as [k|]; [|intuition congruence].
    rewrite eqs_eq. split; congruence.
  Qed.

  Lemma mpp_inv : forall ds,
    let '(m, dv) := st ds in
    NoDup (map fst m)
    /\ (forall t, In t (map fst m) <-> exists d c, In (d, c) ds /\ key d = Some t)
    /\ (forall t l, In (t, l) m -> l = costs t ds)
    /\ (forall t, get t dv
        = option_map fst (find (fun x => yields key t (fst x)) ds)).
  Proof.
    induction ds as [|[d c] ds IH] using rev_ind.
    - cbn. repeat split; try constructor; try tauto. intros (d & c & [] & _).
    - unfold st in *. rewrite fold_left_snoc.
      destruct (fold_left (mpp_step key) ds ([], [])) as [m dv].
      destruct IH as (ND & K & L & F). cbn [mpp_step].
      destruct (key d) as [t0|] eqn:E.
      + assert (Y : forall t, yields key t d = true <-> t = t0)
          by (intros; rewrite yields_spec, E; split; congruence).
        assert (P : match get t0 m with Some l => l | None => [] end = costs t0 ds).
        { destruct (get t0 m) as [l|] eqn:G; [apply L; now apply get_in|].
          apply get_none in G. rewrite K in G. unfold costs.
          destruct (filter _ ds) as [|[d' c'] r] eqn:Fl; [reflexivity|].
          exfalso. apply G. exists d', c'. rewrite <- yields_spec.
          assert (I : In (d', c') (filter (fun x => yields key t0 (fst x)) ds)) by (rewrite Fl; now left).
          apply filter_In in I. exact I. }
        rewrite P. split; [now apply put_nodup|]. split; [|split].
        * intros t. rewrite put_keys, K. split.
          -- intros [->|(d' & c' & I & Q)].
             ++ exists d, c. split; [apply in_or_app; right; now left|exact E].
             ++ exists d', c'. split; [apply in_or_app; now left|exact Q].
          -- intros (d' & c' & I & Q). apply in_app_or in I.
             destruct I as [I|[I|[]]]; [right; eauto|]. inversion I; subst. left. congruence.
        * intros t l. rewrite in_put by assumption. rewrite costs_snoc.
          intros [[-> ->]|[N I]].
          -- assert (Yt : yields key t0 d = true) by now apply Y. now rewrite Yt.
          -- destruct (yields key t d) eqn:Yt; [apply Y in Yt; contradiction|].
             rewrite app_nil_r. now apply L.
        * intros t. unfold setdefault. rewrite F.
          assert (FA : forall t, find (fun x => yields key t (fst x)) (ds ++ [(d, c)])
                    = match find (fun x => yields key t (fst x)) ds with
                      | Some x => Some x
                      | None => if yields key t d then Some (d, c) else None end).
          { intros t1. clear. induction ds as [|x ds IHd]; cbn [find app fst]; [reflexivity|].
            destruct (yields key t1 (fst x)); [reflexivity|]. exact IHd. }
          rewrite FA.
          destruct (find (fun x => yields key t0 (fst x)) ds) as [x0|] eqn:F0.
          -- cbn [option_map]. rewrite F.
             destruct (find (fun x => yields key t (fst x)) ds) as [x1|] eqn:F1; [reflexivity|].
             destruct (yields key t d) eqn:Yt; [|reflexivity].
             apply Y in Yt. subst. congruence.
          -- cbn [option_map].
             destruct (eqs_dec t t0) as [->|N].
             ++ rewrite get_put_same, F0.
                assert (Yt : yields key t0 d = true) by now apply Y. now rewrite Yt.
             ++ rewrite get_put_other by auto. rewrite F.
                destruct (find (fun x => yields key t (fst x)) ds); [reflexivity|].
                destruct (yields key t d) eqn:Yt; [apply Y in Yt; contradiction|reflexivity].
      + assert (Y : forall t, yields key t d = false) by (intros; unfold yields; now rewrite E).
        split; [exact ND|]. split; [|split].
        * intros t. rewrite K. split; intros (d' & c' & I & Q); exists d', c'; split; auto.
          -- apply in_or_app; now left.
          -- apply in_app_or in I. destruct I as [I|[I|[]]]; [exact I|].
             inversion I; subst. congruence.
        * intros t l I. rewrite costs_snoc, Y, app_nil_r. now apply L.
        * intros t. rewrite F.
          clear - Y. induction ds as [|x ds IHd]; cbn [find app fst]; [now rewrite Y|].
          destruct (yields key t (fst x)); [reflexivity|exact IHd].
  Qed.

  Lemma treeprob_costs : forall t ds, rsum (map exp (costs t ds)) = treeprob key ds t.
  Proof. intros. unfold treeprob, costs. now rewrite map_map. Qed.

  Lemma marg_mpp_trees : forall ds,
    map (fun x => fst (fst x)) (marg_mpp key ds) = map fst (fst (st ds)).
  Proof.
    intros. unfold marg_mpp, st. destruct (fold_left (mpp_step key) ds ([], [])) as [m dv].
    rewrite map_map. cbn [fst]. apply map_ext. now intros [? ?].
  Qed.
  Lemma marg_mpp_nodup : forall ds, NoDup (map (fun x => fst (fst x)) (marg_mpp key ds)).
  Proof.
    intros. rewrite marg_mpp_trees. pose proof (mpp_inv ds) as H.
    destruct (st ds) as [m dv]. exact (proj1 H).
  Qed.
  Lemma marg_mpp_keys : forall ds t,
    In t (map (fun x => fst (fst x)) (marg_mpp key ds))
    <-> exists d c, In (d, c) ds /\ key d = Some t.
  Proof.
    intros. rewrite marg_mpp_trees. pose proof (mpp_inv ds) as H.
    destruct (st ds) as [m dv]. apply H.
  Qed.
  Lemma marg_mpp_prob : forall ds t p f, In (t, p, f) (marg_mpp key ds) ->
    p = treeprob key ds t
    /\ f = option_map fst (find (fun x => yields key t (fst x)) ds).
  Proof.
    intros ds t p f. unfold marg_mpp. pose proof (mpp_inv ds) as H. unfold st in H.
    destruct (fold_left (mpp_step key) ds ([], [])) as [m dv].
    destruct H as (ND & K & L & F). rewrite in_map_iff. intros ([t' l] & E & I).
    inversion E; subst. rewrite (L _ _ I), logprobsum_ok, treeprob_costs, F. auto.
  Qed.
  (** every derivation is counted exactly once *)
  Lemma marg_mpp_mass : forall ds,
    rsum (map (fun x => snd (fst x)) (marg_mpp key ds)) = mass key ds.
  Proof.
    intros ds.
    assert (E : map (fun x => snd (fst x)) (marg_mpp key ds)
                = map (fun x => logprobsum (snd x)) (fst (st ds))).
    { unfold marg_mpp, st. destruct (fold_left (mpp_step key) ds ([], [])) as [m dv].
      rewrite map_map. cbn [fst]. apply map_ext. now intros [? ?]. }
    rewrite E. clear E.
    induction ds as [|[d c] ds IH] using rev_ind; [reflexivity|].
    unfold mass. rewrite filter_app, map_app, rsum_app. fold (mass key ds). rewrite <- IH.
    pose proof (mpp_inv ds) as H. unfold st in *. rewrite fold_left_snoc.
    destruct (fold_left (mpp_step key) ds ([], [])) as [m dv].
    destruct H as (ND & K & L & F). cbn [mpp_step filter fst].
    destruct (key d) as [t0|] eqn:E; cbn [fst map snd]; [|cbn; lra].
    rewrite put_total by assumption.
    set (old := match get t0 m with Some l => l | None => [] end).
    assert (O : match get t0 m with Some o => logprobsum o | None => 0 end = logprobsum old).
    { unfold old. destruct (get t0 m); [reflexivity|]. rewrite logprobsum_ok. reflexivity. }
    rewrite O, !logprobsum_ok, map_app, rsum_app. cbn [map rsum fold_right]. lra.
  Qed.
End Mpp.
