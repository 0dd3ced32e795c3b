(** Proofs for C65, part 2: mpd, shortest derivations, selection of the best
    parses, SL-DOP. *)
From Coq Require Import Reals Lra.
From Coq Require Import List Bool Arith NArith ZArith Lia Permutation.
From Verif Require Import PyStr DisambModel DisambSpec DisambProofs.
Import ListNotations.
Open Scope R_scope.

Section Mpd.
  Context {D : Type}.
  Variable key : D -> option pystr.
  Let st ds := fold_left (mpd_step key) ds ([], []).

  (** [d] with cost [c] is the most probable listed derivation with key [k] *)
  Definition best_for (ds : list (D * R)) (k : pystr) (d : D) (c : R) : Prop :=
    In (d, c) ds /\ key d = Some k
    /\ forall d' c', In (d', c') ds -> key d' = Some k -> c <= c'.

  Lemma mpd_inv : forall ds,
    let '(m, dv) := st ds in
    NoDup (map fst m)
    /\ (forall t, In t (map fst m) <-> exists d c, In (d, c) ds /\ key d = Some t)
    /\ (forall t p, In (t, p) m -> exists d, get t dv = Some d /\ best_for ds t d (- p)).
  Proof.
    induction ds as [|[d c] ds IH] using rev_ind.
    - cbn. repeat split; try constructor; try tauto. intros (d & c & [] & _).
    - unfold st in *. rewrite fold_left_snoc.
      destruct (fold_left (mpd_step key) ds ([], [])) as [m dv].
      destruct IH as (ND & K & L). cbn [mpd_step].
      destruct (key d) as [t0|] eqn:E.
      + destruct (match get t0 m with
                  | None => true
                  | Some old => if Rlt_dec old (- c) then true else false
                  end) eqn:B; cbv zeta.
        * split; [now apply put_nodup|]. split.
          -- intros t. rewrite put_keys, K. split.
             ++ intros [->|(d' & c' & I & Q)].
                ** exists d, c. split; [apply in_or_app; right; now left|exact E].
                ** exists d', c'. split; [apply in_or_app; now left|exact Q].
             ++ intros (d' & c' & I & Q). apply in_app_or in I.
                destruct I as [I|[I|[]]]; [right; eauto|]. inversion I; subst. left. congruence.
          -- intros t p. rewrite in_put by assumption.
             intros [[-> ->]|[N I]].
             ++ exists d. split; [apply get_put_same|].
                unfold best_for. rewrite Ropp_involutive.
                split; [apply in_or_app; right; now left|]. split; [exact E|].
                intros d' c' I' E'. apply in_app_or in I'.
                destruct I' as [I'|[I'|[]]]; [|inversion I'; lra].
                destruct (get t0 m) as [old|] eqn:G.
                ** apply get_in in G. destruct (L _ _ G) as (d2 & _ & (_ & _ & M)).
                   destruct (Rlt_dec old (- c)); [|discriminate].
                   specialize (M _ _ I' E'). lra.
                ** exfalso. apply get_none in G. apply G, K. eauto.
             ++ rewrite get_put_other by auto. destruct (L _ _ I) as (d2 & G & (M1 & M2 & M3)).
                exists d2. split; [exact G|]. split; [apply in_or_app; now left|].
                split; [exact M2|]. intros d' c' I' E'. apply in_app_or in I'.
                destruct I' as [I'|[I'|[]]]; [eauto|]. inversion I'; subst. congruence.
        * destruct (get t0 m) as [old|] eqn:G; [|discriminate].
          destruct (Rlt_dec old (- c)) as [|NB]; [discriminate|].
          split; [exact ND|]. split.
          -- intros t. rewrite K. split; intros (d' & c' & I & Q).
             ++ exists d', c'. split; [apply in_or_app; now left|exact Q].
             ++ apply in_app_or in I. destruct I as [I|[I|[]]]; [eauto|].
                inversion I; subst. rewrite <- K.
                assert (t = t0) by congruence. subst.
                apply get_in in G. change t0 with (fst (t0, old)). now apply in_map.
          -- intros t p I. destruct (L _ _ I) as (d2 & G2 & (M1 & M2 & M3)).
             exists d2. split; [exact G2|]. split; [apply in_or_app; now left|].
             split; [exact M2|]. intros d' c' I' E'. apply in_app_or in I'.
             destruct I' as [I'|[I'|[]]]; [eauto|]. inversion I'; subst.
             assert (t = t0) by congruence. subst.
             apply in_get in I; [|exact ND]. assert (p = old) by congruence. subst. lra.
      + split; [exact ND|]. split.
        * intros t. rewrite K. split; intros (d' & c' & I & Q); exists d', c'; split; auto.
          -- apply in_or_app; now left.
          -- apply in_app_or in I. destruct I as [I|[I|[]]]; [exact I|].
             inversion I; subst. congruence.
        * intros t p I. destruct (L _ _ I) as (d2 & G2 & (M1 & M2 & M3)).
          exists d2. split; [exact G2|]. split; [apply in_or_app; now left|].
          split; [exact M2|]. intros d' c' I' E'. apply in_app_or in I'.
          destruct I' as [I'|[I'|[]]]; [eauto|]. inversion I'; subst. congruence.
  Qed.

  Lemma marg_mpd_sound : forall final ds t p f, In (t, p, f) (marg_mpd key final ds) ->
    exists k d c, t = final k /\ f = Some d /\ p = exp (- c) /\ best_for ds k d c.
  Proof.
    intros final ds t p f. unfold marg_mpd. pose proof (mpd_inv ds) as H. unfold st in H.
    destruct (fold_left (mpd_step key) ds ([], [])) as [m dv].
    destruct H as (ND & K & L). rewrite in_map_iff. intros ([k q] & E & I).
    destruct (L _ _ I) as (d & G & B). inversion E; subst.
    exists k, d, (- q). rewrite Ropp_involutive, G. auto.
  Qed.
  Lemma marg_mpd_complete : forall final ds d c k, In (d, c) ds -> key d = Some k ->
    exists p f, In (final k, p, f) (marg_mpd key final ds) /\ exp (- c) <= p.
  Proof.
    intros final ds d c k I E. unfold marg_mpd. pose proof (mpd_inv ds) as H. unfold st in H.
    destruct (fold_left (mpd_step key) ds ([], [])) as [m dv].
    destruct H as (ND & K & L).
    assert (Ik : In k (map fst m)) by (apply K; eauto).
    apply in_map_iff in Ik. destruct Ik as ([k' q] & Ek & Iq). cbn in Ek. subst k'.
    exists (exp q), (get k dv). split; [apply in_map_iff; exists (k, q); auto|].
    destruct (L _ _ Iq) as (d2 & G & (_ & _ & M)).
    specialize (M _ _ I E).
    destruct (Req_dec (- c) q) as [->|N]; [lra|]. left. apply exp_increasing. lra.
  Qed.
  (** one result per key *)
  Lemma marg_mpd_length : forall final ds ks, NoDup ks ->
    (forall k, In k ks <-> exists d c, In (d, c) ds /\ key d = Some k) ->
    Permutation (map (fun x => fst (fst x)) (marg_mpd key final ds)) (map final ks).
  Proof.
    intros final ds ks NK Kk. unfold marg_mpd. pose proof (mpd_inv ds) as H. unfold st in H.
    destruct (fold_left (mpd_step key) ds ([], [])) as [m dv].
    destruct H as (ND & K & L). rewrite map_map.
    replace (map _ m) with (map final (map fst m)).
    - apply Permutation_map. apply NoDup_Permutation; auto. intros k. rewrite K, Kk. tauto.
    - rewrite map_map. apply map_ext. now intros [? ?].
  Qed.
End Mpd.

(** *** the best result *)
Lemma maxby_spec : forall A (f : A -> R) l x,
  In (maxby x f l) (x :: l) /\ forall y, In y (x :: l) -> f y <= f (maxby x f l).
Proof.
  induction l as [|y l IH]; intros x; cbn [maxby].
  - split; [now left|]. intros y [->|[]]. lra.
  - destruct (Rlt_dec (f x) (f y)) as [H|H].
    + destruct (IH y) as [I M]. split; [now right|].
      intros z [->|Iz]; [|auto]. specialize (M y (or_introl eq_refl)). lra.
    + destruct (IH x) as [I M]. split; [destruct I as [<-|I]; [now left|right; now right]|].
      intros z [->|[->|Iz]]; [apply M; now left| |apply M; now right].
      specialize (M x (or_introl eq_refl)). lra.
Qed.

(** *** nlargest *)
Lemma insertby_perm : forall A (f : A -> R) x l, Permutation (insertby f x l) (x :: l).
Proof.
  induction l as [|y l IH]; cbn; [reflexivity|].
  destruct (Rlt_dec (f x) (f y)); [|reflexivity].
  rewrite IH. apply perm_swap.
Qed.
Lemma sortby_perm : forall A (f : A -> R) l, Permutation (sortby f l) l.
Proof.
  induction l as [|x l IH]; cbn; [constructor|].
  rewrite insertby_perm. now constructor.
Qed.
Inductive desc {A} (f : A -> R) : list A -> Prop :=
| desc_nil : desc f []
| desc_cons : forall x l, (forall y, In y l -> f y <= f x) -> desc f l -> desc f (x :: l).
Lemma insertby_desc : forall A (f : A -> R) x l, desc f l -> desc f (insertby f x l).
Proof.
  induction 1 as [|y l H D IH]; cbn; [constructor; [intros ? []|constructor]|].
  destruct (Rlt_dec (f x) (f y)) as [L|L].
  - constructor; [|exact IH]. intros z I.
    apply (Permutation_in _ (insertby_perm _ f x l)) in I. destruct I as [<-|I]; [lra|auto].
  - constructor; [|now constructor]. intros z [<-|I]; [lra|]. specialize (H z I). lra.
Qed.
Lemma sortby_desc : forall A (f : A -> R) l, desc f (sortby f l).
Proof. induction l; cbn; [constructor|now apply insertby_desc]. Qed.
Lemma desc_app : forall A (f : A -> R) a b, desc f (a ++ b) ->
  forall x y, In x a -> In y b -> f y <= f x.
Proof.
  induction a as [|z a IH]; intros b H x y Ix Iy; [contradiction|].
  inversion H; subst. destruct Ix as [<-|Ix]; [|eauto].
  apply H2. apply in_or_app. now right.
Qed.
(** [nlargest n] keeps min(n, length) elements, none smaller than a dropped one *)
Lemma nlargest_spec : forall A (f : A -> R) n l, exists rest,
  Permutation l (nlargest n f l ++ rest)
  /\ length (nlargest n f l) = Nat.min n (length l)
  /\ forall x y, In x (nlargest n f l) -> In y rest -> f y <= f x.
Proof.
  intros. exists (skipn n (sortby f l)). unfold nlargest. split; [|split].
  - rewrite firstn_skipn. symmetry. apply sortby_perm.
  - rewrite firstn_length. f_equal. apply Permutation_length, sortby_perm.
  - apply desc_app with (f := f). rewrite firstn_skipn. apply sortby_desc.
Qed.

(** *** shortest derivations *)
Section Shortest.
  Context {D : Type}.

  Lemma mincost_spec : forall (ds : list (D * R)) c0,
    (mincost ds c0 = c0 \/ exists d, In (d, mincost ds c0) ds)
    /\ mincost ds c0 <= c0 /\ forall d c, In (d, c) ds -> mincost ds c0 <= c.
  Proof.
    unfold mincost. induction ds as [|[d c] ds IH]; intros c0; cbn [fold_left snd].
    - split; [now left|]. split; [lra|]. intros ? ? [].
    - destruct (Rlt_dec c c0) as [H|H].
      + destruct (IH c) as (A & B & C). split; [|split].
        * right. destruct A as [->|[d' I]]; [exists d; now left|exists d'; now right].
        * lra.
        * intros d' c' [E|I]; [inversion E; subst; exact B|eauto].
      + destruct (IH c0) as (A & B & C). split; [|split].
        * destruct A as [A|[d' I]]; [now left|right; exists d'; now right].
        * exact B.
        * intros d' c' [E|I]; [inversion E; subst; lra|eauto].
  Qed.
  Lemma onlyshortest_spec : forall (ds : list (D * R)) d c,
    In (d, c) (onlyshortest ds)
    <-> In (d, c) ds /\ forall d' c', In (d', c') ds -> c <= c'.
  Proof.
    intros ds d c. unfold onlyshortest. destruct ds as [|[d0 c0] ds].
    - cbn. tauto.
    - set (l := (d0, c0) :: ds). destruct (mincost_spec l c0) as (A & B & C).
      rewrite filter_In. cbn [snd]. split.
      + intros [I E]. destruct (Req_EM_T c (mincost l c0)) as [->|]; [|discriminate].
        split; [exact I|exact C].
      + intros [I M]. split; [exact I|].
        destruct (Req_EM_T c (mincost l c0)) as [|N]; [reflexivity|].
        exfalso. apply N. apply Rle_antisym; [|eauto].
        destruct A as [->|[d' I']]; [|eauto]. apply (M d0 c0). now left.
  Qed.
  Lemma onlyshortest_filter : forall (ds : list (D * R)) d c,
    In (d, c) (onlyshortest ds) ->
    onlyshortest ds = filter (fun x => if Req_EM_T (snd x) c then true else false) ds.
  Proof.
    intros ds d c I. unfold onlyshortest in *. destruct ds as [|[d0 c0] ds]; [contradiction|].
    set (l := (d0, c0) :: ds) in *. apply filter_In in I. destruct I as [_ E].
    cbn [snd] in E. now destruct (Req_EM_T c (mincost l c0)) as [->|].
  Qed.

  Lemma trunc_len : forall n, trunc (INR n * ln 2 / ln (1 / 2)) = (- Z.of_nat n)%Z.
  Proof.
    intros n. assert (L : 0 < ln 2) by (rewrite <- ln_1; apply ln_increasing; lra).
    assert (E : ln (1 / 2) = - ln 2).
    { replace (1 / 2) with (/ 2) by lra. apply ln_Rinv. lra. }
    rewrite E. replace (INR n * ln 2 / - ln 2) with (- INR n) by (field; lra).
    unfold trunc. pose proof (pos_INR n) as P.
    assert (IP : forall k, Int_part (INR k) = Z.of_nat k).
    { intros k. rewrite INR_IZR_INZ. unfold Int_part.
      assert (H : (Z.of_nat k + 1)%Z = up (IZR (Z.of_nat k))).
      { apply tech_up; rewrite plus_IZR; lra. }
      rewrite <- H. lia. }
    destruct (Rle_dec 0 (- INR n)) as [H|H].
    - assert (Z0 : INR n = 0) by lra. assert (n = O) by (apply INR_eq; exact Z0).
      subst. cbn. rewrite Ropp_0. exact (IP O).
    - now rewrite Ropp_involutive, IP.
  Qed.

  Variable key : D -> option pystr.
  Variable newprob : D -> R.
  (** weight of a derivation in the other model *)
  Definition alt (d : D) : R := exp (- newprob d).

  Lemma shortest_inv_red : forall (ds : list (D * R)) z,
    (forall d c, In (d, c) ds -> trunc (c / ln (1 / 2)) = z) ->
    let '(m, dv) := fold_left (shortest_step true key newprob) ds ([], []) in
    NoDup (map fst m)
    /\ (forall t, In t (map fst m) <-> exists d c, In (d, c) ds /\ key d = Some t)
    /\ (forall t a b, In (t, (a, b)) m -> a = z
        /\ b = rsum (map (fun x => alt (fst x)) (filter (fun x => yields key t (fst x)) ds)))
    /\ (forall t, In t (map fst m) -> exists d c, get t dv = Some d /\ In (d, c) ds /\ key d = Some t).
  Proof.
    induction ds as [|[d c] ds IH] using rev_ind; intros z HZ.
    - cbn. repeat split; try constructor; try tauto; try contradiction. intros (d & c & [] & _).
    - assert (HZ' : forall d c, In (d, c) ds -> trunc (c / ln (1 / 2)) = z)
        by (intros; eapply HZ; apply in_or_app; left; eassumption).
      specialize (IH z HZ'). rewrite fold_left_snoc.
      destruct (fold_left (shortest_step true key newprob) ds ([], [])) as [m dv].
      destruct IH as (ND & K & L & V). cbn [shortest_step].
      assert (HC : trunc (c / ln (1 / 2)) = z) by (apply (HZ d); apply in_or_app; right; now left).
      rewrite HC. cbn [fst snd].
      assert (FS : forall t, rsum (map (fun x => alt (fst x)) (filter (fun x => yields key t (fst x)) (ds ++ [(d, c)])))
                = rsum (map (fun x => alt (fst x)) (filter (fun x => yields key t (fst x)) ds))
                  + (if yields key t d then alt d else 0)).
      { intros. rewrite filter_app, map_app, rsum_app. cbn [filter fst].
        destruct (yields key t d); cbn [map fst]; [rewrite rsum_cons|]; change (rsum []) with 0; lra. }
      destruct (key d) as [t0|] eqn:E.
      + assert (Y : forall t, yields key t d = true <-> t = t0)
          by (intros; rewrite yields_spec, E; split; congruence).
        assert (KK : forall t, (t = t0 \/ In t (map fst m)) <->
            exists d' c', In (d', c') (ds ++ [(d, c)]) /\ key d' = Some t).
        { intros t. rewrite K. split.
          - intros [->|(d' & c' & I & Q)].
            + exists d, c. split; [apply in_or_app; right; now left|exact E].
            + exists d', c'. split; [apply in_or_app; now left|exact Q].
          - intros (d' & c' & I & Q). apply in_app_or in I.
            destruct I as [I|[I|[]]]; [right; eauto|]. inversion I; subst. left. congruence. }
        destruct (get t0 m) as [[a0 b0]|] eqn:G; cbn [fst snd].
        * pose proof (get_in _ _ _ _ G) as G'. destruct (L _ _ _ G') as [Ea Eb].
          split; [now apply put_nodup|]. split; [|split].
          -- intros t. rewrite put_keys. apply KK.
          -- intros t a b. rewrite in_put by assumption. rewrite FS.
             intros [[-> Q]|[N I]].
             ++ inversion Q; subst. assert (Yt : yields key t0 d = true) by now apply Y.
                rewrite Yt. auto.
             ++ destruct (yields key t d) eqn:Yt; [apply Y in Yt; contradiction|].
                rewrite Rplus_0_r. now apply L.
          -- intros t. rewrite put_keys. intros I.
             assert (I' : In t (map fst m)).
             { destruct I as [->|I]; [|exact I]. change t0 with (fst (t0, (a0, b0))). now apply in_map. }
             destruct (V _ I') as (d' & c' & V1 & V2 & V3).
             exists d', c'. split; [exact V1|]. split; [apply in_or_app; now left|exact V3].
        * split; [now apply put_nodup|]. split; [|split].
          -- intros t. rewrite put_keys. apply KK.
          -- intros t a b. rewrite in_put by assumption. rewrite FS.
             intros [[-> Q]|[N I]].
             ++ inversion Q; subst. assert (Yt : yields key t0 d = true) by now apply Y.
                rewrite Yt. split; [reflexivity|].
                apply get_none in G. rewrite K in G.
                destruct (filter (fun x => yields key t0 (fst x)) ds) as [|[d' c'] r] eqn:Fl.
                ** cbn. unfold alt. lra.
                ** exfalso. apply G. exists d', c'. rewrite <- yields_spec.
                   assert (I : In (d', c') (filter (fun x => yields key t0 (fst x)) ds)) by (rewrite Fl; now left).
                   apply filter_In in I. exact I.
             ++ destruct (yields key t d) eqn:Yt; [apply Y in Yt; contradiction|].
                rewrite Rplus_0_r. now apply L.
          -- intros t. rewrite put_keys. intros I. destruct (eqs_dec t t0) as [->|N].
             ++ exists d, c. rewrite get_put_same. split; [reflexivity|].
                split; [apply in_or_app; right; now left|exact E].
             ++ rewrite get_put_other by auto. destruct I as [->|I]; [contradiction|].
                destruct (V _ I) as (d' & c' & V1 & V2 & V3).
                exists d', c'. split; [exact V1|]. split; [apply in_or_app; now left|exact V3].
      + assert (Y : forall t, yields key t d = false) by (intros; unfold yields; now rewrite E).
        split; [exact ND|]. split; [|split].
        * intros t. rewrite K. split; intros (d' & c' & I & Q); exists d', c'; split; auto.
          -- apply in_or_app; now left.
          -- apply in_app_or in I. destruct I as [I|[I|[]]]; [exact I|].
             inversion I; subst. congruence.
        * intros t a b I. rewrite FS, Y, Rplus_0_r. now apply L.
        * intros t I. destruct (V _ I) as (d' & c' & V1 & V2 & V3).
          exists d', c'. split; [exact V1|]. split; [apply in_or_app; now left|exact V3].
  Qed.

  Lemma shortest_inv_2dop : forall (ds : list (D * R)) z,
    (forall d c, In (d, c) ds -> trunc (c / ln (1 / 2)) = z) ->
    let '(m, dv) := fold_left (shortest_step false key newprob) ds ([], []) in
    NoDup (map fst m)
    /\ (forall t, In t (map fst m) <-> exists d c, In (d, c) ds /\ key d = Some t)
    /\ (forall t a b, In (t, (a, b)) m -> a = z
        /\ exists d c, get t dv = Some d /\ In (d, c) ds /\ key d = Some t /\ b = alt d
           /\ forall d' c', In (d', c') ds -> key d' = Some t -> alt d' <= b).
  Proof.
    induction ds as [|[d c] ds IH] using rev_ind; intros z HZ.
    - cbn. repeat split; try constructor; try tauto; try contradiction. intros (d & c & [] & _).
    - assert (HZ' : forall d c, In (d, c) ds -> trunc (c / ln (1 / 2)) = z)
        by (intros; eapply HZ; apply in_or_app; left; eassumption).
      specialize (IH z HZ'). rewrite fold_left_snoc.
      destruct (fold_left (shortest_step false key newprob) ds ([], [])) as [m dv].
      destruct IH as (ND & K & L). cbn [shortest_step].
      assert (HC : trunc (c / ln (1 / 2)) = z) by (apply (HZ d); apply in_or_app; right; now left).
      rewrite HC. cbn [fst snd]. fold (alt d).
      assert (OLD : forall t, t <> match key d with Some x => x | None => t end \/ key d = None ->
         forall a b, In (t, (a, b)) m -> a = z /\ exists d0 c0, get t dv = Some d0 /\ In (d0, c0) (ds ++ [(d, c)])
           /\ key d0 = Some t /\ b = alt d0
           /\ forall d' c', In (d', c') (ds ++ [(d, c)]) -> key d' = Some t -> alt d' <= b).
      { intros t N a b I. destruct (L _ _ _ I) as (Q & d1 & c1 & V1 & V2 & V3 & V4 & V5).
        split; [exact Q|]. exists d1, c1. split; [exact V1|]. split; [apply in_or_app; now left|].
        split; [exact V3|]. split; [exact V4|]. intros d' c' I' E'.
        apply in_app_or in I'. destruct I' as [I'|[I'|[]]]; [eauto|].
        inversion I'; subst. rewrite E' in N. destruct N as [N|N]; [contradiction|discriminate]. }
      destruct (key d) as [t0|] eqn:E.
      + assert (KK : forall t, (t = t0 \/ In t (map fst m)) <->
            exists d' c', In (d', c') (ds ++ [(d, c)]) /\ key d' = Some t).
        { intros t. rewrite K. split.
          - intros [->|(d' & c' & I & Q)].
            + exists d, c. split; [apply in_or_app; right; now left|exact E].
            + exists d', c'. split; [apply in_or_app; now left|exact Q].
          - intros (d' & c' & I & Q). apply in_app_or in I.
            destruct I as [I|[I|[]]]; [right; eauto|]. inversion I; subst. left. congruence. }
        assert (NEW : (forall d' c', In (d', c') ds -> key d' = Some t0 -> alt d' <= alt d) ->
           NoDup (map fst (put t0 (z, alt d) m))
           /\ (forall t, In t (map fst (put t0 (z, alt d) m)) <-> exists d' c', In (d', c') (ds ++ [(d, c)]) /\ key d' = Some t)
           /\ (forall t a b, In (t, (a, b)) (put t0 (z, alt d) m) -> a = z
              /\ exists d1 c0, get t (put t0 d dv) = Some d1 /\ In (d1, c0) (ds ++ [(d, c)]) /\ key d1 = Some t /\ b = alt d1
              /\ forall d' c', In (d', c') (ds ++ [(d, c)]) -> key d' = Some t -> alt d' <= b)).
        { intros MX. split; [now apply put_nodup|]. split.
          - intros t. rewrite put_keys. apply KK.
          - intros t a b. rewrite in_put by assumption. intros [[-> Q]|[N I]].
            + inversion Q; subst. split; [reflexivity|]. exists d, c. rewrite get_put_same.
              split; [reflexivity|]. split; [apply in_or_app; right; now left|].
              split; [exact E|]. split; [reflexivity|]. intros d' c' I' E'.
              apply in_app_or in I'. destruct I' as [I'|[I'|[]]]; [eauto|]. inversion I'. lra.
            + rewrite get_put_other by auto. apply OLD; auto. }
        destruct (get t0 m) as [[a0 b0]|] eqn:G.
        * pose proof (get_in _ _ _ _ G) as G'. destruct (L _ _ _ G') as (Ea & d1 & c1 & V1 & V2 & V3 & V4 & V5).
          subst a0. unfold score_gt. cbn [fst snd].
          destruct (Z.eq_dec z z) as [_|]; [|contradiction].
          destruct (Rlt_dec b0 (alt d)) as [B|B].
          -- apply NEW. intros d' c' I' E'. specialize (V5 _ _ I' E'). lra.
          -- split; [exact ND|]. split.
             ++ intros t. rewrite <- KK. split; [now right|]. intros [->|I]; [|exact I].
                change t0 with (fst (t0, (z, b0))). now apply in_map.
             ++ intros t a b I. destruct (eqs_dec t t0) as [->|N]; [|apply OLD; auto].
                assert (Q : (a, b) = (z, b0)).
                { apply in_get in I; [|exact ND]. congruence. }
                inversion Q; subst. split; [reflexivity|]. exists d1, c1.
                split; [exact V1|]. split; [apply in_or_app; now left|]. split; [exact V3|].
                split; [reflexivity|]. intros d' c' I' E'. apply in_app_or in I'.
                destruct I' as [I'|[I'|[]]]; [eauto|]. inversion I'; subst. lra.
        * apply NEW. intros d' c' I' E'. exfalso. apply get_none in G. apply G, K. eauto.
      + split; [exact ND|]. split.
        * intros t. rewrite K. split; intros (d' & c' & I & Q); exists d', c'; split; auto.
          -- apply in_or_app; now left.
          -- apply in_app_or in I. destruct I as [I|[I|[]]]; [exact I|].
             inversion I; subst. congruence.
        * intros t a b I. apply OLD; [now right|exact I].
  Qed.
End Shortest.
