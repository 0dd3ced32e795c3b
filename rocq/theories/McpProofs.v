(** Proofs for C66, part 1: dictionaries, sets of words as bit masks, the table of
    marginal probabilities. *)
From Coq Require Import String.
From Coq Require Import List Bool Arith NArith ZArith QArith Lia Lqa Permutation.
From Verif Require Import PyStr BitsModel BitsSpec BitsProofs McpModel McpSpec.
Import ListNotations.
Local Open Scope list_scope.

(** *** dictionaries *)
Section DictP.
  Context {K V : Type}.
  Variable eqb : K -> K -> bool.
  Hypothesis eqb_ok : forall a b, eqb a b = true <-> a = b.
  Notation dget := (@dget K V eqb).
  Notation dput := (@dput K V eqb).

  Lemma eqb_refl' : forall a, eqb a a = true.
  Proof. intros. now apply eqb_ok. Qed.
  Lemma eqb_neq' : forall a b, a <> b -> eqb a b = false.
  Proof. intros a b N. destruct (eqb a b) eqn:E; [apply eqb_ok in E; contradiction|reflexivity]. Qed.
  Lemma dget_put_same : forall k v m, dget k (dput k v m) = Some v.
  Proof.
    induction m as [|[k' v'] m IH]; cbn; [now rewrite eqb_refl'|].
    destruct (eqb k k') eqn:E; cbn; rewrite E; auto.
  Qed.
  Lemma dget_put_other : forall k k' v m, k <> k' -> dget k (dput k' v m) = dget k m.
  Proof.
    induction m as [|[k2 v2] m IH]; intros N; cbn.
    - now rewrite eqb_neq'.
    - destruct (eqb k' k2) eqn:E; cbn.
      + apply eqb_ok in E. subst k2. now rewrite eqb_neq'.
      + destruct (eqb k k2); auto.
  Qed.
  Lemma dget_in : forall k v m, dget k m = Some v -> In (k, v) m.
  Proof.
    induction m as [|[k' v'] m IH]; cbn; intros H; [discriminate|].
    destruct (eqb k k') eqn:E; [apply eqb_ok in E; left; congruence|right; auto].
  Qed.
  Lemma dget_none : forall k m, dget k m = None <-> ~ In k (map fst m).
  Proof.
    induction m as [|[k' v'] m IH]; cbn; [tauto|].
    destruct (eqb k k') eqn:E.
    - apply eqb_ok in E. subst. split; [discriminate|intros H; exfalso; auto].
    - rewrite IH. split; [intros H [F|F]; [subst; rewrite eqb_refl' in E; discriminate|auto]|auto].
  Qed.
  Lemma dget_some : forall k m, In k (map fst m) <-> exists v, dget k m = Some v.
  Proof.
    intros. destruct (dget k m) eqn:E.
    - split; [eauto|]. intros _. apply dget_in in E. change k with (fst (k, v)). now apply in_map.
    - apply dget_none in E. split; [contradiction|]. intros [v H]. discriminate.
  Qed.
  Lemma in_dget : forall k v m, NoDup (map fst m) -> In (k, v) m -> dget k m = Some v.
  Proof.
    induction m as [|[k' v'] m IH]; cbn; intros ND H; [contradiction|].
    inversion ND; subst. destruct H as [H|H].
    - inversion H; subst. now rewrite eqb_refl'.
    - destruct (eqb k k') eqn:E; [|auto]. apply eqb_ok in E. subst.
      exfalso. apply H2. change k' with (fst (k', v)). now apply in_map.
  Qed.
  Lemma dput_keys : forall k v m x, In x (map fst (dput k v m)) <-> x = k \/ In x (map fst m).
  Proof.
    induction m as [|[k' v'] m IH]; intros; cbn; [intuition|].
    destruct (eqb k k') eqn:E; cbn.
    - apply eqb_ok in E. subst. intuition.
    - rewrite IH. intuition.
  Qed.
  Lemma dput_nodup : forall k v m, NoDup (map fst m) -> NoDup (map fst (dput k v m)).
  Proof.
    induction m as [|[k' v'] m IH]; intros ND; cbn; [repeat constructor; auto|].
    inversion ND; subst. destruct (eqb k k') eqn:E; cbn; [now constructor|].
    constructor; [|auto]. rewrite dput_keys. intros [F|F]; [|contradiction].
    subst. rewrite eqb_refl' in E. discriminate.
  Qed.
  Lemma in_dput : forall k v m x y, NoDup (map fst m) ->
    (In (x, y) (dput k v m) <-> (x = k /\ y = v) \/ (x <> k /\ In (x, y) m)).
  Proof.
    intros k v m x y ND. pose proof (dput_nodup k v m ND) as ND'.
    destruct (eqb x k) eqn:E.
    - apply eqb_ok in E. subst x. split.
      + intros H. apply in_dget in H; auto. rewrite dget_put_same in H. left. split; congruence.
      + intros [[_ ->]|[N _]]; [apply dget_in, dget_put_same|congruence].
    - assert (N : x <> k) by (intros ->; rewrite eqb_refl' in E; discriminate). split.
      + intros H. apply in_dget in H; auto. rewrite dget_put_other in H by auto.
        right. split; [exact N|now apply dget_in].
      + intros [[-> _]|[_ H]]; [congruence|]. apply dget_in. rewrite dget_put_other by auto.
        now apply in_dget.
  Qed.
  Lemma dput_nonempty : forall k v m, dput k v m <> [].
  Proof. intros k v [|[k' v'] m]; cbn; [discriminate|]. destruct (eqb k k'); discriminate. Qed.
End DictP.

Lemma Neqb_ok : forall a b, N.eqb a b = true <-> a = b.
Proof. exact N.eqb_eq. Qed.

(** *** masks *)
Definition mask (ws : list N) : N := fold_right (fun i acc => N.lor (N.shiftl 1 i) acc) 0%N ws.
Lemma testbit_mask : forall ws i, N.testbit (mask ws) i = existsb (N.eqb i) ws.
Proof.
  induction ws as [|w ws IH]; intros i; cbn [mask fold_right existsb]; [apply N.bits_0|].
  rewrite N.lor_spec. fold (mask ws). rewrite IH. f_equal.
  rewrite N.shiftl_1_l, N.pow2_bits_eqb. apply N.eqb_sym.
Qed.
Lemma mask_in : forall ws i, N.testbit (mask ws) i = true <-> In i ws.
Proof.
  intros. rewrite testbit_mask, existsb_exists. split.
  - intros (x & I & E). apply N.eqb_eq in E. now subst.
  - intros I. exists i. split; [exact I|apply N.eqb_refl].
Qed.
Lemma mask_app : forall a b, mask (a ++ b) = N.lor (mask a) (mask b).
Proof.
  intros. apply N.bits_inj. intros i. rewrite N.lor_spec, !testbit_mask. apply existsb_app.
Qed.
Lemma mask_sameset : forall a b, mask a = mask b <-> sameset a b.
Proof.
  intros a b. split.
  - intros E i. rewrite <- !mask_in. now rewrite E.
  - intros S. apply N.bits_inj. intros i.
    destruct (N.testbit (mask a) i) eqn:A; symmetry.
    + apply mask_in, S. now apply mask_in.
    + destruct (N.testbit (mask b) i) eqn:B; [|reflexivity].
      apply mask_in, S, mask_in in B. congruence.
Qed.
Lemma samesetb_mask : forall a b, samesetb a b = N.eqb (mask a) (mask b).
Proof.
  intros a b. unfold samesetb.
  assert (E : (forallb (fun i => existsb (N.eqb i) b) a && forallb (fun i => existsb (N.eqb i) a) b)%bool = true
              <-> mask a = mask b).
  { rewrite mask_sameset, andb_true_iff, !forallb_forall.
    assert (X : forall l i, existsb (N.eqb i) l = true <-> In i l).
    { intros. rewrite <- testbit_mask. apply mask_in. }
    unfold sameset. split.
    - intros [A B] i. split; intros I; apply X; auto.
    - intros S. split; intros i I; apply X, S, I. }
  destruct (N.eqb_spec (mask a) (mask b)) as [Q|Q].
  - now apply E.
  - destruct (forallb _ a && _)%bool; [exfalso; apply Q; now apply E|reflexivity].
Qed.
Lemma bitset_mask : forall t, bitset t = mask (words_of t).
Proof.
  induction t as [l i|l a IHa b IHb]; cbn [bitset words_of].
  - unfold mask. cbn [fold_right]. now rewrite N.lor_0_r.
  - rewrite mask_app. congruence.
Qed.
Lemma subtrees_constituents : forall t,
  subtrees t = map (fun c => (fst c, mask (snd c))) (constituents t).
Proof.
  induction t as [l i|l a IHa b IHb]; cbn [subtrees constituents map fst snd].
  - unfold mask. cbn [fold_right]. now rewrite N.lor_0_r.
  - rewrite map_app, <- IHa, <- IHb, !bitset_mask. cbn [words_of]. now rewrite mask_app.
Qed.
Lemma words_nonempty : forall t, words_of t <> [].
Proof.
  induction t; cbn; [discriminate|]. intros E. apply app_eq_nil in E. tauto.
Qed.
Lemma subtrees_root : forall t, exists l, In (l, bitset t) (subtrees t).
Proof. intros [l i|l a b]; exists l; cbn; auto. Qed.

Lemma nodup_app' : forall A (a b : list A), NoDup a -> NoDup b ->
  (forall x, In x a -> ~ In x b) -> NoDup (a ++ b).
Proof.
  induction a as [|x a IH]; intros b Ha Hb D; [exact Hb|]. inversion Ha; subst. cbn.
  constructor.
  - intros I. apply in_app_or in I. destruct I as [I|I]; [contradiction|]. exact (D x (or_introl eq_refl) I).
  - apply IH; auto. intros y I. apply D. now right.
Qed.
(** constituents of a proper tree have pairwise different sets of words *)
Lemma const_words : forall t l s i, In (l, s) (constituents t) -> In i s -> In i (words_of t).
Proof.
  induction t as [l0 i0|l0 a IHa b IHb]; intros l s i H I; cbn in H.
  - destruct H as [H|[]]. inversion H; subst. exact I.
  - destruct H as [H|H]; [inversion H; subst; exact I|].
    cbn. apply in_or_app. apply in_app_or in H. destruct H as [H|H]; [left|right]; eauto.
Qed.
Lemma const_nonempty : forall t l s, In (l, s) (constituents t) -> s <> [].
Proof.
  induction t as [l0 i0|l0 a IHa b IHb]; intros l s H; cbn in H.
  - destruct H as [H|[]]. inversion H. discriminate.
  - destruct H as [H|H].
    + inversion H; subst. intros E. apply app_eq_nil in E. destruct E as [E _]. now apply words_nonempty in E.
    + apply in_app_or in H. destruct H; eauto.
Qed.
Lemma spans_nodup : forall t, proper t -> NoDup (map snd (subtrees t)).
Proof.
  intros t P. rewrite subtrees_constituents, map_map. cbn [snd].
  induction t as [l i|l a IHa b IHb]; cbn [constituents map snd].
  - repeat constructor; auto.
  - destruct P as (Pa & Pb & D & _). rewrite map_app.
    assert (NE : forall t0, exists i, In i (words_of t0)).
    { intros t0. destruct (words_of t0) eqn:E; [now apply words_nonempty in E|]. eexists. now left. }
    constructor.
    + intros I. apply in_app_or in I.
      assert (X : forall t0 t1, (forall i, In i (words_of t0) -> ~ In i (words_of t1)) ->
                sameset (words_of t0 ++ words_of t1) (words_of a ++ words_of b) ->
                ~ In (mask (words_of (BNode l a b))) (map (fun x => mask (snd x)) (constituents t0))).
      { intros t0 t1 D0 S0 J. apply in_map_iff in J. destruct J as ([l' s] & E & J). cbn [snd] in E.
        apply mask_sameset in E. destruct (NE t1) as [i Ii].
        assert (Is : In i s).
        { apply E. cbn. apply S0. apply in_or_app. now right. }
        apply (D0 i); [|exact Ii]. eapply const_words; eassumption. }
      destruct I as [I|I].
      * revert I. apply (X a b D). intros i; tauto.
      * revert I. apply (X b a); [intros i A B; exact (D i B A)|].
        intros i. rewrite !in_app_iff. tauto.
    + apply nodup_app'; auto.
      intros x A B. apply in_map_iff in A, B.
      destruct A as ([l1 s1] & E1 & A), B as ([l2 s2] & E2 & B). cbn [snd] in *. subst x.
      symmetry in E2. apply mask_sameset in E2.
      pose proof (const_nonempty _ _ _ A) as N1.
      destruct s1 as [|i s1]; [congruence|].
      apply (D i); [eapply const_words; [exact A|now left]|].
      eapply const_words; [exact B|]. apply E2. now left.
Qed.
