(** Proofs for C66, part 2: the table of marginal probabilities. *)
From Coq Require Import String.
From Coq Require Import List Bool Arith NArith ZArith QArith Lia Lqa Permutation.
From Verif Require Import PyStr BitsModel BitsSpec BitsProofs McpModel McpSpec McpProofs.
Import ListNotations.
Local Open Scope list_scope.

Lemma qsum_cons : forall x l, qsum (x :: l) = x + qsum l.
Proof. reflexivity. Qed.
Lemma qsum_app : forall a b, qsum (a ++ b) == qsum a + qsum b.
Proof.
  induction a as [|x a IH]; intros b; cbn [app].
  - change (qsum []) with 0. lra.
  - rewrite !qsum_cons, IH. lra.
Qed.

Definition entry := ((pystr * N) * Q)%type.
Definition entries (ds : list (bt * Q)) : list entry :=
  flat_map (fun d => map (fun ls => (ls, snd d)) (subtrees (fst d))) ds.
Definition matching (l : pystr) (s : N) (es : list entry) : list entry :=
  filter (fun e => eqs l (fst (fst e)) && N.eqb s (snd (fst e))) es.
Definition emass (l : pystr) (s : N) (es : list entry) : Q := qsum (map snd (matching l s es)).

Section Table.
  Variable labels : option (list pystr).
  Definition val (l : pystr) (s : N) (es : list entry) : Q :=
    if counted labels l then emass l s es else 0.
  Definition run (es : list entry) : table :=
    fold_left (fun tb e => addconst labels (snd e) tb (fst e)) es [].

  Lemma marginals_run : forall ds, marginals labels ds = run (entries ds).
  Proof.
    intros ds. unfold marginals, run.
    assert (G : forall ds tb, fold_left (addtree labels) ds tb
       = fold_left (fun tb e => addconst labels (snd e) tb (fst e)) (entries ds) tb); [|apply G].
    clear ds. induction ds as [|[t w] ds IH]; intros tb; [reflexivity|].
    cbn [fold_left entries flat_map]. rewrite fold_left_app, IH. f_equal.
    unfold addtree. cbn [fst snd].
    generalize (subtrees t). intros l. revert tb. clear.
    induction l as [|x l IH]; intros tb; [reflexivity|]. cbn [fold_left map fst snd]. apply IH.
  Qed.

  Definition cellok (s : N) (es : list entry) (c : tablecell) : Prop :=
    c <> [] /\ NoDup (map fst c)
    /\ (forall l, In l (map fst c) <-> exists w, In ((l, s), w) es)
    /\ (forall l p, In (l, p) c -> p == val l s es).
  Definition tableok (es : list entry) (tb : table) : Prop :=
    NoDup (map fst tb)
    /\ (forall s, In s (map fst tb) <-> exists l w, In ((l, s), w) es)
    /\ (forall s c, In (s, c) tb -> cellok s es c).

  Lemma val_snoc : forall l s es l0 s0 w,
    val l s (es ++ [((l0, s0), w)])
    == val l s es + (if counted labels l && (eqs l l0 && N.eqb s s0) then w else 0).
  Proof.
    intros. unfold val, emass, matching. rewrite filter_app, map_app. cbn [filter fst snd].
    destruct (counted labels l); cbn [andb]; [|lra].
    rewrite qsum_app. destruct (eqs l l0 && N.eqb s s0)%bool; cbn [map snd];
      [rewrite qsum_cons|]; change (qsum []) with 0; lra.
  Qed.
  Lemma val_none : forall l s es, (forall w, ~ In ((l, s), w) es) -> val l s es == 0.
  Proof.
    intros l s es H. unfold val. destruct (counted labels l); [|lra]. unfold emass, matching.
    destruct (filter _ es) as [|[[l' s'] w] r] eqn:F; [reflexivity|]. exfalso.
    assert (I : In ((l', s'), w) (filter (fun e => eqs l (fst (fst e)) && N.eqb s (snd (fst e))) es))
      by (rewrite F; now left).
    apply filter_In in I. cbn [fst snd] in I. destruct I as [I E]. apply andb_prop in E.
    destruct E as [E1 E2]. apply eqs_eq in E1. apply N.eqb_eq in E2. subst. exact (H w I).
  Qed.

  Lemma table_ok : forall es, tableok es (run es).
  Proof.
    induction es as [|[[l0 s0] w0] es IH] using rev_ind.
    - split; [constructor|]. split; [|intros ? ? []]. intros s. cbn. split; [intros []|]. intros (? & ? & []).
    - match goal with |- tableok _ (run ?x) =>
        replace (run x) with (addconst labels w0 (run es) (l0, s0))
          by (unfold run; rewrite fold_left_app; reflexivity) end.
      revert IH. generalize (run es). intros tb (ND & K & C).
      cbv beta iota zeta delta [addconst].
      set (c0 := match dget N.eqb s0 tb with Some c => c | None => [] end).
      assert (C0 : NoDup (map fst c0)
        /\ (forall l, In l (map fst c0) <-> exists w, In ((l, s0), w) es)
        /\ (forall l p, In (l, p) c0 -> p == val l s0 es)).
      { unfold c0. destruct (dget N.eqb s0 tb) as [c|] eqn:G.
        - apply (dget_in _ Neqb_ok) in G. exact (proj2 (C _ _ G)).
        - apply (dget_none _ Neqb_ok) in G. split; [constructor|]. split; [|intros ? ? []].
          intros l. split; [intros []|]. intros [w I]. exfalso. apply G, K. eauto. }
      clearbody c0. destruct C0 as (ND0 & K0 & V0).
      set (c1 := match dget eqs l0 c0 with Some _ => c0 | None => dput eqs l0 0 c0 end).
      assert (C1 : NoDup (map fst c1)
        /\ (forall l, In l (map fst c1) <-> l = l0 \/ exists w, In ((l, s0), w) es)
        /\ (forall l p, In (l, p) c1 -> p == val l s0 es)).
      { unfold c1. destruct (dget eqs l0 c0) as [p0|] eqn:G.
        - split; [exact ND0|]. split; [|exact V0]. intros l. rewrite K0. split; [auto|].
          intros [->|H]; [|exact H]. apply K0. apply (dget_some _ eqs_eq). eauto.
        - split; [now apply (dput_nodup _ eqs_eq)|]. split.
          + intros l. rewrite (dput_keys _ eqs_eq), K0. tauto.
          + intros l p I. apply (in_dput _ eqs_eq) in I; [|exact ND0].
            destruct I as [[-> ->]|[_ I]]; [|auto]. symmetry. apply val_none. intros w I.
            apply (dget_none _ eqs_eq) in G. apply G, K0. eauto. }
      assert (G1 : exists p0, dget eqs l0 c1 = Some p0 /\ p0 == val l0 s0 es).
      { destruct C1 as (A & B & D).
        assert (I : In l0 (map fst c1)) by (apply B; now left).
        apply (dget_some _ eqs_eq) in I. destruct I as [p0 G]. exists p0. split; [exact G|].
        apply D. now apply (dget_in _ eqs_eq). }
      clearbody c1. clear c0 ND0 K0 V0. destruct C1 as (ND1 & K1 & V1). destruct G1 as (p0 & G1 & P0).
      rewrite G1.
      set (c2 := if counted labels l0 then dput eqs l0 (p0 + w0) c1 else c1).
      assert (C2 : cellok s0 (es ++ [((l0, s0), w0)]) c2).
      { assert (KN : forall l, (l = l0 \/ exists w, In ((l, s0), w) es) <-> exists w, In ((l, s0), w) (es ++ [((l0, s0), w0)])).
        { intros l. split.
          - intros [->|[w I]]; [exists w0; apply in_or_app; right; now left|exists w; apply in_or_app; now left].
          - intros [w I]. apply in_app_or in I. destruct I as [I|[I|[]]]; [right; eauto|]. inversion I. now left. }
        unfold c2. destruct (counted labels l0) eqn:Ct.
        - split; [apply dput_nonempty|]. split; [now apply (dput_nodup _ eqs_eq)|]. split.
          + intros l. rewrite (dput_keys _ eqs_eq), K1, <- KN. tauto.
          + intros l p I. apply (in_dput _ eqs_eq) in I; [|exact ND1]. rewrite val_snoc.
            destruct I as [[-> ->]|[N I]].
            * rewrite Ct, eqs_refl, N.eqb_refl. cbn [andb]. lra.
            * assert (E : eqs l l0 = false) by now apply eqs_neq. rewrite E. cbn [andb].
              rewrite andb_false_r. specialize (V1 _ _ I). lra.
        - split; [intros E; rewrite E in G1; discriminate|]. split; [exact ND1|]. split.
          + intros l. rewrite K1. apply KN.
          + intros l p I. rewrite val_snoc. specialize (V1 _ _ I).
            destruct (eqs l l0) eqn:E; [apply eqs_eq in E; subst; rewrite Ct|]; cbn [andb];
              rewrite ?andb_false_r; lra. }
      clearbody c2. split; [now apply (dput_nodup _ Neqb_ok)|]. split.
      + intros s. rewrite (dput_keys _ Neqb_ok), K. split.
        * intros [->|(l & w & I)]; [exists l0, w0; apply in_or_app; right; now left|].
          exists l, w. apply in_or_app. now left.
        * intros (l & w & I). apply in_app_or in I. destruct I as [I|[I|[]]]; [right; eauto|].
          inversion I. now left.
      + intros s c I. apply (in_dput _ Neqb_ok) in I; [|exact ND].
        destruct I as [[-> ->]|[N I]]; [exact C2|]. destruct (C _ _ I) as (A & B & D & E).
        split; [exact A|]. split; [exact B|]. split.
        * intros l. rewrite D. split; intros [w J].
          -- exists w. apply in_or_app. now left.
          -- apply in_app_or in J. destruct J as [J|[J|[]]]; [eauto|]. inversion J. congruence.
        * intros l p J. rewrite val_snoc. specialize (E _ _ J).
          assert (F : N.eqb s s0 = false) by now apply N.eqb_neq. rewrite F, !andb_false_r. lra.
  Qed.

  Lemma maxitem_spec : forall l x, In (maxitem x l) (x :: l)
    /\ forall y, In y (x :: l) -> snd y <= snd (maxitem x l).
  Proof.
    induction l as [|y l IH]; intros x; cbn [maxitem].
    - split; [now left|]. intros y [->|[]]. lra.
    - destruct (Qlt_le_dec (snd x) (snd y)) as [H|H].
      + destruct (IH y) as [I M]. split; [now right|].
        intros z [->|Iz]; [|auto]. specialize (M y (or_introl eq_refl)). lra.
      + destruct (IH x) as [I M]. split; [destruct I as [<-|I]; [now left|right; now right]|].
        intros z [->|[->|Iz]]; [apply M; now left| |apply M; now right].
        specialize (M x (or_introl eq_refl)). lra.
  Qed.
  (** the best label of an observed span *)
  Lemma maxlabel_spec : forall s es c, cellok s es c -> (forall l w, In ((l, s), w) es -> 0 <= w) ->
    (exists w, In ((fst (maxlabelof c), s), w) es)
    /\ snd (maxlabelof c) == val (fst (maxlabelof c)) s es
    /\ forall l, val l s es <= snd (maxlabelof c).
  Proof.
    intros s es c (NE & ND & K & V) POS. destruct c as [|x c]; [congruence|]. cbn [maxlabelof].
    destruct (maxitem_spec c x) as [I M]. destruct (maxitem x c) as [lm pm]. cbn [fst snd] in *.
    assert (VP : forall l, 0 <= val l s es).
    { intros l. unfold val. destruct (counted labels l); [|lra]. unfold emass, matching.
      assert (G : forall r : list entry, (forall e, In e r -> 0 <= snd e) -> 0 <= qsum (map snd r)).
      { clear. induction r as [|e r IH]; intros H; cbn [map]; [change (qsum []) with 0; lra|].
        rewrite qsum_cons. pose proof (H e (or_introl eq_refl)). assert (0 <= qsum (map snd r)) by (apply IH; intros; apply H; now right). lra. }
      apply G. intros [[l' s'] w] J. apply filter_In in J. cbn [fst snd] in *. destruct J as [J E].
      apply andb_prop in E. destruct E as [_ E]. apply N.eqb_eq in E. subst. eauto. }
    split; [apply K; change lm with (fst (lm, pm)); now apply in_map|]. split; [auto|].
    intros l. destruct (in_dec (list_eq_dec N.eq_dec) l (map fst (x :: c))) as [J|J].
    - apply in_map_iff in J. destruct J as ([l' p] & E & J). cbn [fst] in E. subst l'.
      specialize (M _ J). cbn [snd] in M. specialize (V _ _ J). lra.
    - rewrite val_none by (intros w F; apply J, K; eauto).
      specialize (V _ _ I). specialize (VP lm). lra.
  Qed.
End Table.

Lemma sentprob_ok : forall ds, sentprob ds == qsum (map snd ds).
Proof.
  intros ds. unfold sentprob.
  assert (G : forall ds q, fold_left (fun p (d : bt * Q) => p + snd d) ds q == q + qsum (map snd ds)).
  { clear. induction ds as [|d ds IH]; intros q; cbn [fold_left map].
    - change (qsum []) with 0. lra.
    - rewrite IH, qsum_cons. lra. }
  rewrite G. lra.
Qed.

(** the mass of a constituent is that of the derivations that have it *)
Lemma emass_derivations : forall ds l s,
  Forall (fun d => proper (fst d)) ds ->
  emass l (mask s) (entries ds)
  == qsum (map snd (filter (fun d => has_const l s (fst d)) ds)).
Proof.
  intros ds l s F. induction F as [|[t w] ds P F IH]; [reflexivity|].
  unfold entries. cbn [flat_map fst snd]. fold (entries ds).
  unfold emass, matching. rewrite filter_app, map_app, qsum_app.
  fold (matching l (mask s) (entries ds)). fold (emass l (mask s) (entries ds)). rewrite IH.
  cbn [filter fst].
  set (q := fun e : entry => (eqs l (fst (fst e)) && N.eqb (mask s) (snd (fst e)))%bool).
  assert (G : qsum (map snd (filter q (map (fun ls => (ls, w)) (subtrees t))))
     == if has_const l s t then w else 0).
  { cbn [fst] in P. pose proof (spans_nodup t P) as ND.
    assert (H : has_const l s t = existsb (fun ls => q (ls, w)) (subtrees t)).
    { unfold has_const. rewrite subtrees_constituents. clear.
      induction (constituents t) as [|c r IH]; [reflexivity|]. cbn [existsb map].
      rewrite IH. f_equal. unfold q. cbn [fst snd]. now rewrite samesetb_mask. }
    rewrite H. clear - ND. induction (subtrees t) as [|[l1 s1] r IH]; [reflexivity|].
    cbn [map filter existsb]. inversion ND; subst. specialize (IH H2).
    destruct (q ((l1, s1), w)) eqn:E; cbn [orb].
    - cbn [map snd]. rewrite qsum_cons, IH.
      assert (Z : existsb (fun ls => q (ls, w)) r = false).
      { destruct (existsb (fun ls => q (ls, w)) r) eqn:X; [|reflexivity]. exfalso.
        apply existsb_exists in X. destruct X as ([l2 s2] & I & X). unfold q in E, X. cbn [fst snd] in *.
        apply andb_prop in E, X. destruct E as [_ E], X as [_ X]. apply N.eqb_eq in E, X. subst.
        apply H1. change (mask s) with (snd (l2, mask s)). now apply in_map. }
      rewrite Z. lra.
    - rewrite IH. lra. }
  etransitivity; [apply Qplus_comp; [exact G|reflexivity]|]. destruct (has_const l s t); cbn [map snd]; [rewrite qsum_cons|]; lra.
Qed.
