From Coq Require Import NArith ZArith List Bool Arith Lia Permutation Sorting.Sorted.
From Verif Require Import ExportProofs2 BitsModel BitsSpec TreeModel FragModel FragSpec FragProofs FragProofs2 FragProofs3 FragProofs4 FragProofs5 FragProofs6 FragProofs7 FragProps FragParModel FragParSpec.
Import ListNotations.

(** * work division *)
Lemma tiles_app : forall l s m e x, tiles s m l -> m < e -> x = (m, e) -> tiles s e (l ++ [x]).
Proof.
  induction l as [|[a b] l IH]; intros s m e x H L ->; cbn in *; [subst; auto|]. destruct H as (-> & H1 & H2). split; [auto|]. split; [auto|]. eapply IH; eauto.
Qed.
Lemma workloop_tiles : forall c k N chunk togo goal last r last', last < k ->
  workloop (seq k c) N chunk togo goal last = (r, last') -> tiles last last' r /\ (last' = last \/ last' < k + c).
Proof.
  induction c as [|c IH]; intros k N chunk togo goal last r last' L E; cbn [seq workloop] in E.
  - injection E as <- <-. split; [reflexivity|auto].
  - destruct (_ <=? goal)%Z.
    + destruct (workloop (seq (S k) c) N chunk _ (goal - chunk) k) as [r1 l1] eqn:E1. injection E as <- <-.
      destruct (IH (S k) N chunk _ _ k r1 l1 ltac:(lia) E1) as [T1 T2]. split; [cbn; auto|]. right. destruct T2; lia.
    + destruct (IH (S k) N chunk _ _ last r last' ltac:(lia) E) as [T1 T2]. split; auto. destruct T2; [auto|right; lia].
Qed.
Lemma workload_tiles : forall N mult numproc, 1 <= N -> tiles 0 N (workload N mult numproc).
Proof.
  intros N mult numproc HN. unfold workload. destruct (numproc =? 1); [cbn; auto|].
  destruct (workloop _ _ _ _ _ _) as [r last] eqn:E. destruct (workloop_tiles _ _ _ _ _ _ _ _ _ (Nat.lt_0_succ 0) E) as [T1 T2].
  assert (last < N) by (destruct T2; lia). destruct (Nat.ltb_spec last N); [|lia]. eapply tiles_app; eauto.
Qed.
Lemma tiles_cover : forall l s e n, tiles s e l -> s <= n < e -> exists w, In w l /\ fst w <= n < snd w.
Proof.
  induction l as [|[a b] l IH]; intros s e n T H; cbn in T; [lia|]. destruct T as (-> & L & T). destruct (Nat.lt_ge_cases n b).
  - exists (s, b). cbn. split; auto. lia.
  - destruct (IH b e n T ltac:(lia)) as (w & Hw & Hn). exists w. split; [now right|auto].
Qed.
Lemma tiles_le : forall l s e, tiles s e l -> s <= e.
Proof. induction l as [|[a b] l IH]; intros s e T; cbn in T; [lia|]. destruct T as (-> & L & T). specialize (IH b e T). lia. Qed.
Lemma tiles_in : forall l s e w, tiles s e l -> In w l -> s <= fst w /\ fst w < snd w /\ snd w <= e.
Proof.
  induction l as [|[a b] l IH]; intros s e w T H; [destruct H|]. cbn in T. destruct T as (-> & L & T). pose proof (tiles_le _ _ _ T). destruct H as [<-|H]; [cbn; lia|].
  specialize (IH b e w T H). lia.
Qed.

(** * dictionaries *)
Section Dicts.
Context {V : Type}.
Implicit Types d r : list (frag * V).
Lemma dget_dset : forall d f g x, dget f (dset g x d) = if frag_eq_dec f g then Some x else dget f d.
Proof.
  induction d as [|[h v] d IH]; intros f g x; cbn [dset dget].
  - destruct (frag_eq_dec f g); reflexivity.
  - destruct (frag_eq_dec g h) as [->|N]; cbn [dget].
    + destruct (frag_eq_dec f h); reflexivity.
    + rewrite IH. destruct (frag_eq_dec f h) as [->|]; auto. destruct (frag_eq_dec h g); congruence.
Qed.
Lemma dget_In : forall d f x, NoDup (map fst d) -> (dget f d = Some x <-> In (f, x) d).
Proof.
  induction d as [|[g v] d IH]; intros f x ND; cbn [dget In]; [split; [discriminate|tauto]|]. cbn in ND. inversion ND as [|? ? N1 ND1]; subst.
  destruct (frag_eq_dec f g) as [->|N].
  - split; [intros E; injection E as ->; now left|]. intros [E|H]; [now injection E as ->|]. exfalso. apply N1. apply in_map_iff. now exists (g, x).
  - rewrite IH by assumption. split; [auto|]. intros [E|H]; [congruence|auto].
Qed.
Lemma dset_keys : forall d f x, map fst (dset f x d) = if dget f d then map fst d else map fst d ++ [f].
Proof.
  induction d as [|[g v] d IH]; intros f x; cbn [dset dget map fst app]; [reflexivity|]. destruct (frag_eq_dec f g) as [->|N]; [reflexivity|].
  cbn [map fst]. rewrite IH. destruct (dget f d); reflexivity.
Qed.
Lemma dget_none : forall d f, dget f d = None <-> ~ In f (map fst d).
Proof.
  induction d as [|[g v] d IH]; intros f; cbn [dget map fst In]; [tauto|]. destruct (frag_eq_dec f g) as [->|N]; [split; [discriminate|intros H; destruct H; now left]|].
  rewrite IH. intuition congruence.
Qed.
Lemma dset_nodup : forall d f x, NoDup (map fst d) -> NoDup (map fst (dset f x d)).
Proof.
  intros d f x ND. rewrite dset_keys. destruct (dget f d) eqn:E; auto. apply dget_none in E. apply (Permutation_NoDup (Permutation_cons_append _ f)). now constructor.
Qed.
End Dicts.

Section Collect.
Variable ts : list ctree.
Notation key := (keyof ts).
Definition Inv (d : list (frag * stored)) (P : stored -> Prop) : Prop :=
  NoDup (map fst d) /\ (forall f x, dget f d = Some x -> key x = f /\ P x) /\ (forall x, P x -> dget (key x) d <> None).
Lemma inv_ext : forall d P Q, (forall x, P x <-> Q x) -> Inv d P -> Inv d Q.
Proof.
  intros d P Q E (H1 & H2 & H3). split; auto. split; [intros f x H; destruct (H2 f x H); split; auto; now apply E|]. intros x H. apply H3. now apply E.
Qed.
Lemma collect_inv : forall l d P, Inv d P -> Inv (collect ts d l) (fun x => P x \/ In x l).
Proof.
  unfold collect. induction l as [|x l IH]; intros d P H; cbn [fold_left].
  - eapply inv_ext; [|exact H]. intros x. cbn. tauto.
  - apply (inv_ext _ (fun y => (P y \/ y = x) \/ In y l)); [intros y; cbn; intuition|]. apply IH. destruct H as (H1 & H2 & H3).
    destruct (dget (key x) d) eqn:E.
    + split; auto. split; [intros f y Hy; destruct (H2 f y Hy); auto|]. intros y [Hy| ->]; auto. congruence.
    + split; [now apply dset_nodup|]. split.
      * intros f y. rewrite dget_dset. destruct (frag_eq_dec f (key x)) as [->|N]; [intros Hy; injection Hy as <-; auto|]. intros Hy. destruct (H2 f y Hy). auto.
      * intros y Hy. rewrite dget_dset. destruct (frag_eq_dec (key y) (key x)); [discriminate|]. destruct Hy as [Hy| ->]; [auto|congruence].
Qed.
Lemma inv_nil : Inv [] (fun _ => False).
Proof. split; [constructor|]. split; [discriminate|contradiction]. Qed.
Lemma update_inv : forall r d P R, Inv d P -> Inv r R -> Inv (dupdate d r) (fun x => P x \/ R x).
Proof.
  intros r d P R HD HR. unfold dupdate. destruct HR as (R1 & R2 & R3).
  assert (G : forall r' d' P', (forall f x, In (f, x) r' -> key x = f /\ R x) -> Inv d' P' ->
    NoDup (map fst (fold_left (fun d fx => dset (fst fx) (snd fx) d) r' d')) /\
    (forall f x, dget f (fold_left (fun d fx => dset (fst fx) (snd fx) d) r' d') = Some x -> key x = f /\ (P' x \/ R x)) /\
    (forall f, dget f d' <> None \/ In f (map fst r') -> dget f (fold_left (fun d fx => dset (fst fx) (snd fx) d) r' d') <> None)).
  { induction r' as [|[g y] r' IH]; intros d' P' HR' HD'; cbn [fold_left fst snd map In].
    - destruct HD' as (D1 & D2 & D3). split; auto. split; [intros f x Hx; destruct (D2 f x Hx); auto|]. intros f [Hf|[]]; auto.
    - destruct HD' as (D1 & D2 & D3). destruct (HR' g y (or_introl eq_refl)) as [K Ry].
      assert (ND : NoDup (map fst (dset g y d'))) by now apply dset_nodup.
      set (d1 := dset g y d') in *.
      assert (E1 : forall f x, dget f d1 = Some x -> key x = f /\ (P' x \/ R x)).
      { intros f x. unfold d1. rewrite dget_dset. destruct (frag_eq_dec f g) as [->|N]; [intros H; injection H as <-; auto|]. intros H. destruct (D2 f x H). auto. }
      destruct (IH d1 (fun x => (P' x \/ R x) /\ dget (key x) d1 <> None)) as (I1 & I2 & I3).
      { intros f x Hx. apply HR'. now right. }
      { split; auto. split; [|intros x [_ Hx]; exact Hx]. intros f x Hx. destruct (E1 f x Hx) as [Kx Px]. split; auto. split; auto. rewrite Kx, Hx. discriminate. }
      split; auto. split.
      + intros f x Hx. destruct (I2 f x Hx) as [Kx Px]. split; auto. tauto.
      + intros f Hf. apply I3. unfold d1. rewrite dget_dset. destruct (frag_eq_dec f g) as [->|N]; [left; discriminate|]. destruct Hf as [Hf|[Hf|Hf]]; auto. }
  destruct (G r d P) as (G1 & G2 & G3); auto.
  { intros f x Hx. apply R2. now apply dget_In. }
  split; auto. split; auto. intros x [Hx|Hx]; apply G3.
  - left. now apply HD.
  - right. destruct (in_dec frag_eq_dec (key x) (map fst r)) as [Hi|Hi]; auto. exfalso. apply (R3 x Hx). now apply dget_none.
Qed.
End Collect.
