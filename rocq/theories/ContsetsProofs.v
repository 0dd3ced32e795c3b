(** Facts about minimal leaves, continuous nodes and contsets. *)
From Coq Require Import List Bool Arith Lia Permutation Sorted.
From Verif Require Import TreeModel TransformModel SortProofs.
Import ListNotations.

Lemma nodup_r : forall T (l l' : list T), NoDup (l ++ l') -> NoDup l'.
Proof. induction l as [|x l IH]; intros l' H; auto. cbn in H. inversion H; subst. auto. Qed.

(** ---- continuous sets of leaves ---- *)
Definition interval {L} (t : tree L nat) : Prop := exists a k, 0 < k /\ Permutation (leaves t) (seq a k).
Definition hi {L} (t : tree L nat) : nat := minleaf t + length (leaves t).
Lemma fold_min_le : forall r x, fold_left min r x <= x /\ (forall y, In y r -> fold_left min r x <= y) /\ (fold_left min r x = x \/ In (fold_left min r x) r).
Proof.
  induction r as [|y r IH]; intros x; cbn; [split; auto; split; auto; contradiction|].
  destruct (IH (min x y)) as (A & B & C). split; [lia|]. split.
  - intros z [->|Hz]; [lia|auto].
  - destruct C as [C|C]; [|auto]. destruct (Nat.min_spec x y) as [[_ E]|[_ E]]; rewrite E in *; auto.
Qed.
Lemma minleaf_spec : forall L (t : tree L nat), leaves t <> [] -> In (minleaf t) (leaves t) /\ forall a, In a (leaves t) -> minleaf t <= a.
Proof.
  intros L t H. unfold minleaf. destruct (leaves t) as [|x r]; [congruence|]. destruct (fold_min_le r x) as (A & B & C). split.
  - destruct C as [->|C]; [now left|now right].
  - intros a [->|Ha]; auto.
Qed.
Lemma minleaf_unique : forall L (t : tree L nat) m, In m (leaves t) -> (forall a, In a (leaves t) -> m <= a) -> minleaf t = m.
Proof.
  intros L t m H1 H2. destruct (minleaf_spec L t) as [A B]; [intros E; rewrite E in H1; contradiction|].
  specialize (B m H1). specialize (H2 _ A). lia.
Qed.
Lemma minleaf_perm : forall L L' (s : tree L nat) (t : tree L' nat), Permutation (leaves s) (leaves t) -> minleaf s = minleaf t.
Proof.
  intros L L' s t P. destruct (leaves s) as [|x r] eqn:E.
  - apply Permutation_nil in P. unfold minleaf. now rewrite E, P.
  - destruct (minleaf_spec L' t) as [A B]; [intros X; rewrite X in P; apply Permutation_sym, Permutation_nil in P; discriminate|].
    apply minleaf_unique; rewrite E.
    + eapply Permutation_in; [apply Permutation_sym; exact P|exact A].
    + intros a Ha. apply B. eapply Permutation_in; eauto.
Qed.
Lemma interval_seq : forall L (t : tree L nat), interval t -> Permutation (leaves t) (seq (minleaf t) (length (leaves t))) /\ leaves t <> [].
Proof.
  intros L t (a & k & K & P). pose proof (Permutation_length P) as LN. rewrite seq_length in LN.
  assert (M : minleaf t = a).
  { apply minleaf_unique.
    - eapply Permutation_in; [apply Permutation_sym; exact P|]. apply in_seq. lia.
    - intros x Hx. apply (Permutation_in _ P) in Hx. apply in_seq in Hx. lia. }
  rewrite M, LN. split; auto. intros E. rewrite E in LN. cbn in LN. lia.
Qed.

(** ---- blocks of a list of continuous nodes, sorted by their first leaf ---- *)
Section Blocks.
Context {L : Type}.
Notation node := (tree L nat).
Definition min_le (s t : node) : bool := minleaf s <=? minleaf t.
(** the first block is the run of adjacent nodes *)
Fixpoint blocks_from (cur : list node) (e : nat) (ns : list node) : list (list node) :=
  match ns with
  | [] => [cur]
  | n :: r => if minleaf n =? e then blocks_from (cur ++ [n]) (hi n) r else cur :: blocks_from [n] (hi n) r
  end.
Definition blocks (ns : list node) : list (list node) := match ns with [] => [] | n :: r => blocks_from [n] (hi n) r end.
Lemma blocks_from_concat : forall ns cur e, concat (blocks_from cur e ns) = cur ++ ns.
Proof.
  induction ns as [|n ns IH]; intros cur e; cbn; [now rewrite app_nil_r|]. destruct (minleaf n =? e).
  - rewrite IH, <- app_assoc. reflexivity.
  - cbn. rewrite IH. reflexivity.
Qed.
Lemma blocks_concat : forall ns, concat (blocks ns) = ns.
Proof. intros [|n ns]; [reflexivity|]. unfold blocks. now rewrite blocks_from_concat. Qed.
Lemma blocks_from_ne : forall ns cur e b, cur <> [] -> In b (blocks_from cur e ns) -> b <> [].
Proof.
  induction ns as [|n ns IH]; intros cur e b H HI; cbn in HI; [destruct HI as [<-|[]]; auto|].
  destruct (minleaf n =? e); [eapply IH; [|exact HI]; destruct cur; discriminate|]. destruct HI as [<-|HI]; auto. eapply IH; [|exact HI]. discriminate.
Qed.
Lemma blocks_ne : forall ns b, In b (blocks ns) -> b <> [].
Proof. intros [|n ns] b H; [contradiction|]. eapply blocks_from_ne; [|exact H]. discriminate. Qed.

(** sorted, disjoint: each node starts at or after the end of the previous one *)
Fixpoint chained (e : nat) (ns : list node) : Prop :=
  match ns with [] => True | n :: r => e <= minleaf n /\ interval n /\ chained (hi n) r end.
Lemma chained_leaves_ge : forall ns e a, chained e ns -> In a (flat_map leaves ns) -> e <= a.
Proof.
  induction ns as [|n ns IH]; intros e a H HI; [contradiction|]. cbn in H, HI. destruct H as (H1 & H2 & H3). apply in_app_or in HI. destruct HI as [HI|HI].
  - apply interval_seq in H2. destruct H2 as [P _]. apply (Permutation_in _ P) in HI. apply in_seq in HI. lia.
  - specialize (IH _ _ H3 HI). unfold hi in IH. lia.
Qed.
Lemma minleaf_chained : forall ns e n, chained e ns -> In n ns -> e <= minleaf n.
Proof.
  induction ns as [|m ns IH]; intros e n H HI; [contradiction|]. cbn in H. destruct H as (H1 & H2 & H3). destruct HI as [->|HI]; auto.
  specialize (IH _ _ H3 HI). unfold hi in IH. lia.
Qed.
Lemma mins_get_none : forall a (ns : list node) cur, (forall n, In n ns -> minleaf n <> a) -> mins_get a ns cur = cur.
Proof.
  induction ns as [|n ns IH]; intros cur H; [reflexivity|]. cbn. replace (minleaf n =? a) with false by (symmetry; apply Nat.eqb_neq; apply H; now left).
  apply IH. intros m Hm. apply H. now right.
Qed.
Lemma mins_get_perm : forall a (ns ns' : list node), Permutation ns ns' -> NoDup (map minleaf ns) -> mins_get a ns None = mins_get a ns' None.
Proof.
  assert (S : forall a (ns : list node) n cur, In n ns -> minleaf n = a -> NoDup (map minleaf ns) -> mins_get a ns cur = Some n).
  { intros a ns. induction ns as [|m ns IH]; intros n cur HI E ND; [contradiction|]. cbn in ND. inversion ND as [|? ? N1 N2]; subst. cbn [mins_get]. destruct HI as [->|HI].
    - rewrite Nat.eqb_refl. apply mins_get_none. intros x Hx E. apply N1. rewrite <- E. now apply in_map.
    - apply IH; auto. }
  intros a ns ns' P ND. destruct (in_dec Nat.eq_dec a (map minleaf ns)) as [HI|HI].
  - apply in_map_iff in HI. destruct HI as (n & E & HI). rewrite (S a ns n None HI E ND). symmetry. apply S; auto.
    + eapply Permutation_in; eauto.
    + eapply Permutation_NoDup; [apply Permutation_map; exact P|exact ND].
  - rewrite !mins_get_none; auto; intros n Hn E; apply HI; rewrite <- E; [|now apply in_map].
    apply in_map. eapply Permutation_in; [apply Permutation_sym; exact P|exact Hn].
Qed.
Lemma mins_get_at : forall (ns : list node) n, In n ns -> NoDup (map minleaf ns) -> mins_get (minleaf n) ns None = Some n.
Proof.
  intros ns n HI ND. apply in_split in HI. destruct HI as (l & r & ->).
  rewrite (mins_get_perm _ _ (l ++ r ++ [n])).
  - generalize (@None node) as cur. rewrite map_app in ND. cbn in ND. apply NoDup_remove_2 in ND. rewrite app_assoc.
    assert (G : forall k, In k (l ++ r) -> minleaf k <> minleaf n).
    { intros k Hk E. apply ND. rewrite <- map_app, <- E. now apply in_map. }
    revert G. generalize (l ++ r) as q. induction q as [|k q IH]; intros G cur; cbn.
    + now rewrite Nat.eqb_refl.
    + apply IH. intros m Hm. apply G. now right.
  - apply Permutation_app_head. change (n :: r) with ([n] ++ r). apply Permutation_app_comm.
  - exact ND.
Qed.
(** the loop over the sorted leaves *)
Fixpoint ranges_of (ns : list node) : list nat := match ns with [] => [] | n :: r => seq (minleaf n) (length (leaves n)) ++ ranges_of r end.
Lemma contloop_inner : forall (all : list node) k a p subset rest, a = p + 1 -> (forall n, In n all -> ~ (p < minleaf n < a + k)) ->
  contloop all (seq a k ++ rest) (Some p) subset = contloop all rest (Some (p + k)) subset.
Proof.
  induction k as [|k IH]; intros a p subset rest E H; [cbn; now rewrite Nat.add_0_r|]. cbn [seq app contloop].
  rewrite E, Nat.eqb_refl. rewrite mins_get_none by (intros n Hn X; apply (H n Hn); lia). cbn [app]. rewrite (IH (S (p + 1)) (p + 1)).
  - f_equal. f_equal. lia.
  - lia.
  - intros n Hn X. apply (H n Hn). lia.
Qed.
Lemma contloop_blocks : forall (all : list node), NoDup (map minleaf all) ->
  (forall n m, In n all -> In m all -> minleaf n < minleaf m -> hi n <= minleaf m) -> (forall n, In n all -> interval n) ->
  forall ns p subset, subset <> [] -> (forall n, In n ns -> In n all) -> chained (p + 1) ns ->
  contloop all (ranges_of ns) (Some p) subset = blocks_from subset (p + 1) ns.
Proof.
  intros all ND SEP INT. induction ns as [|n ns IH]; intros p subset NE IN CH.
  - cbn. destruct subset; [congruence|reflexivity].
  - cbn [ranges_of blocks_from]. cbn in CH. destruct CH as (C1 & C2 & C3). pose proof (interval_seq _ _ C2) as [_ NL].
    destruct (length (leaves n)) as [|k] eqn:EL; [destruct (leaves n); [congruence|discriminate]|]. cbn [seq app contloop].
    rewrite mins_get_at by (auto; apply IN; now left).
    assert (G : forall sub, sub <> [] -> contloop all (seq (S (minleaf n)) k ++ ranges_of ns) (Some (minleaf n)) sub = blocks_from sub (hi n) ns).
    { intros sub NS. rewrite contloop_inner.
      - rewrite IH; auto.
        + f_equal. unfold hi. rewrite EL. lia.
        + intros m Hm. apply IN. now right.
        + replace (minleaf n + k + 1) with (hi n) by (unfold hi; lia). exact C3.
      - lia.
      - intros m Hm X. assert (hi n <= minleaf m) by (apply SEP; auto; [apply IN; now left|lia]). unfold hi in *. lia. }
    destruct (minleaf n =? p + 1).
    + cbn [app]. apply G. destruct subset; discriminate.
    + cbn [app]. f_equal. apply G. discriminate.
Qed.
Lemma ranges_of_perm : forall ns : list node, (forall n, In n ns -> interval n) -> Permutation (flat_map leaves ns) (ranges_of ns).
Proof.
  induction ns as [|n ns IH]; intros H; cbn; [auto|]. apply Permutation_app; [|apply IH; intros; apply H; now right].
  apply interval_seq. apply H. now left.
Qed.
Lemma ranges_of_sorted : forall (ns : list node) e, chained e ns -> StronglySorted (fun x y => Nat.leb x y = true) (ranges_of ns) /\ Forall (fun x => e <= x) (ranges_of ns).
Proof.
  induction ns as [|n ns IH]; intros e H; cbn; [split; constructor|]. cbn in H. destruct H as (H1 & H2 & H3). destruct (IH _ H3) as [S1 S2].
  assert (APP : forall k a, a + k = hi n -> e <= a -> StronglySorted (fun x y => Nat.leb x y = true) (seq a k ++ ranges_of ns) /\ Forall (fun x => e <= x) (seq a k ++ ranges_of ns)).
  { induction k as [|k IHk]; intros a E Ha; cbn.
    - split; auto. eapply Forall_impl; [|exact S2]. cbn. intros x Hx. unfold hi in *. lia.
    - destruct (IHk (S a) ltac:(lia) ltac:(lia)) as [B1 B2]. split; constructor; auto.
      apply Forall_app. split.
      + apply Forall_forall. intros x Hx. apply in_seq in Hx. apply Nat.leb_le. lia.
      + eapply Forall_impl; [|exact S2]. cbn. intros x Hx. apply Nat.leb_le. lia. }
  apply APP; auto.
Qed.
(** sorting by the first leaf *)
Lemma min_total : forall x y : node, min_le x y = true \/ min_le y x = true.
Proof. intros. apply leb_total. Qed.
Lemma min_trans : forall x y z : node, min_le x y = true -> min_le y z = true -> min_le x z = true.
Proof. intros x y z. apply leb_trans. Qed.
Definition good_nodes (ns : list node) : Prop := (forall n, In n ns -> interval n) /\ NoDup (flat_map leaves ns).
Lemma nodup_mins : forall ns, good_nodes ns -> NoDup (map minleaf ns).
Proof.
  intros ns [H1 H2]. induction ns as [|n ns IH]; cbn; [constructor|]. cbn in H2. constructor.
  - intros X. apply in_map_iff in X. destruct X as (m & E & Hm).
    destruct (interval_seq _ n (H1 n ltac:(now left))) as [_ N1]. destruct (interval_seq _ m (H1 m ltac:(now right))) as [_ N2].
    apply minleaf_spec in N1, N2. destruct N1 as [N1 _], N2 as [N2 _]. rewrite E in N2.
    apply nodup_r in H2 as H3. revert H2. apply in_split in N1. destruct N1 as (a & b & ->). intros H2.
    rewrite <- app_assoc in H2. cbn in H2. apply NoDup_remove_2 in H2. apply H2. apply in_or_app. right. apply in_or_app. right.
    apply in_flat_map. exists m. auto.
  - apply IH; [intros; apply H1; now right|]. now apply nodup_r in H2.
Qed.
Lemma good_perm : forall ns ns', Permutation ns ns' -> good_nodes ns -> good_nodes ns'.
Proof.
  intros ns ns' P [H1 H2]. split.
  - intros n Hn. apply H1. eapply Permutation_in; [apply Permutation_sym; exact P|auto].
  - eapply Permutation_NoDup; [|exact H2]. apply Permutation_flat_map. exact P.
Qed.
Lemma good_sep : forall ns, good_nodes ns -> forall n m, In n ns -> In m ns -> minleaf n < minleaf m -> hi n <= minleaf m.
Proof.
  intros ns [H1 H2] n m Hn Hm LT. destruct (Nat.le_gt_cases (hi n) (minleaf m)) as [|GT]; auto. exfalso.
  destruct (interval_seq _ n (H1 n Hn)) as [P1 _]. destruct (interval_seq _ m (H1 m Hm)) as [_ N2]. apply minleaf_spec in N2. destruct N2 as [N2 _].
  assert (X : In (minleaf m) (leaves n)).
  { eapply Permutation_in; [apply Permutation_sym; exact P1|]. apply in_seq. unfold hi in GT. lia. }
  clear - H2 Hn Hm X N2 LT. induction ns as [|k ns IH]; [contradiction|]. cbn in H2.
  assert (D : forall x, In x (leaves k) -> In x (flat_map leaves ns) -> False).
  { intros x A B. apply in_split in A. destruct A as (a & b & E). rewrite E in H2. rewrite <- app_assoc in H2. cbn in H2. apply NoDup_remove_2 in H2. apply H2.
    apply in_or_app. right. apply in_or_app. now right. }
  apply nodup_r in H2. destruct Hn as [->|Hn], Hm as [->|Hm].
  - lia.
  - apply (D (minleaf m)); auto. apply in_flat_map. eauto.
  - apply (D (minleaf m)); auto. apply in_flat_map. eauto.
  - auto.
Qed.
Lemma sorted_chained : forall ns, good_nodes ns -> StronglySorted (fun x y => min_le x y = true) ns ->
  match ns with [] => True | n :: r => chained (hi n) r end.
Proof.
  intros ns G S. induction S as [|n ns S IH F]; [exact I|].
  assert (Gn : good_nodes ns). { destruct G as [G1 G2]. split; [intros; apply G1; now right|]. cbn in G2. now apply nodup_r in G2. }
  destruct ns as [|m ns]; [exact I|]. cbn [chained]. split.
  - apply (good_sep _ G); [now left|right; now left|]. inversion F; subst. unfold min_le in H1. apply Nat.leb_le in H1.
    pose proof (nodup_mins _ G) as ND. cbn in ND. inversion ND; subst. assert (minleaf n <> minleaf m) by (intros E; apply H3; now left). lia.
  - split; [apply G; right; now left|]. now apply IH.
Qed.
Theorem contsets_blocks : forall ns, good_nodes ns -> contsets ns = blocks (sort min_le ns).
Proof.
  intros ns G. set (ss := sort min_le ns). assert (P : Permutation ns ss) by apply sort_perm.
  pose proof (good_perm _ _ P G) as G2. pose proof (sorted_chained ss G2 (sort_sorted _ min_total min_trans ns)) as C.
  unfold contsets. destruct ss as [|n r] eqn:E.
  - apply Permutation_sym, Permutation_nil in P. subst. reflexivity.
  - assert (IV : interval n) by (apply G2; now left). pose proof (interval_seq _ _ IV) as [_ NL].
    assert (CH : chained (minleaf n) (n :: r)) by (cbn; auto).
    assert (SL : sort Nat.leb (flat_map leaves ns) = ranges_of (n :: r)).
    { apply nat_sort_unique; [apply (ranges_of_sorted _ _ CH)|]. eapply perm_trans; [apply Permutation_flat_map; exact P|].
      apply ranges_of_perm. apply G2. }
    rewrite SL. cbn [ranges_of blocks]. destruct (length (leaves n)) as [|k] eqn:EL; [destruct (leaves n); [congruence|discriminate]|].
    cbn [seq app contloop]. pose proof (nodup_mins _ G) as ND.
    assert (IN : In n ns) by (eapply Permutation_in; [apply Permutation_sym; exact P|now left]).
    rewrite mins_get_at by auto. cbn [app]. rewrite contloop_inner.
    + rewrite contloop_blocks; auto.
      * f_equal. unfold hi. lia.
      * apply (good_sep _ G).
      * apply G.
      * discriminate.
      * intros m Hm. eapply Permutation_in; [apply Permutation_sym; exact P|now right].
      * replace (minleaf n + k + 1) with (hi n) by (unfold hi; lia). exact C.
    + lia.
    + intros m Hm X. assert (hi n <= minleaf m) by (apply (good_sep _ G); auto; lia). unfold hi in *. lia.
Qed.
End Blocks.
(** what the blocks look like *)
Definition block_interval {L} (b : list (tree L nat)) : Prop := exists a k, 0 < k /\ Permutation (flat_map leaves b) (seq a k).
Lemma blocks_from_spec : forall L (ns : list (tree L nat)) cur a e, 0 < e - a -> a < e -> Permutation (flat_map leaves cur) (seq a (e - a)) -> chained e ns ->
  Forall block_interval (blocks_from cur e ns).
Proof.
  induction ns as [|n ns IH]; intros cur a e H0 H P C; cbn [blocks_from].
  - constructor; [|constructor]. exists a, (e - a). auto.
  - cbn in C. destruct C as (C1 & C2 & C3). pose proof (interval_seq _ _ C2) as [P2 N2].
    assert (0 < length (leaves n)) by (destruct (leaves n); [congruence|cbn; lia]).
    destruct (Nat.eqb_spec (minleaf n) e).
    + apply (IH _ a); auto; unfold hi; try lia. rewrite flat_map_app. cbn [flat_map]. rewrite app_nil_r.
      replace (minleaf n + length (leaves n) - a) with ((e - a) + length (leaves n)) by lia. rewrite seq_app. apply Permutation_app; auto.
      replace (a + (e - a)) with (minleaf n) by lia. exact P2.
    + constructor; [exists a, (e - a); auto|]. apply (IH _ (minleaf n)); auto; unfold hi; try lia. cbn [flat_map]. rewrite app_nil_r.
      replace (minleaf n + length (leaves n) - minleaf n) with (length (leaves n)) by lia. exact P2.
Qed.
(** successive blocks are separated by a gap *)
Lemma blocks_from_gap : forall L (ns : list (tree L nat)) cur e, chained e ns -> (forall x, In x (flat_map leaves cur) -> x < e) -> In (e - 1) (flat_map leaves cur) ->
  (exists a, In a (flat_map leaves cur)) ->
  forall i b c, nth_error (blocks_from cur e ns) i = Some b -> nth_error (blocks_from cur e ns) (S i) = Some c ->
  exists m, (forall x, In x (flat_map leaves b) -> x < m) /\ (forall y, In y (flat_map leaves c) -> m < y).
Proof.
  induction ns as [|n ns IH]; intros cur e C LT LE EX i b c Hb Hc; cbn [blocks_from] in *.
  - destruct i; cbn in Hc; [discriminate|destruct i; discriminate].
  - cbn in C. destruct C as (C1 & C2 & C3). pose proof (interval_seq _ _ C2) as [P2 N2].
    assert (0 < length (leaves n)) by (destruct (leaves n); [congruence|cbn; lia]).
    assert (HN : forall x, In x (leaves n) <-> minleaf n <= x < hi n).
    { intros x. split; intros Hx; [apply (Permutation_in _ P2) in Hx; now apply in_seq in Hx|].
      eapply Permutation_in; [apply Permutation_sym; exact P2|]. now apply in_seq. }
    destruct (Nat.eqb_spec (minleaf n) e).
    + eapply (IH (cur ++ [n]) (hi n)); eauto.
      * intros x Hx. rewrite flat_map_app in Hx. apply in_app_or in Hx. destruct Hx as [Hx|Hx]; [specialize (LT x Hx); unfold hi; lia|].
        cbn in Hx. rewrite app_nil_r in Hx. apply HN in Hx. lia.
      * rewrite flat_map_app. apply in_or_app. right. cbn. rewrite app_nil_r. apply HN. unfold hi. lia.
      * destruct EX as [x Hx]. exists x. rewrite flat_map_app. apply in_or_app. now left.
    + destruct i as [|i].
      * cbn in Hb. injection Hb as <-. cbn [nth_error] in Hc. exists e. split; [exact LT|].
        assert (F : forall (ns cur : list (tree L nat)) e0 c, nth_error (blocks_from cur e0 ns) 0 = Some c -> (forall y, In y (flat_map leaves cur) -> e < y) -> chained e0 ns -> e < e0 -> forall y, In y (flat_map leaves c) -> e < y).
        { clear. induction ns as [|n ns IH]; intros cur e0 c Hc HG CH HE y Hy; cbn in Hc.
          - injection Hc as <-. auto.
          - cbn in CH. destruct CH as (D1 & D2 & D3). destruct (minleaf n =? e0).
            + eapply IH; [exact Hc| |exact D3|unfold hi; lia|exact Hy]. intros z Hz. rewrite flat_map_app in Hz. apply in_app_or in Hz. destruct Hz as [Hz|Hz]; auto.
              cbn in Hz. rewrite app_nil_r in Hz. apply interval_seq in D2. destruct D2 as [D2 _]. apply (Permutation_in _ D2) in Hz. apply in_seq in Hz. lia.
            + injection Hc as <-. auto. }
        eapply F; [exact Hc| |exact C3|unfold hi; lia]. intros y Hy. cbn in Hy. rewrite app_nil_r in Hy. apply HN in Hy. lia.
      * cbn [nth_error] in Hb. change (nth_error (cur :: blocks_from [n] (hi n) ns) (S (S i))) with (nth_error (blocks_from [n] (hi n) ns) (S i)) in Hc.
        eapply (IH [n] (hi n)); eauto.
        -- intros x Hx. cbn in Hx. rewrite app_nil_r in Hx. apply HN in Hx. lia.
        -- cbn. rewrite app_nil_r. apply HN. unfold hi. lia.
        -- exists (minleaf n). cbn. rewrite app_nil_r. apply HN. unfold hi. lia.
Qed.
