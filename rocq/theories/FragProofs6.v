(** exactcounts: all occurrences of a fragment, each once *)
From Coq Require Import NArith ZArith List Bool Lia Permutation Sorting.Sorted.
From Verif Require Import ExportProofs2 BitsModel BitsSpec TreeModel FragModel FragSpec FragProofs FragProofs2 FragProofs3 FragProofs4 FragProofs5.
Import ListNotations.

(** the trees of a treebank as arrays *)
Definition treebank (ts : list ctree) (trees : list btree) : Prop :=
  Forall2 (fun c t => array_of (fst c) (snd c) t) ts trees.

Lemma treebank_nth : forall ts trees m c, treebank ts trees -> nth_error ts m = Some c ->
  exists t, nth_error trees m = Some t /\ array_of (fst c) (snd c) t.
Proof.
  intros ts trees m c H. revert m. induction H as [|c' t' ts trees H1 H2 IH]; intros m E; [destruct m; discriminate|].
  destruct m; cbn in *; [injection E as ->; eauto|auto].
Qed.
Lemma treebank_nth' : forall ts trees m t, treebank ts trees -> nth_error trees m = Some t ->
  exists c, nth_error ts m = Some c /\ array_of (fst c) (snd c) t.
Proof.
  intros ts trees m c H. revert m. induction H as [|c' t' ts trees H1 H2 IH]; intros m E; [destruct m; discriminate|].
  destruct m; cbn in *; [injection E as ->; eauto|auto].
Qed.
Lemma frag_nodes_prod : forall a b f s t i j k, holds a i s -> holds b j t -> matches f s -> matches f t ->
  In k (frag_nodes a i f) -> exists l, In l (nodes_of b j t) /\ prod (nd b l) = prod (nd a k).
Proof.
  intros a b. induction f as [|p|p f IH|p f1 IH1 f2 IH2]; intros s t i j k Hs Ht Ms Mt HI; [destruct HI| | |];
    destruct s as [q x|q s1|q s1 s2]; cbn [matches] in Ms; try contradiction;
    destruct t as [q' x'|q' t1|q' t1 t2]; cbn [matches] in Mt; try contradiction.
  - destruct HI as [<-|[]]. exists j. split; [apply nodes_root|]. rewrite (holds_prod _ _ _ Hs), (holds_prod _ _ _ Ht). cbn. congruence.
  - cbn [frag_nodes] in HI. destruct HI as [<-|HI].
    + exists j. split; [apply nodes_root|]. rewrite (holds_prod _ _ _ Hs), (holds_prod _ _ _ Ht). cbn. intuition congruence.
    + destruct Hs as (_ & _ & _ & _ & Hs). destruct Ht as (_ & _ & _ & _ & Ht).
      destruct (IH s1 t1 _ _ k Hs Ht (proj2 Ms) (proj2 Mt) HI) as (l & Hl & E). exists l. split; auto. now right.
  - cbn [frag_nodes] in HI. destruct HI as [<-|HI].
    + exists j. split; [apply nodes_root|]. rewrite (holds_prod _ _ _ Hs), (holds_prod _ _ _ Ht). cbn. intuition congruence.
    + destruct Hs as (_ & _ & _ & _ & Hs1 & Hs2). destruct Ht as (_ & _ & _ & _ & Ht1 & Ht2).
      destruct Ms as (_ & Ms1 & Ms2). destruct Mt as (_ & Mt1 & Mt2). apply in_app_or in HI. destruct HI as [HI|HI].
      * destruct (IH1 s1 t1 _ _ k Hs1 Ht1 Ms1 Mt1 HI) as (l & Hl & E). exists l. split; auto. right. apply in_or_app. now left.
      * destruct (IH2 s2 t2 _ _ k Hs2 Ht2 Ms2 Mt2 HI) as (l & Hl & E). exists l. split; auto. right. apply in_or_app. now right.
Qed.
Lemma nodes_lt : forall a t i k, holds a i t -> In k (nodes_of a i t) -> k < length a.
Proof.
  intros a t i k H HI. apply (In_nodes a t i k H) in HI. destruct HI as (u & E).
  destruct (node_sub_inv a u i t k H E) as (s & _ & Hs). exact (holds_lt _ _ _ Hs).
Qed.
Lemma frag_nodes_nodup : forall a f s i, holds a i s -> matches f s -> NoDup (nodes_of a i s) -> NoDup (frag_nodes a i f).
Proof.
  intros a. induction f as [|p|p f IH|p f1 IH1 f2 IH2]; intros s i H M ND.
  - constructor.
  - repeat constructor. auto.
  - destruct s as [q x|q s1|q s1 s2]; cbn [matches] in M; try contradiction. destruct M as [_ M].
    destruct H as (_ & _ & _ & _ & H). cbn [nodes_of] in ND. inversion ND as [|? ? N1 ND1]; subst. cbn [frag_nodes]. constructor.
    + intros HI. apply N1. exact (frag_nodes_incl a f s1 _ _ H M HI).
    + eapply IH; eauto.
  - destruct s as [q x|q s1|q s1 s2]; cbn [matches] in M; try contradiction. destruct M as (_ & M1 & M2).
    destruct H as (_ & _ & _ & _ & H1 & H2). cbn [nodes_of] in ND. inversion ND as [|? ? N1 ND0]; subst.
    apply nodup_app_inv in ND0. destruct ND0 as (ND1 & ND2 & D). cbn [frag_nodes]. constructor.
    + intros HI. apply N1. apply in_or_app. apply in_app_or in HI. destruct HI as [HI|HI]; [left|right].
      * exact (frag_nodes_incl a f1 s1 _ _ H1 M1 HI).
      * exact (frag_nodes_incl a f2 s2 _ _ H2 M2 HI).
    + apply ExportProofs2.nodup_app; [eapply IH1; eauto|eapply IH2; eauto|].
      intros x X1 X2. apply (D x).
      * exact (frag_nodes_incl a f1 s1 _ _ H1 M1 X1).
      * exact (frag_nodes_incl a f2 s2 _ _ H2 M2 X2).
Qed.
Lemma flat_pairs_nodup : forall (g : nat -> list nat) c, NoDup c -> (forall m, NoDup (g m)) ->
  NoDup (flat_map (fun m => map (fun j => (m, j)) (g m)) c).
Proof.
  intros g. induction c as [|m c IH]; intros ND HG; cbn; [constructor|]. inversion ND as [|? ? N1 ND1]; subst.
  apply ExportProofs2.nodup_app; auto.
  - apply FinFun.Injective_map_NoDup; auto. intros x y E. congruence.
  - intros [x y] H1 H2. apply in_map_iff in H1. destruct H1 as (j & E & _). injection E as -> ->.
    apply in_flat_map in H2. destruct H2 as (m' & Hm' & H2). apply in_map_iff in H2. destruct H2 as (j' & E & _).
    injection E as -> _. contradiction.
Qed.

Lemma exactindices_ok : forall ts1 trees1 ts2 trees2 nprods id bits i a ra ta u f,
  treebank ts1 trees1 -> treebank ts2 trees2 -> valid_prods nprods ts2 ->
  nth_error ts1 id = Some (a, ra) -> nth_error trees1 id = Some ta ->
  (forall x, In x a -> (0 <= prod x)%Z) -> (forall tb, In tb trees2 -> agree ta tb) ->
  denotes a bits i f -> f <> Open -> node_at a ra u = Some i -> occurs f ta u ->
  NoDup (exactindices ts1 ts2 nprods (bits, id, i)) /\
  forall m j, In (m, j) (exactindices ts1 ts2 nprods (bits, id, i)) <->
    exists b rb tb v, nth_error ts2 m = Some (b, rb) /\ nth_error trees2 m = Some tb /\ node_at b rb v = Some j /\ occurs f tb v.
Proof.
  intros ts1 trees1 ts2 trees2 nprods id bits i a ra ta u f B1 B2 HV Ei Et NN AG (DW & DB) NO Eu (s & Es & M).
  destruct (treebank_nth ts1 trees1 id (a, ra) B1 Ei) as (ta' & Et' & HA). assert (ta' = ta) by congruence. subst ta'. cbn [fst snd] in HA.
  destruct (array_node _ _ _ _ _ HA Es) as (i' & Eu' & Hs). assert (i' = i) by congruence. subst i'.
  unfold exactindices. rewrite (nth_error_nth _ _ _ Ei). cbn [fst].
  set (l := frag_nodes a i f).
  assert (HL : forall k, In k l -> k < length a /\ (0 <= prod (nd a k))%Z).
  { intros k Hk. assert (L : k < length a) by (apply (nodes_lt a s i k Hs); exact (frag_nodes_incl a f s i k Hs M Hk)).
    split; auto. apply NN. apply nth_In. exact L. }
  pose proof (getcandidates_ok a bits nprods ts2 l (conj DW eq_refl)
    ltac:(intros k; symmetry; apply DB)
    (frag_nodes_nodup a f s i Hs M (sub_nodup _ _ _ _ _ _ HA Es Eu))
    ltac:(unfold l; destruct (frag_nodes_root a i f) as [X|X]; [intros E; rewrite E in X; exact X|contradiction])
    HL HV) as HC.
  assert (OCC : forall m b rb tb v, nth_error ts2 m = Some (b, rb) -> nth_error trees2 m = Some tb -> occurs f tb v ->
     forall k, In k l -> has_prod (fst (nth m ts2 ([], 0))) (kid (prod (nd a k)))).
  { intros m b rb tb v E1 E2 (t & Etb & Mt) k Hk. rewrite (nth_error_nth _ _ _ E1). cbn [fst].
    destruct (treebank_nth _ _ _ _ B2 E1) as (tb' & E2' & HB). assert (tb' = tb) by congruence. subst tb'. cbn [fst snd] in HB.
    destruct (array_node _ _ _ _ _ HB Etb) as (j & _ & Ht).
    destruct (frag_nodes_prod a b f s t i j k Hs Ht M Mt Hk) as (x & Hx & Ep).
    exists (nd b x). split; [apply nth_In; exact (nodes_lt b t j x Ht Hx)|]. rewrite Ep. unfold kid. pose proof (proj2 (HL k Hk)). lia. }
  destruct (getcandidates a bits (indextrees nprods ts2)) as [c|].
  - destruct HC as [NDc Hc].
    assert (MN : forall m, NoDup (match_nodes a (fst (nth m ts2 ([], 0))) bits i (seq 0 (length (fst (nth m ts2 ([], 0))))))).
    { intros m. destruct (nth_error ts2 m) as [[b rb]|] eqn:E.
      - rewrite (nth_error_nth _ _ _ E). cbn [fst]. destruct (treebank_nth _ _ _ _ B2 E) as (tb & _ & HB). cbn [fst snd] in HB.
        rewrite match_nodes_filter; [|apply HB|lia]. apply NoDup_filter. apply seq_NoDup.
      - rewrite nth_overflow by now apply nth_error_None. constructor. }
    split; [now apply flat_pairs_nodup|].
    intros m j. rewrite in_flat_map. split.
    + intros (m' & Hm' & HI). apply in_map_iff in HI. destruct HI as (j' & E & HI). injection E as -> ->.
      apply Hc in Hm'. destruct Hm' as [Lm _]. destruct (nth_error ts2 m) as [[b rb]|] eqn:E; [|apply nth_error_None in E; lia].
      rewrite (nth_error_nth _ _ _ E) in HI. cbn [fst] in HI.
      destruct (treebank_nth _ _ _ _ B2 E) as (tb & E2 & HB). cbn [fst snd] in HB.
      rewrite match_nodes_filter in HI; [|apply HB|lia]. apply filter_In in HI. destruct HI as [Lj HI].
      apply in_seq in Lj. apply andb_prop in HI. destruct HI as [_ HI].
      destruct (array_addr b rb tb j HB ltac:(lia)) as (v & Ev).
      destruct (node_sub_inv b v rb tb j (proj1 HB) Ev) as (t & Etb & Ht).
      exists b, rb, tb, v. split; auto. split; auto. split; auto. exists t. split; auto.
      apply (contains_ok (S (length a)) a b bits f s t i j); [|exact Hs|exact Ht| | |exact M|exact NO|intros k _; apply DB|exact HI].
      * pose proof (height_nodes a s i) as X. pose proof (sub_nodup _ _ _ _ _ _ HA Es Eu) as Y.
        assert (Z : incl (nodes_of a i s) (seq 0 (length a))) by (intros k Hk; apply in_seq; pose proof (nodes_lt a s i k Hs Hk); lia).
        pose proof (NoDup_incl_length Y Z) as W. rewrite seq_length in W. lia.
      * exact (sub_nodup _ _ _ _ _ _ HA Es Eu).
      * apply (agree_subs ta tb) with (x := u) (y := v); auto. apply AG. exact (nth_error_In _ _ E2).
    + intros (b & rb & tb & v & E1 & E2 & Ev & O). exists m. split.
      * apply Hc. split; [apply nth_error_Some; congruence|]. exact (OCC m b rb tb v E1 E2 O).
      * apply in_map. rewrite (nth_error_nth _ _ _ E1). cbn [fst].
        destruct (treebank_nth _ _ _ _ B2 E1) as (tb' & E2' & HB). assert (tb' = tb) by congruence. subst tb'. cbn [fst snd] in HB.
        destruct O as (t & Etb & Mt). destruct (array_node _ _ _ _ _ HB Etb) as (j' & Ej & Ht). assert (j' = j) by congruence. subst j'.
        rewrite match_nodes_filter; [|apply HB|lia]. apply filter_In. split; [apply in_seq; pose proof (holds_lt _ _ _ Ht); lia|].
        apply andb_true_intro. split.
        -- apply Z.eqb_eq. rewrite (holds_prod _ _ _ Hs), (holds_prod _ _ _ Ht). exact (matches_open f t NO Mt s M).
        -- apply (contains_ok (S (length a)) a b bits f s t i j); [|exact Hs|exact Ht| | |exact M|exact NO|intros k _; apply DB|exact Mt].
           ++ pose proof (height_nodes a s i) as X. pose proof (sub_nodup _ _ _ _ _ _ HA Es Eu) as Y.
              assert (Z : incl (nodes_of a i s) (seq 0 (length a))) by (intros k Hk; apply in_seq; pose proof (nodes_lt a s i k Hs Hk); lia).
              pose proof (NoDup_incl_length Y Z) as W. rewrite seq_length in W. lia.
           ++ exact (sub_nodup _ _ _ _ _ _ HA Es Eu).
           ++ apply (agree_subs ta tb) with (x := u) (y := v); auto. apply AG. exact (nth_error_In _ _ E2).
  - split; [constructor|]. intros m j. split; [intros []|]. intros (b & rb & tb & v & E1 & E2 & Ev & O). exfalso.
    destruct (HC m) as (k & Hk & N); [apply nth_error_Some; congruence|]. apply N. exact (OCC m b rb tb v E1 E2 O k Hk).
Qed.

(** The count is the number of places (tree, address) where f occurs. *)
Lemma exactcount_ok : forall ts1 trees1 ts2 trees2 nprods id bits i a ra ta u f places,
  treebank ts1 trees1 -> treebank ts2 trees2 -> valid_prods nprods ts2 ->
  nth_error ts1 id = Some (a, ra) -> nth_error trees1 id = Some ta ->
  (forall x, In x a -> (0 <= prod x)%Z) -> (forall tb, In tb trees2 -> agree ta tb) ->
  denotes a bits i f -> f <> Open -> node_at a ra u = Some i -> occurs f ta u ->
  NoDup places -> (forall m v, In (m, v) places <-> exists tb, nth_error trees2 m = Some tb /\ occurs f tb v) ->
  exactcount ts1 ts2 nprods (bits, id, i) = length places.
Proof.
  intros ts1 trees1 ts2 trees2 nprods id bits i a ra ta u f places B1 B2 HV Ei Et NN AG D NO Eu O NDp Hp.
  destruct (exactindices_ok _ _ _ _ _ _ _ _ _ _ _ _ _ B1 B2 HV Ei Et NN AG D NO Eu O) as [ND HI].
  unfold exactcount. set (l := exactindices ts1 ts2 nprods (bits, id, i)) in *. clearbody l.
  (* map places to nodes *)
  set (g := fun mv : nat * addr => let c := nth (fst mv) ts2 ([], 0) in
              (fst mv, match node_at (fst c) (snd c) (snd mv) with Some j => j | None => 0 end)).
  assert (G : forall m v, In (m, v) places -> exists b rb tb j, nth_error ts2 m = Some (b, rb) /\ nth_error trees2 m = Some tb /\
     array_of b rb tb /\ occurs f tb v /\ node_at b rb v = Some j /\ g (m, v) = (m, j)).
  { intros m v H. apply Hp in H. destruct H as (tb & E & Ob). destruct (treebank_nth' _ _ _ _ B2 E) as ([b rb] & E1 & HB). cbn [fst snd] in HB.
    pose proof Ob as (t & Etb & _). destruct (array_node _ _ _ _ _ HB Etb) as (j & Ej & _).
    exists b, rb, tb, j. repeat (split; [assumption|]). unfold g. cbn [fst snd]. rewrite (nth_error_nth _ _ _ E1). cbn [fst snd]. now rewrite Ej. }
  assert (ND2 : NoDup (map g places)).
  { assert (INJ : forall x y, In x places -> In y places -> g x = g y -> x = y).
    { intros [m v] [m' v'] H1 H2 E. destruct (G m v H1) as (b & rb & tb & j & A1 & A2 & A3 & A4 & A5 & A6).
      destruct (G m' v' H2) as (b' & rb' & tb' & j' & A1' & A2' & A3' & A4' & A5' & A6').
      rewrite A6, A6' in E. injection E as -> ->. assert ((b, rb) = (b', rb')) by congruence. injection H as -> ->.
      f_equal. exact (array_inj b' rb' tb v v' j' A3 A5 A5'). }
    clear - NDp INJ. induction NDp as [|x l N ND IH]; cbn; constructor.
    - intros HI. apply in_map_iff in HI. destruct HI as (y & E & Hy). apply N. rewrite <- (INJ y x (or_intror Hy) (or_introl eq_refl) E). exact Hy.
    - apply IH. intros y z Hy Hz. apply INJ; now right. }
  rewrite <- (map_length g places). apply Permutation_length. apply NoDup_Permutation; auto.
  intros [m j]. rewrite HI, in_map_iff. split.
  - intros (b & rb & tb & v & E1 & E2 & Ev & Ob). exists (m, v).
    assert (H : In (m, v) places) by (apply Hp; eauto). split; auto.
    destruct (G m v H) as (b' & rb' & tb' & j' & A1 & A2 & A3 & A4 & A5 & A6). rewrite A6. f_equal. congruence.
  - intros ([m' v] & E & H). destruct (G m' v H) as (b & rb & tb & j' & A1 & A2 & A3 & A4 & A5 & A6). rewrite A6 in E. injection E as -> ->.
    exists b, rb, tb, v. auto.
Qed.
