(** C55-C58: tree fragments.

    The specification is FragSpec.v: a treebank tree is a binary tree of
    production numbers ([btree]), a fragment a connected part of one ([frag]);
    [occurs f t u]: fragment f is found at address u of t; [common]: found in
    both trees; [maximal]: no larger common fragment covers it in the same
    place; [array_of a r t]: the node array a with root r is the tree t sorted
    by production; [denotes a bits i f]: the bitset is the set of nodes of the
    fragment f rooted at node i. *)
From Coq Require Import NArith ZArith List Bool Lia Permutation Sorting.Sorted.
From Verif Require Import BitsModel BitsSpec TreeModel FragModel FragSpec FragProofs FragProofs2 FragProofs3 FragProofs4 FragProofs5 FragProofs6 FragProofs7.
Import ListNotations.

(** * C58: the node arrays *)
(** Converting a binarized tree gives an array of exactly its nodes, sorted. *)
Theorem C58_array : forall L (s : tree L nat) t, same_shape s t ->
  exists a r, getctree s (preorder t) = Some (a, r) /\ array_of a r t.
Proof. exact getctree_ok. Qed.
(** In such an array every node number is the position of exactly one node of
    the tree, with its production. *)
Theorem C58_nodes : forall a r t, array_of a r t ->
  (forall u s, sub t u = Some s -> exists k, node_at a r u = Some k /\ k < length a /\ prod (nd a k) = bprod s) /\
  (forall k, k < length a -> exists u s, node_at a r u = Some k /\ sub t u = Some s /\ prod (nd a k) = bprod s) /\
  (forall u v k, node_at a r u = Some k -> node_at a r v = Some k -> u = v) /\
  (forall i k, i <= k < length a -> (prod (nd a i) <= prod (nd a k))%Z).
Proof.
  intros a r t HA. split; [|split; [|split]].
  - intros u s E. destruct (array_node _ _ _ _ _ HA E) as (k & Ek & Hk). exists k. split; auto.
    split; [exact (holds_lt _ _ _ Hk)|exact (holds_prod _ _ _ Hk)].
  - intros k Hk. destruct (array_addr _ _ _ _ HA Hk) as (u & Eu). destruct (node_sub_inv _ _ _ _ _ (proj1 HA) Eu) as (s & Es & Hs).
    exists u, s. split; auto. split; auto. exact (holds_prod _ _ _ Hs).
  - intros u v k. exact (array_inj _ _ _ _ _ _ HA).
  - intros i k. apply ordered_le. apply HA.
Qed.

(** * C55: the fragments of a pair of trees *)
Theorem C55_sound : forall a ra ta b rb tb n slots x,
  array_of a ra ta -> array_of b rb tb -> agree ta tb -> length a <= 64 * slots ->
  In x (extractfrompair a n b rb 0 slots []) ->
  exists u v i bits f, x = (bits, n, i) /\ node_at a ra u = Some i /\ denotes a bits i f /\
    common f ta u tb v /\ maximal f ta u tb v.
Proof.
  intros a ra ta b rb tb n slots x HA HB AG HL Hx.
  destruct (extractfrompair_ok slots n 0 a b ra rb ta tb HA HB AG HL []) as (S1 & _ & _).
  destruct (S1 x Hx) as [[]|(u & v & R & (s & t & i & bits & Es & Et & Ei & -> & W & HI & _))].
  exists u, v, i, bits, (mcf s t). split; auto. split; auto. split; [split; [apply W|exact HI]|].
  exact (root_common ta tb AG u v s t R Es Et).
Qed.
(** Every common fragment is part of a reported one, in the same place. *)
Theorem C55_complete : forall a ra ta b rb tb n slots f u v,
  array_of a ra ta -> array_of b rb tb -> agree ta tb -> length a <= 64 * slots ->
  common f ta u tb v ->
  exists x y w g i bits, In (bits, n, i) (extractfrompair a n b rb 0 slots []) /\
    node_at a ra x = Some i /\ denotes a bits i g /\ u = x ++ w /\ v = y ++ w /\
    common g ta x tb y /\ maximal g ta x tb y /\ part_at w f g.
Proof.
  intros a ra ta b rb tb n slots f u v HA HB AG HL HC.
  destruct (extractfrompair_ok slots n 0 a b ra rb ta tb HA HB AG HL []) as (_ & _ & S3).
  destruct (common_root ta tb AG f u v HC) as (x & y & w & s & t & R & Eu & Ev & Es & Et & HP).
  destruct (S3 x y R) as (z & Hz & (s' & t' & i & bits & Es' & Et' & Ei & -> & W & HI & _)).
  { exists s, t. split; auto. split; auto. apply codeterms_nonneg. }
  assert (s' = s) by congruence. assert (t' = t) by congruence. subst s' t'.
  destruct (root_common ta tb AG x y s t R Es Et) as [C1 C2].
  exists x, y, w, (mcf s t), i, bits. split; auto. split; auto. split; [split; [apply W|exact HI]|]. auto 10.
Qed.
Fixpoint fsize (f : frag) : nat := match f with Open => 0 | FLex _ => 1 | FUn _ f => S (fsize f) | FBin _ f g => S (fsize f + fsize g) end.
Lemma prefix_size : forall f g, prefix f g -> fsize f <= fsize g.
Proof.
  induction f as [|p|p f IH|p f1 IH1 f2 IH2]; intros g H; cbn; [lia| | |]; destruct g; cbn in *; try contradiction; try lia.
  - specialize (IH g (proj2 H)). lia.
  - specialize (IH1 g1 (proj1 (proj2 H))). specialize (IH2 g2 (proj2 (proj2 H))). lia.
Qed.
Lemma part_size : forall w f g, part_at w f g -> fsize f + length w <= fsize g.
Proof.
  induction w as [|d w IH]; intros f g H; cbn [part_at length] in *; [pose proof (prefix_size f g H); lia|].
  destruct d, g; cbn [fsize]; try contradiction; specialize (IH _ _ H); lia.
Qed.
(** In particular every maximal common fragment is reported itself. *)
Theorem C55_all_maximal : forall a ra ta b rb tb n slots f u v,
  array_of a ra ta -> array_of b rb tb -> agree ta tb -> length a <= 64 * slots ->
  common f ta u tb v -> maximal f ta u tb v ->
  exists i bits, In (bits, n, i) (extractfrompair a n b rb 0 slots []) /\ node_at a ra u = Some i /\ denotes a bits i f.
Proof.
  intros a ra ta b rb tb n slots f u v HA HB AG HL HC HM.
  destruct (C55_complete a ra ta b rb tb n slots f u v HA HB AG HL HC) as (x & y & w & g & i & bits & H1 & H2 & H3 & Eu & Ev & H6 & H7 & H8).
  pose proof (HM g x y w H6 Eu Ev H8) as E. subst g. pose proof (part_size w f f H8) as L.
  destruct w; [|cbn in L; lia]. rewrite app_nil_r in Eu. subst u. exists i, bits. auto.
Qed.

(** ** treebanks *)
Definition consistent (ts : list btree) (ts' : list btree) : Prop := forall s t, In s ts -> In t ts' -> agree s t.

Lemma fragments_of_ok : forall ts1 trees1 ts2 trees2 slots n start2 end2 a ra ta,
  treebank ts1 trees1 -> treebank ts2 trees2 -> nth_error ts1 n = Some (a, ra) -> nth_error trees1 n = Some ta ->
  (forall tb, In tb trees2 -> agree ta tb) -> length a <= 64 * slots -> end2 <= length ts2 ->
  (forall x, In x (fragments_of ts1 ts2 slots n start2 end2) -> exists m tb u v i bits f, start2 <= m < end2 /\
     nth_error trees2 m = Some tb /\ x = (bits, n, i) /\ node_at a ra u = Some i /\ denotes a bits i f /\
     common f ta u tb v /\ maximal f ta u tb v) /\
  (forall m tb f u v, start2 <= m < end2 -> nth_error trees2 m = Some tb -> common f ta u tb v -> maximal f ta u tb v ->
     exists i bits, In (bits, n, i) (fragments_of ts1 ts2 slots n start2 end2) /\ node_at a ra u = Some i /\ denotes a bits i f).
Proof.
  intros ts1 trees1 ts2 trees2 slots n start2 end2 a ra ta B1 B2 Ea Eta AG HL He.
  destruct (treebank_nth _ _ _ _ B1 Ea) as (ta' & Eta' & HA). assert (ta' = ta) by congruence. subst ta'. cbn [fst snd] in HA.
  unfold fragments_of. rewrite (nth_error_nth _ _ _ Ea). cbn [fst].
  set (step := fun inter m => extractfrompair a n (fst (nth m ts2 ([], 0))) (snd (nth m ts2 ([], 0))) 0 slots inter).
  assert (G : forall ms acc, (forall m, In m ms -> m < length ts2) ->
    (forall x, In x (fold_left step ms acc) -> In x acc \/ exists m tb u v i bits f, In m ms /\
       nth_error trees2 m = Some tb /\ x = (bits, n, i) /\ node_at a ra u = Some i /\ denotes a bits i f /\
       common f ta u tb v /\ maximal f ta u tb v) /\
    (forall x, In x acc -> In x (fold_left step ms acc)) /\
    (forall m tb f u v, In m ms -> nth_error trees2 m = Some tb -> common f ta u tb v -> maximal f ta u tb v ->
       exists i bits, In (bits, n, i) (fold_left step ms acc) /\ node_at a ra u = Some i /\ denotes a bits i f)).
  { induction ms as [|m ms IH]; intros acc Hms; cbn [fold_left].
    - split; [auto|]. split; [auto|]. intros m tb f u v [].
    - assert (Lm : m < length ts2) by (apply Hms; now left).
      destruct (nth_error ts2 m) as [[b rb]|] eqn:E; [|apply nth_error_None in E; lia].
      destruct (treebank_nth _ _ _ _ B2 E) as (tb & E2 & HB). cbn [fst snd] in HB.
      pose proof (AG tb (nth_error_In _ _ E2)) as AGb.
      assert (Es : step acc m = extractfrompair a n b rb 0 slots acc) by (unfold step; rewrite (nth_error_nth _ _ _ E); reflexivity).
      destruct (extractfrompair_ok slots n 0 a b ra rb ta tb HA HB AGb HL acc) as (S1 & S2 & S3). rewrite <- Es in S1, S2, S3.
      destruct (IH (step acc m) ltac:(intros; apply Hms; now right)) as (I1 & I2 & I3).
      split; [|split].
      + intros x Hx. destruct (I1 x Hx) as [Hx'|(m' & tb' & u & v & i & bits & f & Hm' & K)].
        * destruct (S1 x Hx') as [|(u & v & R & (s & t & i & bits & Esu & Etv & Ei & -> & W & HI & _))]; auto.
          right. exists m, tb, u, v, i, bits, (mcf s t). split; [now left|]. split; auto. split; auto. split; auto.
          split; [split; [apply W|exact HI]|]. exact (root_common ta tb AGb u v s t R Esu Etv).
        * right. exists m', tb', u, v, i, bits, f. split; [now right|]. exact K.
      + auto.
      + intros m' tb' f u v Hm' E' C M. destruct Hm' as [<-|Hm']; [|exact (I3 m' tb' f u v Hm' E' C M)].
        assert (tb' = tb) by congruence. subst tb'.
        destruct (common_root ta tb AGb f u v C) as (x & y & w & s & t & R & Eu & Ev & Esx & Ety & HP).
        destruct (root_common ta tb AGb x y s t R Esx Ety) as [C1 C2].
        pose proof (M (mcf s t) x y w C1 Eu Ev HP) as Em. rewrite <- Em in HP at 1. pose proof (part_size w _ _ HP) as Lw.
        destruct w; [|cbn in Lw; lia]. rewrite app_nil_r in Eu, Ev. subst x y.
        destruct (S3 u v R) as (z & Hz & (s' & t' & i & bits & Esu & Etv & Ei & -> & W & HI & _)).
        { exists s, t. split; auto. split; auto. apply codeterms_nonneg. }
        assert (s' = s) by congruence. assert (t' = t) by congruence. subst s' t'.
        exists i, bits. split; [apply I2; exact Hz|]. split; auto. rewrite <- Em. split; [apply W|exact HI]. }
  destruct (G (seq start2 (end2 - start2)) []) as (G1 & _ & G3).
  { intros m Hm. apply in_seq in Hm. lia. }
  split.
  - intros x Hx. destruct (G1 x Hx) as [[]|(m & tb & u & v & i & bits & f & Hm & K)].
    exists m, tb, u, v, i, bits, f. apply in_seq in Hm. split; [lia|exact K].
  - intros m tb f u v Hm. apply G3. apply in_seq. lia.
Qed.
Lemma slots_single : forall ts n c, nth_error ts n = Some c -> length (fst c) <= 64 * slots_for (maxnodes ts).
Proof.
  intros ts n c E. apply slots_enough. assert (L : n < length ts) by (apply nth_error_Some; congruence).
  pose proof (maxnodes_le ts n L) as X. now rewrite (nth_error_nth _ _ _ E) in X.
Qed.
Lemma nth_map_seq : forall T (g : nat -> list T) n k, nth n (map g (seq 0 k)) [] = if n <? k then g n else [].
Proof.
  intros T g n k. destruct (Nat.ltb_spec n k) as [L|L].
  - rewrite (nth_indep _ [] (g 0)) by (rewrite map_length, seq_length; lia). rewrite map_nth, seq_nth by lia. reflexivity.
  - apply nth_overflow. rewrite map_length, seq_length. lia.
Qed.
(** One treebank: the fragments reported for tree n are the maximal common
    fragments of tree n with the trees after it. *)
Theorem C55_treebank_sound : forall ts trees n x, treebank ts trees -> consistent trees trees ->
  In x (nth n (extract_single ts) []) ->
  exists a ra ta m tb u v i bits f, nth_error ts n = Some (a, ra) /\ nth_error trees n = Some ta /\
    n < m /\ nth_error trees m = Some tb /\ x = (bits, n, i) /\ node_at a ra u = Some i /\ denotes a bits i f /\
    common f ta u tb v /\ maximal f ta u tb v.
Proof.
  intros ts trees n x B C Hx. unfold extract_single in Hx. rewrite nth_map_seq in Hx. destruct (Nat.ltb_spec n (length ts)) as [L|]; [|destruct Hx].
  destruct (nth_error ts n) as [[a ra]|] eqn:E; [|apply nth_error_None in E; lia].
  destruct (treebank_nth _ _ _ _ B E) as (ta & Et & HA).
  destruct (fragments_of_ok ts trees ts trees (slots_for (maxnodes ts)) n (S n) (length ts) a ra ta B B E Et
    ltac:(intros tb Hb; apply C; [exact (nth_error_In _ _ Et)|exact Hb]) (slots_single ts n (a, ra) E) (le_n _)) as [H1 _].
  destruct (H1 x Hx) as (m & tb & u & v & i & bits & f & Hm & K).
  exists a, ra, ta, m, tb, u, v, i, bits, f. split; auto. split; auto. split; [lia|exact K].
Qed.
Theorem C55_treebank_complete : forall ts trees n m a ra ta tb f u v, treebank ts trees -> consistent trees trees ->
  nth_error ts n = Some (a, ra) -> nth_error trees n = Some ta -> n < m -> nth_error trees m = Some tb ->
  common f ta u tb v -> maximal f ta u tb v ->
  exists i bits, In (bits, n, i) (nth n (extract_single ts) []) /\ node_at a ra u = Some i /\ denotes a bits i f.
Proof.
  intros ts trees n m a ra ta tb f u v B C E Et Hm Em Hc HM. unfold extract_single. rewrite nth_map_seq.
  assert (L : n < length ts) by (apply nth_error_Some; congruence). destruct (Nat.ltb_spec n (length ts)); [|lia].
  destruct (fragments_of_ok ts trees ts trees (slots_for (maxnodes ts)) n (S n) (length ts) a ra ta B B E Et
    ltac:(intros t Hb; apply C; [exact (nth_error_In _ _ Et)|exact Hb]) (slots_single ts n (a, ra) E) (le_n _)) as [_ H2].
  apply (H2 m tb f u v); auto. destruct (treebank_nth' _ _ _ _ B Em) as (c & Ec & _).
  assert (m < length ts) by (apply nth_error_Some; congruence). lia.
Qed.
(** Two treebanks: all pairs. *)
Theorem C55_two_treebanks : forall ts1 trees1 ts2 trees2 n a ra ta, treebank ts1 trees1 -> treebank ts2 trees2 -> consistent trees1 trees2 ->
  nth_error ts1 n = Some (a, ra) -> nth_error trees1 n = Some ta ->
  (forall x, In x (nth n (extract_double ts1 ts2) []) -> exists m tb u v i bits f,
     nth_error trees2 m = Some tb /\ x = (bits, n, i) /\ node_at a ra u = Some i /\ denotes a bits i f /\
     common f ta u tb v /\ maximal f ta u tb v) /\
  (forall m tb f u v, nth_error trees2 m = Some tb -> common f ta u tb v -> maximal f ta u tb v ->
     exists i bits, In (bits, n, i) (nth n (extract_double ts1 ts2) []) /\ node_at a ra u = Some i /\ denotes a bits i f).
Proof.
  intros ts1 trees1 ts2 trees2 n a ra ta B1 B2 C E Et. unfold extract_double. rewrite nth_map_seq.
  assert (L : n < length ts1) by (apply nth_error_Some; congruence). destruct (Nat.ltb_spec n (length ts1)); [|lia].
  assert (SL : length a <= 64 * slots_for (Nat.max (maxnodes ts1) (maxnodes ts2))).
  { apply slots_enough. pose proof (maxnodes_le ts1 n L) as X. rewrite (nth_error_nth _ _ _ E) in X. cbn [fst] in X. lia. }
  destruct (fragments_of_ok ts1 trees1 ts2 trees2 (slots_for (Nat.max (maxnodes ts1) (maxnodes ts2))) n 0 (length ts2) a ra ta B1 B2 E Et
    ltac:(intros t Hb; apply C; [exact (nth_error_In _ _ Et)|exact Hb]) SL (le_n _)) as [H1 H2].
  split.
  - intros x Hx. destruct (H1 x Hx) as (m & tb & u & v & i & bits & f & Hm & K). exists m, tb, u, v, i, bits, f. exact K.
  - intros m tb f u v Em. apply (H2 m); auto. destruct (treebank_nth' _ _ _ _ B2 Em) as (c & Ec & _).
    split; [lia|]. apply nth_error_Some. congruence.
Qed.

(** ** minterms: fragments with at least that many terminals *)
Theorem C55_minterms : forall a ra ta b rb tb n slots k,
  array_of a ra ta -> array_of b rb tb -> agree ta tb -> length a <= 64 * slots -> no_unary ta ->
  (forall x, In x (extractfrompair a n b rb (Z.of_nat k) slots []) ->
     exists u v i bits f, x = (bits, n, i) /\ node_at a ra u = Some i /\ denotes a bits i f /\
       common f ta u tb v /\ maximal f ta u tb v /\ k <= terminals f) /\
  (forall f u v, common f ta u tb v -> maximal f ta u tb v -> k <= terminals f ->
     exists i bits, In (bits, n, i) (extractfrompair a n b rb (Z.of_nat k) slots []) /\ node_at a ra u = Some i /\ denotes a bits i f).
Proof.
  intros a ra ta b rb tb n slots k HA HB AG HL NU.
  destruct (extractfrompair_ok slots n (Z.of_nat k) a b ra rb ta tb HA HB AG HL []) as (S1 & _ & S3). split.
  - intros x Hx. destruct (S1 x Hx) as [[]|(u & v & R & (s & t & i & bits & Es & Et & Ei & -> & W & HI & HT))].
    destruct (root_common ta tb AG u v s t R Es Et) as [C1 C2].
    exists u, v, i, bits, (mcf s t). split; auto. split; auto. split; [split; [apply W|exact HI]|]. split; auto. split; auto.
    rewrite codeterms_terminals in HT by exact (no_unary_sub _ _ _ NU Es). lia.
  - intros f u v C M HT.
    destruct (common_root ta tb AG f u v C) as (x & y & w & s & t & R & Eu & Ev & Es & Et & HP).
    destruct (root_common ta tb AG x y s t R Es Et) as [C1 C2].
    pose proof (M (mcf s t) x y w C1 Eu Ev HP) as Em. rewrite <- Em in HP at 1. pose proof (part_size w _ _ HP) as Lw.
    destruct w; [|cbn in Lw; lia]. rewrite app_nil_r in Eu, Ev. subst x y.
    destruct (S3 u v R) as (z & Hz & (s' & t' & i & bits & Es' & Et' & Ei & -> & W & HI & _)).
    { exists s, t. split; auto. split; auto. rewrite codeterms_terminals by exact (no_unary_sub _ _ _ NU Es). rewrite Em. lia. }
    assert (s' = s) by congruence. assert (t' = t) by congruence. subst s' t'.
    exists i, bits. split; auto. split; auto. rewrite <- Em. split; [apply W|exact HI].
Qed.

(** * C56: exact counts *)
Theorem C56_indices : forall ts1 trees1 ts2 trees2 nprods id bits i a ra ta u f,
  treebank ts1 trees1 -> treebank ts2 trees2 -> consistent trees1 trees2 ->
  valid_prods nprods ts1 -> valid_prods nprods ts2 ->
  nth_error ts1 id = Some (a, ra) -> nth_error trees1 id = Some ta ->
  denotes a bits i f -> f <> Open -> node_at a ra u = Some i -> occurs f ta u ->
  NoDup (exactindices ts1 ts2 nprods (bits, id, i)) /\
  forall m j, In (m, j) (exactindices ts1 ts2 nprods (bits, id, i)) <->
    exists b rb tb v, nth_error ts2 m = Some (b, rb) /\ nth_error trees2 m = Some tb /\ node_at b rb v = Some j /\ occurs f tb v.
Proof.
  intros ts1 trees1 ts2 trees2 nprods id bits i a ra ta u f B1 B2 C V1 V2 E Et D NO Eu O.
  apply (exactindices_ok ts1 trees1 ts2 trees2 nprods id bits i a ra ta u f); auto.
  - intros x Hx. apply (V1 (a, ra) x); [exact (nth_error_In _ _ E)|exact Hx].
  - intros tb Hb. apply C; auto. exact (nth_error_In _ _ Et).
Qed.
(** The count is the number of places (tree number, address) with the fragment. *)
Theorem C56_count : forall ts1 trees1 ts2 trees2 nprods id bits i a ra ta u f places,
  treebank ts1 trees1 -> treebank ts2 trees2 -> consistent trees1 trees2 ->
  valid_prods nprods ts1 -> valid_prods nprods ts2 ->
  nth_error ts1 id = Some (a, ra) -> nth_error trees1 id = Some ta ->
  denotes a bits i f -> f <> Open -> node_at a ra u = Some i -> occurs f ta u ->
  NoDup places -> (forall m v, In (m, v) places <-> exists tb, nth_error trees2 m = Some tb /\ occurs f tb v) ->
  exactcount ts1 ts2 nprods (bits, id, i) = length places.
Proof.
  intros ts1 trees1 ts2 trees2 nprods id bits i a ra ta u f places B1 B2 C V1 V2 E Et D NO Eu O NDp Hp.
  apply (exactcount_ok ts1 trees1 ts2 trees2 nprods id bits i a ra ta u f); auto.
  - intros x Hx. apply (V1 (a, ra) x); [exact (nth_error_In _ _ E)|exact Hx].
  - intros tb Hb. apply C; auto. exact (nth_error_In _ _ Et).
Qed.
(** End to end: each fragment reported for a treebank is counted exactly. *)
Theorem C56_reported : forall ts trees nprods n x, treebank ts trees -> consistent trees trees -> valid_prods nprods ts ->
  In x (nth n (extract_single ts) []) -> exists f, f <> Open /\
    (forall places, NoDup places -> (forall m v, In (m, v) places <-> exists t, nth_error trees m = Some t /\ occurs f t v) ->
       exactcount ts ts nprods x = length places) /\
    2 <= exactcount ts ts nprods x.
Proof.
  intros ts trees nprods n x B C V Hx.
  destruct (C55_treebank_sound ts trees n x B C Hx) as (a & ra & ta & m & tb & u & v & i & bits & f & E & Et & Hm & Em & -> & Eu & D & (NO & O1 & O2) & _).
  exists f. split; auto. split.
  - intros places NDp Hp. exact (C56_count ts trees ts trees nprods n bits i a ra ta u f places B B C V V E Et D NO Eu O1 NDp Hp).
  - destruct (C56_indices ts trees ts trees nprods n bits i a ra ta u f B B C V V E Et D NO Eu O1) as [ND HI]. unfold exactcount.
    destruct (treebank_nth' _ _ _ _ B Em) as ([b rb] & Eb & HB). cbn [fst snd] in HB.
    pose proof O2 as (t & Etv & _). destruct (array_node _ _ _ _ _ HB Etv) as (j & Ej & _).
    assert (I1 : In (n, i) (exactindices ts ts nprods (bits, n, i))) by (apply HI; exists a, ra, ta, u; auto).
    assert (I2 : In (m, j) (exactindices ts ts nprods (bits, n, i))) by (apply HI; exists b, rb, tb, v; auto).
    change 2 with (length [(n, i); (m, j)]). apply NoDup_incl_length.
    + repeat constructor; cbn; auto. intros [X|[]]. injection X as -> _. lia.
    + intros y [<-|[<-|[]]]; auto.
Qed.

(** * C57: all fragments up to a depth and a number of frontiers *)
Theorem C57_sound : forall slots md mf a ra t n x, array_of a ra t -> length a <= 64 * slots -> 1 <= md ->
  In x (allfragments (a, ra) n slots md mf) -> exists u i bits f,
     x = (bits, n, i) /\ node_at a ra u = Some i /\ denotes a bits i f /\ f <> Open /\ occurs f t u /\
     depth f <= md /\ frontiers f <= mf.
Proof.
  intros slots md mf a ra t n x HA HL Hm Hx. destruct (allfragments_ok slots md mf a ra t n HA HL Hm) as [H1 _].
  destruct (H1 x Hx) as (u & i & bits & f & K1 & K2 & K3 & K4 & K5 & _ & K7 & K8).
  exists u, i, bits, f. split; auto. split; auto. split; auto. split; auto. split; auto. split; [exact K7|lia].
Qed.
Theorem C57_complete : forall slots md mf a ra t n u i f, array_of a ra t -> length a <= 64 * slots -> no_unary t ->
  node_at a ra u = Some i -> f <> Open -> occurs f t u -> 1 <= md -> depth f <= md -> frontiers f <= mf ->
  exists bits, In (bits, n, i) (allfragments (a, ra) n slots md mf) /\ denotes a bits i f.
Proof.
  intros slots md mf a ra t n u i f HA HL NU Eu NO O Hm Hd Hf. destruct (allfragments_ok slots md mf a ra t n HA HL Hm) as [_ H2].
  pose proof O as (s & Es & Ms).
  destruct (H2 u i f Eu O NO Hd) as (bits & K1 & K2 & _).
  - rewrite (no_unary_unaries f s); [lia|exact (no_unary_sub _ _ _ NU Es)|exact Ms].
  - eauto.
Qed.
(** With unary nodes: complete when the limit is not reached (the default 999
    is "unlimited for practical purposes"); every unary node with its child
    counts as one frontier too many. *)
Theorem C57_complete_unary : forall slots md mf a ra t n u i f, array_of a ra t -> length a <= 64 * slots ->
  node_at a ra u = Some i -> f <> Open -> occurs f t u -> 1 <= md -> depth f <= md -> frontiers f + unaries f <= mf ->
  exists bits, In (bits, n, i) (allfragments (a, ra) n slots md mf) /\ denotes a bits i f.
Proof.
  intros slots md mf a ra t n u i f HA HL Eu NO O Hm Hd Hf. destruct (allfragments_ok slots md mf a ra t n HA HL Hm) as [_ H2].
  destruct (H2 u i f Eu O NO Hd Hf) as (bits & K1 & K2 & _). eauto.
Qed.

(** * Concrete cases *)
Fixpoint allsubs (t : btree) : list btree :=
  t :: match t with Lex _ _ => [] | Un _ t1 => allsubs t1 | Bin _ t1 t2 => allsubs t1 ++ allsubs t2 end.
Lemma sub_allsubs : forall u t s, sub t u = Some s -> In s (allsubs t).
Proof.
  induction u as [|d u IH]; intros t s E.
  - injection E as <-. destruct t; now left.
  - destruct d, t; cbn [sub] in E; try discriminate; cbn [allsubs]; right; try apply in_or_app; auto.
Qed.
Definition kindb (s t : btree) : bool := match s, t with Lex _ _, Lex _ _ | Un _ _, Un _ _ | Bin _ _ _, Bin _ _ _ => true | _, _ => false end.
Lemma agree_check : forall s t, forallb (fun s' => forallb (fun t' => negb (bprod s' =? bprod t')%Z || kindb s' t') (allsubs t)) (allsubs s) = true -> agree s t.
Proof.
  intros s t H u v s' t' Es Et Ep. rewrite forallb_forall in H. specialize (H s' (sub_allsubs _ _ _ Es)).
  rewrite forallb_forall in H. specialize (H t' (sub_allsubs _ _ _ Et)). rewrite Ep, Z.eqb_refl in H. destruct s', t'; cbn in *; try discriminate; exact Logic.I.
Qed.
Fixpoint totree (t : btree) : tree unit nat :=
  match t with Lex _ i => Node tt [Leaf i] | Un _ t1 => Node tt [totree t1] | Bin _ t1 t2 => Node tt [totree t1; totree t2] end.
Lemma totree_node : forall t, exists l, totree t = Node tt l.
Proof. destruct t; cbn; eauto. Qed.
Lemma totree_shape : forall t, same_shape (totree t) t.
Proof.
  induction t as [p i|p t IH|p t1 IH1 t2 IH2]; cbn [totree same_shape]; auto.
  - destruct (totree_node t) as (l & E). rewrite E in *. exact IH.
  - destruct (totree_node t1) as (l & E). rewrite E in *. split; assumption.
Qed.
(** the array of a tree *)
Definition arr (t : btree) : ctree := match getctree (totree t) (preorder t) with Some c => c | None => ([], 0) end.
Lemma arr_ok : forall t, array_of (fst (arr t)) (snd (arr t)) t.
Proof. intros t. unfold arr. destruct (C58_array unit (totree t) t (totree_shape t)) as (a & r & -> & H). exact H. Qed.

(** (S (NP 0) (VP (V 1) (NP 2))) twice, with different subjects, and a third
    tree in which the VP occurs below a unary node *)
Definition ex1 := Bin 0 (Lex 3 0) (Bin 1 (Lex 4 1) (Lex 5 2)).
Definition ex2 := Bin 0 (Lex 6 0) (Bin 1 (Lex 4 1) (Lex 5 2)).
Definition ex3 := Bin 2 (Lex 3 0) (Un 7 (Bin 1 (Lex 4 1) (Lex 5 2))).
Definition exbank := map arr [ex1; ex2; ex3].
Example C58_example : arr ex2 = ([mkNode 0 4 1; mkNode 1 2 3; mkNode 4 (-2) (-1); mkNode 5 (-3) (-1); mkNode 6 (-1) (-1)], 0).
Proof. vm_compute. reflexivity. Qed.
Example exbank_ok : treebank exbank [ex1; ex2; ex3] /\ consistent [ex1; ex2; ex3] [ex1; ex2; ex3] /\ valid_prods 8 exbank.
Proof.
  split; [|split].
  - unfold treebank, exbank. cbn [map]. do 3 (apply Forall2_cons; [apply arr_ok|]). apply Forall2_nil.
  - intros s t Hs Ht. cbn in Hs, Ht. destruct Hs as [<-|[<-|[<-|[]]]], Ht as [<-|[<-|[<-|[]]]]; apply agree_check; vm_compute; reflexivity.
  - intros t x Ht Hx. vm_compute in Ht. destruct Ht as [<-|[<-|[<-|[]]]]; cbn in Hx;
      repeat (destruct Hx as [<-|Hx]; [cbn; lia|]); destruct Hx.
Qed.
(** ex1 and ex2 share S over NP and the whole VP: nodes 0, 1, 3, 4 of ex1;
    ex1 shares its NP and its VP with ex3. *)
Example C55_example :
  extract_single exbank = [ [([27%N], 0, 0); ([4%N], 0, 2); ([26%N], 0, 1)]; [([14%N], 1, 1)]; [] ].
Proof. vm_compute. reflexivity. Qed.
(** the hypotheses of the pair theorems: the fragment S -> NP VP, VP -> V NP, ... *)
Example C55_example_common :
  let f := FBin 0 Open (FBin 1 (FLex 4) (FLex 5)) in common f ex1 [] ex2 [] /\ length (fst (arr ex1)) <= 64 * 1.
Proof.
  split; [|vm_compute; lia]. split; [discriminate|].
  split; [exists ex1|exists ex2]; (split; [reflexivity|]); cbn; auto.
Qed.
(** with two terminals required, the single NP is left out *)
Example C55_minterms_example :
  extractfrompair (fst (arr ex1)) 0 (fst (arr ex2)) (snd (arr ex2)) 2 1 [] = [([27%N], 0, 0)] /\
  extractfrompair (fst (arr ex1)) 0 (fst (arr ex3)) (snd (arr ex3)) 2 1 [] = [([26%N], 0, 1)] /\ no_unary ex1.
Proof. vm_compute. auto. Qed.
(** Below a unary node the terminals are not counted: the two trees are equal
    and contain two words, but no fragment with two terminals is found. *)
Theorem C55_minterms_refuted : exists t u f, agree t t /\ common f t u t u /\ maximal f t u t u /\ 2 <= terminals f /\
  extractfrompair (fst (arr t)) 0 (fst (arr t)) (snd (arr t)) 2 1 [] = [] /\ length (fst (arr t)) <= 64 * 1.
Proof.
  exists (Un 7 (Bin 1 (Lex 4 0) (Lex 5 1))), [], (FUn 7 (FBin 1 (FLex 4) (FLex 5))).
  assert (AG : agree (Un 7 (Bin 1 (Lex 4 0) (Lex 5 1))) (Un 7 (Bin 1 (Lex 4 0) (Lex 5 1)))) by (apply agree_check; vm_compute; reflexivity).
  split; auto.
  assert (CM : common (FUn 7 (FBin 1 (FLex 4) (FLex 5))) (Un 7 (Bin 1 (Lex 4 0) (Lex 5 1))) [] (Un 7 (Bin 1 (Lex 4 0) (Lex 5 1))) []).
  { split; [discriminate|]. split; eexists; (split; [reflexivity|]); cbn; auto. }
  split; auto. split.
  - intros h u' v' w (NO & (s & Es & Ms) & _) Eu Ev HP.
    symmetry in Eu. apply app_eq_nil in Eu. destruct Eu as [-> ->]. cbn in Es. injection Es as <-. cbn [part_at] in HP.
    apply prefix_antisym; auto. clear - Ms.
    destruct h as [| |p h|]; cbn in Ms; try contradiction; cbn; auto. destruct Ms as [-> Ms]. split; auto.
    destruct h as [| | |p h1 h2]; cbn in Ms; try contradiction; cbn; auto. destruct Ms as (-> & M1 & M2). split; auto.
    split; [destruct h1|destruct h2]; cbn in *; auto.
  - split; [cbn; lia|]. split; [vm_compute; reflexivity|vm_compute; lia].
Qed.
(** the VP occurs in all three trees, S -> NP VP with the whole VP in two *)
Example C56_example :
  exactcount exbank exbank 8 ([26]%N, 0, 1) = 3 /\ exactcount exbank exbank 8 ([27]%N, 0, 0) = 2 /\
  exactindices exbank exbank 8 ([26]%N, 0, 1) = [(0, 1); (1, 1); (2, 0)].
Proof. vm_compute. auto. Qed.
Example C56_example_denotes :
  denotes (fst (arr ex1)) [26]%N 1 (FBin 1 (FLex 4) (FLex 5)) /\ occurs (FBin 1 (FLex 4) (FLex 5)) ex1 [true] /\
  node_at (fst (arr ex1)) (snd (arr ex1)) [true] = Some 1.
Proof.
  split; [|split].
  - split; [apply Forall_cons; [vm_compute; reflexivity|apply Forall_nil]|]. intros k.
    change (amember [26]%N (N.of_nat k)) with (inrow [26]%N k). rewrite <- test_inrow.
    change (frag_nodes (fst (arr ex1)) 1 (FBin 1 (FLex 4) (FLex 5))) with [1; 3; 4].
    destruct (Nat.lt_ge_cases k 64) as [L|L].
    + assert (A : forallb (fun k => Bool.eqb (TESTBIT [26]%N (bit k)) (existsb (Nat.eqb k) [1; 3; 4])) (seq 0 64) = true) by (vm_compute; reflexivity).
      rewrite forallb_forall in A. specialize (A k ltac:(apply in_seq; lia)). apply Bool.eqb_prop in A. rewrite A, existsb_exists. split.
      * intros (y & Hy & E). apply Nat.eqb_eq in E. now subst y.
      * intros Hk. exists k. split; auto. apply Nat.eqb_refl.
    + split; [|intros [<-|[<-|[<-|[]]]]; lia]. intros H. apply test_inrow in H. pose proof (inrow_lt 1 [26]%N k ltac:(split; [apply Forall_cons; [vm_compute; reflexivity|apply Forall_nil]|reflexivity]) H). lia.
  - exists (Bin 1 (Lex 4 1) (Lex 5 2)). split; [reflexivity|cbn; auto].
  - vm_compute. reflexivity.
Qed.
(** depth at most 2 and at most one frontier *)
Example C57_example :
  allfragments (arr ex1) 0 1 2 1 = [([5%N], 0, 0); ([10%N], 0, 1); ([18%N], 0, 1); ([26%N], 0, 1); ([4%N], 0, 2); ([8%N], 0, 3); ([16%N], 0, 4)] /\
  no_unary ex1 /\ length (fst (arr ex1)) <= 64 * 1.
Proof. vm_compute. intuition lia. Qed.
(** "a limit of 0 only gives fragments that bottom out in terminals": the
    fragment A -> B, B -> word has no frontier but is not given. *)
Theorem C57_frontier_refuted : exists t f, f <> Open /\ occurs f t [] /\ depth f <= 2 /\ frontiers f = 0 /\
  ~ exists bits, In (bits, 0, snd (arr t)) (allfragments (arr t) 0 1 2 0).
Proof.
  exists (Un 0 (Lex 1 0)), (FUn 0 (FLex 1)). split; [discriminate|]. split; [exists (Un 0 (Lex 1 0)); cbn; auto|].
  split; [cbn; lia|]. split; [reflexivity|]. intros (bits & H). vm_compute in H. destruct H as [H|[]]. discriminate H.
Qed.
