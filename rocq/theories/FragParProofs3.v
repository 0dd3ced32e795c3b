(** Proofs for C62, third part: the indices are right and in order *)
From Coq Require Import NArith ZArith List Bool Arith Lia Permutation Sorting.Sorted.
From Verif Require Import ExportProofs2 BitsModel BitsSpec ArrayProofs TreeModel FragModel FragSpec FragProofs FragProofs2 FragProofs3 FragProofs4 FragProofs5 FragProofs6 FragProofs7 FragProps FragParModel FragParSpec FragParProofs FragParProofs2.
Import ListNotations.

(** * occurrences in a tree, as nodes *)
Lemma places_count : forall b rb tb f js places, array_of b rb tb -> NoDup js ->
  (forall j, In j js <-> exists v, node_at b rb v = Some j /\ occurs f tb v) ->
  NoDup places -> (forall u, In u places <-> occurs f tb u) -> length js = length places.
Proof.
  intros b rb tb f js places HB NDj Hj NDp Hp.
  set (g := fun u => match node_at b rb u with Some j => j | None => 0 end).
  assert (G : forall u, In u places -> node_at b rb u = Some (g u)).
  { intros u Hu. apply Hp in Hu. destruct Hu as (s & Es & _). destruct (array_node _ _ _ _ _ HB Es) as (k & Ek & _). unfold g. now rewrite Ek. }
  rewrite <- (map_length g places). apply Permutation_length. apply NoDup_Permutation; auto.
  - assert (INJ : forall x y, In x places -> In y places -> g x = g y -> x = y).
    { intros x y Hx Hy E. pose proof (G x Hx) as E1. pose proof (G y Hy) as E2. rewrite E in E1. exact (array_inj _ _ _ _ _ _ HB E1 E2). }
    clear - NDp INJ. induction NDp as [|x l N ND IH]; cbn; constructor.
    + intros HI. apply in_map_iff in HI. destruct HI as (y & E & Hy). apply N. rewrite <- (INJ y x (or_intror Hy) (or_introl eq_refl) E). exact Hy.
    + apply IH. intros y z Hy Hz. apply INJ; now right.
  - intros j. rewrite Hj, in_map_iff. split.
    + intros (v & Ev & O). exists v. assert (Hv : In v places) by now apply Hp. split; auto. pose proof (G v Hv). congruence.
    + intros (v & <- & Hv). exists v. split; [now apply G|now apply Hp].
Qed.
Lemma count_filter : forall (l : list (nat * nat)) n, count_occ Nat.eq_dec (map fst l) n = length (filter (fun p => fst p =? n) l).
Proof.
  induction l as [|[m j] l IH]; intros n; cbn [map fst count_occ filter]; [reflexivity|].
  destruct (Nat.eq_dec m n) as [->|N]; [rewrite Nat.eqb_refl; cbn; now rewrite IH|]. destruct (Nat.eqb_spec m n); [congruence|]. apply IH.
Qed.

(** * ascending order *)
Definition asc := StronglySorted lt.
Lemma asc_snoc : forall l n, asc l -> (forall m, In m l -> m < n) -> asc (l ++ [n]).
Proof.
  induction l as [|x l IH]; intros n H1 H2; cbn; [repeat constructor|]. inversion H1 as [|? ? H3 H4]; subst. constructor.
  - apply IH; auto. intros m Hm. apply H2. now right.
  - rewrite Forall_forall in *. intros y Hy. apply in_app_or in Hy. destruct Hy as [Hy|[<-|[]]]; auto. apply H2. now left.
Qed.
Lemma asc_filter : forall P l, asc l -> asc (filter P l).
Proof.
  intros P. induction l as [|x l IH]; intros H; cbn; [constructor|]. inversion H as [|? ? H3 H4]; subst. specialize (IH H3). destruct (P x); [|exact IH]. constructor; [exact IH|].
  rewrite Forall_forall in *. intros y Hy. apply filter_In in Hy. apply H4. tauto.
Qed.
Definition ascents (idx : list (option (list nat))) (k : nat) : Prop :=
  forall p l, nth p idx None = Some l -> asc l /\ forall m, In m l -> m < k.
Lemma index_tree_asc : forall t idx k, ascents idx (S k) -> ascents (index_tree idx k t) (S k) .
Proof.
  unfold index_tree. induction t as [|x t IH]; intros idx k H; cbn [fold_left]; auto. apply IH. destruct (0 <=? prod x)%Z; auto.
  intros p l. destruct (Nat.lt_ge_cases (kid (prod x)) (length idx)) as [L|L].
  - rewrite upd_opt_nth by exact L. destruct (Nat.eqb_spec p (kid (prod x))) as [->|]; [|apply H].
    destruct (nth (kid (prod x)) idx None) as [l0|] eqn:E; cbn [rb_add].
    + destruct (H _ _ E) as [H1 H2]. destruct (in_dec Nat.eq_dec k l0) as [Hk|Hk]; intros E1; injection E1 as <-; auto.
      split.
      * apply asc_snoc; auto. intros m Hm. specialize (H2 m Hm). assert (m <> k) by congruence. lia.
      * intros m Hm. apply in_app_or in Hm. destruct Hm as [Hm|[<-|[]]]; auto.
    + intros E1. injection E1 as <-. split; [repeat constructor|]. intros m [<-|[]]. lia.
  - intros E. apply H with (p := p). rewrite <- E. clear - L. symmetry.
    assert (U : forall f (idx : list (option (list nat))) k, length idx <= k -> upd_opt f k idx = idx).
    { clear. induction idx as [|y idx IH]; intros k L; [destruct k; reflexivity|]. destruct k; cbn in *; [lia|]. now rewrite IH by lia. }
    now rewrite U.
Qed.
Lemma indextrees_asc : forall nprods ts, exists k, ascents (indextrees nprods ts) k.
Proof.
  intros nprods ts. unfold indextrees.
  assert (G : forall (ts' : list ctree) k idx, ascents idx k -> ascents (fold_left (fun idx nt => index_tree idx (fst nt) (fst (snd nt))) (combine (seq k (length ts')) ts') idx) (k + length ts')).
  { induction ts' as [|t ts' IH]; intros k idx H; cbn [length seq combine fold_left fst snd]; [now rewrite Nat.add_0_r|].
    rewrite <- Nat.add_succ_comm. apply IH. apply index_tree_asc. intros p l E. destruct (H p l E) as [H1 H2]. split; [exact H1|]. intros m Hm. specialize (H2 m Hm). lia. }
  exists (0 + length ts). apply G. intros p l E. exfalso.
  assert (F : forall c q, nth q (repeat (@None (list nat)) c) None = None) by (induction c; destruct q; cbn; auto). rewrite F in E. discriminate.
Qed.
Lemma getcandidates_asc : forall a bits nprods ts c, getcandidates a bits (indextrees nprods ts) = Some c -> asc c.
Proof.
  intros a bits nprods ts c. destruct (indextrees_asc nprods ts) as (k & HK). unfold getcandidates.
  destruct (cand_prods _ _ _) as [[|p ps]|]; try discriminate. destruct (existsb _ _) eqn:EX; [discriminate|]. intros E. injection E as <-.
  set (idx := indextrees nprods ts) in *. clearbody idx.
  assert (G : forall ps acc, asc acc -> asc (fold_left (fun acc q => match nth (kid q) idx None with Some l => rb_inter acc l | None => acc end) ps acc)).
  { induction ps0 as [|q qs IH]; intros acc H; cbn [fold_left]; auto. apply IH. destruct (nth (kid q) idx None); auto. now apply asc_filter. }
  apply G. destruct (nth (kid p) idx None) as [l|] eqn:E; [|constructor]. apply (HK _ _ E).
Qed.
(** each number of an ascending list repeated *)
Lemma sorted_blocks : forall (ms : list nat) (c : nat -> nat), asc ms -> StronglySorted le (flat_map (fun m => repeat m (c m)) ms).
Proof.
  induction ms as [|m ms IH]; intros c H; cbn [flat_map]; [constructor|]. inversion H as [|? ? H1 H2]; subst. specialize (IH c H1).
  assert (G : forall y, In y (flat_map (fun m => repeat m (c m)) ms) -> m <= y).
  { intros y Hy. apply in_flat_map in Hy. destruct Hy as (z & Hz & Hy). apply repeat_spec in Hy. subst y. rewrite Forall_forall in H2. specialize (H2 z Hz). lia. }
  clear - IH G. induction (c m) as [|k IHk]; cbn [repeat app]; auto. constructor; auto. rewrite Forall_forall. intros y Hy. apply in_app_or in Hy.
  destruct Hy as [Hy|Hy]; [apply repeat_spec in Hy; lia|auto].
Qed.
Lemma exactindices_sorted : forall ts nprods x, StronglySorted le (map fst (exactindices ts ts nprods x)).
Proof.
  intros ts nprods [[bits id] root]. unfold exactindices. destruct (getcandidates _ _ _) as [c|] eqn:E; [|constructor].
  apply getcandidates_asc in E.
  assert (G : forall c, map fst (flat_map (fun m => map (fun j => (m, j)) (match_nodes (fst (nth id ts ([], 0))) (fst (nth m ts ([], 0))) bits root (seq 0 (length (fst (nth m ts ([], 0))))))) c) =
     flat_map (fun m => repeat m (length (match_nodes (fst (nth id ts ([], 0))) (fst (nth m ts ([], 0))) bits root (seq 0 (length (fst (nth m ts ([], 0)))))))) c).
  { clear. induction c as [|m c IH]; cbn [flat_map]; [reflexivity|]. rewrite map_app, IH. f_equal. generalize (match_nodes (fst (nth id ts ([], 0))) (fst (nth m ts ([], 0))) bits root (seq 0 (length (fst (nth m ts ([], 0)))))). 
    induction l as [|j l IHl]; cbn; [reflexivity|]. now rewrite IHl. }
  cbv zeta. rewrite G. now apply sorted_blocks.
Qed.
Lemma exact_indices_of : forall ts trees nprods x f, treebank ts trees -> consistent trees trees -> valid_prods nprods ts ->
  means ts trees x f -> indices_of trees f (map fst (exactindices ts ts nprods x)).
Proof.
  intros ts trees nprods x f B C V (bits & n & i & a & ra & ta & u & -> & E & Et & Eu & D & O & NO). split; [apply exactindices_sorted|].
  destruct (C56_indices ts trees ts trees nprods n bits i a ra ta u f B B C V V E Et D NO Eu O) as [ND HI].
  set (l := exactindices ts ts nprods (bits, n, i)) in *. clearbody l. split.
  - intros m Hm. apply in_map_iff in Hm. destruct Hm as ([m' j] & <- & Hm). apply HI in Hm. destruct Hm as (b & rb & tb & v & _ & E2 & _). cbn. apply nth_error_Some. congruence.
  - intros m t places Em NDp Hp. rewrite count_filter. destruct (treebank_nth' _ _ _ _ B Em) as ([b rb] & Eb & HB). cbn [fst snd] in HB.
    rewrite <- (map_length snd). apply (places_count b rb t f _ places HB); auto.
    + assert (NF : NoDup (filter (fun p => fst p =? m) l)) by now apply NoDup_filter.
      assert (EF : forall p, In p (filter (fun p => fst p =? m) l) -> fst p = m) by (intros p Hq; apply filter_In in Hq; now apply Nat.eqb_eq).
      clear - NF EF. induction NF as [|p q N ND IH]; cbn; constructor.
      * intros HI. apply in_map_iff in HI. destruct HI as (p' & E' & Hp'). apply N. assert (p' = p) as <-; auto.
        destruct p as [x y], p' as [x' y']. cbn in E'. pose proof (EF (x, y) (or_introl eq_refl)). pose proof (EF (x', y') (or_intror Hp')). cbn in *. congruence.
      * apply IH. intros; apply EF; now right.
    + intros j. rewrite in_map_iff. split.
      * intros ([m' j'] & Ej & Hj). cbn in Ej. subst j'. apply filter_In in Hj. destruct Hj as [Hj Em']. cbn in Em'. apply Nat.eqb_eq in Em'. subst m'.
        apply HI in Hj. destruct Hj as (b' & rb' & tb' & v & E1 & E2 & Ev & Ov). assert (tb' = t) by congruence. assert ((b', rb') = (b, rb)) by congruence.
        injection H0 as -> ->. subst tb'. exists v. auto.
      * intros (v & Ev & Ov). exists (m, j). split; auto. apply filter_In. split; [|apply Nat.eqb_refl]. apply HI. exists b, rb, t, v. auto.
Qed.

(** * the cover fragments *)
Definition bitsof (x : stored) : list N := fst (fst x).
Lemma set_add_nodup : forall x l, NoDup l -> NoDup (set_add x l).
Proof.
  intros x l H. unfold set_add. destruct (in_dec stored_eq_dec x l); auto. apply (Permutation_NoDup (Permutation_cons_append l x)). now constructor.
Qed.
Lemma allfragments_nodup : forall t n slots md mf, NoDup (allfragments t n slots md mf).
Proof.
  intros t n slots md mf. unfold allfragments. generalize (combine (seq 0 (length (traverse (S (length (fst t))) (fst t) slots md mf (repeat [] (length (fst t))) (snd t)))) (traverse (S (length (fst t))) (fst t) slots md mf (repeat [] (length (fst t))) (snd t))).
  intros tb. assert (G : forall acc, NoDup acc -> NoDup (fold_left (fun inter (ie : nat * list entry) => fold_left (fun inter e => set_add (fst (fst e), n, fst ie) inter) (snd ie) inter) tb acc)).
  { induction tb as [|[i l] tb IH]; intros acc H; cbn [fold_left]; auto. apply IH. cbn [fst snd]. clear - H. revert acc H.
    induction l as [|e l IH]; intros acc H; cbn [fold_left]; auto. apply IH. now apply set_add_nodup. }
  apply G. constructor.
Qed.
(** two bit vectors with the same members *)
Lemma word_ext : forall x y : N, (x < 2 ^ 64)%N -> (y < 2 ^ 64)%N -> (forall i, (i < 64)%N -> N.testbit x i = N.testbit y i) -> x = y.
Proof.
  intros x y Hx Hy H. apply N.bits_inj. intros i. destruct (N.lt_ge_cases i 64) as [L|L]; [auto|].
  assert (Z : forall z, (z < 2 ^ 64)%N -> N.testbit z i = false).
  { intros z Hz. destruct (N.eq_dec z 0) as [->|Nz]; [apply N.bits_0|]. apply N.bits_above_log2. apply N.log2_lt_pow2 in Hz; lia. }
  now rewrite !Z.
Qed.
Lemma vec_ext : forall v w, words v -> words w -> length v = length w -> (forall i, amember v i <-> amember w i) -> v = w.
Proof.
  induction v as [|x v IH]; intros [|y w] Wv Ww L H; cbn in L; try discriminate; [reflexivity|].
  inversion Wv as [|? ? W1 W2]; inversion Ww as [|? ? W3 W4]; subst. f_equal.
  - apply word_ext; auto. intros i Hi. specialize (H i). rewrite !amember_cons in H. unfold member in H.
    destruct (N.testbit x i), (N.testbit y i); auto.
    + assert (X : (i < 64 /\ true = true)%N \/ (64 <= i /\ amember v (i - 64))%N) by auto. apply H in X. destruct X as [[_ X]|[X _]]; [discriminate|lia].
    + assert (X : (i < 64 /\ true = true)%N \/ (64 <= i /\ amember w (i - 64))%N) by auto. apply H in X. destruct X as [[_ X]|[X _]]; [discriminate|lia].
  - apply IH; auto. intros i. specialize (H (i + 64)%N). rewrite !amember_cons in H. replace (i + 64 - 64)%N with i in H by lia. split; intros M.
    + assert (X : (i + 64 < 64 /\ member x (i + 64))%N \/ (64 <= i + 64 /\ amember v i)%N) by (right; split; [lia|auto]). apply H in X. destruct X as [[X _]|[_ X]]; [lia|auto].
    + assert (X : (i + 64 < 64 /\ member y (i + 64))%N \/ (64 <= i + 64 /\ amember w i)%N) by (right; split; [lia|auto]). apply H in X. destruct X as [[X _]|[_ X]]; [lia|auto].
Qed.
Lemma denotes_unique : forall a b1 b2 i f, denotes a b1 i f -> denotes a b2 i f -> length b1 = length b2 -> b1 = b2.
Proof.
  intros a b1 b2 i f (W1 & H1) (W2 & H2) L. apply vec_ext; auto. intros j. rewrite <- (N2Nat.id j). now rewrite H1, H2.
Qed.
Section Cover.
Variable ts : list ctree.
Notation key := (keyof ts).
Definition keyis (f : frag) (x : stored) : bool := if frag_eq_dec (key x) f then true else false.
Lemma collectindices_get : forall l d f,
  dget f (collectindices ts d l) = match filter (keyis f) l with [] => dget f d | m => Some (match dget f d with None => [] | Some ids => ids end ++ map (fun x => snd (fst x)) m) end.
Proof.
  unfold collectindices. induction l as [|x l IH]; intros d f; cbn [fold_left filter]; [reflexivity|]. rewrite IH. rewrite dget_dset. unfold keyis at 2.
  destruct (frag_eq_dec f (key x)) as [E|N].
  - destruct (frag_eq_dec (key x) f) as [_|]; [|congruence]. rewrite <- E. fold (keyis f).
    destruct (filter (keyis f) l) as [|y m] eqn:EF; cbn [map app].
    + reflexivity.
    + rewrite <- app_assoc. reflexivity.
  - destruct (frag_eq_dec (key x) f); [congruence|]. reflexivity.
Qed.
Lemma collectindices_keys : forall l d, NoDup (map fst d) -> NoDup (map fst (collectindices ts d l)).
Proof. unfold collectindices. induction l as [|x l IH]; intros d H; cbn [fold_left]; auto. apply IH. now apply dset_nodup. Qed.
Variable it : nat -> list stored -> list stored.
Hypothesis HP : forall n l, Permutation (it n l) l.
Variable g : nat -> list stored.
Hypothesis HG : forall n x, In x (g n) -> snd (fst x) = n.
Definition hits (f : frag) (n : nat) : nat := length (filter (keyis f) (g n)).
Lemma filter_perm : forall A (P : A -> bool) l l', Permutation l l' -> Permutation (filter P l) (filter P l').
Proof.
  intros A P l l' H. induction H; cbn; auto.
  - destruct (P x); auto.
  - destruct (P x), (P y); auto. constructor.
  - eapply Permutation_trans; eauto.
Qed.
Lemma hits_it : forall f n, map (fun x => snd (fst x)) (filter (keyis f) (it n (g n))) = repeat n (hits f n).
Proof.
  intros f n. unfold hits. rewrite <- (Permutation_length (filter_perm _ (keyis f) _ _ (HP n (g n)))).
  assert (H : forall x, In x (filter (keyis f) (it n (g n))) -> snd (fst x) = n).
  { intros x Hx. apply filter_In in Hx. apply HG. exact (Permutation_in _ (HP n _) (proj1 Hx)). }
  induction (filter (keyis f) (it n (g n))) as [|x l IH]; cbn [map length repeat]; [reflexivity|]. rewrite IH by (intros; apply H; now right). now rewrite (H x (or_introl eq_refl)).
Qed.
Definition listopt (l : list nat) : option (list nat) := match l with [] => None | _ => Some l end.
Lemma cover_get : forall c k d f, dget f d = listopt (flat_map (fun m => repeat m (hits f m)) (seq 0 k)) ->
  dget f (fold_left (fun d n => collectindices ts d (it n (g n))) (seq k c) d) = listopt (flat_map (fun m => repeat m (hits f m)) (seq 0 (k + c))).
Proof.
  induction c as [|c IH]; intros k d f E; cbn [seq fold_left]; [now rewrite Nat.add_0_r|]. rewrite <- Nat.add_succ_comm. apply IH.
  rewrite collectindices_get. rewrite seq_S, flat_map_app. cbn [flat_map Nat.add]. rewrite app_nil_r.
  rewrite <- hits_it. destruct (filter (keyis f) (it k (g k))) as [|x m] eqn:EF; cbn [map].
  - rewrite app_nil_r. exact E.
  - rewrite E. destruct (flat_map _ (seq 0 k)); reflexivity.
Qed.
Lemma cover_keys : forall l d, NoDup (map fst d) -> NoDup (map fst (fold_left (fun d n => collectindices ts d (it n (g n))) l d)).
Proof. induction l as [|n l IH]; intros d H; cbn [fold_left]; auto. apply IH. now apply collectindices_keys. Qed.
End Cover.
Lemma cslots_enough : forall k m : nat, k <= m -> k <= 64 * N.to_nat (BITNSLOTS (N.of_nat m)).
Proof.
  intros k m H. unfold BITNSLOTS, BITSIZE. pose proof (N.div_mod (N.of_nat m + 64 - 1) 64 ltac:(lia)). pose proof (N.mod_lt (N.of_nat m + 64 - 1) 64 ltac:(lia)). lia.
Qed.
Lemma seq_asc : forall c k, asc (seq k c).
Proof. induction c as [|c IH]; intros k; cbn; constructor; [apply IH|]. rewrite Forall_forall. intros y Hy. apply in_seq in Hy. lia. Qed.
Lemma count_blocks : forall (c : nat -> nat) ms n, NoDup ms -> count_occ Nat.eq_dec (flat_map (fun m => repeat m (c m)) ms) n = if in_dec Nat.eq_dec n ms then c n else 0.
Proof.
  intros c. induction ms as [|m ms IH]; intros n ND; cbn [flat_map]; [reflexivity|]. inversion ND as [|? ? N1 N2]; subst. rewrite count_occ_app, IH by auto.
  assert (R : forall k, count_occ Nat.eq_dec (repeat m k) n = if Nat.eq_dec m n then k else 0).
  { induction k as [|k IHk]; cbn; [destruct (Nat.eq_dec m n); reflexivity|]. rewrite IHk. destruct (Nat.eq_dec m n); reflexivity. }
  rewrite R. destruct (Nat.eq_dec m n) as [->|N].
  - destruct (in_dec Nat.eq_dec n ms); [contradiction|]. destruct (in_dec Nat.eq_dec n (n :: ms)) as [|X]; [lia|]. destruct X. now left.
  - destruct (in_dec Nat.eq_dec n ms), (in_dec Nat.eq_dec n (m :: ms)) as [X|X]; try lia.
    + destruct X. now right.
    + destruct X; [congruence|contradiction].
Qed.
Lemma cover_ok : forall ts trees it md mf f, treebank ts trees -> (forall n l, Permutation (it n l) l) -> 1 <= md ->
  match dget f (coverfragments it ts md mf) with
  | Some ids => small md mf trees f /\ indices_of trees f ids
  | None => ~ small md mf trees f
  end.
Proof.
  intros ts trees it md mf f B HP Hmd. unfold coverfragments.
  set (slots := N.to_nat (BITNSLOTS (N.of_nat (maxnodes ts)))).
  set (g := fun n => allfragments (nth n ts ([], 0)) n slots md mf).
  assert (HA : forall n t, nth_error trees n = Some t -> exists a ra, nth n ts ([], 0) = (a, ra) /\ nth_error ts n = Some (a, ra) /\ array_of a ra t /\ length a <= 64 * slots).
  { intros n t E. destruct (treebank_nth' _ _ _ _ B E) as ([a ra] & Ec & H). exists a, ra. split; [exact (nth_error_nth _ _ _ Ec)|]. split; auto. split; auto.
    apply cslots_enough. assert (L : n < length ts) by (apply nth_error_Some; congruence). pose proof (maxnodes_le ts n L) as X. now rewrite (nth_error_nth _ _ _ Ec) in X. }
  assert (HG : forall n x, In x (g n) -> snd (fst x) = n).
  { intros n x Hx. unfold g, allfragments in Hx. apply collect_In in Hx. destruct Hx as [[]|(ie & e & _ & _ & ->)]. reflexivity. }
  assert (LEN : length ts = length trees).
  { clear - B. induction B; cbn; auto. }
  (* the number of hits in tree n *)
  assert (KEY : forall n t x, nth_error trees n = Some t -> In x (g n) -> exists u i bits, x = (bits, n, i) /\ node_at (fst (nth n ts ([], 0))) (snd (nth n ts ([], 0))) u = Some i /\
     occurs (keyof ts x) t u /\ keyof ts x <> Open /\ denotes (fst (nth n ts ([], 0))) bits i (keyof ts x) /\ length bits = slots /\ depth (keyof ts x) <= md /\ frontiers (keyof ts x) + unaries (keyof ts x) <= mf).
  { intros n t x E Hx. destruct (HA n t E) as (a & ra & En & Ec & Ha & La). destruct (allfragments_ok slots md mf a ra t n Ha La Hmd) as [S1 _].
    unfold g in Hx. rewrite En in Hx. destruct (S1 x Hx) as (u & i & bits & f' & -> & Eu & O & NO & D & L & D1 & D2).
    assert (K : keyof ts (bits, n, i) = f').
    { apply (means_key ts trees); auto. exists bits, n, i, a, ra, t, u. split; auto 10. }
    rewrite K, En. cbn [fst snd]. exists u, i, bits. auto 10. }
  assert (HIT : forall n t places, nth_error trees n = Some t -> f <> Open -> depth f <= md -> frontiers f + unaries f <= mf -> NoDup places ->
     (forall u, In u places <-> occurs f t u) -> hits ts g f n = length places).
  { intros n t places E NO D1 D2 NDp Hp. destruct (HA n t E) as (a & ra & En & Ec & Ha & La). unfold hits.
    rewrite <- (map_length (@snd (list N * nat) nat)). apply (places_count a ra t f _ places Ha); auto.
    - assert (ND : NoDup (filter (keyis ts f) (g n))) by (apply NoDup_filter; apply allfragments_nodup).
      assert (EF : forall x y, In x (filter (keyis ts f) (g n)) -> In y (filter (keyis ts f) (g n)) -> snd x = snd y -> x = y).
      { intros x y Hx Hy Exy. apply filter_In in Hx, Hy. destruct Hx as [Hx Kx], Hy as [Hy Ky]. unfold keyis in Kx, Ky.
        destruct (frag_eq_dec (keyof ts x) f) as [Kx'|]; [|discriminate]. destruct (frag_eq_dec (keyof ts y) f) as [Ky'|]; [|discriminate].
        destruct (KEY n t x E Hx) as (u & i & bits & Ex & _ & _ & _ & Dx & Lx & _). destruct (KEY n t y E Hy) as (u' & i' & bits' & Ey & _ & _ & _ & Dy & Ly & _).
        rewrite Kx' in Dx. rewrite Ky' in Dy. rewrite Ex, Ey in Exy. cbn [snd] in Exy. subst i'. rewrite Ex, Ey. f_equal. f_equal.
        apply (denotes_unique _ _ _ _ _ Dx Dy). congruence. }
      clear - ND EF. induction ND as [|p q N ND IH]; cbn; constructor.
      + intros HI. apply in_map_iff in HI. destruct HI as (p' & E' & Hp'). apply N. rewrite <- (EF p' p (or_intror Hp') (or_introl eq_refl) E'). exact Hp'.
      + apply IH. intros; apply EF; auto; now right.
    - intros j. rewrite in_map_iff. split.
      + intros (x & Ej & Hx). apply filter_In in Hx. destruct Hx as [Hx Kx]. unfold keyis in Kx. destruct (frag_eq_dec (keyof ts x) f) as [Kx'|]; [|discriminate].
        destruct (KEY n t x E Hx) as (u & i & bits & Ex & Eu & O & _). rewrite Ex in Ej. cbn in Ej. subst j. rewrite En in Eu. cbn [fst snd] in Eu. exists u. split; auto. now rewrite <- Kx'.
      + intros (v & Ev & O). destruct (allfragments_ok slots md mf a ra t n Ha La Hmd) as [_ S2]. destruct (S2 v j f Ev O NO D1 D2) as (bits & Hx & D & L).
        exists (bits, n, j). split; auto. apply filter_In. split; [unfold g; now rewrite En|].
        assert (K : keyof ts (bits, n, j) = f).
        { apply (means_key ts trees); auto. exists bits, n, j, a, ra, t, v. split; auto 10. }
        unfold keyis. rewrite K. destruct (frag_eq_dec f f); congruence. }
  assert (POS : forall n, n < length ts -> hits ts g f n <> 0 -> exists t u, nth_error trees n = Some t /\ occurs f t u /\ f <> Open /\ depth f <= md /\ frontiers f + unaries f <= mf).
  { intros n L H. destruct (nth_error trees n) as [t|] eqn:E; [|apply nth_error_None in E; lia]. unfold hits in H.
    destruct (filter (keyis ts f) (g n)) as [|x m] eqn:EF; [cbn in H; lia|]. assert (Hx : In x (filter (keyis ts f) (g n))) by (rewrite EF; now left).
    apply filter_In in Hx. destruct Hx as [Hx Kx]. unfold keyis in Kx. destruct (frag_eq_dec (keyof ts x) f) as [Kx'|]; [|discriminate].
    destruct (KEY n t x E Hx) as (u & i & bits & _ & _ & O & NO & _ & _ & D1 & D2). rewrite Kx' in *. exists t, u. auto 10. }
  pose proof (cover_get ts it HP g HG (length ts) 0 [] f eq_refl) as R. cbn [Nat.add] in R. unfold g at 1 in R. rewrite R. clear R.
  unfold listopt. destruct (flat_map (fun m => repeat m (hits ts g f m)) (seq 0 (length ts))) as [|y ids] eqn:EF.
  - intros (NO & D1 & D2 & n & t & u & E & O). destruct (HA n t E) as (a & ra & En & Ec & Ha & La).
    destruct (allfragments_ok slots md mf a ra t n Ha La Hmd) as [_ S2]. pose proof O as (s & Es & _). destruct (array_node _ _ _ _ _ Ha Es) as (i & Eu & _).
    destruct (S2 u i f Eu O NO D1 D2) as (bits & Hx & D & L).
    assert (K : keyof ts (bits, n, i) = f) by (apply (means_key ts trees); auto; exists bits, n, i, a, ra, t, u; split; auto 10).
    assert (H : hits ts g f n <> 0).
    { unfold hits. assert (Hf : In (bits, n, i) (filter (keyis ts f) (g n))) by (apply filter_In; split; [unfold g; now rewrite En|unfold keyis; rewrite K; destruct (frag_eq_dec f f); congruence]).
      destruct (filter (keyis ts f) (g n)); [destruct Hf|cbn; lia]. }
    assert (X : In n (flat_map (fun m => repeat m (hits ts g f m)) (seq 0 (length ts)))).
    { apply in_flat_map. exists n. split; [apply in_seq; assert (n < length ts) by (apply nth_error_Some; congruence); lia|]. destruct (hits ts g f n); [congruence|]. now left. }
    rewrite EF in X. exact X.
  - assert (Hy : In y (flat_map (fun m => repeat m (hits ts g f m)) (seq 0 (length ts)))) by (rewrite EF; now left).
    apply in_flat_map in Hy. destruct Hy as (n & Hn & Hy). apply in_seq in Hn.
    destruct (POS n ltac:(lia)) as (t & u & E & O & NO & D1 & D2); [destruct (hits ts g f n); [destruct Hy|lia]|].
    split; [repeat (split; [assumption|]); exists n, t, u; auto|]. rewrite <- EF. split; [apply sorted_blocks; apply seq_asc|]. split.
    + intros m Hm. apply in_flat_map in Hm. destruct Hm as (m' & Hm' & Hm). apply repeat_spec in Hm. subst. apply in_seq in Hm'. lia.
    + intros m t' places Em NDp Hp. rewrite count_blocks by apply seq_NoDup. destruct (in_dec Nat.eq_dec m (seq 0 (length ts))) as [Hm|Hm].
      * exact (HIT m t' places Em NO D1 D2 NDp Hp).
      * exfalso. apply Hm. apply in_seq. assert (m < length trees) by (apply nth_error_Some; congruence). lia.
Qed.
