(** C62: recurringfragments gives every recurring fragment with all its
    occurrences, however the work is divided over processes.

    The specification is FragParSpec.v (with FragSpec.v): [recurs]: a maximal
    common fragment of two different trees; [small]: a cover fragment;
    [indices_of]: the tree numbers of all occurrences, in ascending order;
    [tiles]: consecutive intervals; [comparisons]: pairs of trees. *)
From Coq Require Import NArith ZArith List Bool Arith Lia Permutation Sorting.Sorted.
From Verif Require Import ExportProofs2 BitsModel BitsSpec TreeModel FragModel FragSpec FragProofs FragProofs2 FragProofs3 FragProofs4 FragProofs5 FragProofs6 FragProofs7 FragProps FragParModel FragParSpec FragParProofs FragParProofs2 FragParProofs3.
Import ListNotations.

(** * division of the work *)
Theorem C62_workload_tiles : forall N mult numproc, 1 <= N -> tiles 0 N (workload N mult numproc).
Proof. exact workload_tiles. Qed.
Lemma comp_S : forall N a b, a <= b -> comparisons N a (S b) = comparisons N a b + (N - 1 - b).
Proof.
  intros N a b H. unfold comparisons. rewrite Nat.sub_succ_l by lia. rewrite seq_S, map_app, list_sum_app. cbn. replace (a + (b - a)) with b by lia. lia.
Qed.
Lemma comp_self : forall N a, comparisons N a a = 0.
Proof. intros N a. unfold comparisons. now rewrite Nat.sub_diag. Qed.
Lemma comp_split : forall N a b, a <= b -> comparisons N 0 b = comparisons N 0 a + comparisons N a b.
Proof.
  intros N a b H. induction H as [|b H IH]; [rewrite comp_self; lia|]. rewrite !comp_S by lia. lia.
Qed.
Lemma comp_closed : forall N n, n <= N -> 2 * comparisons N 0 n + n * n + n = 2 * N * n.
Proof.
  intros N. induction n as [|n IH]; intros H; [rewrite comp_self; lia|]. rewrite comp_S by lia. specialize (IH ltac:(lia)). nia.
Qed.
Lemma comp_total : forall N, Z.of_nat (comparisons N 0 N) = totalpairs N.
Proof.
  intros N. unfold totalpairs. pose proof (comp_closed N N (le_n _)) as E. apply Z.div_unique with (r := 0%Z); nia.
Qed.
Lemma workloop_balance : forall c k N chunk togo goal last r last', k + c <= N -> last < k ->
  togo = (totalpairs N - Z.of_nat (comparisons N 0 (k - 1)))%Z -> ((goal < togo)%Z \/ last = k - 1) -> (0 < chunk)%Z ->
  (totalpairs N - Z.of_nat (comparisons N 0 last) <= goal + chunk)%Z -> (0 <= goal + chunk)%Z ->
  workloop (seq k c) N chunk togo goal last = (r, last') ->
  (forall a b, In (a, b) r -> Z.of_nat (comparisons N a b) < chunk + Z.of_nat (N - b))%Z /\
  (Z.of_nat (comparisons N last' (k + c - 1)) < chunk)%Z /\
  (Z.of_nat (length r) * chunk <= goal + chunk)%Z.
Proof.
  induction c as [|c IH]; intros k N chunk togo goal last r last' HN HL Ht Hg Hc Hs Hp E; cbn [seq workloop] in E.
  - injection E as <- <-. split; [intros a b []|]. split; [|cbn; lia]. replace (k + 0 - 1) with (k - 1) by lia.
    pose proof (comp_split N last (k - 1) ltac:(lia)) as X. destruct Hg as [Hg|Hg]; [lia|]. assert (last = k - 1) by lia. subst last. rewrite comp_self. lia.
  - assert (Et : (togo - (Z.of_nat N - Z.of_nat k) = totalpairs N - Z.of_nat (comparisons N 0 k))%Z).
    { destruct k as [|k]; [lia|]. rewrite comp_S by lia. replace (S k - 1) with k in Ht by lia. lia. }
    assert (T0 : (Z.of_nat (comparisons N 0 k) <= totalpairs N)%Z) by (rewrite <- comp_total; pose proof (comp_split N k N ltac:(lia)); lia).
    rewrite Et in E. destruct (Z.leb_spec (totalpairs N - Z.of_nat (comparisons N 0 k)) goal) as [Hle|Hgt].
    + destruct (workloop (seq (S k) c) N chunk _ (goal - chunk) k) as [r1 l1] eqn:E1. injection E as <- <-.
      destruct (IH (S k) N chunk (totalpairs N - Z.of_nat (comparisons N 0 k))%Z (goal - chunk)%Z k r1 l1 ltac:(lia) ltac:(lia) ltac:(now replace (S k - 1) with k by lia) ltac:(right; lia) Hc ltac:(lia) ltac:(lia) E1) as (I1 & I2 & I3).
      split; [|split; [now replace (k + S c - 1) with (S k + c - 1) by lia|cbn [length]; lia]].
      intros a b [H|H]; [|auto]. injection H as <- <-.
      pose proof (comp_split N last (k - 1) ltac:(lia)) as X. destruct k as [|k]; [lia|]. rewrite comp_S by lia. replace (S k - 1) with k in * by lia.
      destruct Hg as [Hg|Hg]; [lia|]. assert (last = k) by lia. subst last. rewrite comp_self. lia.
    + destruct (IH (S k) N chunk (totalpairs N - Z.of_nat (comparisons N 0 k))%Z goal last r last' ltac:(lia) ltac:(lia) ltac:(now replace (S k - 1) with k by lia) ltac:(left; exact Hgt) Hc Hs Hp E) as (I1 & I2 & I3).
      split; [exact I1|]. split; [now replace (k + S c - 1) with (S k + c - 1) by lia|exact I3].
Qed.
Definition chunksize (N parts : nat) : nat := comparisons N 0 N / parts + 1.
Lemma chunk_eq : forall N parts, (totalpairs N / Z.of_nat parts + 1)%Z = Z.of_nat (chunksize N parts).
Proof. intros N parts. unfold chunksize. rewrite Nat2Z.inj_add, Nat2Z.inj_div, comp_total. reflexivity. Qed.
(** No process compares more than an equal share of the pairs of trees, plus
    those of one tree; and there are at most as many jobs as asked for. *)
Theorem C62_balanced : forall N mult numproc a b, 1 <= N -> numproc <> 1 -> In (a, b) (workload N mult numproc) ->
  comparisons N a b < chunksize N (mult * numproc) + (N - b).
Proof.
  intros N mult numproc a b HN Hp HI. unfold workload in HI. destruct (Nat.eqb_spec numproc 1); [contradiction|]. rewrite chunk_eq in HI. cbv zeta in HI.
  destruct (workloop _ _ _ _ _ _) as [r last] eqn:E. pose proof (workloop_tiles _ _ _ _ _ _ _ _ _ (Nat.lt_0_succ 0) E) as [T1 T2].
  assert (CP : 1 <= chunksize N (mult * numproc)) by (unfold chunksize; apply Nat.le_add_l). set (ch := chunksize N (mult * numproc)) in *. clearbody ch.
  assert (TP : (0 <= totalpairs N)%Z) by (rewrite <- comp_total; lia).
  destruct (workloop_balance (N - 1) 1 N (Z.of_nat ch) (totalpairs N) (totalpairs N - Z.of_nat ch) 0 r last ltac:(lia) ltac:(lia) ltac:(cbn [Nat.sub]; rewrite comp_self; lia) ltac:(right; lia) ltac:(lia)
    ltac:(rewrite comp_self; lia) ltac:(lia) E) as (I1 & I2 & _).
  destruct (Nat.ltb_spec last N) as [Hl|]; [|specialize (I1 a b HI); lia]. apply in_app_or in HI. destruct HI as [HI|[HI|[]]]; [specialize (I1 a b HI); lia|]. injection HI as <- <-.
  destruct N as [|N]; [lia|]. replace (1 + (S N - 1) - 1) with N in I2 by lia. rewrite comp_S by lia. lia.
Qed.
Theorem C62_workload_count : forall N mult numproc, 1 <= N -> 1 <= mult * numproc -> length (workload N mult numproc) <= mult * numproc.
Proof.
  intros N mult numproc HN Hp. unfold workload. destruct (Nat.eqb_spec numproc 1); [cbn; lia|]. rewrite chunk_eq. cbv zeta.
  destruct (workloop _ _ _ _ _ _) as [r last] eqn:E.
  assert (CP : 1 <= chunksize N (mult * numproc)) by (unfold chunksize; apply Nat.le_add_l).
  assert (TP : (0 <= totalpairs N)%Z) by (rewrite <- comp_total; lia).
  destruct (workloop_balance (N - 1) 1 N (Z.of_nat (chunksize N (mult * numproc))) (totalpairs N) (totalpairs N - Z.of_nat (chunksize N (mult * numproc))) 0 r last ltac:(lia) ltac:(lia) ltac:(cbn [Nat.sub]; rewrite comp_self; lia) ltac:(right; lia) ltac:(lia)
    ltac:(rewrite comp_self; lia) ltac:(lia) E) as (_ & _ & I3).
  rewrite <- comp_total in I3. assert (L : length r * chunksize N (mult * numproc) <= comparisons N 0 N) by lia.
  assert (length r < mult * numproc).
  { unfold chunksize in L. pose proof (Nat.div_mod (comparisons N 0 N) (mult * numproc) ltac:(lia)) as DM. pose proof (Nat.mod_upper_bound (comparisons N 0 N) (mult * numproc) ltac:(lia)) as MB.
    set (q := comparisons N 0 N / (mult * numproc)) in *. set (m := comparisons N 0 N mod (mult * numproc)) in *. set (P := mult * numproc) in *. clearbody q m P. nia. }
  destruct (last <? N); [rewrite app_length; cbn|]; lia.
Qed.
(** two treebanks: the chunks cover the first *)
Theorem C62_two_treebanks : forall N mult numproc n, n < N -> exists w, In w (workload2 N mult numproc) /\ fst w <= n < snd w.
Proof.
  intros N mult numproc n H. unfold workload2. generalize (N / (mult * numproc)). intros c.
  assert (G : forall fuel s, s <= n -> N - s <= fuel -> exists a, In a (rangestep fuel s N (c + 1)) /\ a <= n < a + (c + 1)).
  { induction fuel as [|fuel IH]; intros s Hs Hf; [lia|]. cbn [rangestep]. destruct (Nat.ltb_spec s N); [|lia]. destruct (Nat.lt_ge_cases n (s + (c + 1))).
    - exists s. split; [now left|lia].
    - destruct (IH (s + (c + 1)) ltac:(lia) ltac:(lia)) as (a & Ha & Hn). exists a. split; [now right|auto]. }
  destruct (G N 0 ltac:(lia) ltac:(lia)) as (a & Ha & Hn). exists (a, a + (c + 1)). split; [|exact Hn]. apply in_map_iff. exists a. auto.
Qed.

(** * the result *)
Lemma inter_means : forall ts trees n x, treebank ts trees -> consistent trees trees -> n < length ts ->
  In x (fragments_of ts ts (slots_for (maxnodes ts)) n (S n) (length ts)) -> exists f, means ts trees x f /\ recurs trees f.
Proof.
  intros ts trees n x B C L Hx. assert (Hx' : In x (nth n (extract_single ts) [])).
  { unfold extract_single. rewrite nth_map_seq. destruct (Nat.ltb_spec n (length ts)); [exact Hx|lia]. }
  destruct (C55_treebank_sound ts trees n x B C Hx') as (a & ra & ta & m & tb & u & v & i & bits & f & E & Et & Hm & Em & -> & Eu & D & HC & HM).
  pose proof HC as (NO & O1 & _). exists f. split; [exists bits, n, i, a, ra, ta, u; auto 10|]. exists n, m, ta, tb, u, v. auto 10.
Qed.
Lemma recurs_inter : forall ts trees f, treebank ts trees -> consistent trees trees -> recurs trees f ->
  exists n x, n < length ts /\ In x (fragments_of ts ts (slots_for (maxnodes ts)) n (S n) (length ts)) /\ means ts trees x f.
Proof.
  intros ts trees f B C (n & m & s & t & u & v & Hm & En & Em & HC & HM).
  destruct (treebank_nth' _ _ _ _ B En) as ([a ra] & E & _). destruct (C55_treebank_complete ts trees n m a ra s t f u v B C E En Hm Em HC HM) as (i & bits & Hx & Eu & D).
  assert (L : n < length ts) by (apply nth_error_Some; congruence). unfold extract_single in Hx. rewrite nth_map_seq in Hx. destruct (Nat.ltb_spec n (length ts)); [|lia].
  exists n, (bits, n, i). split; auto. split; auto. destruct HC as (NO & O1 & _). exists bits, n, i, a, ra, s, u. auto 10.
Qed.
Definition orders (iter : nat -> nat -> list stored -> list stored) : Prop := forall p n l, Permutation (iter p n l) l.
(** The keys are the recurring fragments and the cover fragments, each once;
    the value of each is the list of the trees it occurs in. *)
Theorem C62_recurringfragments : forall iter ts trees nprods numproc maxdepth maxfrontier,
  treebank ts trees -> consistent trees trees -> valid_prods nprods ts -> ts <> [] -> orders iter ->
  let result := recurringfragments iter ts nprods numproc maxdepth maxfrontier in
  NoDup (map fst result) /\
  (forall f, (exists ids, dget f result = Some ids) <-> recurs trees f \/ (1 <= maxdepth /\ small maxdepth maxfrontier trees f)) /\
  (forall f ids, dget f result = Some ids -> indices_of trees f ids).
Proof.
  intros iter ts trees nprods numproc md mf B C V NE HO result.
  assert (HT : tiles 0 (length ts) (workload (length ts) 1 numproc)) by (apply workload_tiles; destruct ts; [congruence|cbn; lia]).
  pose proof (merged_inv ts iter _ HO HT) as (D1 & D2 & D3). fold (collected iter ts numproc) in D1, D2, D3.
  assert (CV : forall f, match dget f (thecover iter ts md mf) with
    | Some ids => (1 <= md /\ small md mf trees f) /\ indices_of trees f ids | None => ~ (1 <= md /\ small md mf trees f) end).
  { intros f. unfold thecover. destruct (Nat.eqb_spec md 0) as [->|]; [cbn; lia|]. pose proof (cover_ok ts trees (iter 0) md mf f B (HO 0) ltac:(lia)) as X.
    destruct (dget f (coverfragments (iter 0) ts md mf)); [|tauto]. split; [split; [lia|]|]; apply X. }
  assert (FR : forall f, match dget f (collected iter ts numproc) with Some x => recurs trees f /\ means ts trees x f | None => ~ recurs trees f end).
  { intros f. destruct (dget f (collected iter ts numproc)) as [x|] eqn:E.
    - destruct (D2 f x E) as [K (n & L & Hx)]. destruct (inter_means ts trees n x B C L Hx) as (f' & M & R).
      pose proof (means_key ts trees x f' B M) as K'. rewrite <- K, K'. split; [exact R|exact M].
    - intros R. destruct (recurs_inter ts trees f B C R) as (n & x & L & Hx & M). pose proof (means_key ts trees x f B M) as K.
      apply (D3 x); [exists n; auto|]. now rewrite K. }
  split; [|split].
  - apply result_keys; auto. unfold thecover. destruct (md =? 0); [constructor|]. unfold coverfragments. apply cover_keys. constructor.
  - intros f. unfold result. rewrite result_get. specialize (CV f). specialize (FR f). destruct (dget f (collected iter ts numproc)) as [x|].
    + split; [intros _; left; apply FR|eauto].
    + destruct (dget f (thecover iter ts md mf)) as [ids|]; [split; [intros _; right; apply CV|eauto]|]. split; [intros (ids & Ei); discriminate|tauto].
  - intros f ids. unfold result. rewrite result_get. specialize (CV f). specialize (FR f). destruct (dget f (collected iter ts numproc)) as [x|].
    + intros E. injection E as <-. apply exact_indices_of; auto. apply FR.
    + intros E. rewrite E in CV. apply CV.
Qed.

(** ** the value is determined *)
Lemma matches_dec : forall f t, {matches f t} + {~ matches f t}.
Proof.
  induction f as [|p|p f IH|p f1 IH1 f2 IH2]; intros t; cbn [matches].
  - auto.
  - destruct t; auto. apply Z.eq_dec.
  - destruct t as [q k|q t1|q t1 t2]; auto. destruct (Z.eq_dec p q); [|right; tauto]. destruct (IH t1); [left; auto|right; tauto].
  - destruct t as [q k|q t1|q t1 t2]; auto. destruct (Z.eq_dec p q); [|right; tauto]. destruct (IH1 t1); [|right; tauto]. destruct (IH2 t2); [left; auto|right; tauto].
Qed.
Fixpoint addrs (t : btree) : list addr :=
  match t with Lex _ _ => [[]] | Un _ t => [] :: map (cons false) (addrs t) | Bin _ t1 t2 => [] :: map (cons false) (addrs t1) ++ map (cons true) (addrs t2) end.
Lemma addrs_ok : forall t u, In u (addrs t) <-> sub t u <> None.
Proof.
  induction t as [p k|p t IH|p t1 IH1 t2 IH2]; intros u; cbn [addrs In].
  - destruct u as [|[|] u]; cbn; split; intros H; auto; try discriminate; try congruence; destruct H as [H|[]]; discriminate.
  - destruct u as [|[|] u]; cbn [sub]; [split; auto; discriminate| |].
    + split; [|congruence]. intros [H|H]; [discriminate|]. apply in_map_iff in H. destruct H as (x & E & _). discriminate.
    + rewrite <- IH, in_map_iff. split; [intros [H|(x & E & Hx)]; [discriminate|]; now injection E as ->|]. intros H. right. exists u. auto.
  - destruct u as [|[|] u]; cbn [sub]; [split; auto; discriminate| |]; rewrite in_app_iff, !in_map_iff.
    + rewrite <- IH2. split; [intros [H|[(x & E & Hx)|(x & E & Hx)]]; try discriminate; now injection E as ->|]. intros H. right. right. exists u. auto.
    + rewrite <- IH1. split; [intros [H|[(x & E & Hx)|(x & E & Hx)]]; try discriminate; now injection E as ->|]. intros H. right. left. exists u. auto.
Qed.
Lemma addrs_nodup : forall t, NoDup (addrs t).
Proof.
  assert (M : forall b l, NoDup l -> NoDup (map (cons (A := bool) b) l)) by (intros b l; apply FinFun.Injective_map_NoDup; intros x y E; congruence).
  assert (Z : forall b l, ~ In [] (map (cons (A := bool) b) l)) by (intros b l H; apply in_map_iff in H; destruct H as (x & E & _); discriminate).
  induction t as [p k|p t IH|p t1 IH1 t2 IH2]; cbn [addrs].
  - repeat constructor. auto.
  - constructor; auto.
  - constructor; [rewrite in_app_iff; intros [H|H]; exact (Z _ _ H)|]. apply nodup_app; auto. intros x H1 H2. apply in_map_iff in H1, H2.
    destruct H1 as (y & <- & _). destruct H2 as (z & E & _). discriminate.
Qed.
Lemma places_exist : forall f t, exists places, NoDup places /\ forall u, In u places <-> occurs f t u.
Proof.
  intros f t. exists (filter (fun u => match sub t u with Some s => if matches_dec f s then true else false | None => false end) (addrs t)).
  split; [apply NoDup_filter, addrs_nodup|]. intros u. rewrite filter_In, addrs_ok. unfold occurs. destruct (sub t u) as [s|].
  - destruct (matches_dec f s); split; try (intros [_ ?]; discriminate); eauto.
    + intros _. split; auto. discriminate.
    + intros (s' & E & M). injection E as <-. contradiction.
  - split; [tauto|]. intros (s & E & _). discriminate.
Qed.
Lemma sorted_unique : forall l1 l2 : list nat, StronglySorted le l1 -> StronglySorted le l2 -> Permutation l1 l2 -> l1 = l2.
Proof.
  induction l1 as [|x l1 IH]; intros l2 S1 S2 P; [now apply Permutation_nil in P|]. destruct l2 as [|y l2]; [now apply Permutation_sym, Permutation_nil in P|].
  inversion S1 as [|? ? A1 F1]; inversion S2 as [|? ? A2 F2]; subst. rewrite Forall_forall in F1, F2.
  assert (x = y). { pose proof (Permutation_in x P (or_introl eq_refl)) as Hx. pose proof (Permutation_in y (Permutation_sym P) (or_introl eq_refl)) as Hy.
    destruct Hx as [->|Hx]; auto. destruct Hy as [->|Hy]; auto. specialize (F1 y Hy). specialize (F2 x Hx). lia. }
  subst y. f_equal. apply IH; auto. now apply Permutation_cons_inv in P.
Qed.
Theorem C62_indices_unique : forall trees f ids ids', indices_of trees f ids -> indices_of trees f ids' -> ids = ids'.
Proof.
  intros trees f ids ids' (S1 & B1 & C1) (S2 & B2 & C2). apply sorted_unique; auto. apply (Permutation_count_occ Nat.eq_dec). intros n.
  destruct (nth_error trees n) as [t|] eqn:E.
  - destruct (places_exist f t) as (places & ND & HP). now rewrite (C1 n t places E ND HP), (C2 n t places E ND HP).
  - apply nth_error_None in E. assert (Z : forall l, (forall m, In m l -> m < length trees) -> count_occ Nat.eq_dec l n = 0).
    { intros l H. apply count_occ_not_In. intros HI. specialize (H n HI). lia. }
    now rewrite !Z.
Qed.
(** The number of processes and the order in which sets are visited make no
    difference. *)
Theorem C62_numproc : forall iter iter' ts trees nprods numproc numproc' maxdepth maxfrontier,
  treebank ts trees -> consistent trees trees -> valid_prods nprods ts -> ts <> [] -> orders iter -> orders iter' ->
  forall f, dget f (recurringfragments iter ts nprods numproc maxdepth maxfrontier) = dget f (recurringfragments iter' ts nprods numproc' maxdepth maxfrontier).
Proof.
  intros iter iter' ts trees nprods numproc numproc' md mf B C V NE O1 O2 f.
  destruct (C62_recurringfragments iter ts trees nprods numproc md mf B C V NE O1) as (_ & K1 & I1).
  destruct (C62_recurringfragments iter' ts trees nprods numproc' md mf B C V NE O2) as (_ & K2 & I2).
  destruct (dget f (recurringfragments iter ts nprods numproc md mf)) as [ids|] eqn:E1, (dget f (recurringfragments iter' ts nprods numproc' md mf)) as [ids'|] eqn:E2; auto.
  - f_equal. apply (C62_indices_unique trees f); eauto.
  - assert (X : exists i, dget f (recurringfragments iter' ts nprods numproc' md mf) = Some i) by (apply K2, K1; eauto). destruct X as (i & X). congruence.
  - assert (X : exists i, dget f (recurringfragments iter ts nprods numproc md mf) = Some i) by (apply K1, K2; eauto). destruct X as (i & X). congruence.
Qed.
(** With the cover fragments (of depth 1, the default) every production of the
    treebank is in the result, even of a single tree. *)
Theorem C62_cover : forall iter ts trees nprods numproc maxdepth maxfrontier f n t u,
  treebank ts trees -> consistent trees trees -> valid_prods nprods ts -> orders iter -> 1 <= maxdepth ->
  nth_error trees n = Some t -> occurs f t u -> f <> Open -> depth f <= maxdepth -> frontiers f + unaries f <= maxfrontier ->
  exists ids, dget f (recurringfragments iter ts nprods numproc maxdepth maxfrontier) = Some ids /\ In n ids.
Proof.
  intros iter ts trees nprods numproc md mf f n t u B C V O Hmd E Oc NO D1 D2.
  assert (NE : ts <> []). { destruct (treebank_nth' _ _ _ _ B E) as (c & Ec & _). intros ->. destruct n; discriminate. }
  destruct (C62_recurringfragments iter ts trees nprods numproc md mf B C V NE O) as (_ & K & I).
  assert (X : exists ids, dget f (recurringfragments iter ts nprods numproc md mf) = Some ids).
  { apply K. right. split; auto. repeat (split; [assumption|]). exists n, t, u. auto. }
  destruct X as (ids & Ei). exists ids. split; auto. destruct (I f ids Ei) as (_ & _ & Cn). destruct (places_exist f t) as (places & ND & HP).
  apply (count_occ_In Nat.eq_dec). rewrite (Cn n t places E ND HP). apply HP in Oc. destruct places; [destruct Oc|cbn; lia].
Qed.

(** * examples *)
Definition rev2 (p n : nat) (l : list stored) : list stored := if p =? 2 then rev l else l.
Example rev2_orders : orders rev2.
Proof. intros p n l. unfold rev2. destruct (p =? 2); [apply Permutation_sym, Permutation_rev|apply Permutation_refl]. Qed.
Example C62_example_workload : workload 100 1 4 = [(0, 14); (14, 30); (30, 50); (50, 100)] /\ map (fun w => comparisons 100 (fst w) (snd w)) (workload 100 1 4) = [1295; 1240; 1190; 1225]
  /\ chunksize 100 4 = 1238.
Proof. vm_compute. auto. Qed.
(** three recurring fragments; the productions 2 and 7 of the third tree come from the cover *)
Example C62_example :
  recurringfragments rev2 exbank 8 3 1 999 =
  [(FBin 0 Open (FBin 1 (FLex 4) (FLex 5)), [0; 1]); (FLex 3, [0; 2]); (FBin 1 (FLex 4) (FLex 5), [0; 1; 2]);
   (FBin 0 Open Open, [0; 1]); (FBin 1 Open Open, [0; 1; 2]); (FLex 4, [0; 1; 2]); (FLex 5, [0; 1; 2]); (FLex 6, [1]); (FBin 2 Open Open, [2]); (FUn 7 Open, [2])]
  /\ recurringfragments (fun _ _ l => rev l) exbank 8 1 0 0 =
  [(FBin 1 (FLex 4) (FLex 5), [0; 1; 2]); (FLex 3, [0; 2]); (FBin 0 Open (FBin 1 (FLex 4) (FLex 5)), [0; 1])].
Proof. vm_compute. auto. Qed.
