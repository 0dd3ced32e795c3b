(** C46: moving and removing punctuation.

    The vocabulary of the statements is in PunctSpec.v ([rooted], [skeleton],
    [moved]) and TransformProps.v ([preterminals], [ptree], [tperm], [rank]). *)
From Coq Require Import String.
From Coq Require Import List Bool Arith NArith Lia Permutation Sorted.
From Verif Require Import PyStr TreeModel TreeProps BinarizeProps TransformModel SortProofs TransformProps PunctModel PunctSpec PunctProofs PunctProofs2 PunctProofs3.
Import ListNotations.
Open Scope list_scope.
Open Scope nat_scope.

(** the preterminals that count as punctuation *)
Definition punctuation (sent : list word) (i : nat) (tag : pystr) : bool :=
  existsb (eqs tag) PUNCTTAGS || match nth i sent None with Some w => existsb (eqs w) PUNCTUATION | None => false end.
(** the preterminals under the root *)
Definition underroot (t : ptr) (i : nat) (tag : pystr) : bool := existsb (fun c => tree_eqb eqs Nat.eqb c (Node tag [Leaf i])) (kids t).

Lemma rooted_node : forall l ts, rooted (Node l ts) -> (forall c, In c ts -> ptree c) /\ NoDup (flat_map leaves ts).
Proof. intros l ts (l' & ts' & E & P & N). injection E as <- <-. auto. Qed.
Lemma moved_weaken : forall S S' t t', rooted t -> (forall a m, S a m = true -> S' a m = true) -> moved S t t' -> moved S' t t'.
Proof.
  intros S S' t t' (l & ts & -> & P & N) W ((l' & ts' & -> & P' & N') & PM & SK). split; [exists l', ts'; auto|]. split; auto.
  assert (E : forall k us, (forall c, In c us -> ptree c) -> skeleton S' (Node k us) = skeleton S' (skeleton S (Node k us))). { intros k us H. rewrite skeleton_comp by auto. apply skeleton_ext; auto. intros m a _. destruct (S a m) eqn:Z; [rewrite (W a m Z); reflexivity|now rewrite orb_false_r]. }
  rewrite (E l' ts' P'), (E l ts P). now rewrite SK.
Qed.

(** punctroot: only punctuation moves, and afterwards it is under the root *)
Theorem C46_punctroot : forall t sent, rooted t ->
  moved (punctuation sent) t (punctroot t sent) /\
  forall tag i, In (tag, i) (preterminals t) -> punctuation sent i tag = true -> In (Node tag [Leaf i]) (kids (punctroot t sent)).
Proof.
  intros t sent R. assert (R' := R). destruct R' as (l & ts & -> & P & N). rewrite (punctroot_spec sent l ts P N). destruct (skeleton_rooted (punctsel sent) l ts P N) as (A & B & C). cbn [skeleton] in C. change (punctuation sent) with (punctsel sent) in *.
  set (ps := filter (fun mi => punctsel sent (snd mi) (fst mi)) (rev (preterminals (Node l ts : ptr)))).
  assert (PP : forall c, In c (map prenode ps) -> ptree c) by (intros c H; apply in_map_iff in H; destruct H as ([m i] & <- & _); constructor).
  assert (PA : forall c, In c (flat_map (rest (punctsel sent)) ts ++ map prenode ps) -> ptree c) by (intros c H; apply in_app_or in H; destruct H; auto).
  split.
  - assert (PM : Permutation (preterminals (Node l ts : ptr)) (preterminals (Node l (flat_map (rest (punctsel sent)) ts ++ map prenode ps) : ptr))).
    { rewrite (pret_node l (flat_map (rest (punctsel sent)) ts ++ map prenode ps)) by (intros; now apply ptree_qtree, PA). rewrite flat_map_app. rewrite pret_node in C by (intros; now apply ptree_qtree, A). rewrite C.
      assert (E : flat_map preterminals (map prenode ps) = ps). { clear. induction ps as [|[m i] r IH]; auto. cbn in *. now rewrite IH. } rewrite E. unfold ps. rewrite <- (filter_perm _ (fun mi => punctsel sent (snd mi) (fst mi)) _ _ (Permutation_rev (preterminals (Node l ts : ptr)))).
      clear. induction (preterminals (Node l ts : ptr)) as [|[m i] r IH]; auto. cbn [filter fst snd]. destruct (punctsel sent i m); cbn; [rewrite <- Permutation_middle; now constructor|now constructor]. }
    split; [apply (rooted_perm (Node l ts)); auto|]. split; auto. cbn [skeleton]. f_equal. rewrite flat_map_app.
    assert (E1 : flat_map (rest (punctsel sent)) (map prenode ps) = []). { assert (F : forall p, In p ps -> punctsel sent (snd p) (fst p) = true) by (intros p H; apply filter_In in H; tauto). clear - F. induction ps as [|[m i] r IH]; auto. cbn [map flat_map prenode]. unfold prenode at 1. cbn [fst snd]. rewrite rest_pre. assert (X := F (m, i) (or_introl eq_refl)). cbn [fst snd] in X. rewrite X. cbn [app]. apply IH. intros; apply F; now right. }
    rewrite E1, app_nil_r. transitivity (flat_map (rest (fun a m => punctsel sent a m || punctsel sent a m)) ts).
    + clear - P. induction ts as [|c ts IH]; auto. cbn [flat_map]. rewrite flat_map_app, rest_comp by (apply ptree_qtree, P; now left). f_equal. apply IH. intros; apply P; now right.
    + apply flat_map_ext_in. intros c H. apply rest_ext; [now apply ptree_qtree, P|]. intros. now rewrite orb_diag.
  - intros tag i H S. cbn [kids]. apply in_or_app. right. change (Node tag [Leaf i]) with (prenode (tag, i)). apply in_map. unfold ps. apply filter_In. split; [now apply -> in_rev|exact S].
Qed.

Lemma underroot_in : forall l ts i m, In (Node m [Leaf i]) ts -> underroot (Node l ts) i m = true.
Proof.
  intros l ts i m H. unfold underroot. apply existsb_exists. exists (Node m [Leaf i]). split; auto. cbn. rewrite (proj2 (eqs_eq m m)) by auto. now rewrite Nat.eqb_refl.
Qed.
(** punctraise: only punctuation moves (or, with rootpreterms, only preterminals
    that were under the root) *)
Theorem C46_punctraise : forall (t : ptr) (sent : list word) (rootpreterms : bool), rooted t ->
  moved (if rootpreterms then underroot t else fun (i : nat) (tag : pystr) => punctuation sent i tag && underroot t i tag) t (punctraise t sent rootpreterms).
Proof.
  intros t sent all R. apply punctraise_moved; auto. intros m i H E. assert (R' := R). destruct R' as (l & ts & -> & P & N). destruct all; [now apply underroot_in|]. cbn [orb] in E. change (punctuation sent i m) with (ispunct (wordof sent i) m). rewrite E. now apply underroot_in.
Qed.
(** balancedpunctraise: only punctuation moves *)
Theorem C46_balancedpunctraise : forall t sent, rooted t -> moved (punctuation sent) t (balancedpunctraise t sent).
Proof. exact (fun t sent => balanced_moved sent t). Qed.

(** applypunct with 'move' or 'moveall': the same tags and words; without the
    movable preterminals the trees are the same up to the order of siblings;
    siblings are in order *)
Definition movable (all : bool) (t : ptr) (sent : list word) (i : nat) (tag : pystr) : bool := punctuation sent i tag || (all && underroot t i tag).
Lemma ptree_alone : forall t : ptr, ptree t -> every_node alone t.
Proof.
  induction t as [a|l ts IH] using tree_ind'; intros P; [inversion P|]. cbn [every_node]. rewrite fold_and. inversion P as [? a|? ? NE PC]; subst.
  - split; [intros b _; reflexivity|repeat constructor].
  - split; [intros a H; exfalso; apply (noleaf (L := pystr) a); auto|]. rewrite Forall_forall in *. auto.
Qed.
Theorem C46_move : forall t sent (all : bool) m t' sent', rooted t -> m = (if all then MoveAll else Move) -> applypunct m t sent = Some (t', sent') ->
  sent' = sent /\ rooted t' /\ Permutation (preterminals t) (preterminals t') /\
  tperm (skeleton (movable all t sent) t) (skeleton (movable all t sent) t') /\
  every_node ordered t'.
Proof.
  intros t sent all m t' sent' R -> E. assert (E' : t' = move t sent all /\ sent' = sent) by (destruct all; injection E as <- <-; auto). clear E. destruct E' as [-> ->]. split; auto.
  assert (M : moved (movable all t sent) t (balancedpunctraise (punctraise t sent all) sent)).
  { assert (M1 := C46_punctraise t sent all R). assert (R1 := proj1 M1). assert (M2 := C46_balancedpunctraise (punctraise t sent all) sent R1).
    apply (moved_trans _ _ (punctraise t sent all)).
    - apply (moved_weaken _ (movable all t sent) _ _ R) in M1; auto. intros a k H. unfold movable. destruct all; cbn [andb]; [now rewrite H, orb_true_r|]. apply andb_true_iff in H. now rewrite (proj1 H).
    - apply (moved_weaken _ (movable all t sent) _ _ R1) in M2; auto. intros a k H. unfold movable. now rewrite H. }
  unfold move. set (u := balancedpunctraise (punctraise t sent all) sent) in *. destruct M as (RU & PM & SK). assert (TP := C27_same_tree _ u). assert (RU' := RU). destruct RU' as (l & ts & Eu & P & N). rewrite Eu in TP.
  assert (Q : qs ts) by (intros c C; now apply ptree_qtree, P). assert (QN : qtree (Node l ts)) by now apply q_node.
  assert (PC : Permutation (preterminals t) (preterminals (canonicalize u))). { rewrite PM, Eu. now apply tperm_pret. }
  assert (AL : every_node alone u). { rewrite Eu. cbn [every_node]. rewrite fold_and. split; [intros a H; exfalso; apply (noleaf (L := pystr) a); auto|]. apply Forall_forall. intros c C. now apply ptree_alone, P. }
  split; [|split; [exact PC|split; [rewrite <- SK, Eu; now apply tperm_skeleton|now apply C27_ordered]]].
  rewrite Eu in PC |- *. set (d := canonicalize (Node l ts)) in *. clearbody d. inversion TP as [|? ? us vs F PV]. subst d. apply (rooted_perm t); auto.
  assert (PT : forall c d : ptr, ptree c -> tperm c d -> ptree d).
  { clear. induction c as [a|l ts IH] using tree_ind'; intros d PC T; [inversion PC|]. rewrite Forall_forall in IH. inversion T as [|? ? us vs F PV]; subst. inversion PC as [? a|? ? NE PX]; subst.
    - inversion F as [|? y ? ? Hy F']; subst. inversion Hy; subst. inversion F'; subst. apply Permutation_length_1_inv in PV. subst vs. constructor.
    - constructor; [intros ->; apply Permutation_sym, Permutation_nil in PV; subst us; inversion F; subst; contradiction|]. intros c C. apply (Permutation_in _ (Permutation_sym PV)) in C. clear - F IH PX C. induction F as [|x y ts us Hxy F IHF]; [destruct C|]. destruct C as [<-|C]; [apply (IH x); auto; [now left|apply PX; now left]|]. apply IHF; auto; intros; [apply (IH x0); auto; now right|apply PX; now right]. }
  intros c C. apply (Permutation_in _ (Permutation_sym PV)) in C. clear - F PT P C. induction F as [|x y ts us Hxy F IHF]; [destruct C|]. destruct C as [<-|C]; [apply (PT x); auto; apply P; now left|]. apply IHF; auto. intros; apply P; now right.
Qed.

(** punctremove: no punctuation is left, everything else is *)
Theorem C46_punctremove : forall l ts sent t' sent', let t := Node l ts in rooted t -> (forall a, In a (leaves t) -> a < length sent) -> applypunct Remove t sent = Some (t', sent') ->
  rooted t' /\ Permutation (leaves t') (seq 0 (length sent')) /\
  (forall tag i, In (tag, i) (preterminals t') -> punctuation sent' i tag = false) /\
  exists f, (forall a b, In a (leaves t) -> In b (leaves t) -> a <= b -> f a <= f b) /\
    preterminals t' = map (fun p => (fst p, f (snd p))) (filter (fun p => negb (punctuation sent (snd p) (fst p))) (preterminals t)) /\
    forall tag a, In (tag, a) (preterminals t) -> punctuation sent a tag = false -> nth (f a) sent' None = nth a sent None.
Proof.
  intros l ts sent t' sent' t R B E. destruct (rooted_node l ts R) as [P N]. assert (E' : punctremove t sent false = (t', sent')) by (unfold applypunct in E; congruence). clear E. rename E' into E. unfold punctremove in E. destruct (C26_removeterminals _ _ ispunct None sent l ts t' sent' P N B E) as (H1 & H2 & H3 & _ & H5 & H6 & H7). fold t in H3, H5, H6.
  set (ks := kept ispunct None sent t) in *. destruct t' as [a|l' ts']; [discriminate|]. cbn in H1, H2.
  assert (W : forall tag a, In (tag, a) (preterminals t) -> punctuation sent a tag = false -> nth (rank ks a) sent' None = nth a sent None).
  { intros tag a H S. assert (K : In a ks). { unfold ks, kept. apply in_map_iff. exists (tag, a). split; auto. apply filter_In. split; auto. cbn [fst snd]. change (ispunct (nth a sent None) tag) with (punctuation sent a tag). now rewrite S. } specialize (H5 a K). assert (LT := B a ltac:(eapply pret_in_leaves; eauto)). destruct (nth_error sent a) as [w|] eqn:Ew; [|apply nth_error_None in Ew; lia]. exact (eq_trans (nth_error_nth _ _ None H5) (eq_sym (nth_error_nth _ _ None Ew))). }
  split; [exists l', ts'; split; auto; split; auto; eapply Permutation_NoDup; [symmetry; exact H7|apply seq_NoDup]|]. split; auto. split.
  - intros tag i H. rewrite H3 in H. apply in_map_iff in H. destruct H as ([tag' a] & Ea & Ha). cbn [fst snd] in Ea. injection Ea as -> <-. apply filter_In in Ha. destruct Ha as [Ha1 Ha2]. cbn [fst snd] in Ha2. apply negb_true_iff in Ha2. assert (X := W tag a Ha1 Ha2). unfold punctuation, word in *. rewrite X. exact Ha2.
  - exists (rank ks). split; [|split; [exact H3|exact W]]. intros a b _ _ L. unfold rank. clear - L. induction ks as [|k ks IH]; auto. cbn [filter]. destruct (Nat.ltb_spec k a), (Nat.ltb_spec k b); cbn [length]; lia.
Qed.

(** punctremove with rootpreterms: the root keeps its other children *)
Lemma rootpre_in : forall l ts i m, rootpre (Node l ts) i m = true -> exists r, In (Node m (Leaf i :: r)) ts.
Proof.
  intros l ts i m H. unfold rootpre in H. apply existsb_exists in H. destruct H as (c & C1 & C2). cbn in C1. destruct c as [a|k [|[a|] r]]; try discriminate. apply andb_true_iff in C2. destruct C2 as [C2 C3]. apply eqs_eq in C2. apply Nat.eqb_eq in C3. subst. eauto.
Qed.
Lemma rootpre_pre : forall l ts i m, In (Node m [Leaf i]) ts -> rootpre (Node l ts) i m = true.
Proof. intros l ts i m H. unfold rootpre. apply existsb_exists. exists (Node m [Leaf i]). split; auto. rewrite (proj2 (eqs_eq m m)) by auto. now rewrite Nat.eqb_refl. Qed.
Theorem C46_removeall : forall l ts sent, let t := Node l ts in rooted t ->
  let phrases := filter phrasal ts in
  exists ks, StronglySorted (fun a b => Nat.leb a b = true) ks /\ Permutation (flat_map leaves phrases) ks /\
  applypunct RemoveAll t sent = Some (Node l (map (renumber (rank ks)) phrases), map (fun a => nth a sent None) ks).
Proof.
  intros l ts sent t R phrases. destruct (rooted_node l ts R) as [P N]. exists (sort Nat.leb (flat_map leaves phrases)). split; [apply sort_sorted; [apply leb_total|apply leb_trans]|]. split; [apply sort_perm|].
  assert (PH : forall c, ptree c -> phrasal c = true -> exists m us, c = Node m us /\ us <> [] /\ forall d, In d us -> ptree d). { intros c PC E. inversion PC as [k a|k us NE PU]; subst; [discriminate|]. eauto. }
  assert (NR : forall c, In c ts -> phrasal c = true -> forall m a, In (m, a) (preterminals c) -> rootpre t a m = false).
  { intros c C E m a H. destruct (rootpre t a m) eqn:Q; auto. exfalso. apply rootpre_in in Q. destruct Q as (r & Q). apply in_split in C. destruct C as (A & B & ->). destruct (nodup_mid A B c a N (pret_in_leaves _ _ _ H)) as [N1 _]. apply in_app_or in Q. destruct Q as [Q|[Q|Q]]; [apply (N1 (Node m (Leaf a :: r))); [apply in_or_app; now left|cbn; now left]| |apply (N1 (Node m (Leaf a :: r))); [apply in_or_app; now right|cbn; now left]]. subst c. discriminate. }
  assert (PI : forall c, In c ts -> phrasal c = true -> prune (rootpre t) c = c). { intros c C E. destruct (PH c (P c C) E) as (m & us & -> & NE & PU). apply prune_id; auto. intros m' a H. eapply NR; eauto. }
  assert (KI : forall c, In c ts -> phrasal c = true -> keptindices (rootpre t) c = leaves c).
  { intros c C E. assert (NRc := NR c C E). destruct (PH c (P c C) E) as (m & us & -> & NE & PU). clear - PU NRc. set (Q := rootpre t) in *. clearbody Q. remember (Node m us) as c eqn:Ec. revert m us Ec PU NRc. induction c as [a|l0 ts0 IH] using tree_ind'; intros m us Ec PU NRc; [discriminate|]. injection Ec as <- <-. rewrite Forall_forall in IH. cbn [keptindices leaves]. apply flat_map_ext_in. intros c C. rewrite pret_node in NRc by (intros; now apply ptree_qtree, PU). assert (PC := PU c C). inversion PC as [k a|k vs NE PV]; subst.
    - rewrite (NRc k a); [reflexivity|]. apply in_flat_map. exists (Node k [Leaf a]). split; auto. now left.
    - destruct vs as [|[a|k' vs'] r] eqn:Ev; [contradiction|exfalso; apply (noleaf (L := pystr) a); apply PV; now left|]. rewrite <- Ev in *. apply (IH (Node k vs) C k vs eq_refl PV). intros m a H. apply NRc. apply in_flat_map. eauto. }
  assert (PR : prune (rootpre t) t = Node l phrases).
  { unfold t at 2. cbn [prune]. f_equal. unfold phrases. assert (IN : forall c, In c ts -> In c ts) by auto. revert IN. generalize ts at 1 3 4 as cs. induction cs as [|c cs IH]; intros IN; auto. cbn [flat_map filter]. rewrite IH by (intros; apply IN; now right). assert (C := IN c (or_introl eq_refl)). assert (PC := P c C). destruct (phrasal c) eqn:E.
    - assert (X := PI c C E). destruct c as [a|k [|[a|k' vs'] r]]; try discriminate. rewrite X. reflexivity.
    - inversion PC as [k a|k us NE PU]; subst; [unfold t; rewrite (rootpre_pre l ts a k C); reflexivity|]. destruct us as [|[a|] r]; [contradiction| |discriminate]. exfalso. apply (noleaf (L := pystr) a). apply PU. now left. }
  assert (KS : keptindices (rootpre t) t = flat_map leaves phrases).
  { unfold t at 2. cbn [keptindices]. unfold phrases. assert (IN : forall c, In c ts -> In c ts) by auto. revert IN. generalize ts at 1 3 4 as cs. induction cs as [|c cs IH]; intros IN; auto. cbn [flat_map filter]. rewrite IH by (intros; apply IN; now right). assert (C := IN c (or_introl eq_refl)). assert (PC := P c C). destruct (phrasal c) eqn:E.
    - assert (X := KI c C E). destruct c as [a|k [|[a|k' vs'] r]]; try discriminate. rewrite X. reflexivity.
    - inversion PC as [k a|k us NE PU]; subst; [unfold t; rewrite (rootpre_pre l ts a k C); reflexivity|]. destruct us as [|[a|] r]; [contradiction| |discriminate]. exfalso. apply (noleaf (L := pystr) a). apply PU. now left. }
  cbn [applypunct]. f_equal. unfold punctremove. rewrite PR, KS. cbv zeta. f_equal. assert (NK : NoDup (flat_map leaves phrases)) by now apply nodup_filter_leaves.
  assert (EXT : forall c f g, (forall a, In a (leaves c) -> f a = g a) -> renumber f c = renumber g (c : ptr)).
  { clear. induction c as [a|l ts IH] using tree_ind'; intros f g H; [reflexivity|]. rewrite Forall_forall in IH. destruct ts as [|[a|k us] r]; [reflexivity|cbn; rewrite H; [reflexivity|cbn; now left]|]. cbn [renumber]. f_equal. apply map_ext_in. intros c C. apply IH; auto. intros b Hb. apply H. cbn [leaves]. apply in_flat_map. eauto. }
  rewrite renumber_node by (intros c C; apply filter_In in C; destruct C as [_ C]; destruct c; [discriminate|eauto]). f_equal. apply map_ext_in. intros c C. apply EXT. intros a Ha. rewrite index_rank; auto; [apply rank_perm, sort_perm|apply in_flat_map; eauto].
Qed.

(** punctprune: quotes and periods at both ends are removed, no more *)
Definition quote_or_period (w : word) : Prop := exists s, w = Some s /\ In s PRUNEPUNCT.
Lemma memw_prune : forall w, memw w PRUNEPUNCT = true <-> quote_or_period w.
Proof.
  intros [s|]; unfold quote_or_period, memw; [|split; [discriminate|intros (s & E & _); discriminate]]. unfold mem. rewrite existsb_exists. split.
  - intros (x & Hx & E). apply eqs_eq in E. subst. eauto.
  - intros (x & E & Hx). injection E as <-. exists s. split; auto. now apply eqs_eq.
Qed.
Lemma prunefront_spec : forall sent, exists pre mid, sent = pre ++ mid /\ Forall quote_or_period pre /\ (forall w r, mid = w :: r -> ~ quote_or_period w) /\ prunefront sent = repeat None (length pre) ++ mid.
Proof.
  induction sent as [|w r IH]; [exists [], []; repeat split; auto; discriminate|]. cbn [prunefront]. destruct (memw w PRUNEPUNCT) eqn:E.
  - destruct IH as (pre & mid & -> & F & H & ->). exists (w :: pre), mid. repeat split; auto. constructor; auto. now apply memw_prune.
  - exists [], (w :: r). repeat split; auto. intros w' r' Q. injection Q as <- <-. rewrite <- memw_prune. now rewrite E.
Qed.
Lemma setnone_mid : forall A w N, setnone (A ++ w :: N) (length A) = A ++ None :: N.
Proof. induction A as [|a A IH]; intros w N; auto. cbn. now rewrite IH. Qed.
Lemma pruneback_spec : forall post A N, Forall quote_or_period post -> A <> [] -> (forall A' w, A = A' ++ [w] -> ~ quote_or_period w) -> pruneback (A ++ post ++ N) (length A + length post) = Some (A ++ repeat None (length post) ++ N).
Proof.
  induction post as [|w post IH] using rev_ind; intros A N F NE H.
  - cbn [length repeat app]. rewrite Nat.add_0_r. destruct (exists_last NE) as (A' & w & ->). rewrite app_length. cbn [length]. rewrite Nat.add_1_r. cbn [pruneback]. assert (E : memw (wordof ((A' ++ [w]) ++ N) (length A')) PRUNEPUNCT = false). { rewrite <- app_assoc. unfold wordof. rewrite app_nth2 by lia. rewrite Nat.sub_diag. cbn. destruct (memw w PRUNEPUNCT) eqn:Q; auto. apply memw_prune in Q. destruct (H A' w eq_refl Q). } now rewrite E.
  - apply Forall_app in F. destruct F as [F1 F2]. inversion F2 as [|? ? QW _]; subst. rewrite !app_length. cbn [length]. replace (length A + (length post + 1)) with (S (length A + length post)) by lia. cbn [pruneback].
    assert (E : wordof (A ++ (post ++ [w]) ++ N) (length A + length post) = w). { unfold wordof. rewrite app_nth2 by lia. replace (length A + length post - length A) with (length post) by lia. rewrite <- app_assoc. rewrite app_nth2 by lia. rewrite Nat.sub_diag. reflexivity. }
    rewrite E, (proj2 (memw_prune w) QW). replace (A ++ (post ++ [w]) ++ N) with ((A ++ post) ++ w :: N) by (rewrite <- !app_assoc; reflexivity). replace (length A + length post) with (length (A ++ post)) at 1 by (rewrite app_length; reflexivity). rewrite setnone_mid. rewrite <- app_assoc. rewrite IH by auto. f_equal. f_equal. rewrite Nat.add_1_r. replace (S (length post)) with (length post + 1) by lia. rewrite repeat_app, <- app_assoc. reflexivity.
Qed.
Lemma split_back : forall mid : list word, (forall w r, mid = w :: r -> ~ quote_or_period w) -> exists m post, mid = m ++ post /\ Forall quote_or_period post /\ (forall A w, m = A ++ [w] -> ~ quote_or_period w) /\ (mid <> [] -> m <> []).
Proof.
  induction mid as [|w mid IH] using rev_ind; intros H; [exists [], []; repeat split; auto; intros [|] ? ?; discriminate|]. destruct (memw w PRUNEPUNCT) eqn:E.
  - destruct mid as [|v mid']; [exfalso; apply (H w []); auto; now apply memw_prune|]. destruct IH as (m & post & E1 & F & G & NE); [intros x r Q; injection Q as <- <-; apply (H v (mid' ++ [w])); reflexivity|]. exists m, (post ++ [w]). split; [rewrite E1, app_assoc; reflexivity|]. split; [apply Forall_app; split; auto; constructor; auto; now apply memw_prune|]. split; auto. intros _. apply NE. discriminate.
  - exists (mid ++ [w]), []. split; [now rewrite app_nil_r|]. split; auto. split; [|auto]. intros A x Q. apply app_inj_tail in Q. destruct Q as [_ <-]. rewrite <- memw_prune. now rewrite E.
Qed.
Theorem C46_punctprune : forall l ts sent, let t := Node l ts in rooted t -> Permutation (leaves t) (seq 0 (length sent)) -> (forall w, In w sent -> w <> None) -> sent <> [] ->
  exists first kept last t', sent = first ++ kept ++ last /\
    Forall quote_or_period first /\ Forall quote_or_period last /\
    (forall w r, kept = w :: r -> ~ quote_or_period w) /\ (forall r w, kept = r ++ [w] -> ~ quote_or_period w) /\
    punctprune t sent = Some (t', kept) /\ rooted t' /\ rootlabel t' = Some l /\ Permutation (leaves t') (seq 0 (length kept)) /\
    preterminals t' = map (fun p => (fst p, snd p - length first)) (filter (fun p => (length first <=? snd p) && (snd p <? length first + length kept)) (preterminals t)).
Proof.
  intros l ts sent t R PL NN NE. destruct (rooted_node l ts R) as [P N]. destruct (prunefront_spec sent) as (first & mid & Es & F1 & H1 & E1). destruct (split_back mid H1) as (kp & last & Em & F2 & H2 & NEm).
  set (sent2 := repeat None (length first) ++ kp ++ repeat None (length last)).
  assert (PB : pruneback (prunefront sent) (length (prunefront sent)) = Some sent2).
  { rewrite E1, Em. rewrite app_assoc. assert (Z := pruneback_spec last (repeat None (length first) ++ kp) [] F2). rewrite !app_nil_r in Z. rewrite <- app_length in Z. etransitivity; [apply Z|unfold sent2; now rewrite app_assoc].
    - intros Q. apply app_eq_nil in Q. destruct Q as [Q1 Q2]. destruct first as [|]; [|discriminate]. apply NE. rewrite Es. cbn. destruct mid; auto. exfalso. apply NEm; auto. discriminate.
    - intros A w Q. destruct kp as [|k0 kp0] eqn:EK.
      + rewrite app_nil_r in Q. assert (IN : In w (repeat (@None pystr) (length first))) by (rewrite Q; apply in_or_app; right; now left). apply repeat_spec in IN. subst w. intros (s & E & _). discriminate.
      + destruct (exists_last (l := k0 :: kp0) ltac:(discriminate)) as (B & v & EB). rewrite EB, app_assoc in Q. apply app_inj_tail in Q. destruct Q as [_ <-]. apply (H2 B v). exact EB. }
  assert (L2 : length sent2 = length sent). { unfold sent2. rewrite Es, Em, !app_length, !repeat_length. lia. }
  unfold punctprune. rewrite PB. set (func := fun (w : word) (_ : pystr) => match w with None => true | Some _ => false end).
  destruct (removeterminals func None t sent2) as [t' sent'] eqn:ER.
  assert (BD : forall a, In a (leaves t) -> a < length sent2). { intros a H. apply (Permutation_in _ PL) in H. apply in_seq in H. lia. }
  destruct (C26_removeterminals _ _ func None sent2 l ts t' sent' P N BD ER) as (G1 & G2 & G3 & _ & G5 & G6 & G7). fold t in G3, G5, G6. set (ks := kept func None sent2 t) in *.
  assert (FU : forall a m, a < length sent -> negb (func (nth a sent2 None) m) = (length first <=? a) && (a <? length first + length kp)).
  { intros a m LT. unfold sent2. destruct (Nat.leb_spec (length first) a) as [X|X].
    - cbn [andb]. rewrite app_nth2 by (rewrite repeat_length; lia). rewrite repeat_length. destruct (Nat.ltb_spec a (length first + length kp)) as [Y|Y].
      + rewrite app_nth1 by lia. assert (IN : In (nth (a - length first) kp None) sent). { rewrite Es, Em. apply in_or_app. right. apply in_or_app. left. apply nth_In. lia. } apply NN in IN. destruct (nth (a - length first) kp None); [reflexivity|contradiction].
      + rewrite app_nth2 by lia. rewrite nth_repeat. reflexivity.
    - rewrite app_nth1 by (rewrite repeat_length; lia). rewrite nth_repeat. reflexivity. }
  assert (LT : forall m a, In (m, a) (preterminals t) -> a < length sent) by (intros m a H; rewrite <- L2; apply BD; eapply pret_in_leaves; eauto).
  assert (KS : Permutation ks (seq (length first) (length kp))).
  { apply NoDup_Permutation; [apply NoDup_filter_map; rewrite preterminals_leaves by (unfold t; eauto); exact N|apply seq_NoDup|]. intros a. rewrite in_seq. unfold ks, kept. rewrite in_map_iff. split.
    - intros ([m b] & Eb & H). cbn in Eb. subst b. apply filter_In in H. destruct H as [Ha Hb]. cbn in Hb. rewrite FU in Hb by (eapply LT; eauto). apply andb_true_iff in Hb. destruct Hb as [B1 B2]. apply Nat.leb_le in B1. apply Nat.ltb_lt in B2. lia.
    - intros H. assert (A : In a (leaves t)). { apply (Permutation_in _ (Permutation_sym PL)). apply in_seq. rewrite Es, Em, !app_length. lia. } rewrite <- preterminals_leaves in A by (unfold t; eauto). apply in_map_iff in A. destruct A as ([m b] & Eb & A). cbn in Eb. subst b. exists (m, a). split; auto. apply filter_In. split; auto. cbn. rewrite FU by (eapply LT; eauto). apply andb_true_iff. rewrite Nat.leb_le, Nat.ltb_lt. lia. }
  assert (RK : forall a, length first <= a -> a < length first + length kp -> rank ks a = a - length first).
  { intros a A B. rewrite (rank_perm _ _ a KS). unfold rank. clear - A B. revert A B. generalize (length first) as f. induction (length kp) as [|n IH]; intros f A B; [lia|]. cbn [seq filter]. destruct (Nat.ltb_spec f a) as [X|X].
    - cbn [length]. rewrite IH by lia. lia.
    - replace a with f by lia. rewrite Nat.sub_diag. assert (E : forall k g, f <= g -> filter (fun b => b <? f) (seq g k) = []). { induction k as [|k IHk]; intros g H; auto. cbn [seq filter]. destruct (Nat.ltb_spec g f); [lia|]. apply IHk. lia. } rewrite E by lia. reflexivity. }
  assert (LK : length sent' = length kp) by (rewrite G6, (Permutation_length KS), seq_length; reflexivity).
  assert (SK : sent' = kp).
  { apply nth_error_ext. intros i. destruct (Nat.lt_ge_cases i (length kp)) as [Hi|Hi]; [|rewrite (proj2 (nth_error_None sent' i)), (proj2 (nth_error_None kp i)) by lia; reflexivity]. assert (K : In (length first + i) ks) by (apply (Permutation_in _ (Permutation_sym KS)), in_seq; lia). specialize (G5 _ K). rewrite RK in G5 by lia. replace (length first + i - length first) with i in G5 by lia. rewrite G5. unfold sent2. rewrite nth_error_app2 by (rewrite repeat_length; lia). rewrite repeat_length. replace (length first + i - length first) with i by lia. now rewrite nth_error_app1 by lia. }
  exists first, kp, last, t'. split; [now rewrite Es, Em|]. split; auto. split; auto. split; [intros w r Q; apply (H1 w (r ++ last)); rewrite Em, Q; reflexivity|]. split; [intros r w Q; now apply (H2 r w)|]. split; [rewrite SK in ER; exact (f_equal Some ER)|].
  rewrite LK in G7. destruct t' as [|l' ts']; [discriminate|]. cbn in G2. split; [exists l', ts'; split; auto; split; auto; eapply Permutation_NoDup; [symmetry; exact G7|apply seq_NoDup]|]. split; auto. split; auto.
  rewrite G3. clear - FU LT RK. unfold word in *. assert (LT' : forall m a, In (m, a) (preterminals t) -> a < length sent) by exact LT. clear LT. induction (preterminals t) as [|[m a] r IH]; auto. cbn [filter snd fst]. rewrite FU by (eapply LT'; now left). assert (IH' := IH ltac:(intros; eapply LT'; right; eauto)). destruct ((length first <=? a) && (a <? length first + length kp)) eqn:E; auto. cbn [map fst snd]. rewrite IH'. apply andb_true_iff in E. destruct E as [E1 E2]. apply Nat.leb_le in E1. apply Nat.ltb_lt in E2. rewrite RK by lia. reflexivity.
Qed.
(** applypunct with 'prune': as punctprune, and then as 'move' *)
Corollary C46_prune : forall l ts sent, let t := Node l ts in rooted t -> Permutation (leaves t) (seq 0 (length sent)) -> (forall w, In w sent -> w <> None) -> sent <> [] ->
  exists first kept last t' t'', sent = first ++ kept ++ last /\
    Forall quote_or_period first /\ Forall quote_or_period last /\
    (forall w r, kept = w :: r -> ~ quote_or_period w) /\ (forall r w, kept = r ++ [w] -> ~ quote_or_period w) /\
    punctprune t sent = Some (t', kept) /\ applypunct Prune t sent = Some (t'', kept) /\ rooted t'' /\
    Permutation (map (fun p => (fst p, snd p - length first)) (filter (fun p => (length first <=? snd p) && (snd p <? length first + length kept)) (preterminals t))) (preterminals t'') /\
    tperm (skeleton (punctuation kept) t') (skeleton (punctuation kept) t'') /\ every_node ordered t''.
Proof.
  intros l ts sent t R PL NN NE. destruct (C46_punctprune l ts sent R PL NN NE) as (first & kp & last & t' & A1 & A2 & A3 & A4 & A5 & A6 & A7 & A8 & A9 & A10). exists first, kp, last, t', (move t' kp false).
  destruct (C46_move t' kp false Move (move t' kp false) kp A7 eq_refl eq_refl) as (_ & B1 & B2 & B3 & B4). fold t in A6. repeat (split; [auto; fail|]). split; [cbn [applypunct]; now rewrite A6|]. split; auto. split; [rewrite A10 in B2; exact B2|]. split; [|exact B4].
  assert (EX : forall u, rooted u -> skeleton (movable false t' kp) u = skeleton (punctuation kp) u). { intros u (k & us & -> & P & _). apply skeleton_ext; auto. intros m a _. unfold movable. now rewrite orb_false_r. }
  rewrite !EX in B3 by auto. exact B3.
Qed.
Corollary C46_root : forall t sent, applypunct Root t sent = Some (punctroot t sent, sent).
Proof. reflexivity. Qed.
(** the empty sentence: IndexError *)
Example C46_punctprune_empty : forall t, punctprune t [] = None.
Proof. reflexivity. Qed.

(** ---- where punctraise puts a mark ---- *)
(** the first word of the constituent c is a *)
Definition begins (c : ptr) (a : nat) : Prop := In a (leaves c) /\ forall b, In b (leaves c) -> a <= b.
Lemma minleaf_begins : forall c a, 0 < a -> a = minleaf c -> begins c a.
Proof.
  intros c a P ->. unfold minleaf, begins in *. destruct (leaves c) as [|x r]; [cbn in P; lia|]. cbn [hd] in *. clear P.
  assert (A : forall r, (fold_right Nat.min x r = x \/ In (fold_right Nat.min x r) r) /\ forall b, b = x \/ In b r -> fold_right Nat.min x r <= b).
  { clear. induction r as [|y r [I1 I2]]; cbn [fold_right]; [split; auto; intros b [->|[]]; auto|]. split.
    - destruct (Nat.min_dec y (fold_right Nat.min x r)) as [E|E]; rewrite E; [right; now left|]. destruct I1 as [I1|I1]; auto. right. now right.
    - intros b [H|[H|H]]; [specialize (I2 b (or_introl H)); lia|lia|specialize (I2 b (or_intror H)); lia]. }
  destruct (A (x :: r)) as [A1 A2]. split; [destruct A1 as [A1|A1]; [rewrite A1; now left|exact A1]|]. intros b B. apply A2. now right.
Qed.
Lemma attach_where : forall i node (t t' : ptr), attach i node t = Some t' -> exists n c, In n (TreeProps.pre t') /\ In node (kids n) /\ In c (kids n) /\ begins c (i + 1).
Proof.
  intros i node. induction t as [a|l ts IH] using tree_ind'; intros t' E; [discriminate|]. rewrite attach_node in E. destruct (phrasal (Node l ts) && existsb (startsat (i + 1)) ts) eqn:C.
  - injection E as <-. apply andb_true_iff in C. destruct C as [_ C]. apply existsb_exists in C. destruct C as (c & C1 & C2). exists (Node l (ts ++ [node])), c. split; [now left|]. cbn [kids]. split; [apply in_or_app; right; now left|]. split; [apply in_or_app; now left|]. apply minleaf_begins; [lia|]. now apply Nat.eqb_eq.
  - destruct (attachs i node ts) as [ts'|] eqn:A; [|discriminate]. injection E as <-. apply attachs_split in A. destruct A as (X & c & c' & B & -> & -> & A). rewrite Forall_forall in IH. destruct (IH c ltac:(apply in_or_app; right; now left) c' A) as (n & d & N & R). exists n, d. split; auto. cbn [TreeProps.pre]. right. apply in_flat_map. exists c'. split; auto. apply in_or_app. right. now left.
Qed.
Lemma attachs_none : forall i node ts c, attachs i node ts = None -> In c ts -> attach i node c = None.
Proof.
  intros i node. induction ts as [|d ts IH]; intros c E H; [destruct H|]. cbn [attachs] in E. destruct (attach i node d) eqn:D; [discriminate|]. destruct (attachs i node ts) eqn:A; [discriminate|]. destruct H as [<-|H]; auto.
Qed.
Lemma attach_some : forall i node (t : ptr) l ts, t = Node l ts -> (forall c, In c ts -> ptree c) -> In (i + 1) (leaves t) -> attach i node t <> None.
Proof.
  intros i node. induction t as [a|l ts IH] using tree_ind'; intros l' ts' E P H N; [discriminate|]. injection E as <- <-. rewrite attach_node in N. destruct (phrasal (Node l ts) && existsb (startsat (i + 1)) ts) eqn:C; [discriminate|]. destruct (attachs i node ts) as [ts'|] eqn:A; [discriminate|]. clear N.
  cbn [leaves] in H. apply in_flat_map in H. destruct H as (c & C1 & C2). assert (PC := P c C1). inversion PC as [k a|k us NE PU]; subst.
  - cbn in C2. destruct C2 as [->|[]]. assert (PH : phrasal (Node l ts) = true). { destruct ts as [|[b|] r]; [destruct C1| |reflexivity]. exfalso. apply (noleaf (L := pystr) b). apply P. now left. } rewrite PH in C. cbn [andb] in C. assert (X : existsb (startsat (i + 1)) ts = true). { apply existsb_exists. exists (Node k [Leaf (i + 1)]). split; auto. unfold startsat, minleaf. cbn. rewrite Nat.min_id. apply Nat.eqb_refl. } congruence.
  - rewrite Forall_forall in IH. apply (IH (Node k us) C1 k us eq_refl PU C2). exact (attachs_none i node ts _ A C1).
Qed.
(** with one mark under the root: the mark of position i ends up as sister of a
    constituent that begins with the next word, if there is one *)
Theorem C46_punctraise_place : forall t sent all m i, rooted t -> In (Node m [Leaf i]) (kids t) -> 2 <= length (kids t) -> (all || ispunct (wordof sent i) m = true) ->
  (forall k j, In (Node k [Leaf j]) (kids t) -> all || ispunct (wordof sent j) k = true -> j = i) ->
  exists n, In n (TreeProps.pre (punctraise t sent all)) /\ In (Node m [Leaf i]) (kids n) /\
  (In (i + 1) (leaves t) -> exists c, In c (kids n) /\ begins c (i + 1)) /\
  (~ In (i + 1) (leaves t) -> n = punctraise t sent all).
Proof.
  intros t sent all m i R IN LEN S ONE. assert (R' := R). destruct R' as (l & ts & -> & P & N). cbn [kids] in *.
  assert (E : raised sent all (Node l ts) = [Node m [Leaf i]]).
  { unfold raised. cbn [kids]. set (f := fun c : ptr => match c with Node k (Leaf j :: _) => all || ispunct (wordof sent j) k | _ => false end).
    assert (FI : forall c, In c ts -> f c = true -> exists k, c = Node k [Leaf i]). { intros c C F. assert (PC := P c C). inversion PC as [k a|k us NE PU]; subst; [exists k; f_equal; f_equal; f_equal; eapply ONE; eauto|]. destruct us as [|[a|] r]; try discriminate. exfalso. apply (noleaf (L := pystr) a). apply PU. now left. }
    assert (FM : f (Node m [Leaf i]) = true) by exact S. apply in_split in IN. destruct IN as (A & B & ->). rewrite filter_app. cbn [filter]. rewrite FM.
    destruct (nodup_mid A B (Node m [Leaf i]) i N ltac:(now left)) as [N1 _].
    assert (Z : forall X, (forall c, In c X -> In c (A ++ B)) -> filter f X = []). { intros X HX. destruct (filter f X) as [|c r] eqn:Q; auto. exfalso. assert (C : In c (filter f X)) by (rewrite Q; now left). apply filter_In in C. destruct C as [C1 C2]. apply HX in C1. assert (C3 : In c (A ++ Node m [Leaf i] :: B)) by (apply in_app_or in C1; apply in_or_app; destruct C1; auto; right; now right). destruct (FI c C3 C2) as (k & ->). apply (N1 _ C1). now left. }
    rewrite (Z A), (Z B); auto; intros; apply in_or_app; auto. }
  unfold punctraise. rewrite E. cbn [rev app fold_left raisestep]. destruct (Nat.eqb_spec (length ts) 1) as [L1|L1]; [lia|]. destruct (drop_split i m ts P N IN) as (A & B & Et & D). rewrite D. cbn [kids].
  assert (PAB : forall c, In c (A ++ B) -> ptree c) by (intros c C; apply P; rewrite Et; apply in_app_or in C; apply in_or_app; destruct C; auto; right; now right).
  assert (LV : In (i + 1) (leaves (Node l ts : ptr)) <-> In (i + 1) (leaves (Node l (A ++ B) : ptr))). { cbn [leaves]. rewrite Et, !flat_map_app. cbn. rewrite !in_app_iff. cbn. split; [intros [H|[H|H]]; auto; lia|tauto]. }
  destruct (attach i (Node m [Leaf i]) (Node l (A ++ B))) as [t2|] eqn:AT.
  - destruct (attach_where _ _ _ _ AT) as (n & c & H1 & H2 & H3 & H4). exists n. split; auto. split; auto. split; [eauto|]. intros Q. exfalso. apply Q, LV. clear - AT. revert t2 AT. generalize (Node l (A ++ B)) as t. induction t as [a|k us IH] using tree_ind'; intros t2 E; [discriminate|]. rewrite attach_node in E. destruct (phrasal (Node k us) && existsb (startsat (i + 1)) us) eqn:C.
    + apply andb_true_iff in C. destruct C as [_ C]. apply existsb_exists in C. destruct C as (c & C1 & C2). apply Nat.eqb_eq in C2. apply minleaf_begins in C2; [|lia]. cbn [leaves]. apply in_flat_map. exists c. split; auto. apply C2.
    + destruct (attachs i (Node m [Leaf i]) us) as [ts'|] eqn:X; [|discriminate]. apply attachs_split in X. destruct X as (X & c & c' & Y & -> & _ & Z). rewrite Forall_forall in IH. assert (Hc : In c (X ++ c :: Y)) by (apply in_or_app; right; now left). cbn [leaves]. apply in_flat_map. exists c. split; auto. eapply IH; eauto.
  - exists (Node l ((A ++ B) ++ [Node m [Leaf i]])). split; [now left|]. cbn [kids]. split; [apply in_or_app; right; now left|]. split; [|auto]. intros H. exfalso. apply LV in H. exact (attach_some i _ _ l (A ++ B) eq_refl PAB H AT).
Qed.

(** ---- examples, and punctlower ---- *)
Definition ex_sent : list word := map (fun w => Some w) [str "``"; str "we"; str "("; str "all"; str ")"; str "like"; str "it"; str "''"; str "."].
Definition pt (l : string) (i : nat) : ptr := Node (str l) [Leaf i].
Definition ex_tree : ptr :=
  Node (str "ROOT") [Node (str "S") [Node (str "NP") [pt "PRP" 1; pt "DT" 3]; Node (str "VP") [pt "VBP" 5; pt "PRP" 6]]; pt "``" 0; pt "-LRB-" 2; pt "-RRB-" 4; pt "''" 7; pt "." 8].
Example ex_rooted : rooted ex_tree.
Proof.
  exists (str "ROOT"), (kids ex_tree). split; [reflexivity|]. split; [|vm_compute; repeat constructor; cbn; intuition discriminate].
  assert (PP : forall l i, ptree (pt l i)) by (intros; constructor). intros c C. cbn in C.
  repeat (destruct C as [<-|C]; [try apply PP|]); [|destruct C].
  constructor; [discriminate|]. intros d D. repeat (destruct D as [<-|D]; [constructor; [discriminate|]; intros e Q; repeat (destruct Q as [<-|Q]; [apply PP|]); destruct Q|]). destruct D.
Qed.
(** the marks are attached inside, brackets to the same constituent *)
Example C46_move_example : applypunct Move ex_tree ex_sent = Some (
  Node (str "ROOT") [pt "``" 0; Node (str "S") [Node (str "NP") [pt "PRP" 1; pt "-LRB-" 2; pt "DT" 3; pt "-RRB-" 4]; Node (str "VP") [pt "VBP" 5; pt "PRP" 6]]; pt "''" 7; pt "." 8], ex_sent).
Proof. vm_compute. reflexivity. Qed.
Example C46_root_example : applypunct Root (Node (str "ROOT") [Node (str "S") [pt "``" 0; Node (str "NP") [pt "PRP" 1; pt "-LRB-" 2; pt "DT" 3; pt "-RRB-" 4]; Node (str "VP") [pt "VBP" 5; pt "PRP" 6]; pt "''" 7]; pt "." 8]) ex_sent =
  Some (Node (str "ROOT") [Node (str "S") [Node (str "NP") [pt "PRP" 1; pt "DT" 3]; Node (str "VP") [pt "VBP" 5; pt "PRP" 6]]; pt "." 8; pt "''" 7; pt "-RRB-" 4; pt "-LRB-" 2; pt "``" 0], ex_sent).
Proof. vm_compute. reflexivity. Qed.
(** a quote in front of the first word; the period is left of nothing *)
Example C46_raise_example : punctraise (Node (str "ROOT") [Node (str "S") [Node (str "NP") [pt "PRP" 1]; Node (str "VP") [pt "VBP" 3]]; pt "," 2; pt "." 4]) (map (fun w => Some w) [str "x"; str "we"; str ","; str "like"; str "."]) false =
  Node (str "ROOT") [Node (str "S") [Node (str "NP") [pt "PRP" 1]; Node (str "VP") [pt "VBP" 3]; pt "," 2]; pt "." 4].
Proof. vm_compute. reflexivity. Qed.
(** a closing bracket joins its opening bracket *)
Example C46_balance_example : balancedpunctraise (Node (str "ROOT") [Node (str "S") [Node (str "NP") [pt "-LRB-" 0; pt "PRP" 1]; Node (str "X") [pt "-RRB-" 2]]]) (map (fun w => Some w) [str "("; str "we"; str ")"]) =
  Node (str "ROOT") [Node (str "S") [Node (str "NP") [pt "-LRB-" 0; pt "PRP" 1; pt "-RRB-" 2]]].
Proof. vm_compute. reflexivity. Qed.
(** an opening bracket joins its closing bracket *)
Example C46_balance_example2 : balancedpunctraise (Node (str "ROOT") [pt "-LRB-" 0; Node (str "S") [Node (str "NP") [pt "PRP" 1; pt "-RRB-" 2]]; pt "X" 3]) (map (fun w => Some w) [str "("; str "we"; str ")"; str "x"]) =
  Node (str "ROOT") [Node (str "S") [Node (str "NP") [pt "-LRB-" 0; pt "PRP" 1; pt "-RRB-" 2]]; pt "X" 3].
Proof. vm_compute. reflexivity. Qed.
Example C46_prune_example : punctprune ex_tree ex_sent = Some (Node (str "ROOT") [Node (str "S") [Node (str "NP") [pt "PRP" 0; pt "DT" 2]; Node (str "VP") [pt "VBP" 4; pt "PRP" 5]]; pt "-LRB-" 1; pt "-RRB-" 3], map (fun w => Some w) [str "we"; str "("; str "all"; str ")"; str "like"; str "it"]).
Proof. vm_compute. reflexivity. Qed.

(** punctlower does not keep the words: a final period is lost *)
Theorem C46_punctlower_refuted : ~ (forall t sent t', rooted t -> punctlower t sent = Some t' -> Permutation (preterminals t) (preterminals t')).
Proof.
  intros H. set (t := Node (str "ROOT") [Node (str "S") [Node (str "NP") [pt "PRP" 0]; Node (str "VP") [pt "VBP" 1]]; pt "." 2]).
  assert (R : rooted t). { exists (str "ROOT"), (kids t). split; [reflexivity|]. assert (PP : forall l i, ptree (pt l i)) by (intros; constructor). split; [|vm_compute; repeat constructor; cbn; intuition discriminate]. intros c [<-|[<-|[]]]; [|apply PP]. constructor; [discriminate|]. intros d [<-|[<-|[]]]; (constructor; [discriminate|]; intros e [<-|[]]; apply PP). }
  specialize (H t (map (fun w => Some w) [str "we"; str "run"; str "."]) (Node (str "ROOT") [Node (str "S") [Node (str "NP") [pt "PRP" 0]; Node (str "VP") [pt "VBP" 1]]]) R ltac:(vm_compute; reflexivity)). apply Permutation_length in H. vm_compute in H. discriminate.
Qed.

Print Assumptions C46_punctroot.
Print Assumptions C46_punctraise.
Print Assumptions C46_punctraise_place.
Print Assumptions C46_balancedpunctraise.
Print Assumptions C46_move.
Print Assumptions C46_punctremove.
Print Assumptions C46_removeall.
Print Assumptions C46_punctprune.
Print Assumptions C46_punctlower_refuted.
