(** Merging interleaved parts: the loop of mergediscnodes over the children of one node. *)
From Coq Require Import String.
From Coq Require Import List Bool Arith NArith ZArith Lia Permutation Sorted.
From Verif Require Import PyStr TreeModel BracketModel BracketProofs BinarizeModel SortProofs TransformModel.
Import ListNotations.
Open Scope list_scope.

(** ---- labels ---- *)
Definition nostar (l : pystr) : Prop := ~ In 42%N l.
Lemma splitlabel_nostar : forall s r, nostar s -> splitlabel s r = None.
Proof.
  induction s as [|c s IH]; intros r H; [reflexivity|]. cbn [splitlabel]. destruct (N.eqb_spec c 42) as [->|N]; [exfalso; apply H; now left|].
  apply IH. intros X. apply H. now right.
Qed.
Lemma SPLIT_none : forall l, nostar l -> SPLITLABELRE l = None.
Proof. intros l H. unfold SPLITLABELRE. apply splitlabel_nostar. intros X. apply in_rev in X. contradiction. Qed.
Lemma splitlabel_skip : forall a s r, nostar a -> splitlabel (a ++ s) r = splitlabel s (rev a ++ r).
Proof.
  induction a as [|c a IH]; intros s r H; [reflexivity|]. cbn [app splitlabel]. destruct (N.eqb_spec c 42) as [->|N]; [exfalso; apply H; now left|].
  rewrite IH by (intros X; apply H; now right). cbn [rev]. now rewrite <- app_assoc.
Qed.
Lemma dec_nostar : forall n, nostar (dec n).
Proof. intros n H. pose proof (dec_digits n) as D. rewrite forallb_forall in D. specialize (D _ H). discriminate. Qed.
Lemma rest_ok_dec : forall n, rest_ok (dec n) = Some (Some (dec n)).
Proof.
  intros n. pose proof (dec_digits n) as D. pose proof (dec_nonempty n) as NE. unfold rest_ok. destruct (dec n) as [|c s] eqn:E; [congruence|]. rewrite <- E in *.
  assert (X : length (dec n) = S (length s)) by now rewrite E. rewrite X. cbn [digits_upto]. rewrite <- X, firstn_all, D, Nat.leb_refl, skipn_all. reflexivity.
Qed.
Definition star (l : pystr) (n : nat) : pystr := l ++ str "*" ++ dec n.
Lemma SPLIT_star : forall l n, SPLITLABELRE (star l n) = Some (l, Some (dec n)).
Proof.
  intros l n. unfold SPLITLABELRE, star. rewrite !rev_app_distr, <- app_assoc. rewrite splitlabel_skip by (intros X; apply in_rev in X; now apply dec_nostar in X).
  rewrite rev_involutive, app_nil_r. change (rev (str "*")) with [42%N]. cbn [app splitlabel]. change (N.eqb 42 42) with true. cbv iota. rewrite rest_ok_dec, rev_involutive. reflexivity.
Qed.
Lemma star_inj : forall l n l' n', star l n = star l' n' -> l = l' /\ n = n'.
Proof.
  intros l n l' n' H. pose proof (SPLIT_star l n) as A. rewrite H, SPLIT_star in A. injection A as A B. split; auto. now apply dec_inj.
Qed.
Lemma star_eqs : forall l n l' n', eqs (star l n) (star l' n') = true <-> l = l' /\ n = n'.
Proof. intros. rewrite eqs_eq. split; [apply star_inj|intros [-> ->]; reflexivity]. Qed.

(** ---- queues ---- *)
Lemma qget_set : forall q l v k, qget (qset q l v) k = if eqs l k then v else qget q k.
Proof. reflexivity. Qed.
Lemma update_nth_map : forall X (f : X -> X) (g g' : nat -> X) N j k, j < N -> (forall i, i < N -> g' (k + i) = if i =? j then f (g (k + i)) else g (k + i)) ->
  update_nth j f (map g (seq k N)) = map g' (seq k N).
Proof.
  intros X f g g' N. induction N as [|N IH]; intros j k H HG; [lia|]. destruct j as [|j]; cbn [seq map update_nth].
  - f_equal; [specialize (HG 0 ltac:(lia)); rewrite Nat.add_0_r in HG; now rewrite HG|]. apply map_ext_in. intros i Hi. apply in_seq in Hi.
    specialize (HG (i - k) ltac:(lia)). replace (k + (i - k)) with i in HG by lia. rewrite HG. replace (i - k =? 0) with false; [reflexivity|symmetry; apply Nat.eqb_neq; lia].
  - f_equal; [specialize (HG 0 ltac:(lia)); rewrite Nat.add_0_r in HG; now rewrite HG|]. apply IH; [lia|]. intros i Hi. specialize (HG (S i) ltac:(lia)).
    replace (S k + i) with (k + S i) by lia. rewrite HG. reflexivity.
Qed.
Lemma filter_ext_seq : forall f g k n, (forall i, k <= i < k + n -> f i = g i) -> filter f (seq k n) = filter g (seq k n).
Proof. intros f g k n H. apply filter_ext_in. intros i Hi. apply in_seq in Hi. now apply H. Qed.
Lemma filter_none_seq : forall f k n, (forall i, k <= i < k + n -> f i = false) -> filter f (seq k n) = [].
Proof. intros f k n H. rewrite (filter_ext_seq f (fun _ => false)) by exact H. clear. revert k. induction n; intros k; cbn; auto. Qed.
Lemma filter_split_seq : forall f n j, j < n -> filter f (seq 0 n) = filter f (seq 0 j) ++ (if f j then [j] else []) ++ filter f (seq (S j) (n - S j)).
Proof.
  intros f n j H. replace n with (j + (1 + (n - S j))) at 1 by lia. rewrite seq_app, filter_app. f_equal. cbn [Nat.add seq filter].
  destruct (f j); reflexivity.
Qed.

(** ---- the children to be merged ---- *)
Inductive desc := Plain (x : btree) | Split (l : pystr) (bs : list (list btree)).
Definition nparts (d : desc) : nat := match d with Plain _ => 1 | Split _ bs => length bs end.
Definition item (d : desc) (n : nat) : btree := match d with Plain x => x | Split l bs => Node (star l n, false) (nth n bs []) end.
Definition built (d : desc) (n : nat) : btree := match d with Plain x => x | Split l bs => Node (l, false) (concat (firstn n bs)) end.
Definition plain_ok (d : desc) : Prop := match d with Plain (Node (l, _) _) => nostar l | _ => True end.
Definition split_as (l : pystr) (d : desc) : bool := match d with Plain _ => false | Split l' _ => eqs l' l end.

Lemma firstn_S_nth : forall X (l : list (list X)) n, n < length l -> concat (firstn (S n) l) = concat (firstn n l) ++ nth n l [].
Proof.
  induction l as [|x l IH]; intros n H; [cbn in H; lia|]. destruct n as [|n]; [cbn; now rewrite app_nil_r|]. cbn [firstn concat nth]. rewrite <- app_assoc. f_equal.
  apply IH. cbn in H. lia.
Qed.

Section Run.
Variable ds : list desc.
Notation N := (length ds).
Notation D := (fun j => nth j ds (Plain (Leaf 0))).
Definition upd (s : nat -> nat) (j : nat) : nat -> nat := fun i => if i =? j then S (s i) else s i.
(** a sequence of parts (child, part number), given how many were seen *)
Inductive run : (nat -> nat) -> list (nat * nat) -> Prop :=
  | run_nil : forall s, run s []
  | run_cons : forall s j n toks, j < N -> s j = n -> n < nparts (D j) ->
      (n = 0 -> forall i, i < N -> 0 < s i <-> i < j) ->
      (forall l i, i < j -> split_as l (D i) = true -> split_as l (D j) = true -> n < s i) ->
      (forall l i, j < i -> i < N -> split_as l (D i) = true -> split_as l (D j) = true -> s i <= n) ->
      run (upd s j) toks -> run s ((j, n) :: toks).
Lemma run_ext : forall s toks, run s toks -> forall s', (forall i, s i = s' i) -> run s' toks.
Proof.
  intros s toks H. induction H; intros s' E; constructor; auto; try (rewrite <- E; auto).
  - intros Hn i Hi. rewrite <- E. auto.
  - intros l i Hi Hd. rewrite <- E. eauto.
  - intros l i Hi Hd. rewrite <- E. eauto.
  - apply IHrun. intros i. unfold upd. now rewrite E.
Qed.
Definition inv (s : nat -> nat) (st : list btree * queues) : Prop :=
  (exists k, k <= N /\ (forall i, i < N -> 0 < s i <-> i < k) /\ fst st = map (fun j => built (D j) (s j)) (seq 0 k)) /\
  (forall l, qget (snd st) (star l 0) = []) /\
  (forall l n, qget (snd st) (star l (S n)) = filter (fun j => split_as l (D j) && (s j =? S n)) (seq 0 N)).
Hypothesis Hplain : forall j, j < N -> plain_ok (D j).
Lemma step_inv : forall s st j n, j < N -> s j = n -> n < nparts (D j) ->
      (n = 0 -> forall i, i < N -> 0 < s i <-> i < j) ->
      (forall l i, i < j -> split_as l (D i) = true -> split_as l (D j) = true -> n < s i) ->
      (forall l i, j < i -> i < N -> split_as l (D i) = true -> split_as l (D j) = true -> s i <= n) ->
      inv s st -> inv (upd s j) (mergestep st (item (D j) n)).
Proof.
  intros s [new q] j n Hj Hs Hn H0 Hlt Hgt ((k & Hk & Hseen & Hnew) & Hq0 & Hq). cbn [fst snd] in *. specialize (Hplain j Hj).
  assert (Kj : n = 0 -> k = j).
  { intros E. specialize (H0 E). destruct (Nat.lt_trichotomy k j) as [L|[L|L]]; auto.
    - assert (0 < s k) by (apply H0; lia). assert (k < k) by (apply Hseen; [lia|auto]). lia.
    - assert (0 < s j) by (apply Hseen; auto). lia. }
  assert (Kn : 0 < n -> j < k) by (intros E; apply Hseen; auto; lia).
  assert (Hup : forall i, i <> j -> upd s j i = s i) by (intros i Hi; unfold upd; destruct (Nat.eqb_spec i j); congruence).
  assert (Hupj : upd s j j = S n) by (unfold upd; rewrite Nat.eqb_refl; lia).
  assert (SEEN' : forall kk, kk = max k (S j) -> kk <= N /\ (forall i, i < N -> 0 < upd s j i <-> i < kk)).
  { intros kk ->. destruct n as [|n].
    - specialize (Kj eq_refl). subst k. split; [lia|]. intros i Hi. destruct (Nat.eq_dec i j) as [->|NE]; [rewrite Hupj; lia|]. rewrite Hup by auto. rewrite Hseen by auto. lia.
    - specialize (Kn ltac:(lia)). split; [lia|]. intros i Hi. destruct (Nat.eq_dec i j) as [->|NE]; [rewrite Hupj; lia|]. rewrite Hup by auto. rewrite Hseen by auto. lia. }
  destruct (D j) as [x|l bs] eqn:ED.
  - (* not split *)
    cbn in Hn. destruct n as [|n]; [|lia]. specialize (Kj eq_refl). subst k.
    assert (ST : mergestep (new, q) x = (new ++ [x], q)).
    { destruct x as [a|[lab h] gc]; [reflexivity|]. cbn in Hplain. cbn [mergestep]. now rewrite SPLIT_none. }
    cbn [item]. rewrite ST. split; [|split]; cbn [fst snd].
    + destruct (SEEN' (S j)) as [A B]; [lia|]. exists (S j). split; [exact A|]. split; [exact B|]. rewrite seq_S, map_app. cbn [map Nat.add]. rewrite ED. f_equal. rewrite Hnew.
      apply map_ext_in. intros i Hi. apply in_seq in Hi. rewrite Hup by lia. reflexivity.
    + exact Hq0.
    + intros l n. rewrite Hq. apply filter_ext_seq. intros i Hi. destruct (Nat.eq_dec i j) as [->|NE]; [rewrite ED; reflexivity|now rewrite Hup].
  - cbn [item nparts] in *. cbn [mergestep]. rewrite SPLIT_star. rewrite undec_dec. fold (star l (n + 1)). rewrite Nat.add_1_r.
    assert (SA : split_as l (D j) = true) by (rewrite ED; cbn; apply eqs_refl).
    assert (HD : forall lx, split_as lx (Split l bs) = true -> lx = l) by (intros lx X; cbn in X; now apply eqs_eq in X).
    assert (NX : filter (fun i => split_as l (D i) && (upd s j i =? S n)) (seq 0 N) = filter (fun i => split_as l (D i) && (s i =? S n)) (seq 0 N) ++ [j]).
    { rewrite (filter_split_seq _ N j Hj). rewrite (filter_split_seq (fun i => split_as l (D i) && (s i =? S n)) N j Hj). rewrite SA, Hupj, Nat.eqb_refl. cbn [andb].
      rewrite Hs. replace (n =? S n) with false by (symmetry; apply Nat.eqb_neq; lia). cbn [app].
      rewrite !(filter_none_seq _ (S j)).
      - rewrite app_nil_r. f_equal. apply filter_ext_seq. intros i Hi. rewrite Hup by lia. reflexivity.
      - intros i Hi. destruct (split_as l (D i)) eqn:Ei; [|reflexivity]. cbn [andb]. apply Nat.eqb_neq. specialize (Hgt l i ltac:(lia) ltac:(lia) Ei ltac:(cbn; apply eqs_refl)). lia.
      - intros i Hi. destruct (split_as l (D i)) eqn:Ei; [|reflexivity]. cbn [andb]. apply Nat.eqb_neq. rewrite Hup by lia. specialize (Hgt l i ltac:(lia) ltac:(lia) Ei ltac:(cbn; apply eqs_refl)). lia. }
    assert (OTHER : forall l' n', ~ (l' = l /\ n' = S n) -> ~ (l' = l /\ n' = n) -> filter (fun i => split_as l' (D i) && (upd s j i =? n')) (seq 0 N) = filter (fun i => split_as l' (D i) && (s i =? n')) (seq 0 N)).
    { intros l' n' A B. apply filter_ext_seq. intros i Hi. destruct (Nat.eq_dec i j) as [->|NE]; [|now rewrite Hup]. rewrite ED. destruct (split_as l' (Split l bs)) eqn:E; [|reflexivity]. cbn [andb].
      apply HD in E. subst l'. rewrite Hupj, Hs. replace (S n =? n') with false by (symmetry; apply Nat.eqb_neq; intros X; apply A; auto).
      symmetry. apply Nat.eqb_neq. intros X. apply B. auto. }
    destruct n as [|n].
    + (* the first part *)
      specialize (Kj eq_refl). subst k. rewrite Hq0.
      assert (LN : length new = j) by (rewrite Hnew, map_length, seq_length; reflexivity).
      rewrite !qget_set, !eqs_refl. cbn [tl hd]. replace (eqs (star l 0) (star l 1)) with false.
      2:{ symmetry. apply eqs_neq. intros X. apply star_inj in X. destruct X. discriminate. }
      rewrite LN, Hq. split; [|split]; cbn [fst snd].
      * destruct (SEEN' (S j)) as [A B]; [lia|]. exists (S j). split; [exact A|]. split; [exact B|].
        set (g := fun i => if i =? j then Node (l, false) [] else built (D i) (s i)).
        replace (new ++ [Node (l, false) []]) with (map g (seq 0 (S j))).
        -- apply update_nth_map; [lia|]. intros i Hi. rewrite !Nat.add_0_l. unfold g. destruct (Nat.eqb_spec i j) as [->|NE].
           ++ rewrite ED, Hupj. cbn [built extend orb app]. f_equal. destruct bs; [cbn in Hn; lia|]. cbn. now rewrite app_nil_r.
           ++ now rewrite Hup.
        -- rewrite seq_S, map_app. cbn [map Nat.add]. unfold g at 2. rewrite Nat.eqb_refl. rewrite Hnew. apply (f_equal (fun z => z ++ [Node (l, false) []])). apply map_ext_in. intros i Hi. apply in_seq in Hi. unfold g.
           replace (i =? j) with false by (symmetry; apply Nat.eqb_neq; lia). reflexivity.
      * intros l'. rewrite !qget_set. replace (eqs (star l 1) (star l' 0)) with false by (symmetry; apply eqs_neq; intros X; apply star_inj in X; destruct X; discriminate).
        destruct (eqs (star l 0) (star l' 0)); [reflexivity|]. apply Hq0.
      * intros l' n'. rewrite !qget_set. destruct (eqs (star l 1) (star l' (S n'))) eqn:E1.
        -- apply star_eqs in E1. destruct E1 as [<- E1]. injection E1 as <-. symmetry. exact NX.
        -- replace (eqs (star l 0) (star l' (S n'))) with false by (symmetry; apply eqs_neq; intros X; apply star_inj in X; destruct X; discriminate). rewrite Hq. symmetry. apply OTHER.
           ++ intros [-> X]. injection X as ->. rewrite eqs_refl in E1. discriminate.
           ++ intros [_ X]. discriminate.
    + (* a later part *)
      specialize (Kn ltac:(lia)).
      assert (QH : qget q (star l (S n)) = j :: filter (fun i => split_as l (D i) && (s i =? S n)) (seq (S j) (N - S j))).
      { rewrite Hq, (filter_split_seq _ N j Hj). rewrite SA, Hs, Nat.eqb_refl. cbn [andb]. rewrite filter_none_seq; [reflexivity|].
        intros i Hi. destruct (split_as l (D i)) eqn:Ei; [|reflexivity]. cbn [andb]. apply Nat.eqb_neq. specialize (Hlt l i ltac:(lia) Ei ltac:(cbn; apply eqs_refl)). lia. }
      rewrite QH. cbn zeta iota beta. rewrite QH. cbn [hd tl]. rewrite !qget_set.
      replace (eqs (star l (S n)) (star l (S (S n)))) with false by (symmetry; apply eqs_neq; intros X; apply star_inj in X; destruct X; lia).
      rewrite Hq. split; [|split]; cbn [fst snd].
      * destruct (SEEN' k) as [A B]; [lia|]. exists k. split; [exact A|]. split; [exact B|]. rewrite Hnew. apply update_nth_map; [lia|]. intros i Hi. rewrite !Nat.add_0_l.
        destruct (Nat.eqb_spec i j) as [->|NE].
        -- rewrite ED, Hupj, Hs. cbn [built extend orb]. f_equal. now apply firstn_S_nth.
        -- now rewrite Hup.
      * intros l'. rewrite !qget_set. replace (eqs (star l (S (S n))) (star l' 0)) with false by (symmetry; apply eqs_neq; intros X; apply star_inj in X; destruct X; discriminate).
        replace (eqs (star l (S n)) (star l' 0)) with false by (symmetry; apply eqs_neq; intros X; apply star_inj in X; destruct X; discriminate). apply Hq0.
      * intros l' n'. rewrite !qget_set. destruct (eqs (star l (S (S n))) (star l' (S n'))) eqn:E1.
        -- apply star_eqs in E1. destruct E1 as [<- E1]. injection E1 as <-. symmetry. exact NX.
        -- destruct (eqs (star l (S n)) (star l' (S n'))) eqn:E2.
           ++ apply star_eqs in E2. destruct E2 as [<- E2]. injection E2 as <-. rewrite (filter_split_seq _ N j Hj). rewrite SA, Hupj.
              replace (S (S n) =? S n) with false by (symmetry; apply Nat.eqb_neq; lia). cbn [andb app]. rewrite (filter_none_seq _ 0 j).
              ** cbn [app]. apply filter_ext_seq. intros i Hi. now rewrite Hup by lia.
              ** intros i Hi. rewrite Hup by lia. destruct (split_as l (D i)) eqn:Ei; [|reflexivity]. cbn [andb]. apply Nat.eqb_neq. specialize (Hlt l i ltac:(lia) Ei ltac:(cbn; apply eqs_refl)). lia.
           ++ rewrite Hq. symmetry. apply OTHER.
              ** intros [-> X]. injection X as ->. rewrite eqs_refl in E1. discriminate.
              ** intros [-> X]. injection X as ->. rewrite eqs_refl in E2. discriminate.
Qed.
Lemma run_inv : forall s toks, run s toks -> forall st, inv s st ->
  exists s', inv s' (fold_left mergestep (map (fun t => item (D (fst t)) (snd t)) toks) st) /\ forall j, s' j = s j + length (filter (fun t => fst t =? j) toks).
Proof.
  intros s toks H. induction H as [s|s j n toks H1 H2 H3 H4 H5 H6 _ IH]; intros st HI; [exists s; split; [exact HI|intros; cbn; lia]|].
  cbn [map fold_left fst snd]. destruct (IH _ (step_inv s st j n H1 H2 H3 H4 H5 H6 HI)) as (s' & A & B). exists s'. split; [exact A|].
  intros i. rewrite B. cbn [filter fst]. unfold upd. rewrite (Nat.eqb_sym j i). destruct (i =? j); cbn [length]; lia.
Qed.
Theorem merge_run : forall toks, run (fun _ => 0) toks -> (forall j, j < N -> length (filter (fun t => fst t =? j) toks) = nparts (D j)) -> (forall j, j < N -> 0 < nparts (D j)) ->
  mergechildren (map (fun t => item (D (fst t)) (snd t)) toks) = map (fun d => built d (nparts d)) ds.
Proof.
  intros toks H HC HP. destruct (run_inv _ _ H ([], [])) as (s' & ((k & K1 & K2 & K3) & _) & B).
  - split; [|split]; cbn [fst snd].
    + exists 0. split; [lia|]. split; [intros; lia|reflexivity].
    + reflexivity.
    + intros l n. cbn. symmetry. apply filter_none_seq. intros i _. now rewrite andb_false_r.
  - unfold mergechildren. rewrite K3. assert (SJ : forall j, j < N -> s' j = nparts (D j)) by (intros j Hj; rewrite B, HC; auto).
    assert (k = N). { destruct (Nat.lt_ge_cases k N) as [L|]; [|lia]. assert (0 < s' k) by (rewrite SJ by auto; apply HP; auto). apply K2 in H0; auto. lia. }
    subst k. transitivity (map (fun j => built (D j) (nparts (D j))) (seq 0 N)).
    + apply map_ext_in. intros j Hj. apply in_seq in Hj. rewrite SJ by lia. reflexivity.
    + rewrite <- (map_map D (fun d => built d (nparts d))). f_equal. clear. induction ds as [|d r IH]; [reflexivity|]. cbn [length seq map nth]. f_equal.
      rewrite <- seq_shift, map_map. exact IH.
Qed.
End Run.

(** ---- the parts in the order of their keys form a run ---- *)
Lemma count_down : forall (p : nat -> bool) m, (forall a b, a < b -> b < m -> p b = true -> p a = true) ->
  let c := length (filter p (seq 0 m)) in c <= m /\ forall n, n < m -> (p n = true <-> n < c).
Proof.
  intros p m. induction m as [|m IH]; intros H; [cbn; split; [lia|intros; lia]|]. cbn zeta in IH. destruct IH as [A B]; [intros a b Hab Hb; apply H; lia|].
  rewrite seq_S, filter_app. cbn [Nat.add filter]. rewrite app_length. destruct (p m) eqn:E; cbn [length].
  - assert (C : length (filter p (seq 0 m)) = m).
    { destruct (Nat.eq_dec (length (filter p (seq 0 m))) m) as [|NE]; auto. exfalso. set (c := length (filter p (seq 0 m))) in *. assert (c < m) by lia.
      assert (p c = true) by (apply (H c m); auto). apply B in H1; [|auto]. lia. }
    rewrite C. split; [lia|]. intros n Hn. split; [lia|]. intros _. destruct (Nat.eq_dec n m) as [->|]; auto. apply B; lia.
  - split; [lia|]. intros n Hn. rewrite Nat.add_0_r. destruct (Nat.eq_dec n m) as [->|]; [|apply B; lia]. split; [congruence|lia].
Qed.
Section Keys.
Variable ds : list desc.
Notation N := (length ds).
Notation D := (fun j => nth j ds (Plain (Leaf 0))).
Variable key : nat -> nat -> nat.
Notation m := (fun j => nparts (D j)).
Definition token (t : nat * nat) : Prop := fst t < N /\ snd t < m (fst t).
Hypothesis Kmono : forall j n n', j < N -> n < n' -> n' < m j -> key j n < key j n'.
Hypothesis Kpos : forall j, j < N -> 0 < m j.
Hypothesis Kfirst : forall i j, i < j -> j < N -> key i 0 < key j 0.
Hypothesis Kfifo : forall l i j n, i < j -> j < N -> split_as l (D i) = true -> split_as l (D j) = true -> n < m j -> n < m i /\ key i n < key j n.
Hypothesis Kinj : forall s t, token s -> token t -> key (fst s) (snd s) = key (fst t) (snd t) -> s = t.
Definition seenx (x : nat) (i : nat) : nat := length (filter (fun n => key i n <? x) (seq 0 (m i))).
Lemma seenx_spec : forall x i, i < N -> seenx x i <= m i /\ forall n, n < m i -> (key i n < x <-> n < seenx x i).
Proof.
  intros x i Hi. destruct (count_down (fun n => key i n <? x) (m i)) as [A B].
  - intros a b Hab Hb H. apply Nat.ltb_lt in H. apply Nat.ltb_lt. specialize (Kmono i a b Hi Hab Hb). lia.
  - split; [exact A|]. intros n Hn. specialize (B n Hn). rewrite Nat.ltb_lt in B. exact B.
Qed.
Lemma seenx_ext : forall x y i, i < N -> (forall n, n < m i -> key i n < x <-> key i n < y) -> seenx x i = seenx y i.
Proof.
  intros x y i Hi H. unfold seenx. f_equal. apply filter_ext_seq. intros n Hn. specialize (H n ltac:(lia)). destruct (Nat.ltb_spec (key i n) x), (Nat.ltb_spec (key i n) y); auto; lia.
Qed.
Lemma run_restrict : forall s toks, run ds s toks -> forall s', (forall i, i < N -> s i = s' i) -> run ds s' toks.
Proof.
  intros s toks H. induction H; intros s' E; constructor; auto; try (rewrite <- E; auto).
  - intros Hn i Hi. rewrite <- E by auto. auto.
  - intros l i Hi Hd. rewrite <- E by lia. eauto.
  - intros l i Hi Hd. rewrite <- E by auto. eauto.
  - apply IHrun. intros i Hi. unfold upd. now rewrite E.
Qed.
Notation klt := (fun s t : nat * nat => key (fst s) (snd s) < key (fst t) (snd t)).
Lemma keys_run : forall post x, StronglySorted klt post -> (forall t, In t post <-> token t /\ x <= key (fst t) (snd t)) -> run ds (seenx x) post.
Proof.
  induction post as [|[j n] post IH]; intros x SS HI; [constructor|]. inversion SS as [|? ? S1 S2]; subst. rewrite Forall_forall in S2.
  destruct (proj1 (HI (j, n)) ltac:(now left)) as [[Hj Hn] Hx]. cbn [fst snd] in *. set (x1 := key j n) in *.
  assert (NB : forall t, token t -> key (fst t) (snd t) < x1 -> key (fst t) (snd t) < x).
  { intros t Ht Hlt. destruct (Nat.lt_ge_cases (key (fst t) (snd t)) x) as [|G]; auto. exfalso. assert (I : In t ((j, n) :: post)) by (apply HI; auto).
    destruct I as [<-|I]; [cbn in Hlt; lia|]. specialize (S2 t I). cbn in S2. lia. }
  assert (EX : forall i, i < N -> seenx x i = seenx x1 i).
  { intros i Hi. apply seenx_ext; auto. intros k Hk. split; [lia|]. intros H. apply (NB (i, k)); [split; auto|exact H]. }
  apply (run_restrict (seenx x1)); [|intros; symmetry; auto].
  assert (SJ : seenx x1 j = n).
  { destruct (seenx_spec x1 j Hj) as [A B]. destruct (Nat.lt_trichotomy (seenx x1 j) n) as [L|[L|L]]; auto.
    - assert (X : key j (seenx x1 j) < x1) by (apply Kmono; auto). apply B in X; lia.
    - apply (B n Hn) in L. unfold x1 in L. lia. }
  constructor; auto.
  - intros -> i Hi. destruct (seenx_spec x1 i Hi) as [A B]. rewrite <- (B 0 (Kpos i Hi)). unfold x1. destruct (Nat.lt_trichotomy i j) as [L|[->|L]].
    + specialize (Kfirst i j L Hj). lia.
    + lia.
    + specialize (Kfirst j i L Hi). lia.
  - intros l i Hi Ei Ej. destruct (Kfifo l i j n Hi Hj Ei Ej Hn) as [M K]. destruct (seenx_spec x1 i ltac:(lia)) as [A B]. now apply (B n M).
  - intros l i Hi HN Ei Ej. destruct (Nat.le_gt_cases (seenx x1 i) n) as [|G]; auto. exfalso. destruct (seenx_spec x1 i HN) as [A B].
    assert (n < m i) by lia. destruct (Kfifo l j i n Hi HN Ej Ei H) as [M K]. apply (B n H) in G. unfold x1 in G. lia.
  - apply (run_restrict (seenx (S x1))).
    + apply IH; auto. intros t. split.
      * intros I. split; [apply HI; now right|]. specialize (S2 t I). cbn in S2. unfold x1. lia.
      * intros [T K]. assert (I : In t ((j, n) :: post)) by (apply HI; split; auto; lia). destruct I as [<-|I]; auto. cbn in K. unfold x1 in K. lia.
    + intros i Hi. unfold upd. destruct (Nat.eqb_spec i j) as [->|NE].
      * destruct (seenx_spec (S x1) j Hj) as [A B]. rewrite SJ. assert (B1 : n < seenx (S x1) j) by (apply (B n Hn); unfold x1; lia).
        destruct (Nat.eq_dec (seenx (S x1) j) (S n)) as [|NE]; auto. exfalso. assert (SN : S n < m j) by lia. assert (X : key j (S n) < S x1) by (apply B; auto; lia).
        specialize (Kmono j n (S n) Hj ltac:(lia) SN). unfold x1 in X. lia.
      * apply seenx_ext; auto. intros k Hk. split; [|lia]. intros H. assert (key i k <> x1); [|lia]. intros E. apply NE.
        assert (Z : (i, k) = (j, n)) by (apply Kinj; [split; auto|split; auto|exact E]). congruence.
Qed.
Lemma seenx_0 : forall i, seenx 0 i = 0.
Proof. intros i. unfold seenx. rewrite filter_none_seq; [reflexivity|]. intros n _. reflexivity. Qed.
Definition alltoks : list (nat * nat) := flat_map (fun j => map (fun n => (j, n)) (seq 0 (m j))) (seq 0 N).
Lemma alltoks_in : forall t, In t alltoks <-> token t.
Proof using ds.
  clear. intros [j n]. unfold alltoks, token. rewrite in_flat_map. cbn [fst snd]. split.
  - intros (i & Hi & H). apply in_map_iff in H. destruct H as (k & E & Hk). injection E as -> ->. apply in_seq in Hi, Hk. lia.
  - intros [Hj Hn]. exists j. split; [apply in_seq; lia|]. apply in_map_iff. exists n. split; auto. apply in_seq. lia.
Qed.
Lemma alltoks_count : forall j, j < N -> length (filter (fun t => fst t =? j) alltoks) = m j.
Proof.
  intros j Hj. unfold alltoks. assert (G : forall k a, length (filter (fun t => fst t =? j) (flat_map (fun j => map (fun n => (j, n)) (seq 0 (m j))) (seq a k))) = if (a <=? j) && (j <? a + k) then m j else 0).
  { induction k as [|k IH]; intros a; cbn [seq flat_map].
    - cbn [filter length]. destruct (Nat.leb_spec a j), (Nat.ltb_spec j (a + 0)); cbn [andb]; auto; lia.
    - rewrite filter_app, app_length, IH. assert (H : length (filter (fun t => fst t =? j) (map (fun n => (a, n)) (seq 0 (m a)))) = if a =? j then m a else 0).
      { assert (X : forall w z, length (filter (fun t => fst t =? j) (map (fun n => (a, n)) (seq z w))) = if a =? j then w else 0); [|apply X].
        induction w as [|w IHw]; intros z; cbn [seq map filter fst]; [destruct (a =? j); reflexivity|].
        specialize (IHw (S z)). destruct (a =? j); cbn [length]; lia. }
      rewrite H. destruct (Nat.eq_dec a j) as [E|NE].
      + subst a. rewrite Nat.eqb_refl. replace (S j <=? j) with false by (symmetry; apply Nat.leb_gt; lia). cbn [andb]. replace (j <=? j) with true by (symmetry; apply Nat.leb_le; lia). replace (j <? j + S k) with true by (symmetry; apply Nat.ltb_lt; lia). cbn [andb]. lia.
      + rewrite (proj2 (Nat.eqb_neq a j) NE). destruct (Nat.leb_spec (S a) j), (Nat.leb_spec a j), (Nat.ltb_spec j (S a + k)), (Nat.ltb_spec j (a + S k)); cbn [andb]; lia. }
  rewrite G. cbn [Nat.leb andb Nat.add]. destruct (Nat.ltb_spec j N); [reflexivity|lia].
Qed.
Theorem merge_sorted : forall toks, Permutation toks alltoks -> StronglySorted klt toks -> (forall j, j < N -> plain_ok (D j)) ->
  mergechildren (map (fun t => item (D (fst t)) (snd t)) toks) = map (fun d => built d (nparts d)) ds.
Proof.
  intros toks PM SS HP. apply merge_run; auto.
  - apply (run_restrict (seenx 0)); [|intros; apply seenx_0]. apply keys_run; auto. intros t. rewrite <- alltoks_in. split.
    + intros H. split; [eapply Permutation_in; eauto|lia].
    + intros [H _]. eapply Permutation_in; [apply Permutation_sym; exact PM|exact H].
  - intros j Hj. rewrite <- alltoks_count by auto. assert (F : forall X (f : X -> bool) l l', Permutation l l' -> length (filter f l) = length (filter f l')).
    { intros X f l l' Q. induction Q; cbn; auto; try (destruct (f x)); try (destruct (f y)); cbn; lia. }
    apply F. exact PM.
Qed.
End Keys.
