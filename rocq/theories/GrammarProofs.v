(** Invariants of the Grammar object. *)
From Coq Require Import List Bool Arith NArith QArith Qcanon Ascii Lia Permutation Sorted.
From Verif Require Import PyStr ConcatModel LcfrsModel GrammarModel.
Import ListNotations.
Open Scope list_scope.
Open Scope nat_scope.

Global Arguments Qcplus : simpl never.
Global Arguments Qcmult : simpl never.
Global Arguments Qcdiv : simpl never.
Global Arguments Qcinv : simpl never.
Global Arguments Qcopp : simpl never.
Global Arguments Q2Qc : simpl never.

(** ** Sums *)
(** the sum of w x over the x in l with P x *)
Definition total {A} (w : A -> Qc) (P : A -> bool) (l : list A) : Qc :=
  fold_right (fun x acc => if P x then (w x + acc)%Qc else acc) 0%Qc l.
Lemma total_app : forall A (w : A -> Qc) P l m, total w P (l ++ m) = (total w P l + total w P m)%Qc.
Proof. induction l as [|x l IH]; intros m; simpl; [ring|]. rewrite IH. destruct (P x); ring. Qed.
Lemma total_perm : forall A (w : A -> Qc) P l m, Permutation l m -> total w P l = total w P m.
Proof.
  induction 1 as [|x l m H IH|x y l|l m n H1 IH1 H2 IH2]; simpl; try congruence.
  - now rewrite IH.
  - destruct (P x), (P y); try reflexivity. ring.
Qed.
Lemma total_ext : forall A (w w' : A -> Qc) P P' l, (forall x, In x l -> P x = P' x) -> (forall x, In x l -> P x = true -> w x = w' x) -> total w P l = total w' P' l.
Proof.
  induction l as [|x l IH]; intros H1 H2; simpl; [reflexivity|]. rewrite IH by (intros; (apply H1 || apply H2); auto; now right).
  rewrite <- (H1 x (or_introl eq_refl)). destruct (P x) eqn:E; [|reflexivity]. now rewrite (H2 x (or_introl eq_refl) E).
Qed.
Lemma total_none : forall A (w : A -> Qc) P l, (forall x, In x l -> P x = false) -> total w P l = 0%Qc.
Proof. induction l as [|x l IH]; intros H; simpl; [reflexivity|]. rewrite (H x (or_introl eq_refl)). apply IH. intros. apply H. now right. Qed.
Lemma total_map : forall A B (f : A -> B) w P l, total w P (map f l) = total (fun x => w (f x)) (fun x => P (f x)) l.
Proof. induction l as [|x l IH]; simpl; [reflexivity|]. now rewrite IH. Qed.
Lemma total_scale : forall A (w : A -> Qc) P c l, total (fun x => (w x / c)%Qc) P l = (total w P l / c)%Qc.
Proof. induction l as [|x l IH]; simpl; [unfold Qcdiv; ring|]. rewrite IH. destruct (P x); [|reflexivity]. unfold Qcdiv. ring. Qed.
Lemma Qcle_sum : forall a b, (0 <= a -> 0 <= b -> 0 <= a + b)%Qc.
Proof. intros a b Ha Hb. replace 0%Qc with (0 + 0)%Qc by ring. now apply Qcplus_le_compat. Qed.
Lemma Qclt_sum : forall a b, (0 < a -> 0 <= b -> 0 < a + b)%Qc.
Proof.
  intros a b Ha Hb. apply Qclt_le_trans with a; [assumption|]. replace a with (a + 0)%Qc at 1 by ring. apply Qcplus_le_compat; [apply Qcle_refl|assumption].
Qed.
Lemma total_nonneg : forall A (w : A -> Qc) P l, (forall x, In x l -> P x = true -> (0 <= w x)%Qc) -> (0 <= total w P l)%Qc.
Proof.
  induction l as [|x l IH]; intros H; simpl; [apply Qcle_refl|]. assert (0 <= total w P l)%Qc by (apply IH; intros; apply H; auto; now right).
  destruct (P x) eqn:E; [|assumption]. apply Qcle_sum; [apply H; [now left|assumption]|assumption].
Qed.
Lemma total_pos : forall A (w : A -> Qc) P l x, (forall y, In y l -> P y = true -> (0 < w y)%Qc) -> In x l -> P x = true -> (0 < total w P l)%Qc.
Proof.
  induction l as [|y l IH]; intros x H I E; [contradiction|]. simpl.
  assert (N : (0 <= total w P l)%Qc) by (apply total_nonneg; intros; apply Qclt_le_weak, H; auto; now right).
  destruct (P y) eqn:Ey.
  - apply Qclt_sum; auto. apply H; auto. now left.
  - destruct I as [->|I]; [congruence|]. eapply IH; eauto. intros; apply H; auto. now right.
Qed.

(** ** Lists *)
Lemma upd_length : forall A (l : list A) n f, length (upd l n f) = length l.
Proof. induction l as [|x l IH]; destruct n; cbn; auto. Qed.
Lemma upd_nth : forall A (l : list A) n f i d, n < length l -> nth i (upd l n f) d = if i =? n then f (nth i l d) else nth i l d.
Proof. induction l as [|x l IH]; intros n f i d H; cbn in H; [lia|]. destruct n, i; cbn; auto. apply IH. lia. Qed.
Lemma get_upd : forall l n w i, n < length l -> get (upd l n (Qcplus w)) i = if i =? n then (w + get l i)%Qc else get l i.
Proof. intros. unfold get. now apply upd_nth. Qed.
Lemma get_snoc : forall l x i, get (l ++ [x]) i = if i =? length l then x else get l i.
Proof.
  intros. unfold get. destruct (Nat.eqb_spec i (length l)) as [->|H].
  - now rewrite app_nth2, Nat.sub_diag by lia.
  - destruct (le_lt_dec (length l) i); [|now rewrite app_nth1]. rewrite app_nth2 by lia. rewrite (nth_overflow l) by lia.
    destruct (i - length l) as [|[|k]] eqn:E; [lia| |]; reflexivity.
Qed.
Lemma enumerate_app : forall X (l m : list X) n, enumerate n (l ++ m) = enumerate n l ++ enumerate (n + length l) m.
Proof. induction l as [|x l IH]; intros; cbn; [now rewrite Nat.add_0_r|]. rewrite IH. now rewrite <- Nat.add_succ_comm. Qed.
Lemma enumerate_in : forall X (l : list X) n p, In p (enumerate n l) <-> n <= fst p /\ nth_error l (fst p - n) = Some (snd p).
Proof.
  induction l as [|x l IH]; intros n [i y]; cbn [enumerate fst snd].
  - split; [contradiction|]. intros [_ H]. now rewrite nth_error_nil in H || (destruct (i - n); discriminate).
  - cbn [In]. rewrite IH. cbn [fst snd]. split.
    + intros [H|[H1 H2]]; [apply pair_equal_spec in H; destruct H as [<- <-]; split; [lia|]; now rewrite Nat.sub_diag|]. split; [lia|]. replace (i - n) with (S (i - S n)) by lia. exact H2.
    + intros [H1 H2]. destruct (Nat.eq_dec i n) as [->|N]; [rewrite Nat.sub_diag in H2; injection H2 as ->; now left|]. right. split; [lia|]. replace (i - n) with (S (i - S n)) in H2 by lia. exact H2.
Qed.
Lemma enumerate_fst : forall X (l : list X) n, map fst (enumerate n l) = seq n (length l).
Proof. induction l as [|x l IH]; intros; cbn; [reflexivity|]. now rewrite IH. Qed.
Lemma enumerate_snd : forall X (l : list X) n, map snd (enumerate n l) = l.
Proof. induction l as [|x l IH]; intros; cbn; [reflexivity|]. now rewrite IH. Qed.

(** one number occurs once: adding to its entry *)
Lemma total_upd : forall A (no : A -> nat) (P : A -> bool) c l x m w, NoDup (map no l) -> In x l -> no x = m -> m < length c ->
  total (fun p => get (upd c m (Qcplus w)) (no p)) P l = ((if P x then w else 0) + total (fun p => get c (no p)) P l)%Qc.
Proof.
  induction l as [|y l IH]; intros x m w ND I E L; [contradiction|]. cbn in ND. inversion ND as [|? ? N1 N2]; subst. cbn [total fold_right].
  fold (total (fun p => get (upd c (no x) (Qcplus w)) (no p)) P l) (total (fun p => get c (no p)) P l).
  destruct I as [->|I].
  - assert (X : total (fun p => get (upd c (no x) (Qcplus w)) (no p)) P l = total (fun p => get c (no p)) P l).
    { apply total_ext; [reflexivity|]. intros z Hz _. rewrite get_upd by assumption. destruct (Nat.eqb_spec (no z) (no x)) as [E|]; [|reflexivity]. exfalso. apply N1. rewrite <- E. now apply in_map. }
    rewrite X, get_upd, Nat.eqb_refl by assumption. destruct (P x); ring.
  - rewrite (IH x (no x) w N2 I eq_refl L). rewrite get_upd by assumption. destruct (Nat.eqb_spec (no y) (no x)) as [E|].
    + exfalso. apply N1. rewrite E. now apply in_map.
    + destruct (P y); ring.
Qed.

(** ** Association lists *)
Lemma key_eqb_eq : forall a b, key_eqb a b = true <-> a = b.
Proof.
  intros [[[[l r] s] x] y] [[[[l' r'] s'] x'] y']. unfold key_eqb. rewrite !andb_true_iff, !Nat.eqb_eq, !N.eqb_eq. split.
  - intros ((((-> & ->) & ->) & ->) & ->). reflexivity.
  - intros E. apply pair_equal_spec in E. destruct E as [E ->]. apply pair_equal_spec in E. destruct E as [E ->]. apply pair_equal_spec in E. destruct E as [E ->].
    apply pair_equal_spec in E. destruct E as [-> ->]. auto.
Qed.
Lemma setword_lookup : forall V (l : list (pystr * V)) w v x, lookup eqs x (setword l w v) = if eqs x w then Some v else lookup eqs x l.
Proof.
  induction l as [|[k y] l IH]; intros w v x; cbn; [reflexivity|]. destruct (eqs w k) eqn:E; cbn.
  - apply eqs_eq in E. subst. destruct (eqs x k); reflexivity.
  - rewrite IH. destruct (eqs x k) eqn:E1; [|reflexivity]. destruct (eqs x w) eqn:E2; [|reflexivity]. apply eqs_eq in E1. apply eqs_eq in E2. subst. now rewrite eqs_refl in E.
Qed.
Lemma nonpos_false : forall w, nonpos w = false -> (0 < w)%Qc.
Proof.
  intros w H. unfold nonpos in H. unfold Qclt. apply Qnot_le_lt. intros X. apply Qle_bool_iff in X. cbn in X. change (this 0%Qc) with 0%Q in *. congruence.
Qed.

(** ** Specification *)
Definition rl_labels (l : rline) : list pystr := fst (fst l).
Definition rl_weight (l : rline) : Qc := snd l.
Definition rl_enc (l : rline) : option yfenc := option_map yc_enc (readyf (snd (fst l))).
Definition rl_lhs (l : rline) : pystr := hd [] (rl_labels l).
(** the labels of a rule of the grammar *)
Definition klabels (names : list pystr) (k : key) : list pystr :=
  nth (k_lhs k) names [] :: nth (k_rhs1 k) names [] :: (if k_rhs2 k =? 0 then [] else [nth (k_rhs2 k) names []]).
Definition kenc (k : key) : yfenc := let '(_, _, _, a, l) := k in mkYf a l.
Fixpoint eql (a b : list pystr) : bool :=
  match a, b with [], [] => true | x :: a', y :: b' => eqs x y && eql a' b' | _, _ => false end.
Lemma eql_eq : forall a b, eql a b = true <-> a = b.
Proof.
  induction a as [|x a IH]; destruct b as [|y b]; cbn; split; intros H; try discriminate; auto.
  - apply andb_true_iff in H. destruct H as [H1 H2]. apply eqs_eq in H1. apply IH in H2. congruence.
  - injection H as -> ->. rewrite eqs_refl. now apply IH.
Qed.
Definition enc_eqb (a b : yfenc) : bool := N.eqb (args a) (args b) && N.eqb (lengths a) (lengths b).
Lemma enc_eqb_eq : forall a b, enc_eqb a b = true <-> a = b.
Proof. intros [a b] [c d]. unfold enc_eqb. cbn. rewrite andb_true_iff, !N.eqb_eq. split; [intros [-> ->]; reflexivity|intros E; injection E; auto]. Qed.
(** the line is an occurrence of the rule: same labels, same yield function *)
Definition matches (names : list pystr) (k : key) (l : rline) : bool :=
  eql (rl_labels l) (klabels names k) && match rl_enc l with Some e => enc_eqb e (kenc k) | None => false end.
Lemma matches_spec : forall names k l, matches names k l = true <-> rl_labels l = klabels names k /\ rl_enc l = Some (kenc k).
Proof.
  intros. unfold matches. rewrite andb_true_iff, eql_eq. destruct (rl_enc l) as [e|]; [rewrite enc_eqb_eq|]; split; intros [A B]; split; try congruence.
Qed.
(** lexicon entries: word, tag, weight *)
Definition entry := (pystr * pystr * Qc)%type.
Definition en_word (e : entry) : pystr := fst (fst e).
Definition en_tag (e : entry) : pystr := snd (fst e).
Definition en_weight (e : entry) : Qc := snd e.
Definition entries (lines : list lline) : list entry := flat_map (fun l => map (fun tw => (fst l, fst tw, snd tw)) (snd l)) lines.

(** ** The invariant *)
Definition kns (g : gram) : list (key * nat) := map (fun r => (r_key r, r_no r)) (bylhs g).
Definition lxs (g : gram) : list (nat * nat) := enumerate 0 (map fst (lexical g)).
Definition lexlhs (g : gram) (n : nat) : nat := fst (nth n (lexical g) (0, 0%Qc)).
Definition name (g : gram) (i : nat) : pystr := nth i (tolabel g) [].

Record inv (g : gram) (hist : list rline) (lhist : list entry) : Prop := mkInv {
  i_ids : forall l i, lookup eqs l (toid g) = Some i <-> nth_error (tolabel g) i = Some l;
  i_freq : length (freqmass g) = length (tolabel g);
  i_fan : length (fanouts g) = length (tolabel g);
  i_eps : nth 0 (fanouts g) 0%N = 0%N;
  i_two : 2 <= length (tolabel g);
  i_nos : forall k n, lookup key_eqb k (rulenos g) = Some n <-> In (k, n) (kns g);
  i_seq : Permutation (map snd (kns g)) (seq 0 (length (bylhs g)));
  i_cnt : length (rulecounts g) = length (bylhs g);
  i_rng : forall k n, In (k, n) (kns g) -> 1 <= k_lhs k < length (tolabel g) /\ 2 <= k_rhs1 k < length (tolabel g) /\ k_rhs2 k < length (tolabel g) /\ k_rhs2 k <> 1;
  i_un : Permutation (unary g) (filter (fun r => r_rhs2 r =? 0) (bylhs g));
  i_lb : Permutation (lbinary g) (filter (fun r => negb (r_rhs2 r =? 0)) (bylhs g));
  i_rb : Permutation (rbinary g) (filter (fun r => negb (r_rhs2 r =? 0)) (bylhs g));
  i_sum : forall k n, In (k, n) (kns g) -> get (rulecounts g) n = total rl_weight (matches (tolabel g) k) hist;
  i_all : forall l, In l hist -> exists k n, In (k, n) (kns g) /\ matches (tolabel g) k l = true;
  i_mass : forall i, i < length (tolabel g) -> get (freqmass g) i =
    (total rl_weight (fun l => eqs (rl_lhs l) (name g i)) hist + total en_weight (fun e => eqs (en_tag e) (name g i)) lhist)%Qc;
  i_mass' : forall i, i < length (tolabel g) -> get (freqmass g) i =
    (total (fun p => get (rulecounts g) (snd p)) (fun p => k_lhs (fst p) =? i) (kns g) +
     total (fun p => get (lexcounts g) (fst p)) (fun p => snd p =? i) (lxs g))%Qc;
  i_lcnt : length (lexcounts g) = length (lexical g);
  i_lrng : forall n, n < length (lexical g) -> 1 <= lexlhs g n < length (tolabel g);
  i_lex : forall w n, In n (wordrules g w) -> n < length (lexical g) /\
    get (lexcounts g) n = total en_weight (fun e => eqs (en_word e) w && eqs (en_tag e) (name g (lexlhs g n))) lhist;
  i_lexall : forall n, n < length (lexical g) -> exists w, In n (wordrules g w);
  i_lexfun : forall w w' n, In n (wordrules g w) -> In n (wordrules g w') -> w = w';
  i_lexinj : forall w n n', In n (wordrules g w) -> In n' (wordrules g w) -> lexlhs g n = lexlhs g n' -> n = n';
  i_lexnd : forall w, NoDup (wordrules g w);
  i_lexocc : forall e, In e lhist -> exists n, In n (wordrules g (en_word e)) /\ name g (lexlhs g n) = en_tag e;
  i_pos : forall l, In l hist -> (0 < rl_weight l)%Qc;
  i_lpos : forall e, In e lhist -> (0 < en_weight e)%Qc;
  i_has : forall k n, In (k, n) (kns g) -> exists l, In l hist /\ matches (tolabel g) k l = true;
  i_lhas : forall w n, In n (wordrules g w) -> exists e, In e lhist /\ en_word e = w /\ en_tag e = name g (lexlhs g n) }.

Lemma inv_names : forall g h lh, inv g h lh -> forall i l, nth_error (tolabel g) i = Some l -> name g i = l.
Proof. intros g h lh _ i l H. unfold name. now apply nth_error_nth. Qed.
Lemma inv_name_inj : forall g h lh, inv g h lh -> forall i j, i < length (tolabel g) -> j < length (tolabel g) -> name g i = name g j -> i = j.
Proof.
  intros g h lh H i j Hi Hj E. apply nth_error_nth' with (d := []) in Hi. apply nth_error_nth' with (d := []) in Hj. unfold name in E. rewrite E in Hi.
  apply (i_ids _ _ _ H) in Hi. apply (i_ids _ _ _ H) in Hj. congruence.
Qed.

Lemma empty_inv : forall start, start <> Epsilon -> inv (empty start) [] [].
Proof.
  intros start N. unfold empty. revert N. generalize Epsilon as ep. intros ep N. constructor; cbn; try (intros; contradiction); try reflexivity; try lia; auto using perm_nil.
  - intros l i. destruct (eqs l start) eqn:E1; [|destruct (eqs l ep) eqn:E2].
    + apply eqs_eq in E1. subst. destruct i as [|[|i]]; cbn; split; intros E; try discriminate; auto; try (exfalso; congruence); try (destruct i; discriminate); try (exfalso; apply N; injection E; auto).
    + apply eqs_eq in E2. subst. destruct i as [|[|i]]; cbn; split; intros E; try discriminate; auto; try (exfalso; congruence); try (destruct i; discriminate); try (exfalso; apply N; injection E; auto).
    + apply eqs_neq in E1. apply eqs_neq in E2. split; [discriminate|]. destruct i as [|[|i]]; cbn; intros E; try (exfalso; congruence); try (destruct i; discriminate); try (exfalso; apply N; injection E; auto).
  - split; [discriminate|contradiction].
  - intros i Hi. destruct i as [|[|i]]; cbn; [reflexivity..|lia].
  - intros i Hi. destruct i as [|[|i]]; cbn; [reflexivity..|lia].
  - intros w. constructor.
Qed.

(** ** Interning a label *)
Lemma name_app : forall (l m : list pystr) i, i < length l -> nth i (l ++ m) [] = nth i l [].
Proof. intros. now apply app_nth1. Qed.
Lemma klabels_app : forall names m k, k_lhs k < length names -> k_rhs1 k < length names -> k_rhs2 k < length names -> klabels (names ++ m) k = klabels names k.
Proof. intros. unfold klabels. rewrite !name_app by assumption. reflexivity. Qed.
Lemma nth_snoc_new : forall A (l : list A) x d, nth (length l) (l ++ [x]) d = x.
Proof. intros. now rewrite app_nth2, Nat.sub_diag by lia. Qed.
Lemma nth_error_snoc_iff : forall A (l : list A) x i y, nth_error (l ++ [x]) i = Some y <-> nth_error l i = Some y \/ (i = length l /\ y = x).
Proof.
  intros. destruct (lt_eq_lt_dec i (length l)) as [[H|H]|H].
  - rewrite nth_error_app1 by assumption. split; [auto|]. intros [E|[-> _]]; [assumption|lia].
  - subst. rewrite nth_error_app2, Nat.sub_diag by lia. cbn. split; [intros E; injection E as ->; auto|]. intros [E|[_ ->]]; [|reflexivity].
    assert (length l < length l) by (apply nth_error_Some; congruence). lia.
  - rewrite (proj2 (nth_error_None _ _)) by (rewrite app_length; cbn; lia). split; [discriminate|]. intros [E|[-> _]]; [|lia].
    assert (i < length l) by (apply nth_error_Some; congruence). lia.
Qed.

Lemma intern_inv : forall g h lh l fan i g', inv g h lh -> intern g l fan = (i, g') ->
  inv g' h lh /\ nth_error (tolabel g') i = Some l /\ (exists m, tolabel g' = tolabel g ++ m) /\ (forall j, j < length (tolabel g) -> nth j (fanouts g') 0%N = nth j (fanouts g) 0%N) /\
  (lookup eqs l (toid g) = None -> nth i (fanouts g') 0%N = fan) /\ unary g' = unary g /\ lbinary g' = lbinary g /\ bylhs g' = bylhs g /\ kns g' = kns g /\ lexical g' = lexical g /\ (forall w, wordrules g' w = wordrules g w) /\ rulenos g' = rulenos g /\ lexbyword g' = lexbyword g /\ rbinary g' = rbinary g.
Proof.
  intros g h lh l fan i g' H E. unfold intern in E. destruct (lookup eqs l (toid g)) as [j|] eqn:L.
  - injection E as <- <-. split; [assumption|]. split; [now apply (i_ids _ _ _ H)|]. split; [exists []; now rewrite app_nil_r|]. repeat split; auto. discriminate.
  - injection E as <- <-. destruct H as [H1 H2 H3 H3' H4 H5 H6 H7 H8 H9 H10 H11 H12 H13 H14 H15 H16 H17 H18 H19 H20 H21 H22 H23 H24 H25 H26 H27].
    assert (NEW : ~ In l (tolabel g)). { intros X. apply In_nth_error in X. destruct X as [j X]. apply H1 in X. congruence. }
    split; [|split; [|split; [|split; [|split; [|repeat split; reflexivity]]]]]; cbn [tolabel toid freqmass fanouts].
    2: { apply nth_error_snoc_iff. auto. }
    2: { exists [l]. reflexivity. }
    2: { intros j Hj. apply app_nth1. lia. }
    2: { intros _. rewrite <- H3. apply nth_snoc_new. }
    assert (NM : forall j, j < length (tolabel g) -> name (mkGram ((l, length (tolabel g)) :: toid g) (tolabel g ++ [l]) (freqmass g ++ [0%Qc]) (fanouts g ++ [fan])
      (rulenos g) (rulecounts g) (bylhs g) (unary g) (lbinary g) (rbinary g) (lexical g) (lexcounts g) (lexbyword g)) j = name g j).
    { intros j Hj. unfold name. cbn [tolabel]. now apply name_app. }
    assert (MT : forall k n ln, In (k, n) (kns g) -> matches (tolabel g ++ [l]) k ln = matches (tolabel g) k ln).
    { intros k n ln Hk. destruct (H8 k n Hk) as (A & B & C & _). unfold matches. rewrite klabels_app; [reflexivity|lia..]. }
    constructor; cbn [tolabel toid freqmass fanouts rulenos rulecounts bylhs unary lbinary rbinary lexical lexcounts lexbyword kns lxs]; auto.
    + intros x j. cbn [lookup]. rewrite nth_error_snoc_iff. destruct (eqs x l) eqn:Ex.
      * apply eqs_eq in Ex. subst x. split; [intros X; injection X as <-; auto|]. intros [X|[-> _]]; [|reflexivity]. exfalso. apply NEW. eapply nth_error_In; eauto.
      * apply eqs_neq in Ex. rewrite H1. split; [auto|]. intros [X|[_ X]]; [assumption|contradiction].
    + rewrite !app_length. cbn. lia.
    + rewrite !app_length. cbn. lia.
    + rewrite app_nth1 by lia. assumption.
    + rewrite app_length. cbn. lia.
    + intros k n Hk. rewrite app_length. cbn. destruct (H8 k n Hk) as (A & B & C & D). repeat split; try lia; assumption.
    + intros k n Hk. rewrite (H12 k n Hk). apply total_ext; [|reflexivity]. intros ln _. symmetry. now apply MT with n.
    + intros ln Hln. destruct (H13 ln Hln) as (k & n & A & B). exists k, n. split; [assumption|]. rewrite MT with (n := n); assumption.
    + intros j Hj. rewrite app_length in Hj. cbn in Hj. rewrite get_snoc, H2. destruct (Nat.eqb_spec j (length (tolabel g))) as [->|NE].
      * unfold name. cbn [tolabel]. rewrite nth_snoc_new. rewrite !total_none; [ring| |].
        -- intros e He. destruct (H23 e He) as (n & Hn & En). apply eqs_neq. intros X. apply NEW. rewrite <- X, <- En. unfold name. apply nth_In.
           destruct (H18 _ _ Hn) as [B _]. destruct (H17 _ B). lia.
        -- intros ln Hln. apply eqs_neq. intros X. destruct (H13 ln Hln) as (k & n & A & B). apply matches_spec in B. destruct B as [B _]. unfold rl_lhs in X. rewrite B in X. cbn in X.
           apply NEW. rewrite <- X. apply nth_In. destruct (H8 k n A). lia.
      * rewrite NM by lia. apply H14. lia.
    + intros j Hj. rewrite app_length in Hj. cbn in Hj. rewrite get_snoc, H2. destruct (Nat.eqb_spec j (length (tolabel g))) as [->|NE].
      * rewrite !total_none; [ring| |].
        -- intros [n lhs] Hp. unfold lxs in Hp. cbn [lexical] in Hp. apply enumerate_in in Hp. cbn [fst snd] in *. rewrite Nat.sub_0_r in Hp. apply Nat.eqb_neq. destruct Hp as [_ Hp].
           assert (n < length (lexical g)). { rewrite <- (map_length fst). apply nth_error_Some. congruence. } pose proof (H17 n H) as B. unfold lexlhs in B.
           apply nth_error_nth with (d := fst (0, 0%Qc)) in Hp. rewrite map_nth in Hp. rewrite Hp in B. lia.
        -- intros [k n] Hk. cbn [fst]. apply Nat.eqb_neq. destruct (H8 k n Hk) as [? _]. lia.
      * apply H15. lia.
    + intros n Hn. rewrite app_length. cbn. specialize (H17 n Hn). unfold lexlhs in *. cbn [lexical]. lia.
    + intros w n Hn. destruct (H18 w n Hn) as [A B]. split; [assumption|]. rewrite B. apply total_ext; [|reflexivity]. intros e _. f_equal. f_equal.
      symmetry. apply NM. specialize (H17 n A). unfold lexlhs in *. cbn [lexical] in *. lia.
    + intros e He. destruct (H23 e He) as (n & A & B). exists n. split; [assumption|]. rewrite <- B. apply NM. destruct (H18 _ _ A) as [C _]. specialize (H17 n C). unfold lexlhs in *. cbn [lexical] in *. lia.
    + intros k n Hk. destruct (H26 k n Hk) as (ln & A & B). exists ln. split; [assumption|]. rewrite MT with (n := n); assumption.
    + intros w n Hn. destruct (H27 w n Hn) as (e & A & B & C). exists e. split; [assumption|]. split; [assumption|]. rewrite C. symmetry. apply NM. destruct (H18 _ _ Hn) as [D _]. specialize (H17 n D). unfold lexlhs in *. cbn [lexical] in *. lia.
Qed.

(** ** Adding a rule *)
Definition inrange (n : nat) (k : key) : Prop := 1 <= k_lhs k < n /\ 2 <= k_rhs1 k < n /\ k_rhs2 k < n /\ k_rhs2 k <> 1.
Lemma key_parts : forall k k', k_lhs k = k_lhs k' -> k_rhs1 k = k_rhs1 k' -> k_rhs2 k = k_rhs2 k' -> kenc k = kenc k' -> k = k'.
Proof. intros [[[[l r] s] x] y] [[[[l' r'] s'] x'] y']. cbn. intros -> -> -> E. injection E as -> ->. reflexivity. Qed.
Lemma klabels_inj : forall g h lh k k', inv g h lh -> inrange (length (tolabel g)) k -> inrange (length (tolabel g)) k' ->
  klabels (tolabel g) k = klabels (tolabel g) k' -> kenc k = kenc k' -> k = k'.
Proof.
  intros g h lh k k' H (A1 & A2 & A3 & _) (B1 & B2 & B3 & _) E1 E2. unfold klabels in E1. injection E1 as E3 E4 E5.
  apply key_parts; auto.
  - eapply inv_name_inj; eauto; lia.
  - eapply inv_name_inj; eauto; lia.
  - destruct (Nat.eqb_spec (k_rhs2 k) 0) as [Z|Z], (Nat.eqb_spec (k_rhs2 k') 0) as [Z'|Z']; try discriminate; [congruence|]. injection E5 as E5. eapply inv_name_inj; eauto; lia.
Qed.
Lemma kns_nodup : forall g h lh, inv g h lh -> NoDup (map snd (kns g)).
Proof. intros g h lh H. eapply Permutation_NoDup; [symmetry; apply (i_seq _ _ _ H)|apply seq_NoDup]. Qed.
Lemma kns_lt : forall g h lh k n, inv g h lh -> In (k, n) (kns g) -> n < length (bylhs g).
Proof.
  intros g h lh k n H I. assert (X : In n (map snd (kns g))) by (apply in_map_iff; exists (k, n); auto).
  eapply Permutation_in in X; [|apply (i_seq _ _ _ H)]. apply in_seq in X. lia.
Qed.

Lemma addrule_inv : forall g h lh k w ln, inv g h lh -> inrange (length (tolabel g)) k -> (0 < w)%Qc ->
  matches (tolabel g) k ln = true -> rl_weight ln = w -> inv (addrule g k w) (h ++ [ln]) lh /\ tolabel (addrule g k w) = tolabel g /\ fanouts (addrule g k w) = fanouts g /\
    toid (addrule g k w) = toid g /\ lexical (addrule g k w) = lexical g /\ lexbyword (addrule g k w) = lexbyword g.
Proof.
  intros g h lh k w ln H R W M RW.
  assert (KI : forall k', inrange (length (tolabel g)) k' -> matches (tolabel g) k' ln = key_eqb k' k).
  { intros k' R'. destruct (key_eqb k' k) eqn:E; [apply key_eqb_eq in E; now subst|]. destruct (matches (tolabel g) k' ln) eqn:E'; [|reflexivity].
    apply matches_spec in E'. apply matches_spec in M. destruct E' as [E1 E2], M as [E3 E4]. rewrite E1 in E3. rewrite E2 in E4. injection E4 as E4.
    assert (k' = k) by (eapply klabels_inj; eauto). subst. rewrite (proj2 (key_eqb_eq k k)) in E; congruence. }
  pose proof (kns_nodup _ _ _ H) as ND.
  assert (LHS : forall i, i < length (tolabel g) -> eqs (rl_lhs ln) (name g i) = (k_lhs k =? i)).
  { intros i Hi. apply matches_spec in M. destruct M as [M _]. unfold rl_lhs. rewrite M. cbn [klabels hd]. fold (name g (k_lhs k)).
    destruct (Nat.eqb_spec (k_lhs k) i) as [->|NE]; [apply eqs_refl|]. apply eqs_neq. intros X. apply NE. eapply inv_name_inj; eauto. destruct R as (? & _). lia. }
  assert (MASS : forall i, i < length (tolabel g) -> get (upd (freqmass g) (k_lhs k) (Qcplus w)) i = (get (freqmass g) i + (if k_lhs k =? i then w else 0))%Qc).
  { intros i Hi. rewrite get_upd by (rewrite (i_freq _ _ _ H); destruct R as (? & _); lia). rewrite Nat.eqb_sym. destruct (k_lhs k =? i); ring. }
  unfold addrule. destruct (lookup key_eqb k (rulenos g)) as [m|] eqn:L; (split; [|repeat split; reflexivity]).
  - apply (i_nos _ _ _ H) in L. assert (Hm : m < length (rulecounts g)) by (rewrite (i_cnt _ _ _ H); eapply kns_lt; eauto).
    destruct H as [H1 H2 H3 H3' H4 H5 H6 H7 H8 H9 H10 H11 H12 H13 H14 H15 H16 H17 H18 H19 H20 H21 H22 H23 H24 H25 H26 H27].
    constructor; cbn [tolabel toid freqmass fanouts rulenos rulecounts bylhs unary lbinary rbinary lexical lexcounts lexbyword]; auto.
    + now rewrite upd_length.
    + now rewrite upd_length.
    + intros k' n Hk. change (kns _) with (kns g) in Hk. rewrite get_upd, total_app by assumption. cbn [total fold_right]. rewrite RW, (KI k' (H8 k' n Hk)).
      destruct (Nat.eqb_spec n m) as [->|NE].
      * assert (k' = k). { assert (E : (k', m) = (k, m)); [|congruence]. clear - ND Hk L. induction (kns g) as [|p l IH]; [contradiction|]. cbn in ND. inversion ND as [|? ? N1 N2]; subst.
          destruct Hk as [->|Hk], L as [L|L]; auto; [|subst p]; exfalso; apply N1; apply in_map_iff; eexists; split; [|eassumption| |eassumption]; reflexivity. }
        subst. rewrite (proj2 (key_eqb_eq k k) eq_refl). rewrite (H12 k m Hk). ring.
      * destruct (key_eqb k' k) eqn:E; [|rewrite (H12 k' n Hk); ring]. apply key_eqb_eq in E. subst. apply H5 in Hk. apply H5 in L. congruence.
    + intros l Hl. apply in_app_or in Hl. destruct Hl as [Hl|[<-|[]]]; [now apply H13|]. exists k, m. auto.
    + intros i Hi. rewrite MASS, total_app by assumption. cbn [total fold_right]. rewrite RW, H14 by assumption. unfold name in LHS |- *. cbn [tolabel]. rewrite LHS by assumption. destruct (k_lhs k =? i); ring.
    + intros i Hi. rewrite MASS by assumption. change (kns (mkGram _ _ _ _ _ _ _ _ _ _ _ _ _)) with (kns g). change (lxs (mkGram _ _ _ _ _ _ _ _ _ _ _ _ _)) with (lxs g).
      rewrite (total_upd _ snd (fun p => k_lhs (fst p) =? i) (rulecounts g) (kns g) (k, m) m w ND L eq_refl Hm). cbn [fst]. rewrite H15 by assumption. destruct (k_lhs k =? i); ring.
    + intros l Hl. apply in_app_or in Hl. destruct Hl as [Hl|[<-|[]]]; [now apply H24|congruence].
    + intros k' n' Hk. destruct (H26 k' n' Hk) as (l & A & B). exists l. split; [apply in_or_app; now left|assumption].
  - assert (FRESH : forall n, ~ In (k, n) (kns g)) by (intros n X; apply (i_nos _ _ _ H) in X; congruence).
    pose proof (fun k n => kns_lt g h lh k n H) as KL.
    destruct H as [H1 H2 H3 H3' H4 H5 H6 H7 H8 H9 H10 H11 H12 H13 H14 H15 H16 H17 H18 H19 H20 H21 H22 H23 H24 H25 H26 H27].
    set (n := length (bylhs g)) in *.
    assert (KN : forall g', bylhs g' = bylhs g ++ [mkRule k n w] -> kns g' = kns g ++ [(k, n)]). { intros g' E. unfold kns. rewrite E, map_app. reflexivity. }
    assert (NOLINE : total rl_weight (matches (tolabel g) k) h = 0%Qc).
    { apply total_none. intros l Hl. destruct (matches (tolabel g) k l) eqn:E; [|reflexivity]. exfalso. destruct (H13 l Hl) as (k' & m & A & B). apply matches_spec in E. apply matches_spec in B.
      destruct E as [E1 E2], B as [B1 B2]. rewrite E1 in B1. rewrite E2 in B2. injection B2 as B2. apply (FRESH m). replace k with k'; [assumption|]. symmetry.
      eapply klabels_inj; [constructor; eassumption|assumption|exact (H8 _ _ A)|assumption|assumption]. }
    constructor; cbn [tolabel toid freqmass fanouts rulenos rulecounts bylhs unary lbinary rbinary lexical lexcounts lexbyword]; auto.
    + now rewrite upd_length.
    + intros k' m. match goal with |- context [kns ?G] => rewrite (KN G eq_refl) end. rewrite in_app_iff. cbn [lookup In]. destruct (key_eqb k' k) eqn:E.
      * apply key_eqb_eq in E. subst. split; [intros X; injection X as <-; auto|]. intros [X|[X|[]]]; [now apply FRESH in X|]. congruence.
      * rewrite H5. split; [auto|]. intros [X|[X|[]]]; [assumption|]. apply pair_equal_spec in X. destruct X as [<- _]. rewrite (proj2 (key_eqb_eq k k) eq_refl) in E. discriminate.
    + match goal with |- context [kns ?G] => rewrite (KN G eq_refl) end. rewrite map_app, app_length. cbn. rewrite Nat.add_1_r, seq_S. apply Permutation_app; [assumption|reflexivity].
    + rewrite !app_length. cbn. now rewrite H7.
    + intros k' m X. match type of X with context [kns ?G] => rewrite (KN G eq_refl) in X end. apply in_app_or in X. destruct X as [X|[X|[]]]; [now apply H8 in X|]. apply pair_equal_spec in X. destruct X as [<- _]. assumption.
    + rewrite filter_app. cbn [filter]. unfold r_rhs2 at 2. cbn [r_key]. destruct (k_rhs2 k =? 0); [now apply Permutation_app|now rewrite app_nil_r].
    + rewrite filter_app. cbn [filter]. unfold r_rhs2 at 2. cbn [r_key]. destruct (k_rhs2 k =? 0); cbn [negb]; [now rewrite app_nil_r|now apply Permutation_app].
    + rewrite filter_app. cbn [filter]. unfold r_rhs2 at 2. cbn [r_key]. destruct (k_rhs2 k =? 0); cbn [negb]; [now rewrite app_nil_r|now apply Permutation_app].
    + intros k' m X. match type of X with context [kns ?G] => rewrite (KN G eq_refl) in X end. rewrite get_snoc, H7, total_app. cbn [total fold_right]. rewrite RW. apply in_app_or in X. destruct X as [X|[X|[]]].
      * rewrite (KI k' (H8 k' m X)). pose proof (KL _ _ X). destruct (Nat.eqb_spec m n); [unfold n in *; lia|]. rewrite (H12 k' m X).
        destruct (key_eqb k' k) eqn:E; [|ring]. apply key_eqb_eq in E. subst. now apply FRESH in X.
      * apply pair_equal_spec in X. destruct X as [<- <-]. rewrite Nat.eqb_refl, M, NOLINE. ring.
    + intros l Hl. match goal with |- context [kns ?G] => rewrite (KN G eq_refl) end. apply in_app_or in Hl. destruct Hl as [Hl|[<-|[]]].
      * destruct (H13 l Hl) as (k' & m & A & B). exists k', m. split; [apply in_or_app; auto|assumption].
      * exists k, n. split; [apply in_or_app; right; now left|assumption].
    + intros i Hi. rewrite MASS, total_app by assumption. cbn [total fold_right]. rewrite RW, H14 by assumption. unfold name in LHS |- *. cbn [tolabel]. rewrite LHS by assumption. destruct (k_lhs k =? i); ring.
    + intros i Hi. rewrite MASS by assumption. match goal with |- context [kns ?G] => rewrite (KN G eq_refl) end. rewrite total_app. change (lxs (mkGram _ _ _ _ _ _ _ _ _ _ _ _ _)) with (lxs g). cbn [total fold_right fst snd]. rewrite get_snoc, H7, Nat.eqb_refl.
      rewrite (total_ext _ (fun p => get (rulecounts g ++ [w]) (snd p)) (fun p => get (rulecounts g) (snd p)) (fun p => k_lhs (fst p) =? i) (fun p => k_lhs (fst p) =? i) (kns g)); [|reflexivity|].
      * rewrite H15 by assumption. destruct (k_lhs k =? i); ring.
      * intros [k' m] X _. cbn [snd]. rewrite get_snoc, H7. pose proof (KL _ _ X). destruct (Nat.eqb_spec m n); [unfold n in *; lia|reflexivity].
    + intros l Hl. apply in_app_or in Hl. destruct Hl as [Hl|[<-|[]]]; [now apply H24|congruence].
    + intros k' m X. match type of X with context [kns ?G] => rewrite (KN G eq_refl) in X end. apply in_app_or in X. destruct X as [X|[X|[]]].
      * destruct (H26 k' m X) as (l & A & B). exists l. split; [apply in_or_app; now left|assumption].
      * apply pair_equal_spec in X. destruct X as [<- <-]. exists ln. split; [apply in_or_app; right; now left|assumption].
Qed.

(** ** The weight stored with a rule before normalization is that of its first line *)
Record pinv (g : gram) (hist : list rline) (lhist : list entry) : Prop := mkPinv {
  p_r : forall r, In r (bylhs g) -> exists ln, In ln hist /\ matches (tolabel g) (r_key r) ln = true /\ rl_weight ln = r_prob r;
  p_l : forall w n, In n (wordrules g w) -> exists e, In e lhist /\ en_word e = w /\ en_tag e = name g (lexlhs g n) /\ en_weight e = snd (nth n (lexical g) (0, 0%Qc)) }.
(** the arrays only grow *)
Definition exts (g g' : gram) : Prop :=
  (exists m, bylhs g' = bylhs g ++ m) /\ (exists m, unary g' = unary g ++ m) /\ (exists m, lbinary g' = lbinary g ++ m) /\ (exists m, rbinary g' = rbinary g ++ m) /\ (exists m, tolabel g' = tolabel g ++ m).
Lemma exts_refl : forall g, exts g g.
Proof. intros. repeat split; exists []; now rewrite app_nil_r. Qed.
Lemma exts_trans : forall a b c, exts a b -> exts b c -> exts a c.
Proof.
  intros a b c ((x1 & A1) & (x2 & A2) & (x3 & A3) & (x4 & A4) & (x5 & A5)) ((y1 & B1) & (y2 & B2) & (y3 & B3) & (y4 & B4) & (y5 & B5)).
  repeat split; [exists (x1 ++ y1)|exists (x2 ++ y2)|exists (x3 ++ y3)|exists (x4 ++ y4)|exists (x5 ++ y5)]; rewrite app_assoc; congruence.
Qed.
Lemma exts_more : forall g g' m, bylhs g' = bylhs g -> unary g' = unary g -> lbinary g' = lbinary g -> rbinary g' = rbinary g -> tolabel g' = tolabel g ++ m -> exts g g'.
Proof. intros g g' m A B C D E. repeat split; [exists []; rewrite app_nil_r; assumption..|]. now exists m. Qed.
Lemma exts_same : forall g g', bylhs g' = bylhs g -> unary g' = unary g -> lbinary g' = lbinary g -> rbinary g' = rbinary g -> tolabel g' = tolabel g -> exts g g'.
Proof. intros g g' A B C D E. apply exts_more with []; auto. now rewrite app_nil_r. Qed.
Lemma in_kns : forall g r, In r (bylhs g) -> In (r_key r, r_no r) (kns g).
Proof. intros g r H. unfold kns. apply in_map_iff. eauto. Qed.
Lemma intern_pinv : forall g h lh l fan i g', inv g h lh -> intern g l fan = (i, g') -> pinv g h lh -> pinv g' h lh.
Proof.
  intros g h lh l fan i g' H E [P1 P2]. destruct (intern_inv _ _ _ _ _ _ _ H E) as (_ & _ & (m & T) & _ & _ & _ & _ & B & K & X & W & _).
  constructor.
  - intros r Hr. rewrite B in Hr. destruct (P1 r Hr) as (ln & A1 & A2 & A3). exists ln. repeat split; auto. rewrite T. apply matches_spec in A2. apply matches_spec.
    rewrite klabels_app; [assumption|apply (i_rng _ _ _ H _ _ (in_kns _ _ Hr))..].
  - intros w n Hn. rewrite W in Hn. destruct (P2 w n Hn) as (e & A1 & A2 & A3 & A4). exists e. unfold name, lexlhs in *. rewrite T, X. repeat split; auto. rewrite name_app; [assumption|].
    destruct (i_lex _ _ _ H _ _ Hn) as [L _]. apply (i_lrng _ _ _ H n L).
Qed.
Lemma addrule_pinv : forall g h lh k w ln, inv g h lh -> inrange (length (tolabel g)) k -> matches (tolabel g) k ln = true -> rl_weight ln = w -> pinv g h lh -> pinv (addrule g k w) (h ++ [ln]) lh.
Proof.
  intros g h lh k w ln H R M RW [P1 P2]. unfold addrule. destruct (lookup key_eqb k (rulenos g)) as [m|]; constructor; cbn [tolabel bylhs]; auto.
  - intros r Hr. destruct (P1 r Hr) as (l & A & B). exists l. split; [apply in_or_app; now left|assumption].
  - intros r Hr. apply in_app_or in Hr. destruct Hr as [Hr|[<-|[]]].
    + destruct (P1 r Hr) as (l & A & B). exists l. split; [apply in_or_app; now left|assumption].
    + exists ln. split; [apply in_or_app; right; now left|]. auto.
Qed.
Lemma addrule_exts : forall g k w, exts g (addrule g k w).
Proof.
  intros. unfold addrule. destruct (lookup key_eqb k (rulenos g)); [apply exts_same; reflexivity|].
  repeat split; cbn [bylhs unary lbinary rbinary tolabel]; [eexists; reflexivity|..|exists []; now rewrite app_nil_r]; destruct (k_rhs2 k =? 0); (eexists; reflexivity) || (exists []; now rewrite app_nil_r).
Qed.
Lemma intern_lhs_some : forall g l fan i g', intern_lhs g l fan = Some (i, g') -> intern g l fan = (i, g').
Proof.
  intros g l fan i g' E. unfold intern_lhs in E. unfold intern in *. destruct (lookup eqs l (toid g)) as [j|]; [|now injection E as <- <-].
  destruct (N.eqb _ _); [|discriminate]. now injection E as <- <-.
Qed.
(** a label that is interned and allowed has an ID other than 0 and 1 as the case may be *)
Lemma convertrule_inv : forall g h lh ln g', inv g h lh -> convertrule g ln = Some g' ->
  inv g' (h ++ [ln]) lh /\ (pinv g h lh -> pinv g' (h ++ [ln]) lh) /\ exts g g' /\ lexical g' = lexical g /\ lexbyword g' = lexbyword g.
Proof.
  intros g h lh [[rule yf] w] g' H E. cbn [convertrule] in E. destruct (readyf yf) as [c|] eqn:RY; [|discriminate].
  destruct rule as [|l [|a [|b [|x rule]]]]; try discriminate.
  - destruct (N.eqb (yc_r1 c) 0 || negb (N.eqb (yc_r2 c) 0)) eqn:Y; [discriminate|].
    destruct (intern_lhs g l (yc_fan c)) as [[lhs g1]|] eqn:I1; [|discriminate]. apply intern_lhs_some in I1.
    destruct (intern g1 a (yc_r1 c)) as [rhs1 g2] eqn:I2.
    destruct ((lhs =? 0) || (rhs1 =? 0)) eqn:Z; [discriminate|]. destruct (rhs1 =? 1) eqn:O; [discriminate|]. destruct (nonpos w) eqn:W; [discriminate|]. injection E as <-.
    apply orb_false_iff in Z. destruct Z as [Z1 Z2]. apply Nat.eqb_neq in Z1. apply Nat.eqb_neq in Z2. apply Nat.eqb_neq in O. apply nonpos_false in W.
    destruct (intern_inv _ _ _ _ _ _ _ H I1) as (H1 & N1 & (m1 & T1) & _ & _ & U1 & L1 & B1 & _ & X1 & _ & _ & Q1 & RB1).
    destruct (intern_inv _ _ _ _ _ _ _ H1 I2) as (H2 & N2 & (m2 & T2) & _ & _ & U2 & L2 & B2 & _ & X2 & _ & _ & Q2 & RB2).
    assert (N1' : nth_error (tolabel g2) lhs = Some l). { rewrite T2, nth_error_app1; [assumption|]. apply nth_error_Some. congruence. }
    assert (A1 : lhs < length (tolabel g2)) by (apply nth_error_Some; congruence). assert (A2 : rhs1 < length (tolabel g2)) by (apply nth_error_Some; congruence).
    set (k := (lhs, rhs1, 0, args (yc_enc c), lengths (yc_enc c))).
    assert (R : inrange (length (tolabel g2)) k) by (unfold inrange, k; cbn; lia).
    assert (M : matches (tolabel g2) k (([l; a], yf, w) : rline) = true).
    { apply matches_spec. unfold rl_labels, rl_enc, klabels, k. cbn. rewrite RY. cbn. rewrite (nth_error_nth _ _ [] N1'), (nth_error_nth _ _ [] N2). split; [reflexivity|]. destruct (yc_enc c); reflexivity. }
    destruct (addrule_inv _ _ _ _ _ _ H2 R W M eq_refl) as (H3 & _ & _ & _ & X3 & Q3).
    split; [assumption|]. split; [|split; [|split; congruence]].
    + intros P. apply addrule_pinv; [assumption|assumption|assumption|reflexivity|]. eapply intern_pinv; [exact H1|exact I2|]. eapply intern_pinv; [exact H|exact I1|exact P].
    + eapply exts_trans; [apply exts_more with (g' := g1) (m := m1); congruence|]. eapply exts_trans; [apply exts_more with (g' := g2) (m := m2); congruence|]. apply addrule_exts.
  - destruct (N.eqb (yc_r1 c) 0 || N.eqb (yc_r2 c) 0) eqn:Y; [discriminate|].
    destruct (intern_lhs g l (yc_fan c)) as [[lhs g1]|] eqn:I1; [|discriminate]. apply intern_lhs_some in I1.
    destruct (intern g1 a (yc_r1 c)) as [rhs1 g2] eqn:I2.
    destruct ((lhs =? 0) || (rhs1 =? 0)) eqn:Z; [discriminate|].
    destruct (intern g2 b (yc_r2 c)) as [rhs2 g3] eqn:I3. destruct (rhs2 =? 0) eqn:Z3; [discriminate|].
    destruct ((rhs1 =? 1) || (rhs2 =? 1)) eqn:O; [discriminate|]. destruct (nonpos w) eqn:W; [discriminate|]. injection E as <-.
    apply orb_false_iff in Z. destruct Z as [Z1 Z2]. apply orb_false_iff in O. destruct O as [O1 O2]. apply Nat.eqb_neq in Z1. apply Nat.eqb_neq in Z2. apply Nat.eqb_neq in Z3. apply Nat.eqb_neq in O1. apply Nat.eqb_neq in O2. apply nonpos_false in W.
    destruct (intern_inv _ _ _ _ _ _ _ H I1) as (H1 & N1 & (m1 & T1) & _ & _ & U1 & L1 & B1 & _ & X1 & _ & _ & Q1 & RB1).
    destruct (intern_inv _ _ _ _ _ _ _ H1 I2) as (H2 & N2 & (m2 & T2) & _ & _ & U2 & L2 & B2 & _ & X2 & _ & _ & Q2 & RB2).
    destruct (intern_inv _ _ _ _ _ _ _ H2 I3) as (H3 & N3 & (m3 & T3) & _ & _ & U3 & L3 & B3 & _ & X3 & _ & _ & Q3 & RB3).
    assert (N2' : nth_error (tolabel g3) rhs1 = Some a). { rewrite T3, nth_error_app1; [assumption|]. apply nth_error_Some. congruence. }
    assert (N1' : nth_error (tolabel g3) lhs = Some l).
    { assert (X : lhs < length (tolabel g1)) by (apply nth_error_Some; congruence). rewrite T3, T2, nth_error_app1, nth_error_app1; [assumption|assumption|]. rewrite app_length. lia. }
    assert (A1 : lhs < length (tolabel g3)) by (apply nth_error_Some; congruence). assert (A2 : rhs1 < length (tolabel g3)) by (apply nth_error_Some; congruence). assert (A3 : rhs2 < length (tolabel g3)) by (apply nth_error_Some; congruence).
    set (k := (lhs, rhs1, rhs2, args (yc_enc c), lengths (yc_enc c))).
    assert (R : inrange (length (tolabel g3)) k) by (unfold inrange, k; cbn; lia).
    assert (M : matches (tolabel g3) k (([l; a; b], yf, w) : rline) = true).
    { apply matches_spec. unfold rl_labels, rl_enc, klabels, k. cbn. rewrite RY. cbn. rewrite (nth_error_nth _ _ [] N1'), (nth_error_nth _ _ [] N2'), (nth_error_nth _ _ [] N3). split; [|destruct (yc_enc c); reflexivity].
      destruct rhs2; [lia|reflexivity]. }
    destruct (addrule_inv _ _ _ _ _ _ H3 R W M eq_refl) as (H4 & _ & _ & _ & X4 & Q4).
    split; [assumption|]. split; [|split; [|split; congruence]].
    + intros P. apply addrule_pinv; [assumption|assumption|assumption|reflexivity|]. eapply intern_pinv; [exact H2|exact I3|]. eapply intern_pinv; [exact H1|exact I2|]. eapply intern_pinv; [exact H|exact I1|exact P].
    + eapply exts_trans; [apply exts_more with (g' := g1) (m := m1); congruence|]. eapply exts_trans; [apply exts_more with (g' := g2) (m := m2); congruence|]. eapply exts_trans; [apply exts_more with (g' := g3) (m := m3); congruence|]. apply addrule_exts.
Qed.
Lemma convertrules_inv : forall lines g h lh g', inv g h lh -> fold_opt convertrule g lines = Some g' ->
  inv g' (h ++ lines) lh /\ (pinv g h lh -> pinv g' (h ++ lines) lh) /\ exts g g' /\ lexical g' = lexical g /\ lexbyword g' = lexbyword g.
Proof.
  induction lines as [|ln lines IH]; intros g h lh g' H E; cbn in E.
  - injection E as <-. rewrite app_nil_r. split; [assumption|]. split; [auto|]. split; [apply exts_refl|]. auto.
  - destruct (convertrule g ln) as [g1|] eqn:C; [|discriminate]. destruct (convertrule_inv _ _ _ _ _ H C) as (A1 & A2 & A3 & A4 & A5).
    destruct (IH _ _ _ _ A1 E) as (B1 & B2 & B3 & B4 & B5). rewrite <- app_assoc in *. cbn in *. split; [assumption|]. split; [auto|]. split; [eapply exts_trans; eauto|]. split; congruence.
Qed.

(** ** Lexical rules *)
Lemma setword_wordrules : forall g w l g' x, lexbyword g' = setword (lexbyword g) w l -> wordrules g' x = if eqs x w then l else wordrules g x.
Proof. intros g w l g' x E. unfold wordrules. rewrite E, setword_lookup. now destruct (eqs x w). Qed.
(** permuting the list of a word *)
Lemma permword_inv : forall g h lh w l, inv g h lh -> Permutation l (wordrules g w) ->
  let g' := mkGram (toid g) (tolabel g) (freqmass g) (fanouts g) (rulenos g) (rulecounts g) (bylhs g) (unary g) (lbinary g) (rbinary g) (lexical g) (lexcounts g) (setword (lexbyword g) w l) in
  inv g' h lh /\ (pinv g h lh -> pinv g' h lh).
Proof.
  intros g h lh w l H P g'. assert (IW : forall x n, In n (wordrules g' x) <-> In n (wordrules g x)).
  { intros x n. unfold g'. rewrite (setword_wordrules g w l) by reflexivity. destruct (eqs x w) eqn:E; [|reflexivity]. apply eqs_eq in E. subst. split; apply Permutation_in; [|symmetry]; assumption. }
  split.
  - destruct H as [H1 H2 H3 H3' H4 H5 H6 H7 H8 H9 H10 H11 H12 H13 H14 H15 H16 H17 H18 H19 H20 H21 H22 H23 H24 H25 H26 H27]. constructor; auto.
    + intros x n Hn. apply IW in Hn. now apply H18.
    + intros n Hn. destruct (H19 n Hn) as [x Hx]. exists x. now apply IW.
    + intros x x' n A B. apply IW in A. apply IW in B. eapply H20; eauto.
    + intros x n n' A B. apply IW in A. apply IW in B. apply (H21 x); auto.
    + intros x. unfold g'. rewrite (setword_wordrules g w l) by reflexivity. destruct (eqs x w) eqn:E; [|apply H22]. eapply Permutation_NoDup; [symmetry; exact P|apply H22].
    + intros e He. destruct (H23 e He) as (n & A & B). exists n. split; [now apply IW|assumption].
    + intros x n Hn. apply IW in Hn. now apply H27.
  - intros [P1 P2]. constructor; [assumption|]. intros x n Hn. apply IW in Hn. now apply P2.
Qed.
Lemma enumerate_map_fst_nth : forall (l : list (nat * Qc)) n, n < length l -> In (n, fst (nth n l (0, 0%Qc))) (enumerate 0 (map fst l)).
Proof.
  intros l n H. apply enumerate_in. cbn [fst snd]. split; [lia|]. rewrite Nat.sub_0_r. rewrite nth_error_map. rewrite (nth_error_nth' l (0, 0%Qc) H). reflexivity.
Qed.
Lemma converttag_inv : forall word g h lh tag w g', inv g h lh -> converttag word g (tag, w) = Some g' ->
  inv g' h (lh ++ [(word, tag, w)]) /\ (pinv g h lh -> pinv g' h (lh ++ [(word, tag, w)])) /\ exts g g'.
Proof.
  intros word g0 h lh tag w g' H0 E. cbn [converttag] in E. destruct (intern_lhs g0 tag 1) as [[lhs g]|] eqn:I1; [|discriminate].
  assert (LHS1 : nth lhs (fanouts g) 0%N = 1%N).
  { pose proof I1 as J. unfold intern_lhs in J. destruct (lookup eqs tag (toid g0)) as [i|] eqn:L.
    - destruct (N.eqb_spec (nth i (fanouts g0) 0%N) 1) as [F|]; [|discriminate]. injection J as <- <-. assumption.
    - apply intern_lhs_some in I1. eapply intern_inv; eauto. }
  apply intern_lhs_some in I1. destruct (intern_inv _ _ _ _ _ _ _ H0 I1) as (H & N1 & (m1 & T1) & _ & _ & U1 & L1 & B1 & _ & X1 & _ & _ & Q1 & RB1).
  pose proof (intern_pinv _ _ _ _ _ _ _ H0 I1) as PI.
  assert (EX : exts g0 g) by (eapply exts_more; eassumption). clear H0 I1 T1 U1 L1 B1 X1 Q1 RB1 m1.
  destruct (nonpos w) eqn:W; [discriminate|]. apply nonpos_false in W.
  assert (LT : lhs < length (tolabel g)) by (apply nth_error_Some; congruence).
  assert (NM : name g lhs = tag) by (eapply inv_names; eauto).
  assert (GE : 1 <= lhs). { destruct lhs; [|lia]. pose proof (i_eps _ _ _ H). congruence. }
  assert (TAG : forall i, i < length (tolabel g) -> eqs tag (name g i) = (lhs =? i)).
  { intros i Hi. rewrite <- NM. destruct (Nat.eqb_spec lhs i) as [->|NE]; [apply eqs_refl|]. apply eqs_neq. intros X. apply NE. eapply inv_name_inj; eauto. }
  assert (MASS : forall i, i < length (tolabel g) -> get (upd (freqmass g) lhs (Qcplus w)) i = (get (freqmass g) i + (if lhs =? i then w else 0))%Qc).
  { intros i Hi. rewrite get_upd by (rewrite (i_freq _ _ _ H); lia). rewrite Nat.eqb_sym. destruct (lhs =? i); ring. }
  set (e0 := (word, tag, w) : entry).
  destruct (find _ (wordrules g word)) as [n|] eqn:F; injection E as <-.
  - apply find_some in F. destruct F as [Fn Fe]. apply Nat.eqb_eq in Fe. change (fst (nth n (lexical g) (0, 0%Qc))) with (lexlhs g n) in Fe.
    assert (Hn : n < length (lexcounts g)) by (rewrite (i_lcnt _ _ _ H); eapply i_lex; eauto).
    pose proof (i_lrng _ _ _ H) as LR. pose proof (i_lex _ _ _ H) as LX. pose proof (i_lexfun _ _ _ H) as LF. pose proof (i_lexinj _ _ _ H) as LI.
    split; [|split; [|exact (exts_trans _ _ _ EX (exts_same g _ eq_refl eq_refl eq_refl eq_refl eq_refl))]].
    + destruct H as [H1 H2 H3 H3' H4 H5 H6 H7 H8 H9 H10 H11 H12 H13 H14 H15 H16 H17 H18 H19 H20 H21 H22 H23 H24 H25 H26 H27].
      constructor; cbn [tolabel toid freqmass fanouts rulenos rulecounts bylhs unary lbinary rbinary lexical lexcounts lexbyword]; auto.
      * now rewrite upd_length.
      * intros i Hi. rewrite MASS, total_app by assumption. cbn [total fold_right]. rewrite H14 by assumption. unfold name in TAG |- *. cbn [tolabel]. cbn [e0 en_tag fst snd en_weight]. rewrite TAG by assumption. destruct (lhs =? i); ring.
      * intros i Hi. rewrite MASS by assumption. change (kns (mkGram _ _ _ _ _ _ _ _ _ _ _ _ _)) with (kns g). change (lxs (mkGram _ _ _ _ _ _ _ _ _ _ _ _ _)) with (lxs g).
        rewrite (total_upd _ fst (fun p => snd p =? i) (lexcounts g) (lxs g) (n, lexlhs g n) n w); [|unfold lxs; rewrite enumerate_fst; apply seq_NoDup|apply enumerate_map_fst_nth; lia|reflexivity|assumption].
        cbn [fst snd]. rewrite Fe. rewrite H15 by assumption. destruct (lhs =? i); ring.
      * now rewrite upd_length.
      * intros x k Hk. destruct (H18 x k Hk) as [A B]. split; [assumption|]. rewrite get_upd by assumption. rewrite total_app. cbn [total fold_right e0 en_word en_tag en_weight fst snd].
        unfold name in TAG |- *. unfold lexlhs in *. cbn [tolabel lexical]. rewrite TAG by (apply H17; assumption).
        destruct (Nat.eqb_spec k n) as [->|NE].
        -- assert (x = word) by (eapply H20; eauto). subst x. rewrite eqs_refl, Fe, Nat.eqb_refl. cbn [andb]. rewrite B. unfold name, lexlhs. rewrite Fe. ring.
        -- destruct (eqs word x) eqn:Ex; cbn [andb]; [|rewrite B; unfold name, lexlhs; ring]. apply eqs_eq in Ex. subst x. destruct (Nat.eqb_spec lhs (fst (nth k (lexical g) (0, 0%Qc)))) as [X|X]; [|rewrite B; unfold name, lexlhs; ring].
           exfalso. apply NE. eapply LI; eauto. unfold lexlhs. congruence.
      * intros e He. apply in_app_or in He. destruct He as [He|[<-|[]]]; [now apply H23|]. exists n. cbn [e0 en_word en_tag fst snd]. split; [assumption|]. rewrite <- NM. unfold name, lexlhs in *. cbn [lexical tolabel]. now rewrite Fe.
      * intros e He. apply in_app_or in He. destruct He as [He|[<-|[]]]; [now apply H25|assumption].
      * intros x k Hk. destruct (H27 x k Hk) as (e & A & B). exists e. split; [apply in_or_app; now left|assumption].
    + intros P. destruct (PI P) as [P1 P2]. constructor; [assumption|]. intros x k Hk. destruct (P2 x k Hk) as (e & A & B). exists e. split; [apply in_or_app; now left|assumption].
  - pose proof (find_none _ _ F) as FN. clear F.
    pose proof (i_lrng _ _ _ H) as LR. pose proof (i_lex _ _ _ H) as LX. pose proof (i_lexfun _ _ _ H) as LF. pose proof (i_lexinj _ _ _ H) as LI.
    set (n := length (lexical g)) in *.
    match goal with |- inv ?G _ _ /\ _ => set (g' := G) end.
    assert (WR : forall x, wordrules g' x = if eqs x word then wordrules g word ++ [n] else wordrules g x) by (intros x; apply setword_wordrules; reflexivity).
    assert (LH : forall k, k < n -> nth k (lexical g') (0, 0%Qc) = nth k (lexical g) (0, 0%Qc)) by (intros k Hk; unfold g'; cbn [lexical]; now apply app_nth1).
    assert (LN : nth n (lexical g') (0, 0%Qc) = (lhs, w)) by (unfold g'; cbn [lexical]; apply nth_snoc_new).
    assert (CASE : forall x k, In k (wordrules g' x) -> (In k (wordrules g x) /\ k < n) \/ (x = word /\ k = n)).
    { intros x k Hk. rewrite WR in Hk. destruct (eqs x word) eqn:Ex.
      - apply eqs_eq in Ex. subst. apply in_app_or in Hk. destruct Hk as [Hk|[<-|[]]]; [left; split; [assumption|now apply LX in Hk]|auto].
      - left. split; [assumption|]. now apply LX in Hk. }
    assert (OLD : forall x k, In k (wordrules g x) -> In k (wordrules g' x)).
    { intros x k Hk. rewrite WR. destruct (eqs x word) eqn:Ex; [|assumption]. apply eqs_eq in Ex. subst. apply in_or_app. now left. }
    split; [|split].
    + destruct H as [H1 H2 H3 H3' H4 H5 H6 H7 H8 H9 H10 H11 H12 H13 H14 H15 H16 H17 H18 H19 H20 H21 H22 H23 H24 H25 H26 H27].
      constructor; unfold g'; cbn [tolabel toid freqmass fanouts rulenos rulecounts bylhs unary lbinary rbinary lexcounts lexbyword]; fold g'; auto.
      * now rewrite upd_length.
      * intros i Hi. rewrite MASS, total_app by assumption. cbn [total fold_right]. rewrite H14 by assumption. unfold name in TAG |- *. cbn [tolabel g']. cbn [e0 en_tag fst snd en_weight]. rewrite TAG by assumption. destruct (lhs =? i); ring.
      * intros i Hi. rewrite MASS by assumption. change (kns g') with (kns g). unfold lxs, g'. cbn [lexical]. rewrite map_app, enumerate_app, total_app. cbn [map enumerate total fold_right fst snd].
        rewrite map_length, Nat.add_0_l. fold n. rewrite get_snoc, H16, Nat.eqb_refl.
        rewrite (total_ext _ (fun p => get (lexcounts g ++ [w]) (fst p)) (fun p => get (lexcounts g) (fst p)) (fun p => snd p =? i) (fun p => snd p =? i) (enumerate 0 (map fst (lexical g)))); [|reflexivity|].
        -- rewrite H15 by assumption. unfold lxs. destruct (lhs =? i); ring.
        -- intros [k v] X _. cbn [fst]. rewrite get_snoc, H16. apply enumerate_in in X. cbn [fst snd] in X. rewrite Nat.sub_0_r in X. assert (k < length (map fst (lexical g))) by (apply nth_error_Some; destruct X; congruence).
           rewrite map_length in H. destruct (Nat.eqb_spec k (length (lexical g))); [lia|reflexivity].
      * unfold g'. cbn [lexical]. rewrite !app_length. cbn. now rewrite H16.
      * intros k Hk. unfold g' in Hk. cbn [lexical] in Hk. rewrite app_length in Hk. cbn in Hk. fold n in Hk. unfold lexlhs. destruct (Nat.eq_dec k n) as [->|NE]; [rewrite LN; cbn [fst]; lia|].
        rewrite LH by lia. apply H17. unfold n in *; lia.
      * intros x k Hk. rewrite get_snoc, H16. unfold lexlhs. unfold g' at 1. cbn [lexical]. rewrite app_length. cbn [length]. destruct (CASE x k Hk) as [[A B]|[-> ->]].
        -- split; [unfold n in *; lia|]. destruct (Nat.eqb_spec k (length (lexical g))); [unfold n in *; lia|]. destruct (H18 x k A) as [_ C]. rewrite C, LH by assumption. rewrite total_app. cbn [total fold_right e0 en_word en_tag en_weight fst snd]. unfold name, lexlhs in *. unfold g'. cbn [tolabel].
           destruct (eqs word x) eqn:Ex; cbn [andb]; [|ring]. rewrite TAG by (apply H17; unfold n in *; lia). destruct (Nat.eqb_spec lhs (fst (nth k (lexical g) (0, 0%Qc)))) as [X|X]; [|ring].
           exfalso. apply eqs_eq in Ex. subst x. specialize (FN k A). cbn in FN. apply Nat.eqb_neq in FN. congruence.
        -- split; [unfold n; lia|]. fold n. rewrite Nat.eqb_refl, LN. cbn [fst]. rewrite total_app. cbn [total fold_right e0 en_word en_tag en_weight fst snd].
           unfold name in *. unfold g'. cbn [tolabel]. rewrite eqs_refl, TAG, Nat.eqb_refl by assumption. cbn [andb]. rewrite total_none; [ring|].
           intros e He. destruct (H23 e He) as (k & A & B). destruct (eqs (en_word e) word) eqn:Ex; [|reflexivity]. cbn [andb]. apply eqs_eq in Ex. apply eqs_neq. intros X. rewrite Ex in A.
           specialize (FN k A). cbn in FN. apply Nat.eqb_neq in FN. apply FN. change (lexlhs g k = lhs). rewrite <- B in X. apply (inv_name_inj g h lh); [constructor; assumption| |assumption|exact X].
           apply H17. now apply H18 in A.
      * intros k Hk. unfold g' in Hk. cbn [lexical] in Hk. rewrite app_length in Hk. cbn in Hk. fold n in Hk. destruct (Nat.eq_dec k n) as [->|NE].
        -- exists word. rewrite WR, eqs_refl. apply in_or_app. right. now left.
        -- destruct (H19 k) as [x Hx]; [unfold n in *; lia|]. exists x. auto.
      * intros x x' k A B. destruct (CASE x k A) as [[A1 A2]|[A1 A2]], (CASE x' k B) as [[B1 B2]|[B1 B2]]; [eapply H20; eauto|lia|lia|congruence].
      * intros x k k' A B. unfold lexlhs. destruct (CASE x k A) as [[A1 A2]|[A1 A2]], (CASE x k' B) as [[B1 B2]|[B1 B2]].
        -- rewrite !LH by assumption. apply (LI x); assumption.
        -- subst. rewrite LN, LH by assumption. cbn [fst]. intros X. exfalso. specialize (FN k A1). cbn in FN. apply Nat.eqb_neq in FN. contradiction.
        -- subst. rewrite LN, LH by assumption. cbn [fst]. intros X. exfalso. specialize (FN k' B1). cbn in FN. apply Nat.eqb_neq in FN. congruence.
        -- congruence.
      * intros x. rewrite WR. destruct (eqs x word); [|apply H22]. apply Permutation_NoDup with (n :: wordrules g word); [apply Permutation_cons_append|]. constructor; [|apply H22].
        intros X. apply LX in X. unfold n in X. lia.
      * intros e He. apply in_app_or in He. destruct He as [He|[<-|[]]].
        -- destruct (H23 e He) as (k & A & B). exists k. split; [auto|]. unfold lexlhs. rewrite LH by (now apply LX in A). exact B.
        -- exists n. cbn [e0 en_word en_tag fst snd]. split; [rewrite WR, eqs_refl; apply in_or_app; right; now left|]. unfold lexlhs. rewrite LN. exact NM.
      * intros e He. apply in_app_or in He. destruct He as [He|[<-|[]]]; [now apply H25|assumption].
      * intros x k Hk. destruct (CASE x k Hk) as [[A1 A2]|[-> ->]].
        -- destruct (H27 x k A1) as (e & A & B & C). exists e. unfold lexlhs. rewrite LH by assumption. split; [apply in_or_app; now left|]. auto.
        -- exists e0. unfold lexlhs. rewrite LN. cbn [fst snd e0 en_word en_tag]. split; [apply in_or_app; right; now left|]. auto.
    + intros P. destruct (PI P) as [P1 P2]. constructor; [assumption|]. intros x k Hk. destruct (CASE x k Hk) as [[A1 A2]|[-> ->]].
      * destruct (P2 x k A1) as (e & A & B & C & D). exists e. unfold lexlhs. rewrite LH by assumption. split; [apply in_or_app; now left|]. auto.
      * exists e0. unfold lexlhs. rewrite LN. cbn [fst snd e0 en_word en_tag en_weight]. split; [apply in_or_app; right; now left|]. auto.
    + eapply exts_trans; [exact EX|]. apply exts_same; reflexivity.
Qed.

(** ** Sorting and merging *)
Definition strict_weak {A} (lt : A -> A -> bool) : Prop :=
  (forall a, lt a a = false) /\ (forall a b c, lt a b = true -> lt b c = true -> lt a c = true) /\
  (forall a b c, lt a b = false -> lt b c = false -> lt a c = false).
(** the contract of std::sort *)
Definition sorts {A} (s : (A -> A -> bool) -> list A -> list A) : Prop :=
  forall lt l, strict_weak lt -> Permutation (s lt l) l /\ StronglySorted (fun a b => lt b a = false) (s lt l).
Definition fsorted {A} (f : A -> nat) (l : list A) : Prop := StronglySorted (fun a b => f a <= f b) l.

Lemma imerge_nil_l : forall A lt (b : list A), imerge lt [] b = b.
Proof. intros. destruct b; reflexivity. Qed.
Lemma imerge_nil_r : forall A lt (a : list A), imerge lt a [] = a.
Proof. intros. destruct a; reflexivity. Qed.
Lemma imerge_cons : forall A lt (x y : A) a b, imerge lt (x :: a) (y :: b) = if lt y x then y :: imerge lt (x :: a) b else x :: imerge lt a (y :: b).
Proof. reflexivity. Qed.
Lemma imerge_perm : forall A lt (a b : list A), Permutation (imerge lt a b) (a ++ b).
Proof.
  induction a as [|x a IHa]; [intros; now rewrite imerge_nil_l|]. induction b as [|y b IHb]; [now rewrite imerge_nil_r, app_nil_r|].
  rewrite imerge_cons. destruct (lt y x).
  - rewrite IHb. cbn. rewrite perm_swap. apply perm_skip. apply Permutation_middle.
  - cbn. apply perm_skip. apply IHa.
Qed.
Lemma imerge_fsorted : forall A lt (f : A -> nat) (a b : list A), (forall x y, lt y x = true -> f y <= f x) -> (forall x y, lt y x = false -> f x <= f y) ->
  fsorted f a -> fsorted f b -> fsorted f (imerge lt a b).
Proof.
  unfold fsorted. intros A lt f a b H1 H2. revert b. induction a as [|x a IHa]; [intros; now rewrite imerge_nil_l|]. induction b as [|y b IHb]; intros Sa Sb; [now rewrite imerge_nil_r|].
  rewrite imerge_cons. apply StronglySorted_inv in Sa as Sa'. apply StronglySorted_inv in Sb as Sb'. destruct Sa' as [Sa1 Sa2], Sb' as [Sb1 Sb2]. destruct (lt y x) eqn:E.
  - constructor; [now apply IHb|]. rewrite imerge_perm. apply H1 in E. cbn [app]. constructor; [assumption|]. apply Forall_app. split; [|assumption].
    eapply Forall_impl; [|exact Sa2]. cbn. intros z Hz. lia.
  - constructor; [now apply IHa|]. rewrite imerge_perm. apply H2 in E. apply Forall_app. split; [assumption|]. constructor; [assumption|].
    eapply Forall_impl; [|exact Sb2]. cbn. intros z Hz. lia.
Qed.
Lemma strict_weak_lex : forall A (f : A -> nat) (lt : A -> A -> bool), strict_weak lt -> strict_weak (fun a b => if f a =? f b then lt a b else f a <? f b).
Proof.
  intros A f lt (I & T & N). split; [|split].
  - intros a. now rewrite Nat.eqb_refl.
  - intros a b c. destruct (Nat.eqb_spec (f a) (f b)), (Nat.eqb_spec (f b) (f c)), (Nat.eqb_spec (f a) (f c)); rewrite ?Nat.ltb_lt; try lia. apply T.
  - intros a b c. destruct (Nat.eqb_spec (f a) (f b)), (Nat.eqb_spec (f b) (f c)), (Nat.eqb_spec (f a) (f c)); rewrite ?Nat.ltb_ge; try lia. apply N.
Qed.
Lemma strict_weak_nat : forall A (f : A -> nat), strict_weak (fun a b => f a <? f b).
Proof. intros. split; [|split]; intros *; rewrite ?Nat.ltb_lt, ?Nat.ltb_ge; lia. Qed.
Lemma strict_weak_Qc : forall A (f : A -> Qc), strict_weak (fun a b => Qc_ltb (f a) (f b)).
Proof.
  assert (L : forall x y, Qc_ltb x y = true <-> (this x < this y)%Q).
  { intros. unfold Qc_ltb. rewrite negb_true_iff. destruct (Qle_bool (this y) (this x)) eqn:E; split; try discriminate.
    - intros H. apply Qle_bool_iff in E. now apply Qle_not_lt in E.
    - intros _. apply Qnot_le_lt. intros X. apply Qle_bool_iff in X. congruence.
    - reflexivity. }
  assert (G : forall x y, Qc_ltb x y = false <-> (this y <= this x)%Q).
  { intros. unfold Qc_ltb. rewrite negb_false_iff. apply Qle_bool_iff. }
  intros A f. split; [|split]; intros *; rewrite ?L, ?G.
  - apply Qle_refl.
  - apply Qlt_trans.
  - intros X Y. eapply Qle_trans; eauto.
Qed.
Lemma lt0_sw : strict_weak lt0. Proof. apply (strict_weak_lex _ r_lhs (fun a b => r_no a <? r_no b)), strict_weak_nat. Qed.
Lemma lt1_sw : strict_weak lt1. Proof. apply (strict_weak_lex _ r_rhs1 (fun a b => r_lhs a <? r_lhs b)), strict_weak_nat. Qed.
Lemma lt2_sw : strict_weak lt2. Proof. apply (strict_weak_lex _ r_rhs2 (fun a b => Qc_ltb (r_prob a) (r_prob b))), strict_weak_Qc. Qed.
Lemma lex_refines : forall A (f : A -> nat) (lt : A -> A -> bool), 
  (forall x y, (if f y =? f x then lt y x else f y <? f x) = true -> f y <= f x) /\ (forall x y, (if f y =? f x then lt y x else f y <? f x) = false -> f x <= f y).
Proof. intros. split; intros x y; destruct (Nat.eqb_spec (f y) (f x)); rewrite ?Nat.ltb_lt, ?Nat.ltb_ge; lia. Qed.
Lemma ss_impl : forall A (R R' : A -> A -> Prop) l, (forall a b, R a b -> R' a b) -> StronglySorted R l -> StronglySorted R' l.
Proof. intros A R R' l H X. induction X as [|a l X IH F]; constructor; auto. eapply Forall_impl; [|exact F]. cbn. auto. Qed.

Section Sorter.
Variable sortr : (prule -> prule -> bool) -> list prule -> list prule.
Variable sortn : (nat -> nat -> bool) -> list nat -> list nat.
Hypothesis SR : sorts sortr.
Hypothesis SN : sorts sortn.

Lemma resort_perm : forall lt n rs, strict_weak lt -> Permutation (resort sortr lt n rs) rs.
Proof using SR. intros lt n rs W. unfold resort. rewrite imerge_perm. destruct (SR lt (skipn n rs) W) as [P _]. rewrite P. now rewrite firstn_skipn. Qed.
Lemma resort_fsorted : forall (f : prule -> nat) ltx old new, 
  strict_weak (fun a b => if f a =? f b then ltx a b else f a <? f b) -> fsorted f old -> fsorted f (resort sortr (fun a b => if f a =? f b then ltx a b else f a <? f b) (length old) (old ++ new)).
Proof using SR.
  intros f ltx old new W H. unfold resort. rewrite firstn_app, Nat.sub_diag, firstn_all, firstn_O, app_nil_r, skipn_app, Nat.sub_diag, skipn_all. cbn [app skipn].
  destruct (lex_refines _ f ltx) as [A B]. apply imerge_fsorted; auto. destruct (SR _ new W) as [_ X]. eapply ss_impl; [|exact X]. cbn. auto.
Qed.

Lemma convertword_inv : forall dup g h lh line g', inv g h lh -> convertword sortn dup g line = Some g' ->
  inv g' h (lh ++ entries [line]) /\ (pinv g h lh -> pinv g' h (lh ++ entries [line])) /\ exts g g'.
Proof using SN.
  intros dup g h lh [word tags] g' H E. unfold entries. cbn [flat_map fst snd]. rewrite app_nil_r. unfold convertword in E.
  destruct tags as [|tw0 tags0]; [discriminate|]. set (tags := tw0 :: tags0) in *. clearbody tags. destruct (dup && _); [discriminate|].
  destruct (permword_inv g h lh word (wordrules g word) H (Permutation_refl _)) as [H1 P1].
  set (g1 := mkGram _ _ _ _ _ _ _ _ _ _ _ _ _) in *.
  assert (X1 : exts g g1) by (apply exts_same; reflexivity).
  set (orig := length (wordrules g1 word)) in *.
  destruct (fold_opt (converttag word) g1 tags) as [g2|] eqn:F; [|discriminate]. injection E as <-.
  assert (X2 : inv g2 h (lh ++ map (fun tw => (word, fst tw, snd tw)) tags) /\ (pinv g1 h lh -> pinv g2 h (lh ++ map (fun tw => (word, fst tw, snd tw)) tags)) /\ exts g1 g2).
  { clearbody g1 orig. clear - H1 F. revert g1 lh H1 F. induction tags as [|[t w] tags IH]; intros g1 lh H1 F; cbn [fold_opt map] in *.
    - injection F as <-. rewrite app_nil_r. split; [assumption|]. split; [auto|apply exts_refl].
    - destruct (converttag word g1 (t, w)) as [g3|] eqn:C; [|discriminate]. destruct (converttag_inv _ _ _ _ _ _ _ H1 C) as (A1 & A2 & A3).
      destruct (IH _ _ A1 F) as (B1 & B2 & B3). rewrite <- app_assoc in *. cbn [app fst snd] in *. split; [assumption|]. split; [auto|eapply exts_trans; eauto]. }
  destruct X2 as (A1 & A2 & A3).
  assert (P : Permutation (imerge (lexlt g2) (firstn orig (wordrules g2 word)) (sortn (lexlt g2) (skipn orig (wordrules g2 word)))) (wordrules g2 word)).
  { rewrite imerge_perm. destruct (SN (lexlt g2) (skipn orig (wordrules g2 word))) as [P _]; [apply (strict_weak_nat _ (fun n => fst (nth n (lexical g2) (0, 0%Qc))))|]. rewrite P. now rewrite firstn_skipn. }
  destruct (permword_inv g2 h _ word _ A1 P) as [B1 B2]. split; [exact B1|]. split; [auto|]. eapply exts_trans; [exact X1|]. eapply exts_trans; [exact A3|]. apply exts_same; reflexivity.
Qed.
Lemma entries_app : forall a b, entries (a ++ b) = entries a ++ entries b.
Proof. intros. unfold entries. apply flat_map_app. Qed.
Lemma convertlexicon_inv : forall dup lines g h lh g', inv g h lh -> fold_opt (convertword sortn dup) g lines = Some g' ->
  inv g' h (lh ++ entries lines) /\ (pinv g h lh -> pinv g' h (lh ++ entries lines)) /\ exts g g'.
Proof using SN.
  induction lines as [|ln lines IH]; intros g h lh g' H E; cbn [fold_opt] in E.
  - injection E as <-. unfold entries. cbn. rewrite app_nil_r. split; [assumption|]. split; [auto|apply exts_refl].
  - destruct (convertword sortn dup g ln) as [g1|] eqn:C; [|discriminate]. destruct (convertword_inv _ _ _ _ _ _ H C) as (A1 & A2 & A3).
    destruct (IH _ _ _ _ A1 E) as (B1 & B2 & B3). rewrite <- app_assoc, <- entries_app in *. cbn [app] in *. split; [assumption|]. split; [auto|eapply exts_trans; eauto].
Qed.

(** ** Changing probabilities and the order of the arrays *)
Lemma kns_map : forall (f : prule -> prule) l, (forall r, r_key (f r) = r_key r /\ r_no (f r) = r_no r) -> map (fun r => (r_key r, r_no r)) (map f l) = map (fun r => (r_key r, r_no r)) l.
Proof. intros f l H. rewrite map_map. apply map_ext. intros r. destruct (H r) as [-> ->]. reflexivity. Qed.
Lemma filter_map_key : forall (f : prule -> prule) P l, (forall r, In r l -> r_rhs2 (f r) = r_rhs2 r) -> filter (fun r => P (r_rhs2 r)) (map f l) = map f (filter (fun r => P (r_rhs2 r)) l).
Proof.
  intros f P l H. induction l as [|r l IH]; [reflexivity|]. cbn. rewrite IH by (intros; apply H; now right). rewrite (H r (or_introl eq_refl)). destruct (P (r_rhs2 r)); reflexivity.
Qed.
(** new probabilities, by rules; new lexical probabilities; the same keys *)
Lemma reprob_inv : forall g h lh b u l r lx, inv g h lh ->
  map (fun r => (r_key r, r_no r)) b = kns g -> map fst lx = map fst (lexical g) ->
  Permutation u (filter (fun r => r_rhs2 r =? 0) b) -> Permutation l (filter (fun r => negb (r_rhs2 r =? 0)) b) -> Permutation r (filter (fun r => negb (r_rhs2 r =? 0)) b) ->
  inv (mkGram (toid g) (tolabel g) (freqmass g) (fanouts g) (rulenos g) (rulecounts g) b u l r lx (lexcounts g) (lexbyword g)) h lh.
Proof using.
  intros g h lh b u l r lx H KB LX PU PL PR.
  assert (LL : length lx = length (lexical g)) by (rewrite <- (map_length fst lx), LX; apply map_length).
  assert (LB : length b = length (bylhs g)) by (rewrite <- (map_length (fun r => (r_key r, r_no r)) b), KB; apply map_length).
  assert (LH : forall g', lexical g' = lx -> forall n, lexlhs g' n = lexlhs g n).
  { intros g' E n. unfold lexlhs. rewrite E. rewrite <- !(map_nth fst). now rewrite LX. }
  destruct H as [H1 H2 H3 H3' H4 H5 H6 H7 H8 H9 H10 H11 H12 H13 H14 H15 H16 H17 H18 H19 H20 H21 H22 H23 H24 H25 H26 H27].
  match goal with |- inv ?G _ _ => set (g' := G) end.
  assert (K : kns g' = kns g) by exact KB. assert (W : forall w, wordrules g' w = wordrules g w) by reflexivity. assert (LX' : lxs g' = lxs g) by (unfold lxs, g'; cbn [lexical]; now rewrite LX).
  pose proof (LH g' eq_refl) as LH'.
  constructor; try (rewrite K); try (setoid_rewrite K); try (setoid_rewrite LX'); try (setoid_rewrite W); try (setoid_rewrite LH'); unfold g'; cbn [tolabel toid freqmass fanouts rulenos rulecounts bylhs unary lbinary rbinary lexical lexcounts lexbyword]; rewrite ?LL, ?LB; auto.
  intros w n Hn. destruct (H18 w n Hn) as [A B]. split; [assumption|]. rewrite B. apply total_ext; [|reflexivity]. intros e _. fold g'. rewrite LH'. reflexivity.
Qed.

Lemma normalize_inv : forall g h lh, inv g h lh -> inv (normalize g) h lh.
Proof using.
  intros g h lh H. unfold normalize. set (f := fun r => mkRule (r_key r) (r_no r) (r_prob r / get (freqmass g) (r_lhs r))%Qc).
  apply reprob_inv; auto.
  - apply kns_map. intros r. split; reflexivity.
  - rewrite map_map. apply map_ext. reflexivity.
  - rewrite (filter_map_key f (fun x => x =? 0)) by reflexivity. apply Permutation_map. apply (i_un _ _ _ H).
  - rewrite (filter_map_key f (fun x => negb (x =? 0))) by reflexivity. apply Permutation_map. apply (i_lb _ _ _ H).
  - rewrite (filter_map_key f (fun x => negb (x =? 0))) by reflexivity. apply Permutation_map. apply (i_rb _ _ _ H).
Qed.
Lemma byno_in : forall rs r, NoDup (map r_no rs) -> In r rs -> byno rs (r_no r) = Some r.
Proof.
  induction rs as [|x rs IH]; intros r ND I; [contradiction|]. cbn in ND. inversion ND as [|? ? N1 N2]; subst. cbn. destruct I as [->|I]; [now rewrite Nat.eqb_refl|].
  destruct (Nat.eqb_spec (r_no x) (r_no r)) as [E|]; [|now apply IH]. exfalso. apply N1. rewrite E. now apply in_map.
Qed.
Lemma nodup_nos : forall g h lh, inv g h lh -> NoDup (map r_no (bylhs g)).
Proof. intros g h lh H. pose proof (kns_nodup _ _ _ H) as X. unfold kns in X. rewrite map_map in X. exact X. Qed.
Lemma switch_inv : forall g h lh, inv g h lh -> inv (switch g) h lh.
Proof using.
  intros g h lh H. unfold switch. set (f := fun r => mkRule (r_key r) (r_no r) (get (rulecounts g) (r_no r) / get (freqmass g) (r_lhs r))%Qc). set (rs := map f (bylhs g)).
  set (h' := fun r => mkRule (r_key r) (r_no r) match byno rs (r_no r) with Some r' => r_prob r' | None => r_prob r end).
  assert (ND : NoDup (map r_no rs)). { unfold rs. rewrite map_map. cbn. eapply nodup_nos; eauto. }
  assert (HF : forall r, In r (bylhs g) -> h' r = f r).
  { intros r Hr. unfold h'. assert (X : byno rs (r_no r) = Some (f r)). { change (r_no r) with (r_no (f r)). apply byno_in; auto. unfold rs. now apply in_map. } rewrite X. reflexivity. }
  assert (P : forall Q a, Permutation a (filter (fun r => Q (r_rhs2 r)) (bylhs g)) -> Permutation (map h' a) (filter (fun r => Q (r_rhs2 r)) rs)).
  { intros Q a Pa. unfold rs. rewrite (filter_map_key f Q) by reflexivity. rewrite Pa. erewrite map_ext_in; [reflexivity|]. intros r Hr. apply HF. now apply filter_In in Hr. }
  apply reprob_inv; auto.
  - apply kns_map. intros r. split; reflexivity.
  - rewrite map_map. cbn [fst]. clear. assert (X : forall l k, map (fun p : nat * (nat * Qc) => fst (snd p)) (combine (seq k (length l)) l) = map fst l).
    { induction l as [|x l IH]; intros k; [reflexivity|]. cbn. now rewrite IH. } apply X.
  - apply (P (fun x => x =? 0)), (i_un _ _ _ H).
  - apply (P (fun x => negb (x =? 0))), (i_lb _ _ _ H).
  - apply (P (fun x => negb (x =? 0))), (i_rb _ _ _ H).
Qed.
Lemma filter_perm : forall A (P : A -> bool) l m, Permutation l m -> Permutation (filter P l) (filter P m).
Proof. induction 1; cbn; auto; [destruct (P x); auto|destruct (P x), (P y); auto using perm_swap|eapply perm_trans; eauto]. Qed.
(** permuting the arrays *)
Lemma reorder_inv : forall g h lh b u l r, inv g h lh -> Permutation b (bylhs g) -> Permutation u (unary g) -> Permutation l (lbinary g) -> Permutation r (rbinary g) ->
  inv (mkGram (toid g) (tolabel g) (freqmass g) (fanouts g) (rulenos g) (rulecounts g) b u l r (lexical g) (lexcounts g) (lexbyword g)) h lh.
Proof using.
  intros g h lh b u l r H PB PU PL PR.
  assert (LB : length b = length (bylhs g)) by now apply Permutation_length.
  match goal with |- inv ?G _ _ => set (g' := G) end.
  assert (K : Permutation (kns g') (kns g)) by (unfold kns, g'; cbn [bylhs]; now apply Permutation_map).
  assert (KI : forall p, In p (kns g') <-> In p (kns g)) by (intros p; split; apply Permutation_in; [|symmetry]; assumption).
  destruct H as [H1 H2 H3 H3' H4 H5 H6 H7 H8 H9 H10 H11 H12 H13 H14 H15 H16 H17 H18 H19 H20 H21 H22 H23 H24 H25 H26 H27].
  constructor; try (setoid_rewrite KI); unfold g'; cbn [tolabel toid freqmass fanouts rulenos rulecounts bylhs unary lbinary rbinary lexical lexcounts lexbyword]; fold g'; rewrite ?LB; auto.
  - rewrite K. assumption.
  - rewrite PU, H9. symmetry. now apply filter_perm.
  - rewrite PL, H10. symmetry. now apply filter_perm.
  - rewrite PR, H11. symmetry. now apply filter_perm.
  - intros i Hi. rewrite (total_perm _ _ _ _ _ K). now apply H15.
Qed.

Lemma combine_seq_in : forall A (l : list A) n x d, n < length l -> nth n l d = x -> In (n, x) (combine (seq 0 (length l)) l).
Proof.
  intros A l n x d H <-. pose proof (combine_nth (seq 0 (length l)) l n 0 d (seq_length _ _)) as X. rewrite seq_nth in X by assumption. cbn [Nat.add] in X. rewrite <- X. apply nth_In.
  rewrite combine_length, seq_length. lia.
Qed.
(** ** addrules *)
Definition asorted (g : gram) : Prop := fsorted r_lhs (bylhs g) /\ fsorted r_rhs1 (unary g) /\ fsorted r_rhs1 (lbinary g) /\ fsorted r_rhs2 (rbinary g).
Lemma fsorted_map : forall (f : prule -> nat) (k : prule -> prule) l, (forall r, f (k r) = f r) -> fsorted f l -> fsorted f (map k l).
Proof. intros f k l H. unfold fsorted. induction 1 as [|r l S IH F]; cbn; constructor; auto. rewrite Forall_map. eapply Forall_impl; [|exact F]. cbn. intros. now rewrite !H. Qed.
Lemma switch_asorted : forall g, asorted g -> asorted (switch g).
Proof using. intros g (A & B & C & D). repeat split; unfold switch; cbn [bylhs unary lbinary rbinary]; apply fsorted_map; auto. Qed.

(** each label is the lhs of a rule *)
Definition seen (g : gram) : Prop := forall i, 1 <= i < length (tolabel g) -> (exists r, In r (bylhs g) /\ r_lhs r = i) \/ (exists x, In x (lexical g) /\ fst x = i).
Lemma allseen_seen : forall g, allseen g = true -> seen g.
Proof.
  intros g H i Hi. unfold allseen in H. rewrite forallb_forall in H. specialize (H i). rewrite in_seq in H. specialize (H ltac:(lia)). apply orb_true_iff in H.
  destruct H as [H|H]; apply existsb_exists in H; destruct H as (x & A & B); apply Nat.eqb_eq in B; eauto.
Qed.
Definition defprob (g : gram) : Prop :=
  (forall r, In r (bylhs g) -> r_prob r = (get (rulecounts g) (r_no r) / get (freqmass g) (r_lhs r))%Qc) /\
  (forall n, n < length (lexical g) -> snd (nth n (lexical g) (0, 0%Qc)) = (get (lexcounts g) n / get (freqmass g) (lexlhs g n))%Qc).
Lemma switch_defprob : forall g, defprob (switch g).
Proof using.
  intros g. split.
  - intros r Hr. unfold switch in Hr. cbn [bylhs] in Hr. apply in_map_iff in Hr. destruct Hr as (x & <- & _). reflexivity.
  - intros n Hn. unfold lexlhs, switch in *. cbn [lexical lexcounts freqmass] in *. rewrite map_length, combine_length, seq_length, Nat.min_id in Hn.
    set (f := fun p : nat * (nat * Qc) => (fst (snd p), (get (lexcounts g) (fst p) / get (freqmass g) (fst (snd p)))%Qc)).
    assert (X : nth n (map f (combine (seq 0 (length (lexical g))) (lexical g))) (0, 0%Qc) = f (n, nth n (lexical g) (0, 0%Qc))).
    { rewrite (nth_indep _ _ (f (0, (0, 0%Qc)))) by (rewrite map_length, combine_length, seq_length; lia). rewrite map_nth. f_equal. rewrite combine_nth by apply seq_length. f_equal. now apply seq_nth. }
    rewrite X. reflexivity.
Qed.
Lemma addrules_inv : forall init g h lh rules lexicon g', inv g h lh -> asorted g -> addrules sortr sortn init g rules lexicon = Some g' ->
  inv g' (h ++ rules) (lh ++ entries lexicon) /\ asorted g' /\ seen g' /\ (init = false -> defprob g') /\ (exists m, tolabel g' = tolabel g ++ m).
Proof using SR SN.
  intros init g h lh rules lexicon g' H SO E. unfold addrules in E. destruct (convertrules g rules) as [g1|] eqn:C1; [|discriminate]. destruct (convertlexicon sortn init g1 lexicon) as [g2|] eqn:C2; [|discriminate].
  assert (C1' : fold_opt convertrule g rules = Some g1). { unfold convertrules in C1. destruct (fold_opt convertrule g rules) as [x|]; [|discriminate]. destruct (numrules x =? 0); [discriminate|assumption]. }
  assert (C2' : fold_opt (convertword sortn init) g1 lexicon = Some g2). { unfold convertlexicon in C2. destruct (fold_opt _ g1 lexicon) as [x|]; [|discriminate]. destruct (lexical x); [discriminate|assumption]. }
  destruct (convertrules_inv _ _ _ _ _ H C1') as (I1 & _ & X1 & _). destruct (convertlexicon_inv _ _ _ _ _ _ I1 C2') as (I2 & _ & X2).
  pose proof (exts_trans _ _ _ X1 X2) as ((n1 & B1) & (n2 & B2) & (n3 & B3) & (n4 & B4) & (n5 & B5)).
  assert (NR : numrules g = length (bylhs g)).
  { unfold numrules. rewrite (Permutation_length (i_un _ _ _ H)), (Permutation_length (i_lb _ _ _ H)). generalize (bylhs g) as l. induction l as [|r l IH]; [reflexivity|]. cbn. destruct (r_rhs2 r =? 0); cbn; lia. }
  assert (RB : length (lbinary g) = length (rbinary g)) by (rewrite (Permutation_length (i_lb _ _ _ H)), (Permutation_length (i_rb _ _ _ H)); reflexivity).
  destruct SO as (S1 & S2 & S3 & S4).
  set (g3 := if init then normalize g2 else g2) in *. destruct (allseen g3) eqn:AS; [|discriminate]. cbn [negb] in E. injection E as E.
  assert (I3 : inv g3 (h ++ rules) (lh ++ entries lexicon)) by (unfold g3; destruct init; [now apply normalize_inv|assumption]).
  assert (EX : exists f, (forall r, r_key (f r) = r_key r) /\ bylhs g3 = map f (bylhs g ++ n1) /\ unary g3 = map f (unary g ++ n2) /\ lbinary g3 = map f (lbinary g ++ n3) /\ rbinary g3 = map f (rbinary g ++ n4)).
  { unfold g3. destruct init.
    - eexists. unfold normalize. cbn [bylhs unary lbinary rbinary]. rewrite B1, B2, B3, B4. split; [|repeat split; reflexivity]. reflexivity.
    - exists (fun r => r). rewrite !map_id. auto. }
  destruct EX as (f & FK & E1 & E2 & E3 & E4). rewrite map_app in E1, E2, E3, E4.
  assert (F : forall r, r_lhs (f r) = r_lhs r /\ r_rhs1 (f r) = r_rhs1 r /\ r_rhs2 (f r) = r_rhs2 r) by (intros r; unfold r_lhs, r_rhs1, r_rhs2; rewrite FK; auto).
  match type of E with (if init then ?G else _) = _ => set (g4 := G) in * end.
  assert (I4 : inv g4 (h ++ rules) (lh ++ entries lexicon)) by (apply reorder_inv; [assumption|apply resort_perm; apply lt0_sw || apply lt1_sw || apply lt2_sw..]).
  assert (S' : asorted g4).
  { unfold g4. repeat split; cbn [bylhs unary lbinary rbinary].
    - rewrite E1, NR. replace (length (bylhs g)) with (length (map f (bylhs g))) by apply map_length. apply resort_fsorted; [apply lt0_sw|]. apply fsorted_map; auto. intros; apply F.
    - rewrite E2. replace (length (unary g)) with (length (map f (unary g))) by apply map_length. apply (resort_fsorted r_rhs1); [apply lt1_sw|]. apply fsorted_map; auto. intros; apply F.
    - rewrite E3. replace (length (lbinary g)) with (length (map f (lbinary g))) by apply map_length. apply (resort_fsorted r_rhs1); [apply lt1_sw|]. apply fsorted_map; auto. intros; apply F.
    - rewrite E4, RB. replace (length (rbinary g)) with (length (map f (rbinary g))) by apply map_length. apply (resort_fsorted r_rhs2); [apply lt2_sw|]. apply fsorted_map; auto. intros; apply F. }
  apply allseen_seen in AS.
  assert (SE : seen g4). { intros i Hi. destruct (AS i Hi) as [(r & A & B)|X]; [left|now right]. exists r. split; [|assumption]. unfold g4. cbn [bylhs]. eapply Permutation_in; [symmetry; apply resort_perm; apply lt0_sw|assumption]. }
  destruct init; subst g'; [split; [assumption|split; [assumption|split; [assumption|split; [discriminate|exists n5; assumption]]]]|].
  split; [now apply switch_inv|]. split; [now apply switch_asorted|]. split; [|split; [intros _; apply switch_defprob|exists n5; assumption]].
  intros i Hi. destruct (SE i Hi) as [(r & A & B)|(x & A & B)].
  - left. eexists. split; [unfold switch; cbn [bylhs]; apply in_map, A|]. exact B.
  - right. unfold switch. cbn [lexical]. apply In_nth with (d := (0, 0%Qc)) in A. destruct A as (n & A & D).
    set (k := fun p : nat * (nat * Qc) => _). exists (k (n, x)). split; [|exact B]. apply in_map. eapply combine_seq_in; eauto.
Qed.
End Sorter.
