(** C72: head finding; C73: dependencies. *)
From Coq Require Import String.
From Coq Require Import List Bool Arith NArith ZArith Lia Permutation Sorted.
From Verif Require Import PyStr TreeModel TransformModel SortProofs PunctModel HeadModel HeadProofs DepProofs.
Import ListNotations.
Open Scope list_scope.
Open Scope nat_scope.

(** ---- specification: which child do the rules choose? ---- *)
Section Spec.
Variable upper : pystr -> pystr.
(** child [j] comes before child [k] in the direction of the rule *)
Definition earlier (left_ : bool) (j k : nat) : Prop := if left_ then j < k else k < j.
(** the category of a child: the part before an opening bracket, in capitals *)
Definition category (t : htree) : pystr := upper (before BRACKET (HeadModel.label t)).
(** the child that one rule chooses: LEFTDIS, RIGHTDIS look for any of the labels;
    the others look for the first label, then the second, ... *)
Definition picks (rule : dir * list pystr) (ts : list htree) (k : nat) : Prop :=
  let '(d, heads) := rule in
  exists c, nth_error ts k = Some c /\
  if isdis d then
    In (category c) heads /\ forall j u, nth_error ts j = Some u -> earlier (isleft d) j k -> ~ In (category u) heads
  else
    exists before_ after_, heads = before_ ++ category c :: after_ /\
      (forall u, In u ts -> ~ In (category u) before_) /\
      forall j u, nth_error ts j = Some u -> earlier (isleft d) j k -> category u <> category c.
Definition nomatch (rule : dir * list pystr) (ts : list htree) : Prop := forall u, In u ts -> ~ In (category u) (snd rule).
(** the function tag HD *)
Definition HDtag (t : htree) : Prop := exists f, a_func (attrof t) = Some f /\ In (str "HD") (splitc DASH (upper f)).
(** child [k] follows a conjunction, which is not the first child *)
Definition conjunct (ts : list htree) (k : nat) : Prop := 2 <= k /\ exists c, nth_error ts (k - 1) = Some c /\ In (HeadModel.label c) [str "CC"; str "CONJP"].
(** punctuation, as a node: by its label *)
Definition punctnode (t : htree) : bool := mem (HeadModel.label t) PUNCTTAGS || mem (HeadModel.label t) PUNCTUATION.
End Spec.

(** ---- lists of numbered children ---- *)
Lemma nums_split : forall ts k c, nth_error ts k = Some c -> exists A B, nums ts = A ++ (k, c) :: B /\ (forall x, In x A -> fst x < k) /\ (forall x, In x B -> k < fst x) /\ length A = k.
Proof.
  intros ts k c E. destruct (nth_error_split _ _ E) as (pre & post & -> & L). unfold nums. rewrite app_length. cbn [length]. rewrite seq_app. cbn [seq plus].
  assert (CA : forall (a b : list nat) (x y : list htree), length a = length x -> combine (a ++ b) (x ++ y) = combine a x ++ combine b y).
  { clear. induction a as [|n a IH]; intros b [|t x] y L; cbn in L; try discriminate; [reflexivity|]. cbn. now rewrite IH by lia. }
  rewrite CA by apply seq_length. cbn [combine]. rewrite L. eexists _, _. split; [reflexivity|]. split; [|split].
  - intros [j u] I. apply in_combine_l in I. apply in_seq in I. cbn [fst]. lia.
  - intros [j u] I. apply in_combine_l in I. apply in_seq in I. cbn [fst]. lia.
  - rewrite combine_length, seq_length. lia.
Qed.
Lemma find_skip : forall A (p : A -> bool) l1 x l2, (forall y, In y l1 -> p y = false) -> p x = true -> find p (l1 ++ x :: l2) = Some x.
Proof. intros A p. induction l1 as [|y l1 IH]; intros x l2 H P; cbn; [now rewrite P|]. rewrite (H y) by now left. apply IH; auto. intros z I. apply H. now right. Qed.
Lemma find_nothing : forall A (p : A -> bool) l, (forall y, In y l -> p y = false) -> find p l = None.
Proof. intros A p. induction l as [|y l IH]; intros H; cbn; [reflexivity|]. rewrite (H y) by now left. apply IH. intros z I. apply H. now right. Qed.
Definition ordered (b : bool) (ts : list htree) := if b then nums ts else rev (nums ts).
Lemma find_ordered : forall b p ts k c, nth_error ts k = Some c -> p c = true -> (forall j u, nth_error ts j = Some u -> earlier b j k -> p u = false) ->
  find (fun x : numbered => p (snd x)) (ordered b ts) = Some (k, c).
Proof.
  intros b p ts k c E P H. destruct (nums_split _ _ _ E) as (A & B & EQ & HA & HB & _).
  assert (IN : forall x, In x A \/ In x B -> nth_error ts (fst x) = Some (snd x)).
  { intros [j u] I. apply nums_in. rewrite EQ. apply in_or_app. destruct I; [now left|right; now right]. }
  unfold ordered. destruct b; cbn [earlier] in H.
  - rewrite EQ. apply find_skip; [|exact P]. intros x I. eapply H; [apply IN; now left|]. now apply HA.
  - rewrite EQ, rev_app_distr. cbn [rev]. rewrite <- app_assoc. cbn [app]. apply find_skip; [|exact P]. intros x I. apply in_rev in I. eapply H; [apply IN; now right|]. now apply HB.
Qed.
Lemma find_ordered_none : forall b p ts, (forall u, In u ts -> p u = false) -> find (fun x : numbered => p (snd x)) (ordered b ts) = None.
Proof.
  intros b p ts H. apply find_nothing. intros [j u] I. cbn [snd]. apply H. assert (J : In (j, u) (nums ts)) by (unfold ordered in I; destruct b; [exact I|now apply in_rev]).
  apply nums_in in J. eapply nth_error_In; eauto.
Qed.

Section Heads.
Variable upper : pystr -> pystr.
Notation category := (category upper).
Lemma existsb_heads : forall heads u, existsb (fun h => eqs (base upper u) h) heads = true <-> In (category u) heads.
Proof using. intros heads u. rewrite existsb_exists. split; [intros (h & I & E); apply eqs_eq in E; now subst h|intros I; exists (category u); split; [exact I|apply eqs_refl]]. Qed.
Lemma existsb_heads_no : forall heads u, existsb (fun h => eqs (base upper u) h) heads = false <-> ~ In (category u) heads.
Proof using. intros heads u. rewrite <- existsb_heads. destruct (existsb _ heads); split; congruence. Qed.
Lemma eqs_false : forall a b, a <> b -> eqs a b = false.
Proof using. intros a b H. destruct (eqs a b) eqn:E; [|reflexivity]. apply eqs_eq in E. contradiction. Qed.
Definition applyrule (rule : dir * list pystr) (ts : list htree) : option numbered :=
  if isdis (fst rule) then invfind upper (snd rule) (ordered (isleft (fst rule)) ts) else find_ upper (snd rule) (ordered (isleft (fst rule)) ts).
Lemma rule_picks : forall rule ts k c, picks upper rule ts k -> nth_error ts k = Some c -> applyrule rule ts = Some (k, c).
Proof using.
  intros [d heads] ts k c (c' & E & P) E'. rewrite E in E'. injection E' as ->. unfold applyrule. cbn [fst snd]. destruct (isdis d).
  - destruct P as [P1 P2]. unfold invfind. apply (find_ordered (isleft d) (fun u => existsb (fun h => eqs (base upper u) h) heads)); [exact E|now apply existsb_heads|].
    intros j u Ej J. apply existsb_heads_no. eauto.
  - destruct P as (b & a & -> & P1 & P2). induction b as [|h b IH]; cbn [app find_].
    + rewrite (find_ordered (isleft d) (fun u => eqs (base upper u) (category c)) ts k c); [reflexivity|exact E|apply eqs_refl|]. intros j u Ej J. apply eqs_false. exact (P2 _ _ Ej J).
    + rewrite (find_ordered_none (isleft d) (fun u => eqs (base upper u) h)); [apply IH; intros u I J; apply (P1 u I); now right|].
      intros u I. apply eqs_false. intros X. apply (P1 u I). left. symmetry. exact X.
Qed.
Lemma rule_nomatch : forall rule ts, nomatch upper rule ts -> applyrule rule ts = None.
Proof using.
  intros [d heads] ts N. unfold applyrule, nomatch in *. cbn [fst snd] in *. destruct (isdis d).
  - unfold invfind. apply (find_ordered_none (isleft d) (fun u => existsb (fun h => eqs (base upper u) h) heads)). intros u I. apply existsb_heads_no. auto.
  - induction heads as [|h heads IH]; [reflexivity|]. cbn [find_]. rewrite (find_ordered_none (isleft d) (fun u => eqs (base upper u) h)); [apply IH; intros u I J; apply (N u I); now right|].
    intros u I. apply eqs_false. intros X. apply (N u I). left. symmetry. exact X.
Qed.
Lemma tryrules_skip : forall r1 r2 ts cs, Forall (fun r => nomatch upper r ts) r1 ->
  tryrules upper (r1 ++ r2) (nums ts) cs = tryrules upper r2 (nums ts) (match rev r1 with [] => cs | r :: _ => ordered (isleft (fst r)) ts end).
Proof using.
  induction r1 as [|[d heads] r1 IH]; intros r2 ts cs F; [reflexivity|]. inversion F as [|? ? N F']; subst. cbn [app tryrules].
  pose proof (rule_nomatch _ _ N) as Q. unfold applyrule in Q. cbn [fst snd] in Q. fold (ordered (isleft d) ts). rewrite Q. rewrite (IH r2 ts _ F'). cbn [rev].
  destruct (rev r1); reflexivity.
Qed.
Lemma teqb_leaves : forall a b, teqb a b = true -> HeadModel.leaves a = HeadModel.leaves b.
Proof using.
  induction a as [x i|x ts IH] using htree_ind'; intros [y j|y us] E; cbn [teqb HeadModel.leaves] in *; try discriminate.
  - apply andb_true_iff in E. destruct E as [_ E]. apply Nat.eqb_eq in E. now subst.
  - apply andb_true_iff in E. destruct E as [_ E]. revert us E. induction ts as [|t ts IHt]; intros [|u us] E; try discriminate; [reflexivity|]. apply andb_true_iff in E. destruct E as [E1 E2].
    cbn [flat_map]. inversion IH; subst. f_equal; auto.
Qed.
Lemma teqb_refl : forall a, teqb a a = true.
Proof using.
  induction a as [x i|x ts IH] using htree_ind'; cbn [teqb]; rewrite eqs_refl; cbn [andb]; [apply Nat.eqb_refl|]. induction IH as [|t ts E F IHt]; [reflexivity|]. now rewrite E.
Qed.
Lemma full_leaf : forall t, full t -> exists i, In i (HeadModel.leaves t).
Proof using.
  induction t as [a i|a ts IH] using htree_ind'; intros F; [exists i; now left|]. inversion F as [|? ? NE FT]; subst. destruct ts as [|t ts]; [congruence|].
  inversion IH; subst. inversion FT; subst. destruct (H1 H3) as [i I]. exists i. cbn. apply in_or_app. now left.
Qed.
Lemma indexeq_own : forall ts k c, NoDup (flat_map HeadModel.leaves ts) -> Forall full ts -> nth_error ts k = Some c -> indexeq c ts = k.
Proof using.
  induction ts as [|t ts IH]; intros k c ND F E; [destruct k; discriminate|]. inversion F; subst. cbn [indexeq]. destruct k as [|k]; cbn [nth_error] in E.
  - injection E as ->. now rewrite teqb_refl.
  - cbn [flat_map] in ND. destruct (teqb t c) eqn:Q.
    + exfalso. apply teqb_leaves in Q. destruct (full_leaf t) as [i I]; [assumption|]. assert (J : In i (flat_map HeadModel.leaves ts)) by (apply in_flat_map; exists c; split; [eapply nth_error_In; eauto|now rewrite <- Q]).
      clear - ND I J. induction (HeadModel.leaves t) as [|y l IHl]; [contradiction|]. cbn [app] in ND. inversion ND; subst. destruct I as [->|I]; [apply H1, in_or_app; now right|auto].
    + f_equal. apply IH; auto. clear - ND. induction (HeadModel.leaves t) as [|y l IHl]; [exact ND|inversion ND; auto].
Qed.
Lemma coord_not : forall ts k c, NoDup (flat_map HeadModel.leaves ts) -> Forall full ts -> nth_error ts k = Some c -> ~ conjunct ts k -> coord ts (k, c) = (k, c).
Proof using.
  intros ts k c ND F E N. unfold coord. cbn [snd]. rewrite (indexeq_own _ _ _ ND F E).
  destruct (2 <=? k) eqn:L; [|reflexivity]. apply Nat.leb_le in L. cbn [andb]. destruct (existsb _ _) eqn:X; [|reflexivity]. exfalso. apply N. split; [exact L|].
  apply existsb_exists in X. destruct X as (l & I & X). apply eqs_eq in X. assert (LT : k - 1 < length ts) by (assert (k < length ts) by (apply nth_error_Some; congruence); lia).
  exists (nth (k - 1) ts (Pre (mkA [] None None) 0)). split; [now apply nth_error_nth'|]. now rewrite X.
Qed.
Lemma conjunct_test : forall ts k, conjunct ts k -> (2 <=? k) && existsb (eqs (HeadModel.label (nth (k - 1) ts (Pre (mkA [] None None) 0)))) [str "CC"; str "CONJP"] = true.
Proof using.
  intros ts k (L & c & E & I). apply andb_true_iff. split; [now apply Nat.leb_le|]. apply existsb_exists. eexists. split; [exact I|]. rewrite (nth_error_nth _ _ _ E). apply eqs_refl.
Qed.
Lemma coord_moves : forall ts k c j u, NoDup (flat_map HeadModel.leaves ts) -> Forall full ts -> nth_error ts k = Some c -> conjunct ts k ->
  j < k - 1 -> nth_error ts j = Some u -> punctnode u = false -> (forall i v, j < i < k - 1 -> nth_error ts i = Some v -> punctnode v = true) -> coord ts (k, c) = (j, u).
Proof using.
  intros ts k c j u ND F E C L Ej PJ PN. unfold coord. cbn [snd]. rewrite (indexeq_own _ _ _ ND F E), (conjunct_test _ _ C). fold (nums ts).
  destruct (nums_split _ _ _ Ej) as (A & B & EQ & HA & HB & LA).
  assert (FE : firstn (k - 1) (nums ts) = A ++ (j, u) :: firstn (k - 1 - j - 1) B).
  { rewrite EQ, firstn_app, firstn_all2 by lia. f_equal. rewrite LA. destruct (k - 1 - j) as [|n] eqn:Z; [lia|]. cbn [firstn]. do 2 f_equal. lia. }
  rewrite FE, rev_app_distr. cbn [rev]. rewrite <- app_assoc. cbn [app].
  assert (PU : forall x : numbered, negb (ispunct (Some (HeadModel.label (snd x))) (HeadModel.label (snd x))) = negb (punctnode (snd x))) by reflexivity.
  erewrite find_skip; [reflexivity| |rewrite PU; cbn [snd]; now rewrite PJ].
  intros x I. rewrite PU. apply in_rev in I. assert (J : In x (nums ts)) by (rewrite EQ; apply in_or_app; right; right; rewrite <- (firstn_skipn (k - 1 - j - 1) B); apply in_or_app; now left).
  assert (BD : fst x < k - 1).
  { apply In_nth_error in I. destruct I as [m I]. assert (LM : m < k - 1 - j - 1). { assert (X : m < length (firstn (k - 1 - j - 1) B)) by (apply nth_error_Some; congruence). rewrite firstn_length in X. lia. }
    assert (N : nth_error (nums ts) (S j + m) = Some x).
    { rewrite EQ, nth_error_app2 by lia. rewrite LA. replace (S j + m - j) with (S m) by lia. cbn [nth_error]. rewrite <- (firstn_skipn (k - 1 - j - 1) B), nth_error_app1; [exact I|apply nth_error_Some; congruence]. }
    assert (LX : S j + m < length ts). { assert (X : S j + m < length (nums ts)) by (apply nth_error_Some; congruence). unfold nums in X. rewrite combine_length, seq_length in X. lia. }
    unfold nums in N. pose proof (nth_error_nth _ _ (0, Pre (mkA [] None None) 0) N) as Z. rewrite combine_nth, seq_nth in Z by (assumption || apply seq_length). rewrite <- Z. cbn [fst]. lia. }
  assert (JB : j < fst x) by (apply HB; rewrite <- (firstn_skipn (k - 1 - j - 1) B); apply in_or_app; now left).
  destruct x as [i v]. cbn [fst snd] in *. apply nums_in in J. rewrite (PN i v); auto.
Qed.
Lemma coord_stays : forall ts k c, NoDup (flat_map HeadModel.leaves ts) -> Forall full ts -> nth_error ts k = Some c ->
  (forall i v, i < k - 1 -> nth_error ts i = Some v -> punctnode v = true) -> coord ts (k, c) = (k, c).
Proof using.
  intros ts k c ND F E PN. unfold coord. cbn [snd]. rewrite (indexeq_own _ _ _ ND F E). destruct (_ && _); [|reflexivity]. fold (nums ts).
  rewrite find_nothing; [reflexivity|]. intros x I. apply in_rev in I. assert (J : In x (nums ts)) by (rewrite <- (firstn_skipn (k - 1) (nums ts)); apply in_or_app; now left).
  assert (BD : fst x < k - 1).
  { apply In_nth_error in I. destruct I as [m I]. assert (X : m < length (firstn (k - 1) (nums ts))) by (apply nth_error_Some; congruence). rewrite firstn_length in X.
    assert (N : nth_error (nums ts) m = Some x). { rewrite <- (firstn_skipn (k - 1) (nums ts)), nth_error_app1; [exact I|apply nth_error_Some; congruence]. }
    unfold nums in X at 1. rewrite combine_length, seq_length in X. unfold nums in N. pose proof (nth_error_nth _ _ (0, Pre (mkA [] None None) 0) N) as Z.
    rewrite combine_nth, seq_nth in Z by (apply seq_length || lia). rewrite <- Z. cbn [fst]. lia. }
  destruct x as [i v]. cbn [fst snd] in *. apply nums_in in J. change (negb (punctnode v) = false). now rewrite (PN i v).
Qed.

(** ---- C72 ---- *)
(** head information that is already there is used, whatever the rules say *)
Theorem C72_given : forall hr lab ts k c, nth_error ts k = Some c -> ishead c = true ->
  (forall j u, j < k -> nth_error ts j = Some u -> ishead u = false) -> headfinder upper hr lab ts = Some k.
Proof using.
  intros hr lab ts k c E H F. unfold headfinder. fold (nums ts). change (nums ts) with (ordered true ts). rewrite (find_ordered true ishead ts k c E H); [reflexivity|]. intros j u Ej L. eauto.
Qed.
(** otherwise, the first child with the function tag HD *)
Lemma hdfunc_spec : forall t, hdfunc upper t = true <-> HDtag upper t.
Proof using.
  intros t. unfold hdfunc, HDtag. destruct (a_func (attrof t)) as [f|].
  - rewrite existsb_exists. split; [intros (x & I & E); apply eqs_eq in E; subst x; eauto|]. intros (g & E & I). injection E as <-. exists (str "HD"). split; [exact I|apply eqs_refl].
  - split; [discriminate|intros (g & E & _); discriminate].
Qed.
Lemma hdfunc_no : forall t, ~ HDtag upper t -> hdfunc upper t = false.
Proof using. intros t H. destruct (hdfunc upper t) eqn:E; [|reflexivity]. apply hdfunc_spec in E. contradiction. Qed.
Theorem C72_function : forall hr lab ts k c, (forall u, In u ts -> ishead u = false) -> nth_error ts k = Some c -> HDtag upper c ->
  (forall j u, j < k -> nth_error ts j = Some u -> ~ HDtag upper u) -> headfinder upper hr lab ts = Some k.
Proof using.
  intros hr lab ts k c N E H F. unfold headfinder. fold (nums ts). change (nums ts) with (ordered true ts). rewrite (find_ordered_none true ishead ts N).
  rewrite (find_ordered true (hdfunc upper) ts k c E); [reflexivity|now apply hdfunc_spec|]. intros j u Ej L. apply hdfunc_no. eauto.
Qed.
(** otherwise, the first rule that matches, for this very label; in a
    coordination the last child before the conjunction that is not punctuation *)
Theorem C72_rule : forall hr lab ts r1 rule r2 k c,
  (forall u, In u ts -> ishead u = false /\ ~ HDtag upper u) -> NoDup (flat_map HeadModel.leaves ts) -> Forall full ts ->
  getrules lab hr = r1 ++ rule :: r2 -> Forall (fun r => nomatch upper r ts) r1 -> picks upper rule ts k -> nth_error ts k = Some c ->
  (~ conjunct ts k \/ (forall i v, i < k - 1 -> nth_error ts i = Some v -> punctnode v = true) -> headfinder upper hr lab ts = Some k) /\
  (conjunct ts k -> forall j u, j < k - 1 -> nth_error ts j = Some u -> punctnode u = false ->
     (forall i v, j < i < k - 1 -> nth_error ts i = Some v -> punctnode v = true) -> headfinder upper hr lab ts = Some j).
Proof using.
  intros hr lab ts r1 [d heads] r2 k c N ND F GR NM P E.
  assert (X : headfinder upper hr lab ts = Some (fst (coord ts (k, c)))).
  { unfold headfinder. fold (nums ts). change (find ?p (nums ts)) with (find p (ordered true ts)). rewrite (find_ordered_none true ishead) by (intros; now apply N).
    rewrite (find_ordered_none true (hdfunc upper)) by (intros; apply hdfunc_no; now apply N).
    rewrite GR, (tryrules_skip _ _ _ _ NM). cbn [tryrules]. fold (ordered (isleft d) ts). pose proof (rule_picks _ _ _ _ P E) as Q. unfold applyrule in Q. cbn [fst snd] in Q. rewrite Q. reflexivity. }
  rewrite X. split.
  - intros [C|C]; [now rewrite (coord_not _ _ _ ND F E C)|now rewrite (coord_stays _ _ _ ND F E C)].
  - intros C j u L Ej PJ PN. now rewrite (coord_moves _ _ _ _ _ ND F E C L Ej PJ PN).
Qed.
(** when no rule matches: the first child without a punctuation tag, in the
    direction of the last rule for the label (from the left, without rules) *)
Theorem C72_default : forall hr lab ts k c, (forall u, In u ts -> ishead u = false /\ ~ HDtag upper u) ->
  Forall (fun r => nomatch upper r ts) (getrules lab hr) ->
  let b := match rev (getrules lab hr) with [] => true | r :: _ => isleft (fst r) end in
  nth_error ts k = Some c ->
  (mem (HeadModel.label c) PUNCTTAGS = false /\ (forall j u, nth_error ts j = Some u -> earlier b j k -> mem (HeadModel.label u) PUNCTTAGS = true)
   \/ (forall u, In u ts -> mem (HeadModel.label u) PUNCTTAGS = true) /\ k = if b then 0 else length ts - 1) ->
  headfinder upper hr lab ts = Some k.
Proof using.
  intros hr lab ts k c N NM b E D. unfold headfinder. fold (nums ts). change (find ?p (nums ts)) with (find p (ordered true ts)). rewrite (find_ordered_none true ishead) by (intros; now apply N).
  rewrite (find_ordered_none true (hdfunc upper)) by (intros; apply hdfunc_no; now apply N).
  pose proof (tryrules_skip _ [] _ (nums ts) NM) as T. rewrite app_nil_r in T. rewrite T. cbn [tryrules].
  assert (O : match rev (getrules lab hr) with [] => nums ts | r :: _ => ordered (isleft (fst r)) ts end = ordered b ts) by (unfold b; destruct (rev (getrules lab hr)); reflexivity).
  rewrite O. unfold defaulthead.
  assert (PU : forall x : numbered, negb (ispunct None (HeadModel.label (snd x))) = (fun t => negb (mem (HeadModel.label t) PUNCTTAGS)) (snd x)) by (intros x; unfold ispunct; cbn [memw]; now rewrite orb_false_r).
  assert (PF : find (fun c0 : numbered => negb (ispunct None (HeadModel.label (snd c0)))) (ordered b ts) = find (fun x : numbered => (fun t => negb (mem (HeadModel.label t) PUNCTTAGS)) (snd x)) (ordered b ts)).
  { clear - PU. induction (ordered b ts) as [|x l IH]; [reflexivity|]. cbn [find]. rewrite PU, IH. reflexivity. }
  rewrite PF. destruct D as [[D1 D2]|[D1 D2]].
  - rewrite (find_ordered b (fun t => negb (mem (HeadModel.label t) PUNCTTAGS)) ts k c E); [reflexivity|now rewrite D1|]. intros j u Ej J. now rewrite (D2 _ _ Ej J).
  - rewrite (find_ordered_none b (fun t => negb (mem (HeadModel.label t) PUNCTTAGS))) by (intros u I; now rewrite D1).
    destruct (nums_split _ _ _ E) as (A & B & EQ & HA & HB & LA). assert (LN : length (nums ts) = length ts) by (unfold nums; rewrite combine_length, seq_length; lia).
    unfold ordered. destruct b.
    + subst k. destruct A; [|discriminate]. rewrite EQ. reflexivity.
    + assert (B = []). { destruct B as [|x B]; [reflexivity|]. rewrite EQ, app_length in LN. cbn [length] in LN. assert (k < length ts) by (apply nth_error_Some; congruence). lia. }
      subst B. rewrite EQ, rev_app_distr. reflexivity.
Qed.
(** every node gets exactly one head; labels, functions and structure stay *)
Theorem C72_onehead : forall hr mr t, full t -> athead t -> headed (applyheadrules upper hr mr t).
Proof using. intros. now apply headed_apply. Qed.
Theorem C72_shape : forall hr mr t, bare (applyheadrules upper hr mr t) = bare t.
Proof using. intros. apply bare_apply. Qed.
Theorem C72_idempotent : forall hr mr t, full t -> athead t -> applyheadrules upper hr mr (applyheadrules upper hr mr t) = applyheadrules upper hr mr t.
Proof using. intros. now apply apply_idem. Qed.
Theorem C72_kept : forall hr t, headed t -> applyheadrules upper hr None t = t.
Proof using. intros. now apply apply_fixed. Qed.
Lemma headfinder_nil : forall hr lab, headfinder upper hr lab [] = None.
Proof using.
  intros hr lab. unfold headfinder. cbn [length seq combine find].
  assert (T : forall rs, tryrules upper rs [] [] = (None, [])).
  { assert (FN : forall heads, find_ upper heads [] = None) by (induction heads; [reflexivity|assumption]).
    induction rs as [|[d heads] rs IH]; [reflexivity|]. cbn [tryrules]. assert (X : (if isleft d then [] else rev []) = @nil numbered) by (destruct (isleft d); reflexivity). rewrite X.
    destruct (isdis d); [exact IH|]. rewrite FN. exact IH. }
  now rewrite T.
Qed.
(** ... and the head of a node is the child that headfinder gives *)
Theorem C72_is_found : forall hr mr a ts k, headfinder upper hr (a_label a) ts = Some k -> exists us, applyheadrules upper hr mr (Con a ts) = Con a us /\ length us = length ts /\ exists c, nth_error us k = Some c /\ ishead c = true.
Proof using.
  intros hr mr a ts k H. rewrite apply_con, H. eexists. split; [reflexivity|]. split; [now rewrite settypes_length, map_length|].
  assert (L : k < length ts). { destruct ts as [|t ts]; [rewrite headfinder_nil in H; discriminate|]. destruct (headfinder_some upper hr (a_label a) (t :: ts)) as (k' & H' & L); [discriminate|]. rewrite H in H'. injection H' as <-. exact L. }
  set (us := map (applyheadrules upper hr mr) ts). assert (LU : length us = length ts) by apply map_length.
  assert (NT : forall tys vs i ty, length tys = length vs -> nth_error tys i = Some ty -> exists v, nth_error (settypes tys vs) i = Some (settype ty v)).
  { clear. induction tys as [|ty' tys IH]; intros [|v vs] i ty LE E; cbn in LE; try discriminate; [destruct i; discriminate|]. destruct i as [|i]; cbn [nth_error settypes] in *; [injection E as ->; eauto|]. apply IH; [lia|exact E]. }
  destruct (nth_error ts k) as [c|] eqn:E; [|apply nth_error_None in E; lia].
  assert (KT : nth_error (kidtypes upper mr (a_label a) (sethead k ts)) k = Some (Some HEAD)).
  { unfold kidtypes. assert (S1 : nth_error (sethead k ts) k = Some (settype (Some HEAD) c)) by (rewrite sethead_nth, Nat.eqb_refl, E; reflexivity). destruct mr as [m|].
    - rewrite settypes_types by (unfold markmodifiers; apply marktypes_length). unfold markmodifiers. destruct (marktypes_head upper (getrules (before DASH (a_label a)) m ++ getrules (str "*") m) _ None _ _ S1) as [X _]. rewrite X.
      assert (IH : ishead (settype (Some HEAD) c) = true) by (unfold ishead; now rewrite settype_attr). rewrite IH. now rewrite settype_attr.
    - rewrite nth_error_map, S1. cbn [option_map]. now rewrite settype_attr. }
  destruct (NT _ us k _ (eq_trans (kidtypes_length upper mr (a_label a) _) (eq_trans (sethead_length k ts) (eq_sym LU))) KT) as (v & Ev). exists (settype (Some HEAD) v). split; [exact Ev|]. unfold ishead. now rewrite settype_attr.
Qed.

(** ---- modifiers ---- *)
(** a rule is a label, or a label and a function; * stands for anything *)
Definition modspec (c : htree) (rule : pystr) : Prop :=
  exists l, ~ In DASH l /\ (l = str "*" \/ l = upper (before DASH (HeadModel.label c))) /\
    (rule = l \/ exists f, rule = l ++ DASH :: f /\ (f = str "*" \/ f = upper (function c))).
Lemma before_after : forall d s, (~ In d s /\ before d s = s /\ after d s = None) \/ (exists r, s = before d s ++ d :: r /\ after d s = Some r /\ ~ In d (before d s)).
Proof using.
  intros d. induction s as [|x s IH]; cbn [before after]; [left; auto|]. destruct (N.eqb x d) eqn:Q.
  - right. apply N.eqb_eq in Q. subst x. exists s. auto.
  - apply N.eqb_neq in Q. destruct IH as [(N & -> & ->)|(r & E1 & E2 & N)].
    + left. split; [intros [X|X]; [congruence|auto]|auto].
    + right. exists r. split; [cbn; now rewrite <- E1|]. split; [exact E2|]. intros [X|X]; [congruence|auto].
Qed.
Lemma before_app : forall d l f, ~ In d l -> before d (l ++ d :: f) = l /\ after d (l ++ d :: f) = Some f.
Proof using.
  intros d. induction l as [|x l IH]; intros f N; cbn; [rewrite N.eqb_refl; auto|]. destruct (N.eqb x d) eqn:Q; [apply N.eqb_eq in Q; exfalso; apply N; now left|]. destruct (IH f) as [-> ->]; auto. intros I. apply N. now right.
Qed.
Lemma before_none : forall d l, ~ In d l -> before d l = l /\ after d l = None.
Proof using. intros d l N. destruct (before_after d l) as [(_ & A & B)|(r & E & _)]; [auto|]. exfalso. apply N. rewrite E. apply in_elt. Qed.
Lemma modmatch_spec : forall c m, modmatch upper c m = true <-> modspec c m.
Proof using.
  intros c m. unfold modmatch, modspec. rewrite andb_true_iff, orb_true_iff. split.
  - intros [H1 H2]. exists (before DASH m). destruct (before_after DASH m) as [(N & E1 & E2)|(r & E1 & E2 & N)].
    + rewrite E1 in *. split; [exact N|]. split; [destruct H1 as [H1|H1]; apply eqs_eq in H1; auto|now left].
    + split; [exact N|]. split; [destruct H1 as [H1|H1]; apply eqs_eq in H1; auto|]. right. exists r. split; [exact E1|]. rewrite E2 in H2. apply orb_true_iff in H2. destruct H2 as [H2|H2]; apply eqs_eq in H2; auto.
  - intros (l & N & HL & HR). assert (B : before DASH m = l) by (destruct HR as [->|(f & -> & _)]; [now apply before_none|now apply before_app]). rewrite B. split.
    + destruct HL as [->| ->]; [right|left]; apply eqs_refl.
    + destruct HR as [->|(f & -> & HF)]; [now rewrite (proj2 (before_none _ _ N))|]. rewrite (proj2 (before_app _ _ f N)). apply orb_true_iff. destruct HF as [->| ->]; [left|right]; apply eqs_refl.
Qed.
(** the last sibling before child [i] that is not the head *)
Definition previous (ts : list htree) (i : nat) (u : htree) : Prop :=
  exists j, j < i /\ nth_error ts j = Some u /\ ishead u = false /\ forall k v, j < k < i -> nth_error ts k = Some v -> ishead v = true.
Lemma marktypes_spec : forall rs ts prev i c, nth_error ts i = Some c -> ishead c = false ->
  (nth i (marktypes upper rs prev ts) None = Some MODIFIER <->
    (exists m, In m rs /\ modspec c m) \/ (exists u, previous ts i u /\ HeadModel.label u = HeadModel.label c)
    \/ (prev = Some (HeadModel.label c) /\ forall k v, k < i -> nth_error ts k = Some v -> ishead v = true))
  /\ (nth i (marktypes upper rs prev ts) None <> Some MODIFIER -> nth i (marktypes upper rs prev ts) None = Some COMPLEMENT).
Proof using.
  intros rs. induction ts as [|x ts IH]; intros prev i c E H; [destruct i; discriminate|].
  destruct i as [|i]; cbn [nth_error] in E.
  - injection E as ->. cbn [marktypes]. rewrite H. cbn [nth]. set (b := existsb (modmatch upper c) rs). set (s := match prev with Some p => eqs (HeadModel.label c) p | None => false end).
    assert (B : b = true <-> exists m, In m rs /\ modspec c m) by (unfold b; rewrite existsb_exists; split; intros (m & I & M); exists m; (split; [exact I|]); now apply modmatch_spec).
    assert (S : s = true <-> prev = Some (HeadModel.label c)) by (unfold s; destruct prev as [p|]; [split; [intros X; apply eqs_eq in X; now subst|intros X; injection X as ->; apply eqs_refl]|split; discriminate]).
    split; [|destruct (b || s); congruence]. split.
    + intros X. destruct b; [left; now apply B|]. destruct s; [|discriminate]. right. right. split; [now apply S|]. intros k v L. lia.
    + intros [X|[(u & (j & L & _) & _)|[X _]]]; [|lia|]; [apply B in X|apply S in X]; rewrite X; rewrite ?orb_true_r; reflexivity.
  - cbn [marktypes]. destruct (ishead x) eqn:Hx; cbn [nth].
    + destruct (IH prev i c E H) as [A1 A2]. split; [|exact A2]. rewrite A1. clear A1 A2. split; (intros [X|[(u & (j & L & Ej & U & V) & EL)|[X V]]]; [now left| |]).
      * right. left. exists u. split; [|exact EL]. exists (S j). split; [lia|]. split; [exact Ej|]. split; [exact U|]. intros [|k] v LK Ek; [lia|]. apply (V k); [lia|exact Ek].
      * right. right. split; [exact X|]. intros [|k] v LK Ek; [cbn in Ek; injection Ek as <-; exact Hx|]. apply (V k); [lia|exact Ek].
      * destruct j as [|j]; [cbn in Ej; injection Ej as ->; congruence|]. right. left. exists u. split; [|exact EL]. exists j. split; [lia|]. split; [exact Ej|]. split; [exact U|]. intros k v LK Ek. apply (V (S k)); [lia|exact Ek].
      * right. right. split; [exact X|]. intros k v LK Ek. apply (V (S k)); [lia|exact Ek].
    + destruct (IH (Some (HeadModel.label x)) i c E H) as [A1 A2]. split; [|exact A2]. rewrite A1. clear A1 A2. split; (intros [X|[(u & (j & L & Ej & U & V) & EL)|[X V]]]; [now left| |]).
      * right. left. exists u. split; [|exact EL]. exists (S j). split; [lia|]. split; [exact Ej|]. split; [exact U|]. intros [|k] v LK Ek; [lia|]. apply (V k); [lia|exact Ek].
      * right. left. exists x. split; [|injection X as X; exact X]. exists 0. split; [lia|]. split; [reflexivity|]. split; [exact Hx|]. intros [|k] v LK Ek; [lia|]. apply (V k); [lia|exact Ek].
      * destruct j as [|j].
        -- cbn in Ej. injection Ej as ->. right. right. split; [now rewrite EL|]. intros k v LK Ek. apply (V (S k)); [lia|exact Ek].
        -- right. left. exists u. split; [|exact EL]. exists j. split; [lia|]. split; [exact Ej|]. split; [exact U|]. intros k v LK Ek. apply (V (S k)); [lia|exact Ek].
      * exfalso. assert (X0 : ishead x = true) by (apply (V 0 x); [lia|reflexivity]). congruence.
Qed.
(** the children other than the head are marked as modifiers when a rule for the
    label, or for *, applies, or when they have the label of the sibling before
    them; and as complements otherwise *)
Theorem C72_modifiers : forall mr lab ts i c, nth_error ts i = Some c -> ishead c = false ->
  let ty := nth i (markmodifiers upper mr lab ts) None in
  (ty = Some MODIFIER <-> (exists m, (In m (getrules (before DASH lab) mr) \/ In m (getrules (str "*") mr)) /\ modspec c m)
     \/ (exists u, previous ts i u /\ HeadModel.label u = HeadModel.label c))
  /\ (ty <> Some MODIFIER -> ty = Some COMPLEMENT).
Proof using.
  intros mr lab ts i c E H ty. unfold ty, markmodifiers. destruct (marktypes_spec (getrules (before DASH lab) mr ++ getrules (str "*") mr) ts None i c E H) as [A B]. split; [|exact B].
  rewrite A. split.
  - intros [(m & I & M)|[X|[X _]]]; [left; exists m; split; [now apply in_app_or|exact M]|now right|discriminate].
  - intros [(m & I & M)|X]; [left; exists m; split; [now apply in_or_app|exact M]|right; now left].
Qed.
(** ... after the head was found *)
Theorem C72_marked : forall hr m a ts k, headfinder upper hr (a_label a) ts = Some k -> exists us, applyheadrules upper hr (Some m) (Con a ts) = Con a us /\
  map (fun c => a_type (attrof c)) us = markmodifiers upper m (a_label a) (sethead k ts).
Proof using.
  intros hr m a ts k H. rewrite apply_con, H. eexists. split; [reflexivity|]. rewrite settypes_types by (rewrite kidtypes_length, sethead_length, map_length; reflexivity).
  unfold kidtypes. apply settypes_types. unfold markmodifiers. apply marktypes_length.
Qed.

(** ---- the rules file ---- *)
Lemma getrules_addto : forall V (m : list (pystr * list V)) k v k', getrules k' (addto m k v) = if eqs k' k then getrules k' m ++ v else getrules k' m.
Proof using.
  induction m as [|[x l] m IH]; intros k v k'; cbn [addto getrules].
  - destruct (eqs k' k); reflexivity.
  - destruct (eqs k x) eqn:Q.
    + apply eqs_eq in Q. subst x. cbn [getrules]. destruct (eqs k' k); reflexivity.
    + cbn [getrules]. rewrite IH. destruct (eqs k' x) eqn:R; [|reflexivity]. apply eqs_eq in R. subst x. destruct (eqs k' k) eqn:S; [|reflexivity]. apply eqs_eq in S. subst k'. rewrite eqs_refl in Q. discriminate.
Qed.
(** the rules for a label are those of its lines, in the order of the file *)
Theorem C72_file : forall lines m, readheadrules lines = Some m -> (forall l d h o, In (l, d, h, o) lines -> d <> None) ->
  forall lab, getrules lab m = flat_map (fun line => let '(l, d, h, _) := line in if eqs lab l then match d with Some d => [(d, h)] | None => [] end else []) lines.
Proof using.
  intros lines m E N lab. unfold readheadrules in E.
  assert (G : forall lines m0 m, (forall l d h o, In (l, d, h, o) lines -> d <> None) -> fold_left readrule lines (Some m0) = Some m ->
    getrules lab m = getrules lab m0 ++ flat_map (fun line => let '(l, d, h, _) := line in if eqs lab l then match d with Some d => [(d, h)] | None => [] end else []) lines).
  { clear. induction lines as [|[[[l d] h] o] lines IH]; intros m0 m N E; cbn [fold_left flat_map] in *; [injection E as ->; now rewrite app_nil_r|].
    destruct d as [d|]; [|exfalso; eapply N; [now left|reflexivity]]. unfold readrule at 2 in E. rewrite (IH _ _ (fun l d h o I => N l d h o (or_intror I)) E).
    rewrite !getrules_addto. destruct (eqs lab l); rewrite ?app_nil_r; [now rewrite <- app_assoc|reflexivity]. }
  now rewrite (G _ _ _ N E).
Qed.
(** LIKE copies the rules that the other label has at that point *)
Theorem C72_like : forall m lab other heads m', readrule (Some m) (lab, None, heads, other) = Some m' -> lab <> other ->
  getrules lab m' = getrules lab m ++ getrules other m /\ forall l, l <> lab -> getrules l m' = getrules l m.
Proof using.
  intros m lab other heads m' E NE. unfold readrule in E. destruct (haskey _ _); [|discriminate]. injection E as <-. split.
  - rewrite !getrules_addto, !eqs_refl. rewrite (eqs_false other lab) by congruence. now rewrite app_nil_r.
  - intros l N. rewrite !getrules_addto. now rewrite !(eqs_false l lab) by assumption.
Qed.
(** but the file is converted to capitals and the label of the node is not: a
    node whose label has a small letter never has rules *)
Theorem C72_lowercase_refuted : forall hr lab ts, Forall (fun r => upper (fst r) = fst r) hr -> upper lab <> lab -> headfinder upper hr lab ts = headfinder upper [] lab ts.
Proof using.
  intros hr lab ts F N. unfold headfinder. assert (E : getrules lab hr = []); [|now rewrite E].
  induction F as [|[k v] hr E F IH]; [reflexivity|]. cbn [getrules]. rewrite eqs_false; [exact IH|]. intros ->. contradiction.
Qed.
End Heads.

(** ---- examples ---- *)
Definition asciiupper (s : pystr) : pystr := map (fun c => if (97 <=? c)%N && (c <=? 122)%N then (c - 32)%N else c) s.
Definition at_ (l : pystr) : attr := mkA l None None.
(** (S (NP 0 1) (VP (CC..) ...)): a coordination and an unmarked tree *)
Definition ex_kids : list htree := [Pre (at_ (str "NN")) 0; Pre (at_ (str ",")) 1; Pre (at_ (str "CC")) 2; Pre (at_ (str "NN[gen]")) 3].
Definition ex_hr : rules := [(str "NP", [(Left, [str "JJ"]); (Right, [str "NNS"; str "NN"])])].
Definition ex_tree : htree := Con (at_ (str "S")) [Con (at_ (str "NP")) ex_kids; Con (at_ (str "VP")) [Pre (mkA (str "V") (Some (str "x-hd")) None) 5; Pre (at_ (str "RB")) 4; Pre (at_ (str "RB")) 6]].
Example C72_example_rule :
  (forall u, In u ex_kids -> ishead u = false /\ ~ HDtag asciiupper u) /\ NoDup (flat_map HeadModel.leaves ex_kids) /\ Forall full ex_kids /\
  Forall (fun r => nomatch asciiupper r ex_kids) [(Left, [str "JJ"])] /\ picks asciiupper (Right, [str "NNS"; str "NN"]) ex_kids 3 /\ conjunct ex_kids 3 /\
  headfinder asciiupper ex_hr (str "NP") ex_kids = Some 0.
Proof.
  split; [|split; [|split; [|split; [|split; [|split]]]]].
  - intros u I. cbn in I. decompose [or] I; try contradiction; subst u; (split; [reflexivity|intros (f & E & _); discriminate]).
  - cbn. repeat constructor; cbn; intuition discriminate.
  - repeat constructor.
  - repeat constructor. intros u I J. cbn in I. decompose [or] I; try contradiction; subst u; vm_compute in J; decompose [or] J; try contradiction; discriminate.
  - exists (Pre (at_ (str "NN[gen]")) 3). split; [reflexivity|]. cbn [isdis]. exists [str "NNS"], []. split; [reflexivity|]. split.
    + intros u I J. cbn in I. decompose [or] I; try contradiction; subst u; vm_compute in J; decompose [or] J; try contradiction; discriminate.
    + intros j u Ej L. cbn in L. assert (X : nth_error ex_kids j = None) by (apply nth_error_None; cbn; lia). congruence.
  - split; [lia|]. exists (Pre (at_ (str "CC")) 2). split; [reflexivity|]. now left.
  - vm_compute. reflexivity.
Qed.
Example C72_example_tree : full ex_tree /\ athead ex_tree /\ headed (applyheadrules asciiupper ex_hr (Some [(str "*", [str "*-MOD"])]) ex_tree) /\
  map (fun c => a_type (attrof c)) (match nth 1 (match applyheadrules asciiupper ex_hr (Some [(str "*", [str "*-MOD"])]) ex_tree with Con _ ts => ts | _ => [] end) (Pre (at_ []) 0) with Con _ ts => ts | _ => [] end)
  = [Some HEAD; Some COMPLEMENT; Some MODIFIER].
Proof. split; [|split; [|split]]; [repeat constructor; discriminate|repeat constructor|apply C72_onehead; repeat constructor; discriminate|vm_compute; reflexivity]. Qed.
(** the example of the documentation, ``s right-to-left vmfin'': nothing for a node s *)
Example C72_example_lowercase : headfinder asciiupper [(str "S", [(RightToLeft, [str "VMFIN"])])] (str "s") [Pre (at_ (str "np")) 0; Pre (at_ (str "vmfin")) 1] = Some 0
  /\ headfinder asciiupper [(str "S", [(RightToLeft, [str "VMFIN"])])] (str "S") [Pre (at_ (str "np")) 0; Pre (at_ (str "vmfin")) 1] = Some 1.
Proof. split; vm_compute; reflexivity. Qed.
Print Assumptions C72_rule.
Print Assumptions C72_default.
Print Assumptions C72_modifiers.
