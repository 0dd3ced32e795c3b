(** Generating sentences with an LCFRS (C79), reading bitpar grammars for it (C80) *)
From Coq Require Import String.
From Coq Require Import List Bool Arith NArith QArith Lia Lqa.
From Verif Require Import PyStr GenModel.
From Verif Require SortProofs TransformModel.
Import ListNotations.
Open Scope list_scope.
Open Scope nat_scope.

(** ---- specification ---- *)
(** the rule's yield function applied to the yields [l1], [l2] of the two daughters: the
    k-th 0 of the yield function, from left to right, stands for the k-th component of the
    first yield, the k-th 1 for the k-th component of the second *)
Definition instantiates (yf : list (list nat)) (l1 l2 result : list (list pystr)) : Prop :=
  length result = length yf /\
  forall n comp, nth_error yf n = Some comp ->
    nth_error result n = Some (concat (map (fun m =>
      let before := concat (firstn n yf) ++ firstn m comp in
      if nth m comp 0 =? 0 then nth (count_occ Nat.eq_dec before 0) l1 [] else nth (count_occ Nat.eq_dec before 1) l2 [])
      (seq 0 (length comp)))).
(** a unary rule with probability one gets slightly less *)
Definition uweight (w : Q) : Q := if Qeq_bool w 1 then (w - (1 # 100000000))%Q else w.
Section Spec.
Variable rules : list inrule.
(** a derivation of the yield [l] from label [a], with the product of the weights *)
Inductive derives : pystr -> list (list pystr) -> Q -> Prop :=
| g_lex : forall a w p, In ([a; epsilon], Word w, p) rules -> derives a [[w]] p
| g_unary : forall a b yf w l q res, In ([a; b], Yf yf, w) rules -> derives b l q -> instantiates yf l [] res -> derives a res (uweight w * q)
| g_binary : forall a b c yf w l1 q1 l2 q2 res, In ([a; b; c], Yf yf, w) rules -> derives b l1 q1 -> derives c l2 q2 -> instantiates yf l1 l2 res -> derives a res (w * q1 * q2).
(** the yield functions use every component of the daughters once, and unary rules keep
    the yield as it is; [fan] are the fan-outs *)
Record wellformed (fan : pystr -> nat) : Prop := {
  wf_lex : forall a w p, In ([a; epsilon], Word w, p) rules -> fan a = 1;
  wf_lexlabels : forall a rest w p, In (a :: epsilon :: rest, Word w, p) rules -> rest = [];
  wf_unary : forall a b yf w, In ([a; b], Yf yf, w) rules -> fan a = fan b /\ yf = repeat [0] (fan b);
  wf_binary : forall a b c yf w, In ([a; b; c], Yf yf, w) rules -> c <> epsilon /\ length yf = fan a /\ count_occ Nat.eq_dec (concat yf) 0 = fan b /\ count_occ Nat.eq_dec (concat yf) 1 = fan c }.
(** a label has only lexical or only other rules *)
Definition separate : Prop := forall a w p b rest yf q, In ([a; epsilon], Word w, p) rules -> ~ In (a :: b :: rest, Yf yf, q) rules.
Definition positive : Prop := forall ls yf w, In (ls, yf, w) rules -> (0 < w)%Q.
End Spec.
Definition random (u : Q) : Prop := (0 <= u < 1)%Q.

(** ---- choosing a rule ---- *)
Lemma qsum_nonneg : forall l, Forall (fun w => (0 <= w)%Q) l -> (0 <= qsum l)%Q.
Proof. induction 1; cbn [qsum]; lra. Qed.
Lemma qsum_app : forall a b, (qsum (a ++ b) == qsum a + qsum b)%Q.
Proof. induction a as [|x a IH]; intros b; cbn [qsum app]; [lra|]. rewrite IH. lra. Qed.
Lemma pick_iff : forall A (rw : list (A * Q)) pos r, Forall (fun x => (0 <= snd x)%Q) rw -> (0 <= pos)%Q ->
  pick pos rw = Some r <-> exists a w b, rw = a ++ (r, w) :: b /\ (qsum (map snd a) <= pos < qsum (map snd a) + w)%Q.
Proof.
  intros A rw. induction rw as [|[x v] rw IH]; intros pos r NN P.
  - split; [discriminate|]. intros (a & w & b & E & _). destruct a; discriminate.
  - inversion NN as [|? ? N1 N2]; subst. cbn [snd] in N1. cbn [pick]. destruct (Qle_bool 0 (pos - v)) eqn:L.
    + apply Qle_bool_iff in L. rewrite (IH (pos - v)%Q r N2) by lra. split.
      * intros (a & w & b & -> & B). exists ((x, v) :: a), w, b. split; [reflexivity|]. cbn [map snd qsum]. lra.
      * intros (a & w & b & E & B). destruct a as [|y a]; cbn [app] in E; injection E as E1 E2.
        -- subst. cbn [map snd qsum] in B. lra.
        -- subst. exists a, w, b. split; [reflexivity|]. cbn [map snd qsum] in B. lra.
    + assert (L' : (pos - v < 0)%Q). { apply Qnot_le_lt. intros X. apply Qle_bool_iff in X. congruence. } split.
      * intros E. injection E as ->. exists [], v, rw. split; [reflexivity|]. cbn [map snd qsum]. lra.
      * intros (a & w & b & E & B). destruct a as [|y a]; cbn [app] in E; injection E as E1 E2; [congruence|]. subst. cbn [map snd qsum] in B. exfalso.
        assert (0 <= qsum (map snd a))%Q; [|lra]. apply qsum_nonneg. rewrite Forall_map. apply Forall_app in N2. tauto.
Qed.
Section Choose.
Context {A : Type}.
Variables (probof : A -> Q) (noof : A -> nat) (discount : Q) (pc : list nat).
Definition weight (r : A) : Q := (probof r * qpow discount (nth (noof r) pc 0%nat))%Q.
Lemma combine_split : forall (rules : list A) a r w b, combine rules (map weight rules) = a ++ (r, w) :: b <-> w = weight r /\ b = combine (map fst b) (map weight (map fst b)) /\ a = combine (map fst a) (map weight (map fst a)) /\ rules = map fst a ++ r :: map fst b.
Proof.
  induction rules as [|x rules IH]; intros a r w b; cbn [map combine].
  - split; [intros E; destruct a; discriminate|intros (_ & _ & _ & E); destruct (map fst a); discriminate].
  - destruct a as [|y a]; cbn [app map combine].
    + split; [intros E; injection E as -> <- <-|intros (-> & E1 & _ & E2)].
      * assert (E : map fst (combine rules (map weight rules)) = rules) by (clear; induction rules as [|y l IH]; cbn; [reflexivity|now f_equal]). rewrite E. auto.
      * injection E2 as -> ->. now rewrite <- E1.
    + split; [intros E; injection E as <- E|intros (-> & E1 & E2 & E3)].
      * apply IH in E. destruct E as (-> & E1 & E2 & E3). cbn [fst]. split; [reflexivity|]. split; [exact E1|]. split; [now f_equal|]. now f_equal.
      * injection E3 as E3 E4. injection E2 as E2 E5. f_equal; [rewrite E2; subst x; reflexivity|]. apply IH. auto.
Qed.
Lemma choose_iff : forall (rules : list A) u r, (forall x, In x rules -> (0 <= weight x)%Q) -> random u ->
  chooserule probof noof rules discount pc u = Some r <->
  exists before after, rules = before ++ r :: after /\ (qsum (map weight before) <= u * qsum (map weight rules) < qsum (map weight before) + weight r)%Q.
Proof.
  intros rules u r NN [U1 U2]. unfold chooserule. fold weight. change (map (fun r0 => (probof r0 * qpow discount (nth (noof r0) pc 0%nat))%Q) rules) with (map weight rules).
  assert (S0 : (0 <= qsum (map weight rules))%Q) by (apply qsum_nonneg; rewrite Forall_map; now apply Forall_forall).
  assert (P0 : (0 <= u * qsum (map weight rules))%Q) by (apply Qmult_le_0_compat; assumption).
  assert (F : Forall (fun x => (0 <= snd x)%Q) (combine rules (map weight rules))). { apply Forall_forall. intros [x w] I. cbn. assert (w = weight x) as ->; [|apply NN; eapply in_combine_l; exact I]. clear - I. induction rules as [|y l IH]; cbn in I; [contradiction|]. destruct I as [E|I]; [now injection E as <- <-|auto]. }
  rewrite (pick_iff _ _ _ r F P0). split.
  - intros (a & w & b & E & B). apply combine_split in E. destruct E as (-> & _ & EA & E). exists (map fst a), (map fst b). split; [exact E|].
    assert (M : map snd a = map weight (map fst a)). { rewrite EA at 1. clear. induction (map fst a) as [|x l IH]; cbn; [reflexivity|now f_equal]. } now rewrite <- M.
  - intros (be & af & -> & B). exists (combine be (map weight be)), (weight r), (combine af (map weight af)). split.
    + clear. rewrite map_app. cbn [map]. induction be as [|x l IH]; cbn; [reflexivity|now f_equal].
    + assert (M : map snd (combine be (map weight be)) = map weight be) by (clear; induction be as [|x l IH]; cbn; [reflexivity|now f_equal]). now rewrite M.
Qed.
(** every rule with a positive weight can be chosen *)
Lemma choose_some : forall (rules : list A) r, (forall x, In x rules -> (0 < weight x)%Q) -> In r rules -> exists u, random u /\ chooserule probof noof rules discount pc u = Some r.
Proof.
  intros rules r P I. apply in_split in I. destruct I as (be & af & E).
  assert (NB : (0 <= qsum (map weight be))%Q) by (apply qsum_nonneg; rewrite Forall_map; apply Forall_forall; intros x I; apply Qlt_le_weak, P; rewrite E; apply in_or_app; now left).
  assert (NA : (0 <= qsum (map weight af))%Q) by (apply qsum_nonneg; rewrite Forall_map; apply Forall_forall; intros x I; apply Qlt_le_weak, P; rewrite E; apply in_or_app; right; now right).
  assert (W : (0 < weight r)%Q) by (apply P; rewrite E; apply in_or_app; right; now left).
  assert (T : (qsum (map weight rules) == qsum (map weight be) + (weight r + qsum (map weight af)))%Q) by (rewrite E, map_app, qsum_app; reflexivity).
  assert (T0 : (0 < qsum (map weight rules))%Q) by lra. set (t := qsum (map weight rules)) in *.
  assert (U : (qsum (map weight be) / t * t == qsum (map weight be))%Q) by (field; lra).
  exists (qsum (map weight be) / t)%Q. assert (R : random (qsum (map weight be) / t)) by (split; [apply Qle_shift_div_l; lra|apply Qlt_shift_div_r; lra]). split; [exact R|].
  apply choose_iff; [intros x I; apply Qlt_le_weak; auto|exact R|]. exists be, af. split; [exact E|]. fold t. lra.
Qed.
Lemma choose_in : forall (rules : list A) u r, chooserule probof noof rules discount pc u = Some r -> In r rules.
Proof.
  intros rules u r. unfold chooserule. generalize (u * qsum (map (fun r0 : A => (probof r0 * qpow discount (nth (noof r0) pc 0%nat))%Q) rules))%Q. generalize (map (fun r0 : A => (probof r0 * qpow discount (nth (noof r0) pc 0%nat))%Q) rules).
  induction rules as [|x l IH]; intros [|w ws] pos E; try discriminate. cbn [combine pick] in E. destruct (Qle_bool 0 (pos - w)); [right; eapply IH; exact E|left; congruence].
Qed.
End Choose.
(** ---- composing yields ---- *)
Lemma nth_map_seq : forall X (f : nat -> X) n m d, m < n -> nth m (map f (seq 0 n)) d = f m.
Proof. intros X f n m d L. rewrite (nth_indep _ d (f 0)) by (rewrite map_length, seq_length; exact L). rewrite map_nth, seq_nth by exact L. reflexivity. Qed.
Definition isone (b : nat) : bool := b =? 1.
Definition binary01 (l : list nat) : Prop := forall x, In x l -> x = 0 \/ x = 1.
Definition variables (c0 c1 : nat) (l1 l2 : list (list pystr)) (comp : list nat) : list pystr :=
  concat (map (fun m => let before := firstn m comp in if nth m comp 0 =? 0 then nth (c0 + count_occ Nat.eq_dec before 0) l1 [] else nth (c1 + count_occ Nat.eq_dec before 1) l2 []) (seq 0 (length comp))).
Lemma variables_cons0 : forall c0 c1 l1 l2 comp, variables c0 c1 l1 l2 (0 :: comp) = nth c0 l1 [] ++ variables (S c0) c1 l1 l2 comp.
Proof.
  intros. unfold variables. cbn [length seq map concat nth firstn Nat.eqb count_occ]. rewrite Nat.add_0_r. f_equal. f_equal. rewrite <- seq_shift, map_map. apply map_ext. intros m. cbn [nth firstn count_occ].
  destruct (Nat.eq_dec 0 0); [|congruence]. destruct (Nat.eq_dec 0 1); [congruence|]. now rewrite Nat.add_succ_r.
Qed.
Lemma variables_cons1 : forall c0 c1 l1 l2 comp, variables c0 c1 l1 l2 (1 :: comp) = nth c1 l2 [] ++ variables c0 (S c1) l1 l2 comp.
Proof.
  intros. unfold variables. cbn [length seq map concat nth firstn Nat.eqb count_occ]. rewrite Nat.add_0_r. f_equal. f_equal. rewrite <- seq_shift, map_map. apply map_ext. intros m. cbn [nth firstn count_occ].
  destruct (Nat.eq_dec 1 1); [|congruence]. destruct (Nat.eq_dec 1 0); [congruence|]. now rewrite Nat.add_succ_r.
Qed.
Lemma composearg_ok : forall comp l1 l2 c0 c1, binary01 comp -> c0 + count_occ Nat.eq_dec comp 0 <= length l1 -> c1 + count_occ Nat.eq_dec comp 1 <= length l2 ->
  composearg (map isone comp) (skipn c0 l1) (skipn c1 l2) = Some (variables c0 c1 l1 l2 comp, skipn (c0 + count_occ Nat.eq_dec comp 0) l1, skipn (c1 + count_occ Nat.eq_dec comp 1) l2).
Proof.
  assert (SK : forall (l : list (list pystr)) c, c < length l -> skipn c l = nth c l [] :: skipn (S c) l).
  { induction l as [|x l IH]; intros [|c] L; cbn in L; try lia; [reflexivity|]. cbn [skipn nth]. rewrite (IH c) by lia. reflexivity. }
  induction comp as [|b comp IH]; intros l1 l2 c0 c1 B L1 L2.
  - cbn [map composearg count_occ]. rewrite !Nat.add_0_r. reflexivity.
  - destruct (B b (or_introl eq_refl)) as [->| ->]; cbn [map isone Nat.eqb composearg count_occ] in *.
    + destruct (Nat.eq_dec 0 0); [|congruence]. destruct (Nat.eq_dec 0 1); [congruence|]. rewrite (SK l1 c0) by lia. rewrite IH; [|intros x I; apply B; now right|lia|lia]. rewrite variables_cons0. now rewrite Nat.add_succ_r.
    + destruct (Nat.eq_dec 1 1); [|congruence]. destruct (Nat.eq_dec 1 0); [congruence|]. rewrite (SK l2 c1) by lia. rewrite IH; [|intros x I; apply B; now right|lia|lia]. rewrite variables_cons1. now rewrite Nat.add_succ_r.
Qed.
(** all components *)
Fixpoint allvars (c0 c1 : nat) (l1 l2 : list (list pystr)) (yf : list (list nat)) : list (list pystr) :=
  match yf with
  | [] => []
  | comp :: yf => variables c0 c1 l1 l2 comp :: allvars (c0 + count_occ Nat.eq_dec comp 0) (c1 + count_occ Nat.eq_dec comp 1) l1 l2 yf
  end.
Lemma allvars_nth : forall yf c0 c1 l1 l2 n comp, nth_error yf n = Some comp ->
  nth_error (allvars c0 c1 l1 l2 yf) n = Some (variables (c0 + count_occ Nat.eq_dec (concat (firstn n yf)) 0) (c1 + count_occ Nat.eq_dec (concat (firstn n yf)) 1) l1 l2 comp).
Proof.
  induction yf as [|x yf IH]; intros c0 c1 l1 l2 [|n] comp E; try discriminate; cbn [nth_error allvars firstn concat] in *.
  - injection E as ->. cbn [count_occ]. now rewrite !Nat.add_0_r.
  - rewrite (IH _ _ _ _ _ _ E), !count_occ_app, !Nat.add_assoc. reflexivity.
Qed.
Lemma allvars_len : forall yf c0 c1 l1 l2, length (allvars c0 c1 l1 l2 yf) = length yf.
Proof. induction yf as [|x yf IH]; intros; cbn; [reflexivity|]. now rewrite IH. Qed.
Lemma nth_error_ext' : forall X (l l' : list X), length l = length l' -> (forall n, n < length l -> nth_error l n = nth_error l' n) -> l = l'.
Proof.
  induction l as [|x l IH]; intros [|y l'] L H; cbn in L; try lia; [reflexivity|]. assert (E := H 0 (Nat.lt_0_succ _)). cbn in E. injection E as ->. f_equal. apply IH; [lia|]. intros n N0. apply (H (S n)). cbn. lia.
Qed.
Lemma instantiates_iff : forall yf l1 l2 res, instantiates yf l1 l2 res <-> res = allvars 0 0 l1 l2 yf.
Proof.
  assert (S : forall yf l1 l2, instantiates yf l1 l2 (allvars 0 0 l1 l2 yf)).
  { intros yf l1 l2. split; [apply allvars_len|]. intros n comp E. rewrite (allvars_nth _ _ _ _ _ _ _ E). f_equal. unfold variables. f_equal. apply map_ext. intros m. cbn zeta. rewrite !count_occ_app. reflexivity. }
  intros yf l1 l2 res. split; [|intros ->; apply S]. intros [L H]. apply nth_error_ext'; [now rewrite allvars_len|]. intros n N0. destruct (nth_error yf n) as [comp|] eqn:E; [|apply nth_error_None in E; lia].
  rewrite (H n comp E). symmetry. apply (proj2 (S yf l1 l2) n comp E).
Qed.
Lemma composeargs_ok : forall yf l1 l2 c0 c1, (forall comp, In comp yf -> binary01 comp) -> c0 + count_occ Nat.eq_dec (concat yf) 0 <= length l1 -> c1 + count_occ Nat.eq_dec (concat yf) 1 <= length l2 ->
  (forall comp, In comp yf -> map (fun b => N.testbit (yfnum comp) (N.of_nat b)) (seq 0 (length comp)) = map isone comp) ->
  composeargs (combine (map (@length nat) yf) (map yfnum yf)) (skipn c0 l1) (skipn c1 l2) = Some (allvars c0 c1 l1 l2 yf).
Proof.
  induction yf as [|comp yf IH]; intros l1 l2 c0 c1 B L1 L2 T; [reflexivity|]. cbn [map combine composeargs allvars concat] in *. rewrite count_occ_app in L1, L2.
  rewrite (T comp (or_introl eq_refl)). rewrite composearg_ok; [|apply B; now left|lia|lia]. rewrite IH; [reflexivity|intros; apply B; now right|lia|lia|intros; apply T; now right].
Qed.
Lemma map_fix : forall X (f : X -> X) l, l = map f l -> forall x, In x l -> x = f x.
Proof. induction l as [|y l IH]; intros E x I; [contradiction|]. cbn in E. injection E as E1 E2. destruct I as [<-|I]; auto. Qed.
Lemma yf_bits : forall yf ar le, yfarray yf = Some (ar, le) -> eqyf yf (arraytoyf ar le) = true -> ar = map yfnum yf /\ le = map (@length nat) yf /\ (forall comp, In comp yf -> binary01 comp) /\
  (forall comp, In comp yf -> map (fun b => N.testbit (yfnum comp) (N.of_nat b)) (seq 0 (length comp)) = map isone comp).
Proof.
  intros yf ar le E Q. unfold yfarray in E. destruct (_ && _); [|discriminate]. injection E as <- <-. split; [reflexivity|]. split; [reflexivity|]. unfold eqyf in Q. destruct (list_eq_dec _ _ _) as [E|]; [|discriminate]. clear Q.
  assert (H : forall comp, In comp yf -> comp = map (fun m => if N.testbit (yfnum comp) (N.of_nat m) then 1 else 0) (seq 0 (length comp))).
  { unfold arraytoyf in E. assert (C : combine (map (@length nat) yf) (map yfnum yf) = map (fun c => (length c, yfnum c)) yf) by (clear; induction yf as [|x l IH]; cbn; [reflexivity|now f_equal]). rewrite C, map_map in E. cbn [fst snd] in E.
    intros comp I. exact (map_fix _ (fun c => map (fun m => if N.testbit (yfnum c) (N.of_nat m) then 1 else 0) (seq 0 (length c))) yf E comp I). }
  split; intros comp I.
  - intros x IX. rewrite (H comp I) in IX. apply in_map_iff in IX. destruct IX as (m & <- & _). destruct (N.testbit _ _); auto.
  - transitivity (map isone (map (fun m => if N.testbit (yfnum comp) (N.of_nat m) then 1 else 0) (seq 0 (length comp)))); [|now rewrite <- (H comp I)]. rewrite map_map. apply map_ext. intros m. unfold isone. destruct (N.testbit _ _); reflexivity.
Qed.
Lemma instantiates_id : forall l, instantiates (repeat [0] (length l)) l [] l.
Proof.
  intros l. apply instantiates_iff. assert (H : forall k c, c + k = length l -> skipn c l = allvars c 0 l [] (repeat [0] k)).
  { induction k as [|k IH]; intros c E; cbn [repeat allvars].
    - apply skipn_all2. lia.
    - rewrite variables_cons0. change (variables (S c) 0 l [] []) with (@nil pystr). rewrite app_nil_r. replace (c + count_occ Nat.eq_dec [0] 0) with (S c) by (cbn; lia). replace (0 + count_occ Nat.eq_dec [0] 1) with 0 by reflexivity. rewrite <- IH by lia.
      clear - E. assert (L : c < length l) by lia. clear E. revert c L. induction l as [|x l IH]; intros [|c] L; cbn in L; try lia; [reflexivity|]. cbn [skipn nth]. apply IH. lia. }
  rewrite <- (H (length l) 0) by lia. reflexivity.
Qed.
(** ---- the lookup tables ---- *)
Lemma indexs_nth : forall l a i, indexs a l = Some i -> nth_error l i = Some a.
Proof.
  induction l as [|b l IH]; intros a i E; [discriminate|]. cbn in E. destruct (eqs a b) eqn:Q.
  - injection E as <-. apply eqs_eq in Q. now subst.
  - destruct (indexs a l) as [j|] eqn:EJ; [|discriminate]. injection E as <-. now apply IH.
Qed.
Section Tables.
Variable ids : pystr -> option nat.
Definition isrule (done : list inrule) (r : grule) : Prop := exists a b rest yf w, nth_error done (no r) = Some (a :: b :: rest, Yf yf, w) /\ b <> epsilon /\ ids a = Some (lhs r) /\ ids b = Some (rhs1 r) /\
  yfarray yf = Some (args r, lengths r) /\ eqyf yf (arraytoyf (args r) (lengths r)) = true /\ prob r = unaryprob (a :: b :: rest) w /\ ((rest = [] /\ rhs2 r = 0) \/ exists c, rest = [c] /\ ids c = Some (rhs2 r)).
Definition islex (done : list inrule) (t : lexrule) : Prop := exists a rest, nth_error done (lno t) = Some (a :: epsilon :: rest, Word (word t), lprob t) /\ ids a = Some (llhs t).
Definition lexs (g : grammar) (x : nat) : list lexrule := match lexicalbylhs g x with Some l => l | None => [] end.
Record tables (done : list inrule) (g : grammar) : Prop := {
  tb_rule : forall x r, In r (bylhs g x) <-> isrule done r /\ lhs r = x;
  tb_lex : forall x t, In t (lexs g x) <-> islex done t /\ llhs t = x;
  tb_all : forall n labels yf w, nth_error done n = Some (labels, Yf yf, w) -> exists r, isrule done r /\ no r = n;
  tb_alllex : forall n labels wd w, nth_error done n = Some (labels, Word wd, w) -> exists t, islex done t /\ lno t = n }.
Lemma isrule_same : forall done r r', isrule done r -> isrule done r' -> no r = no r' -> r = r'.
Proof.
  intros done [x y z ar le p n] [x' y' z' ar' le' p' n'] (a & b & rest & yf & w & E & B & H1 & H2 & H3 & _ & H4 & H5) (a' & b' & rest' & yf' & w' & E' & B' & H1' & H2' & H3' & _ & H4' & H5') EN. cbn in *. subst n'. rewrite E in E'. injection E' as <- <- <- <- <-.
  rewrite H1 in H1'. rewrite H2 in H2'. rewrite H3 in H3'. injection H1' as <-. injection H2' as <-. injection H3' as <- <-. subst. f_equal. destruct H5 as [[-> ->]|(c & -> & C)], H5' as [[E2 E3]|(c' & E2 & C')]; try discriminate; [congruence|]. injection E2 as <-. congruence.
Qed.
Lemma islex_same : forall done r r', islex done r -> islex done r' -> lno r = lno r' -> r = r'.
Proof. intros done [x w p n] [x' w' p' n'] (a & rest & E & H) (a' & rest' & E' & H') EN. cbn in *. subst n'. rewrite E in E'. injection E' as <- <- <- <-. rewrite H in H'. injection H' as <-. reflexivity. Qed.
Lemma isrule_app : forall done x r, isrule done r -> isrule (done ++ [x]) r.
Proof. intros done x r (a & b & rest & yf & w & E & H). exists a, b, rest, yf, w. split; [|exact H]. rewrite nth_error_app1; [exact E|]. apply nth_error_Some. congruence. Qed.
Lemma islex_app : forall done x r, islex done r -> islex (done ++ [x]) r.
Proof. intros done x r (a & rest & E & H). exists a, rest. split; [|exact H]. rewrite nth_error_app1; [exact E|]. apply nth_error_Some. congruence. Qed.
Lemma isrule_new : forall done x r, isrule (done ++ [x]) r -> isrule done r \/ no r = length done.
Proof.
  intros done x r (a & b & rest & yf & w & E & H). destruct (lt_dec (no r) (length done)) as [L|L].
  - left. exists a, b, rest, yf, w. split; [|exact H]. now rewrite nth_error_app1 in E by exact L.
  - right. assert (no r < length (done ++ [x])) by (apply nth_error_Some; congruence). rewrite app_length in *. cbn in *. lia.
Qed.
Lemma islex_new : forall done x r, islex (done ++ [x]) r -> islex done r \/ lno r = length done.
Proof.
  intros done x r (a & rest & E & H). destruct (lt_dec (lno r) (length done)) as [L|L].
  - left. exists a, rest. split; [|exact H]. now rewrite nth_error_app1 in E by exact L.
  - right. assert (lno r < length (done ++ [x])) by (apply nth_error_Some; congruence). rewrite app_length in *. cbn in *. lia.
Qed.
Lemma isrule_old : forall done r, isrule done r -> no r < length done.
Proof. intros done r (a & b & rest & yf & w & E & H). apply nth_error_Some. congruence. Qed.
Lemma islex_old : forall done r, islex done r -> lno r < length done.
Proof. intros done r (a & rest & E & H). apply nth_error_Some. congruence. Qed.
Lemma nth_last : forall X (l : list X) x, nth_error (l ++ [x]) (length l) = Some x.
Proof. intros. rewrite nth_error_app2 by lia. now rewrite Nat.sub_diag. Qed.
Lemma addrule_tables : forall done g r g', tables done g -> addrule ids g (length done) r = Some g' -> tables (done ++ [r]) g' /\ numrules g' = numrules g /\ toid g' = toid g.
Proof.
  intros done g [[labels yf] w] g' T E. unfold addrule in E. destruct labels as [|a [|b rest]]; try discriminate. destruct (ids a) as [x|] eqn:IA; [|discriminate]. destruct (ids b) as [y|] eqn:IB; [|discriminate]. destruct (eqs b epsilon) eqn:EB.
  - apply eqs_eq in EB. subst b. destruct yf as [yf|wd]; [discriminate|]. destruct (fanout g x <=? 1); [|discriminate]. injection E as <-. split; [|split; reflexivity].
    set (new := (a :: epsilon :: rest, Word wd, w)). assert (NL : islex (done ++ [new]) (LexicalRule x wd w (length done))) by (exists a, rest; cbn; split; [apply nth_last|exact IA]).
    assert (NR : forall r, no r = length done -> ~ isrule (done ++ [new]) r). { intros r E (a' & b' & rest' & yf' & w' & E' & _). rewrite E in E'. rewrite nth_last in E'. discriminate. }
    constructor; cbn [bylhs lexicalbylhs].
    + intros x' r. rewrite (tb_rule _ _ T). split; intros [H L]; (split; [|exact L]); [now apply isrule_app|]. destruct (isrule_new _ _ _ H) as [H'|H']; [exact H'|]. exfalso. exact (NR r H' H).
    + intros x' t. assert (O := tb_lex _ _ T x' t). unfold lexs in *. cbn [lexicalbylhs]. unfold put. destruct (Nat.eqb_spec x' x) as [->|NX].
      * rewrite in_app_iff, O. cbn [In]. split.
        -- intros [[H L]|[<-|[]]]; [split; [now apply islex_app|exact L]|split; [exact NL|reflexivity]].
        -- intros [H L]. destruct (islex_new _ _ _ H) as [H'|H']; [now left|right; left]. apply (islex_same _ _ _ NL H). symmetry. exact H'.
      * rewrite O. split; intros [H L]; (split; [|exact L]); [now apply islex_app|]. destruct (islex_new _ _ _ H) as [H'|H']; [exact H'|]. exfalso. apply NX. rewrite <- L. rewrite (islex_same _ _ _ H NL H'). reflexivity.
    + intros n ls yf p E. destruct (lt_dec n (length done)) as [L|L].
      * rewrite nth_error_app1 in E by exact L. destruct (tb_all _ _ T _ _ _ _ E) as (r & R & N). exists r. split; [now apply isrule_app|exact N].
      * assert (LN : n < length (done ++ [new])) by (apply nth_error_Some; intros X0; pose proof (eq_trans (eq_sym X0) E) as X1; discriminate X1). rewrite app_length in LN. cbn in LN. assert (n = length done) as -> by lia. rewrite nth_last in E. discriminate.
    + intros n ls wd' p E. destruct (lt_dec n (length done)) as [L|L].
      * rewrite nth_error_app1 in E by exact L. destruct (tb_alllex _ _ T _ _ _ _ E) as (r & R & N). exists r. split; [now apply islex_app|exact N].
      * assert (LN : n < length (done ++ [new])) by (apply nth_error_Some; intros X0; pose proof (eq_trans (eq_sym X0) E) as X1; discriminate X1). rewrite app_length in LN. cbn in LN. assert (n = length done) as -> by lia. eexists. split; [exact NL|reflexivity].
  - apply eqs_neq in EB. destruct yf as [yf|wd]; [|discriminate]. destruct (yfarray yf) as [[ar le]|] eqn:YA; [|discriminate]. destruct (eqyf yf (arraytoyf ar le)) eqn:YE; [|discriminate].
    assert (exists z, ((rest = [] /\ z = 0) \/ exists c, rest = [c] /\ ids c = Some z) /\ exists fan, g' = Grammar (numrules g) (put (bylhs g) x (bylhs g x ++ [Rule x y z ar le (unaryprob (a :: b :: rest) w) (length done)])) (lexicalbylhs g) (put (fanout g) x fan) (toid g)) as (z & Z & fan & ->).
    { destruct rest as [|c [|? ?]]; [| |discriminate].
      - exists 0. split; [now left|]. cbn zeta in E. destruct (_ =? length ar); [|discriminate]. injection E as <-. eexists. reflexivity.
      - destruct (ids c) as [z|] eqn:IC; [|discriminate]. exists z. split; [right; exists c; auto|]. cbn zeta in E. destruct (_ =? length ar); [|discriminate]. injection E as <-. eexists. reflexivity. }
    clear E. split; [|split; reflexivity]. set (new := (a :: b :: rest, Yf yf, w)). set (nr := Rule x y z ar le (unaryprob (a :: b :: rest) w) (length done)).
    assert (NR : isrule (done ++ [new]) nr) by (exists a, b, rest, yf, w; cbn; split; [apply nth_last|]; repeat split; auto).
    assert (NL : forall r, lno r = length done -> ~ islex (done ++ [new]) r). { intros r E (a' & rest' & E' & _). rewrite E in E'. rewrite nth_last in E'. discriminate. }
    constructor; cbn [bylhs lexicalbylhs].
    + intros x' r. assert (O := tb_rule _ _ T x' r). unfold put. destruct (Nat.eqb_spec x' x) as [->|NX].
      * rewrite in_app_iff, O. cbn [In]. split.
        -- intros [[H L]|[<-|[]]]; [split; [now apply isrule_app|exact L]|split; [exact NR|reflexivity]].
        -- intros [H L]. destruct (isrule_new _ _ _ H) as [H'|H']; [now left|right; left]. apply (isrule_same _ _ _ NR H). symmetry. exact H'.
      * rewrite O. split; intros [H L]; (split; [|exact L]); [now apply isrule_app|]. destruct (isrule_new _ _ _ H) as [H'|H']; [exact H'|]. exfalso. apply NX. rewrite <- L. rewrite (isrule_same _ _ _ H NR H'). reflexivity.
    + intros x' t. assert (O := tb_lex _ _ T x' t). unfold lexs in *. cbn [lexicalbylhs]. rewrite O. split; intros [H L]; (split; [|exact L]); [now apply islex_app|]. destruct (islex_new _ _ _ H) as [H'|H']; [exact H'|]. exfalso. exact (NL t H' H).
    + intros n ls yf' p E. destruct (lt_dec n (length done)) as [L|L].
      * rewrite nth_error_app1 in E by exact L. destruct (tb_all _ _ T _ _ _ _ E) as (r & R & N). exists r. split; [now apply isrule_app|exact N].
      * assert (LN : n < length (done ++ [new])) by (apply nth_error_Some; intros X0; pose proof (eq_trans (eq_sym X0) E) as X1; discriminate X1). rewrite app_length in LN. cbn in LN. assert (n = length done) as -> by lia. exists nr. split; [exact NR|reflexivity].
    + intros n ls wd' p E. destruct (lt_dec n (length done)) as [L|L].
      * rewrite nth_error_app1 in E by exact L. destruct (tb_alllex _ _ T _ _ _ _ E) as (r & R & N). exists r. split; [now apply islex_app|exact N].
      * assert (LN : n < length (done ++ [new])) by (apply nth_error_Some; intros X0; pose proof (eq_trans (eq_sym X0) E) as X1; discriminate X1). rewrite app_length in LN. cbn in LN. assert (n = length done) as -> by lia. rewrite nth_last in E. discriminate.
Qed.
Lemma addrules_tables : forall rs done g g', tables done g -> addrules ids g (length done) rs = Some g' -> tables (done ++ rs) g' /\ numrules g' = numrules g /\ toid g' = toid g.
Proof.
  induction rs as [|r rs IH]; intros done g g' T E; cbn [addrules] in E.
  - injection E as <-. rewrite app_nil_r. auto.
  - destruct (addrule ids g (length done) r) as [g1|] eqn:E1; [|discriminate]. destruct (addrule_tables _ _ _ _ T E1) as (T1 & N1 & I1). replace (S (length done)) with (length (done ++ [r])) in E by (rewrite app_length; cbn; lia).
    destruct (IH _ _ _ T1 E) as (T2 & N2 & I2). rewrite <- app_assoc in T2. cbn in T2. rewrite N2, I2. auto.
Qed.
End Tables.
Lemma splitgrammar_tables : forall rules g, splitgrammar rules = Some g -> tables (toid g) rules g /\ numrules g = length rules /\ (forall a i, toid g a = Some i -> nth_error (nonterminals rules) i = Some a).
Proof.
  intros rules g E. unfold splitgrammar in E. apply (addrules_tables _ rules []) in E.
  - cbn [app numrules toid length] in E. destruct E as (T & N & I). rewrite I, N. split; [exact T|]. split; [reflexivity|]. intros a i. apply indexs_nth.
  - constructor; cbn.
    + intros x r. split; [contradiction|]. intros [(a & b & rest & yf & w & E0 & _) _]. destruct (no r); discriminate.
    + intros x r. split; [contradiction|]. intros [(a & rest & E0 & _) _]. destruct (lno r); discriminate.
    + intros n labels yf w E0. destruct n; discriminate.
    + intros n labels yf w E0. destruct n; discriminate.
Qed.
(** ---- gen ---- *)
Lemma setnth_undo : forall pc n v, setnth (setnth pc n v) n (nth n pc 0) = pc.
Proof.
  intros pc n v. unfold setnth. revert n. induction pc as [|x pc IH]; intros n; [destruct n; reflexivity|]. destruct n as [|n]; [reflexivity|]. cbn [firstn skipn nth app]. f_equal. apply IH.
Qed.
Lemma setnth_nth : forall pc n v, n < length pc -> nth n (setnth pc n v) 0 = v.
Proof. induction pc as [|x pc IH]; intros [|n] v L; cbn in L; try lia; [reflexivity|]. unfold setnth. cbn [firstn skipn nth app]. apply IH. lia. Qed.
Lemma setnth_out : forall pc n v, length pc <= n -> setnth pc n v = pc.
Proof. intros pc n v L. unfold setnth. rewrite skipn_all2 by exact L. rewrite firstn_all2 by exact L. apply app_nil_r. Qed.
Lemma setnth_restore : forall pc n, setnth (setnth pc n (nth n pc 0 + 1)) n (nth n (setnth pc n (nth n pc 0 + 1)) 0 - 1) = pc.
Proof.
  intros pc n. destruct (lt_dec n (length pc)) as [L|L].
  - rewrite setnth_nth by exact L. replace (nth n pc 0 + 1 - 1) with (nth n pc 0) by lia. apply setnth_undo.
  - rewrite !setnth_out by (try rewrite setnth_out; lia). reflexivity.
Qed.
Section Gen.
Variables (rules : list inrule) (g : grammar) (fan : pystr -> nat) (discount : Q).
Hypothesis SG : splitgrammar rules = Some g.
Hypothesis WF : wellformed rules fan.
Notation derives := (derives rules).
Lemma T : tables (toid g) rules g.
Proof. exact (proj1 (splitgrammar_tables rules g SG)). Qed.
Lemma ids_inj : forall a b i, toid g a = Some i -> toid g b = Some i -> a = b.
Proof. intros a b i A B. destruct (splitgrammar_tables rules g SG) as (_ & _ & I). apply I in A. apply I in B. congruence. Qed.
Lemma id_eps : forall a, toid g a = Some 0 -> a = epsilon.
Proof. intros a A. destruct (splitgrammar_tables rules g SG) as (_ & _ & I). apply I in A. unfold nonterminals in A; cbn [nth_error] in A. congruence. Qed.
Lemma compose_ok : forall r yf p1 l1 p2 l2, yfarray yf = Some (args r, lengths r) -> eqyf yf (arraytoyf (args r) (lengths r)) = true ->
  count_occ Nat.eq_dec (concat yf) 0 = length l1 -> count_occ Nat.eq_dec (concat yf) 1 = length l2 -> compose r (p1, l1) (p2, l2) = Some ((prob r * p1 * p2)%Q, allvars 0 0 l1 l2 yf).
Proof.
  intros r yf p1 l1 p2 l2 YA YE C0 C1. destruct (yf_bits _ _ _ YA YE) as (EA & EL & B & BT). unfold compose. rewrite EA, EL. pose proof (composeargs_ok yf l1 l2 0 0 B ltac:(lia) ltac:(lia) BT) as H. cbn [skipn] in H. now rewrite H.
Qed.
Lemma derives_len : forall a l p, derives a l p -> length l = fan a.
Proof.
  intros a l p D. destruct D as [a w p I|a b yf w l q res I D IN|a b c yf w l1 q1 l2 q2 res I D1 D2 IN]; try destruct IN as [L _].
  - cbn. symmetry. exact (wf_lex _ _ WF _ _ _ I).
  - destruct (wf_unary _ _ WF _ _ _ _ I) as [E ->]. rewrite repeat_length in L. congruence.
  - destruct (wf_binary _ _ WF _ _ _ _ _ I) as (_ & E & _). congruence.
Qed.
Lemma gen_sound : forall fuel x pc us p l pc' us', gen g discount fuel x pc us = Some (p, l, pc', us') -> forall a, toid g a = Some x ->
  (exists q, derives a l q /\ (q == p)%Q) /\ pc' = pc /\ (exists used, us = used ++ us').
Proof.
  induction fuel as [|fuel IH]; intros x pc us p l pc' us' E a A; [discriminate|]. destruct us as [|u us]; [discriminate|]. cbn [gen] in E. destruct (bylhs g x) as [|r0 rs] eqn:BL.
  - destruct (lexicalbylhs g x) as [lex|] eqn:LX; [|discriminate]. destruct (chooserule lprob lno lex discount pc u) as [t|] eqn:CH; [|discriminate]. injection E as <- <- <- <-. apply choose_in in CH.
    assert (IT : In t (lexs g x)) by (unfold lexs; now rewrite LX). apply (tb_lex _ _ _ T) in IT. destruct IT as [(a' & rest & E & IA) L]. rewrite L in IA. pose proof (ids_inj _ _ _ IA A) as ->. apply nth_error_In in E. pose proof (wf_lexlabels _ _ WF _ _ _ _ E) as ->.
    split; [exists (lprob t); split; [now constructor|reflexivity]|]. split; [reflexivity|]. exists [u]. reflexivity.
  - destruct (chooserule prob no (r0 :: rs) discount pc u) as [r|] eqn:CH; [|discriminate]. apply choose_in in CH. rewrite <- BL in CH. clear BL r0 rs. apply (tb_rule _ _ _ T) in CH. destruct CH as [(a' & b & rest & yf & w & EN & NB & IA & IB & YA & YE & PR & Z) L]. rewrite L in IA. pose proof (ids_inj _ _ _ IA A) as ->.
    destruct (gen g discount fuel (rhs1 r) _ us) as [[[[p1 l1] pc1] us1]|] eqn:G1; [|discriminate]. destruct (IH _ _ _ _ _ _ _ G1 b IB) as ((q1 & D1 & Q1) & -> & used1 & ->). apply nth_error_In in EN. destruct (Nat.eqb_spec (rhs2 r) 0) as [Z0|Z0].
    + injection E as <- <- <- <-. destruct Z as [[-> _]|(c & -> & IC)].
      * split; [|split; [apply setnth_restore|exists (u :: used1); reflexivity]]. exists (uweight w * q1)%Q. split.
        -- apply g_unary with (b := b) (yf := yf) (l := l1); [exact EN|exact D1|]. destruct (wf_unary _ _ WF _ _ _ _ EN) as [_ ->]. rewrite <- (derives_len _ _ _ D1). apply instantiates_id.
        -- rewrite PR. unfold unaryprob, uweight. cbn [length Nat.eqb andb]. rewrite Q1. apply Qmult_comm.
      * exfalso. rewrite Z0 in IC. apply id_eps in IC. subst c. now apply (wf_binary _ _ WF _ _ _ _ _ EN).
    + destruct Z as [[_ Z]|(c & -> & IC)]; [congruence|]. destruct (gen g discount fuel (rhs2 r) _ us1) as [[[[p2 l2] pc2] us2]|] eqn:G2; [|discriminate]. destruct (IH _ _ _ _ _ _ _ G2 c IC) as ((q2 & D2 & Q2) & -> & used2 & ->).
      destruct (wf_binary _ _ WF _ _ _ _ _ EN) as (_ & LF & C0 & C1). rewrite (compose_ok r yf p1 l1 p2 l2 YA YE) in E by (rewrite ?(derives_len _ _ _ D1), ?(derives_len _ _ _ D2); assumption). injection E as <- <- <- <-.
      split; [|split; [apply setnth_restore|exists (u :: used1 ++ used2); cbn; now rewrite app_assoc]]. exists (w * q1 * q2)%Q. split.
      * apply g_binary with (b := b) (c := c) (yf := yf) (l1 := l1) (l2 := l2); auto. now apply instantiates_iff.
      * rewrite PR. unfold unaryprob. cbn [length Nat.eqb andb]. now rewrite Q1, Q2.
Qed.
Hypothesis SEP : separate rules.
Hypothesis POS : positive rules.
Hypothesis DISC : (0 < discount)%Q.
Lemma qpow_pos : forall k, (0 < qpow discount k)%Q.
Proof. induction k as [|k IH]; cbn [qpow]; [lra|]. now apply Qmult_lt_0_compat. Qed.
Lemma unaryprob_pos : forall ls w, (0 < w)%Q -> (0 < unaryprob ls w)%Q.
Proof. intros ls w P. unfold unaryprob. destruct (_ && Qeq_bool w 1) eqn:E; [|exact P]. apply andb_prop in E. destruct E as [_ E]. apply Qeq_bool_iff in E. lra. Qed.
Lemma rule_pos : forall x r pc, In r (bylhs g x) -> (0 < weight prob no discount pc r)%Q.
Proof.
  intros x r pc I. apply (tb_rule _ _ _ T) in I. destruct I as [(a & b & rest & yf & w & EN & _ & _ & _ & _ & _ & PR & _) _]. apply nth_error_In in EN. unfold weight. apply Qmult_lt_0_compat; [|apply qpow_pos]. rewrite PR. apply unaryprob_pos. eapply POS. exact EN.
Qed.
Lemma lex_pos : forall x t pc, In t (lexs g x) -> (0 < weight lprob lno discount pc t)%Q.
Proof. intros x t pc I. apply (tb_lex _ _ _ T) in I. destruct I as [(a & rest & EN & _) _]. apply nth_error_In in EN. unfold weight. apply Qmult_lt_0_compat; [|apply qpow_pos]. eapply POS. exact EN. Qed.
Lemma gen_complete : forall a l p, derives a l p -> exists x, toid g a = Some x /\ forall pc, exists depth us p', Forall random us /\ (p' == p)%Q /\
  forall fuel rest, depth <= fuel -> gen g discount fuel x pc (us ++ rest) = Some (p', l, pc, rest).
Proof.
  intros a l p D. induction D as [a w p I|a b yf w l q res I D IH IN|a b c yf w l1 q1 l2 q2 res I D1 IH1 D2 IH2 IN].
  - apply In_nth_error in I. destruct I as [n EN]. destruct (tb_alllex _ _ _ T _ _ _ _ EN) as (t & TT & TN). assert (TT' := TT). destruct TT' as (a' & rest & EN' & IA). rewrite TN, EN in EN'. injection EN' as <- <- EW EP.
    exists (llhs t). split; [exact IA|]. intros pc. assert (IT : In t (lexs g (llhs t))) by (apply (tb_lex _ _ _ T); auto). assert (BL : bylhs g (llhs t) = []).
    { destruct (bylhs g (llhs t)) as [|r rs] eqn:BL; [reflexivity|]. exfalso. assert (IR : In r (bylhs g (llhs t))) by (rewrite BL; now left). apply (tb_rule _ _ _ T) in IR. destruct IR as [(a' & b & rest & yf & w' & E & _ & IA' & _) L]. rewrite L in IA'. pose proof (ids_inj _ _ _ IA IA') as <-. apply nth_error_In in E. apply nth_error_In in EN. exact (SEP _ _ _ _ _ _ _ EN E). }
    destruct (choose_some lprob lno discount pc (lexs g (llhs t)) t) as (u & R & C); [intros y Y; eapply lex_pos; exact Y|exact IT|]. exists 1, [u], p. split; [now constructor|]. split; [reflexivity|]. intros [|fuel] rest LE; [lia|]. cbn [gen app]. rewrite BL. unfold lexs in IT, C. destruct (lexicalbylhs g (llhs t)); [|contradiction]. rewrite C. now rewrite <- EP, <- EW.
  - destruct IH as (y & IY & IH). apply In_nth_error in I. destruct I as [n EN]. destruct (tb_all _ _ _ T _ _ _ _ EN) as (r & TR & TN). assert (TR' := TR). destruct TR' as (a' & b' & rest & yf' & w' & EN' & NB & IA & IB & YA & YE & PR & Z). rewrite TN, EN in EN'. injection EN' as <- <- <- <- <-.
    destruct Z as [[_ Z]|(c & Z & _)]; [|discriminate]. exists (lhs r). split; [exact IA|]. intros pc. rewrite IB in IY. injection IY as <-. assert (IR : In r (bylhs g (lhs r))) by (apply (tb_rule _ _ _ T); auto).
    destruct (choose_some prob no discount pc (bylhs g (lhs r)) r) as (u & R & C); [intros z0 Z0; eapply rule_pos; exact Z0|exact IR|]. destruct (IH (setnth pc (no r) (nth (no r) pc 0 + 1))) as (dp & us & p' & F & Q & G).
    exists (S dp), (u :: us), (p' * prob r)%Q. split; [now constructor|]. split; [rewrite PR, Q; unfold unaryprob, uweight; cbn [length Nat.eqb andb]; apply Qmult_comm|]. intros [|fuel] rest' LE; [lia|]. cbn [gen app]. destruct (bylhs g (lhs r)) as [|r0 rs]; [contradiction|]. rewrite C, G by lia. rewrite Z. cbn [Nat.eqb]. rewrite setnth_restore.
    assert (res = l) as ->; [|reflexivity]. apply nth_error_In in EN. destruct (wf_unary _ _ WF _ _ _ _ EN) as [_ ->]. apply instantiates_iff in IN. rewrite <- (derives_len _ _ _ D) in IN. rewrite IN. symmetry. apply instantiates_iff. apply instantiates_id.
  - destruct IH1 as (y & IY & IH1). destruct IH2 as (z & IZ & IH2). apply In_nth_error in I. destruct I as [n EN]. destruct (tb_all _ _ _ T _ _ _ _ EN) as (r & TR & TN). assert (TR' := TR). destruct TR' as (a' & b' & rest & yf' & w' & EN' & NB & IA & IB & YA & YE & PR & Z). rewrite TN, EN in EN'. injection EN' as <- <- <- <- <-.
    destruct Z as [[Z _]|(c' & Z & IC)]; [discriminate|]. injection Z as <-. exists (lhs r). split; [exact IA|]. intros pc. rewrite IB in IY. injection IY as <-. rewrite IC in IZ. injection IZ as <-. assert (IR : In r (bylhs g (lhs r))) by (apply (tb_rule _ _ _ T); auto). apply nth_error_In in EN. destruct (wf_binary _ _ WF _ _ _ _ _ EN) as (NC & LF & C0 & C1).
    assert (Z : rhs2 r <> 0) by (intros Z0; rewrite Z0 in IC; apply id_eps in IC; contradiction). apply Nat.eqb_neq in Z.
    destruct (choose_some prob no discount pc (bylhs g (lhs r)) r) as (u & R & C); [intros z0 Z0; eapply rule_pos; exact Z0|exact IR|]. destruct (IH1 (setnth pc (no r) (nth (no r) pc 0 + 1))) as (dp & us & p1 & F & Q & G). destruct (IH2 (setnth pc (no r) (nth (no r) pc 0 + 1))) as (dp2 & us2 & p2 & F2 & Q2 & G2).
    exists (S (dp + dp2)), (u :: us ++ us2), (prob r * p1 * p2)%Q. split; [constructor; [exact R|apply Forall_app; auto]|]. split; [rewrite PR, Q, Q2; unfold unaryprob; cbn [length Nat.eqb andb]; reflexivity|]. intros [|fuel] rest' LE; [lia|]. cbn [gen app]. destruct (bylhs g (lhs r)) as [|r0 rs]; [contradiction|]. rewrite C. rewrite <- app_assoc, G by lia. rewrite Z, G2 by lia.
    rewrite (compose_ok r yf p1 l1 p2 l2 YA YE) by (rewrite ?(derives_len _ _ _ D1), ?(derives_len _ _ _ D2); assumption). rewrite setnth_restore. apply instantiates_iff in IN. now rewrite IN.
Qed.
End Gen.

(** ---- C79 ---- *)
(** what is generated is a derivation with its probability: the product of the weights of
    the rules; its yield has as many components as the fan-out of the start label *)
Theorem C79_sound : forall rules g fan discount fuel a x us p l, splitgrammar rules = Some g -> wellformed rules fan -> toid g a = Some x ->
  generate g discount fuel x us = Some (p, l) -> exists q, derives rules a l q /\ (q == p)%Q /\ length l = fan a.
Proof.
  intros rules g fan discount fuel a x us p l SG WF A E. unfold generate in E. destruct (gen g discount fuel x _ us) as [[[[p' l'] pc] us']|] eqn:G; [|discriminate]. injection E as -> ->.
  destruct (gen_sound rules g fan discount SG WF _ _ _ _ _ _ _ _ G a A) as ((q & D & Q) & _). exists q. split; [exact D|]. split; [exact Q|]. eapply derives_len; eassumption.
Qed.
(** the counts of the rules in use are as before when gen() returns; an unused rest of the
    random numbers is left *)
Theorem C79_counts : forall rules g fan discount fuel a x pc us p l pc' us', splitgrammar rules = Some g -> wellformed rules fan -> toid g a = Some x ->
  gen g discount fuel x pc us = Some (p, l, pc', us') -> pc' = pc /\ exists used, us = used ++ us'.
Proof. intros rules g fan discount fuel a x pc us p l pc' us' SG WF A E. exact (proj2 (gen_sound rules g fan discount SG WF _ _ _ _ _ _ _ _ E a A)). Qed.
(** every derivation can be generated, if no label has both lexical and other rules *)
Theorem C79_complete : forall rules g fan discount a l p, splitgrammar rules = Some g -> wellformed rules fan -> separate rules -> positive rules -> (0 < discount)%Q ->
  derives rules a l p -> exists x fuel us p', toid g a = Some x /\ Forall random us /\ generate g discount fuel x us = Some (p', l) /\ (p' == p)%Q.
Proof.
  intros rules g fan discount a l p SG WF SEP POS DISC D. destruct (gen_complete rules g fan discount SG WF SEP POS DISC a l p D) as (x & A & H). destruct (H (repeat 1 (numrules g))) as (dp & us & p' & F & Q & G).
  exists x, dp, us, p'. split; [exact A|]. split; [exact F|]. split; [|exact Q]. unfold generate. specialize (G dp [] (le_n _)). rewrite app_nil_r in G. now rewrite G.
Qed.
(** a rule is chosen when the random number is in an interval as long as its share of the
    total weight: its probability, discounted for each time that the rule is in use *)
Theorem C79_choice : forall (rules : list grule) discount counts u r, (0 <= discount)%Q -> (forall x, In x rules -> (0 <= prob x)%Q) -> random u ->
  let w := fun x => (prob x * qpow discount (nth (no x) counts 0%nat))%Q in
  (0 < qsum (map w rules))%Q ->
  chooserule prob no rules discount counts u = Some r <->
  exists before after, rules = before ++ r :: after /\ (qsum (map w before) / qsum (map w rules) <= u < qsum (map w before) / qsum (map w rules) + w r / qsum (map w rules))%Q.
Proof.
  intros rules discount counts u r D P U w T. assert (QP : forall k, (0 <= qpow discount k)%Q) by (induction k as [|k IH]; cbn [qpow]; [lra|now apply Qmult_le_0_compat]).
  rewrite (choose_iff prob no discount counts rules u r); [|intros x I; apply Qmult_le_0_compat; [now apply P|apply QP]|exact U]. fold w. change (weight prob no discount counts) with w. set (t := qsum (map w rules)) in *.
  split; intros (be & af & E & B1 & B2); exists be, af; (split; [exact E|]).
  - split; [apply Qle_shift_div_r; assumption|]. assert (H : (qsum (map w be) / t + w r / t == (qsum (map w be) + w r) / t)%Q) by (field; lra). rewrite H. now apply Qlt_shift_div_l.
  - assert (H : (qsum (map w be) / t + w r / t == (qsum (map w be) + w r) / t)%Q) by (field; lra). rewrite H in B2. split.
    + assert (M : (qsum (map w be) / t * t == qsum (map w be))%Q) by (field; lra). rewrite <- M. apply Qmult_le_compat_r; [exact B1|lra].
    + assert (M : ((qsum (map w be) + w r) / t * t == qsum (map w be) + w r)%Q) by (field; lra). rewrite <- M. now apply Qmult_lt_r.
Qed.
(** a choice is always made *)
Theorem C79_choice_made : forall (rules : list grule) discount counts u, (0 <= discount)%Q -> (forall x, In x rules -> (0 <= prob x)%Q) -> random u ->
  (0 < qsum (map (fun x => prob x * qpow discount (nth (no x) counts 0%nat)) rules))%Q -> chooserule prob no rules discount counts u <> None.
Proof.
  intros rules discount counts u D P [U1 U2] T. unfold chooserule. set (w := fun r => (prob r * qpow discount (nth (no r) counts 0%nat))%Q) in *. assert (L : (u * qsum (map w rules) < qsum (map w rules))%Q).
  { rewrite <- (Qmult_1_l (qsum (map w rules))) at 2. now apply Qmult_lt_r. }
  assert (L0 : (0 <= u * qsum (map w rules))%Q) by (apply Qmult_le_0_compat; [exact U1|lra]).
  revert L L0. generalize (u * qsum (map w rules))%Q. clear. induction rules as [|x rules IH]; intros pos L L0; cbn [map qsum combine pick] in *; [lra|]. destruct (Qle_bool 0 (pos - w x)) eqn:E; [|discriminate]. apply Qle_bool_iff in E. apply IH; lra.
Qed.
(** yield functions survive the conversion to arrays *)
Theorem C79_yfarray : forall yf, length yf <= 16 -> (forall comp, In comp yf -> length comp <= 32 /\ forall b, In b comp -> b = 0 \/ b = 1) ->
  exists ar le, yfarray yf = Some (ar, le) /\ arraytoyf ar le = yf.
Proof.
  intros yf L H. assert (NUM : forall comp, (forall b, In b comp -> b = 0 \/ b = 1) -> (yfnum comp < 2 ^ N.of_nat (length comp))%N /\ forall m, m < length comp -> N.testbit (yfnum comp) (N.of_nat m) = (nth m comp 0 =? 1)).
  { induction comp as [|b comp IH]; intros B; [cbn; split; [lia|intros; lia]|]. destruct IH as [I1 I2]; [intros; apply B; now right|]. cbn [yfnum length]. split.
    - rewrite Nat2N.inj_succ, N.pow_succ_r by lia. revert I1. generalize (2 ^ N.of_nat (length comp))%N, (yfnum comp). intros t y I1. clear - I1 B. specialize (B b (or_introl eq_refl)). assert (Z : (N.of_nat b <= 1)%N) by lia. lia.
    - intros [|m] LM.
      + cbn [nth]. destruct (B b (or_introl eq_refl)) as [->| ->]; cbn [N.of_nat Nat.eqb].
        * rewrite N.add_0_l. apply N.testbit_even_0.
        * rewrite N.add_comm. apply N.testbit_odd_0.
      + cbn [nth]. rewrite <- I2 by lia. rewrite Nat2N.inj_succ. destruct (B b (or_introl eq_refl)) as [->| ->]; cbn [N.of_nat].
        * rewrite N.add_0_l. apply N.testbit_even_succ. lia.
        * rewrite N.add_comm. apply N.testbit_odd_succ. lia. }
  exists (map yfnum yf), (map (@length nat) yf). split.
  - unfold yfarray. replace (length yf <=? 16) with true by (symmetry; now apply Nat.leb_le). replace (forallb (fun a => length a <=? 32) yf) with true by (symmetry; apply forallb_forall; intros c I; apply Nat.leb_le; now apply H). replace (forallb (fun a => (yfnum a <? 2 ^ 32)%N) yf) with true; [reflexivity|].
    symmetry. apply forallb_forall. intros c I. apply N.ltb_lt. destruct (H c I) as [LC B]. destruct (NUM c B) as [X _]. eapply N.lt_le_trans; [exact X|]. apply N.pow_le_mono_r; lia.
  - unfold arraytoyf. assert (C : combine (map (@length nat) yf) (map yfnum yf) = map (fun c => (length c, yfnum c)) yf) by (clear; induction yf as [|x l IH]; cbn; [reflexivity|now f_equal]). rewrite C, map_map. cbn [fst snd]. clear C L. induction yf as [|c yf IH]; [reflexivity|]. cbn [map]. f_equal; [|apply IH; intros; apply H; now right].
    destruct (H c (or_introl eq_refl)) as [_ B]. destruct (NUM c B) as [_ X]. apply nth_error_ext'; [now rewrite map_length, seq_length|]. intros n LN. rewrite map_length, seq_length in LN. rewrite nth_error_map. rewrite (nth_error_nth' (seq 0 (length c)) 0) by (rewrite seq_length; exact LN). rewrite seq_nth by exact LN. cbn [option_map Nat.add]. rewrite X by exact LN.
    rewrite (nth_error_nth' c 0 LN). destruct (B (nth n c 0)) as [E|E]; [now apply nth_In|rewrite E; reflexivity|rewrite E; reflexivity].
Qed.

(** ---- C80: reading a grammar in bitpar format ---- *)
(** the rules that are read, with the yield functions of a context-free grammar *)
Definition bitparyf (labels : list pystr) : list (list nat) := match labels with [_; _] => [[0]] | _ => [[0; 1]] end.
Definition lhstotal (rules : list bitparline) (a : pystr) : Q := qsum (map (fun l => match l with BRule p ls => if eqs (hd [] ls) a then p else 0%Q end) rules).
Definition allinteger (rules : list bitparline) (lexicon : list (pystr * list pystr * list Q)) : Prop :=
  (forall p ls, In (BRule p ls) rules -> isint p = true) /\ (forall w ts ps p, In (w, ts, ps) lexicon -> In p ps -> isint p = true).
Definition binarized (rules : list bitparline) : Prop := forall p ls, In (BRule p ls) rules -> length ls = 2 \/ length ls = 3.
Lemma dictget_add : forall fd k p a, (dictget (dictadd fd k p) a == dictget fd a + (if eqs k a then p else 0))%Q.
Proof.
  intros fd k p a. unfold dictadd, dictget. destruct (existsb (fun kv => eqs (fst kv) k) fd) eqn:X.
  - induction fd as [|[b q] fd IH]; [discriminate|]. cbn [map existsb fst] in *. destruct (eqs b k) eqn:BK; cbn [find fst].
    + apply eqs_eq in BK. subst b. destruct (eqs k a) eqn:KA; cbn [snd]; [lra|]. cbn [orb] in X. clear IH X. induction fd as [|[b q'] fd IH]; cbn [map find fst]; [lra|]. destruct (eqs b k) eqn:BK; cbn [find fst].
      * apply eqs_eq in BK. subst b. rewrite KA. exact IH.
      * destruct (eqs b a); [cbn [snd]; lra|exact IH].
    + destruct (eqs b a) eqn:BA; cbn [snd].
      * apply eqs_eq in BA. subst b. assert (eqs k a = false) as ->; [|lra]. apply eqs_neq. apply eqs_neq in BK. congruence.
      * apply IH. exact X.
  - assert (F : forall kv, In kv fd -> eqs (fst kv) k = false). { intros kv I. destruct (eqs (fst kv) k) eqn:E; [|reflexivity]. exfalso. assert (existsb (fun kv => eqs (fst kv) k) fd = true) by (apply existsb_exists; exists kv; auto). congruence. }
    clear X. induction fd as [|[b q] fd IH]; cbn [app find fst].
    + destruct (eqs k a); cbn [snd]; lra.
    + destruct (eqs b a) eqn:BA; cbn [snd].
      * apply eqs_eq in BA. subst b. assert (eqs k a = false) as ->; [|lra]. specialize (F (a, q) (or_introl eq_refl)). cbn in F. apply eqs_neq. apply eqs_neq in F. congruence.
      * apply IH. intros kv I. apply F. now right.
Qed.
Lemma bprules_ok : forall rules st st', bprules st rules = Some st' ->
  bgrammar st' = bgrammar st ++ map (fun l => match l with BRule p ls => (ls, Yf (bitparyf ls), p) end) rules /\
  bint st' = bint st && forallb (fun l => match l with BRule p _ => isint p end) rules /\
  (forall a, (dictget (bfd st') a == dictget (bfd st) a + lhstotal rules a)%Q) /\ binarized rules.
Proof.
  induction rules as [|[p ls] rules IH]; intros st st' E; cbn [bprules] in E.
  - injection E as <-. cbn [map forallb]. rewrite app_nil_r, andb_true_r. split; [reflexivity|]. split; [reflexivity|]. split; [intros a; unfold lhstotal; cbn; lra|intros ? ? []].
  - destruct ls as [|a [|b [|c [|d ls]]]]; try discriminate; apply IH in E; destruct E as (E1 & E2 & E3 & E4); cbn [bgrammar bint bfd] in *; (split; [rewrite E1, <- app_assoc; reflexivity|]); (split; [rewrite E2; cbn [forallb]; now rewrite andb_assoc|]); (split; [|intros q ls [X|I]; [injection X as <- <-; cbn; lia|now apply (E4 q)]]);
      intros x; rewrite E3, dictget_add; unfold lhstotal; cbn [map qsum hd]; lra.
Qed.
Lemma bprules_fail : forall rules st, bprules st rules = None -> ~ binarized rules.
Proof.
  induction rules as [|[p ls] rules IH]; intros st E B; cbn [bprules] in E; [discriminate|]. assert (B' : binarized rules) by (intros q l I; apply (B q); now right).
  destruct ls as [|a [|b [|c [|d ls]]]]; try (destruct (B _ _ (or_introl eq_refl)) as [X|X]; discriminate X); eapply IH; eassumption.
Qed.
Lemma allint_ok : forall ws, fst (allint ws) = forallb isint ws /\ (forallb isint ws = true -> snd (allint ws) = []).
Proof. induction ws as [|w ws [I1 I2]]; cbn; [auto|]. destruct (isint w) eqn:E; cbn; [auto|]. split; [reflexivity|discriminate]. Qed.
Lemma bplex_ok : forall lexicon st, bgrammar (fold_left bplex lexicon st) = bgrammar st /\ bint (fold_left bplex lexicon st) = bint st && forallb (fun l => forallb isint (snd l)) lexicon /\
  (bint (fold_left bplex lexicon st) = true -> bfd (fold_left bplex lexicon st) = bfd st).
Proof.
  induction lexicon as [|[[w ts] ps] lexicon IH]; intros st; [cbn; rewrite andb_true_r; auto|]. cbn [fold_left forallb snd].
  assert (B : bgrammar (bplex st (w, ts, ps)) = bgrammar st /\ bint (bplex st (w, ts, ps)) = bint st && forallb isint ps /\ (bint (bplex st (w, ts, ps)) = true -> bfd (bplex st (w, ts, ps)) = bfd st)).
  { unfold bplex. destruct (bint st) eqn:BI.
    - destruct (allint_ok ps) as [A1 A2]. destruct (allint ps) as [ok rest]. cbn [fst snd] in *. subst ok. cbn [map bgrammar bint bfd andb]. rewrite app_nil_r. split; [reflexivity|]. split; [reflexivity|]. intros X. rewrite (A2 X). rewrite combine_nil. reflexivity.
    - cbn [map bgrammar bint bfd andb]. rewrite app_nil_r. split; [reflexivity|]. split; [reflexivity|discriminate]. }
  destruct B as (B1 & B2 & B3). destruct (IH (bplex st (w, ts, ps))) as (I1 & I2 & I3). split; [congruence|]. split; [rewrite I2, B2; now rewrite andb_assoc|]. intros X. rewrite I3 by exact X. apply B3. rewrite I2 in X. apply andb_prop in X. tauto.
Qed.
(** the phrasal rules are read in order, with relative frequencies if all weights are whole
    numbers, and with their own weights otherwise *)
Theorem C80_read : forall rules lexicon res, read_bitpar_grammar rules lexicon = Some res ->
  Forall2 (fun l r => match l with BRule p ls => exists q, r = (ls, Yf (bitparyf ls), q) /\
    (allinteger rules lexicon -> (q == p / lhstotal rules (hd [] ls))%Q) /\ (~ allinteger rules lexicon -> q = p) end) rules res.
Proof.
  intros rules lexicon res E. unfold read_bitpar_grammar in E. destruct (bprules (BP [] true []) rules) as [st|] eqn:BR; [|discriminate]. injection E as <-. destruct (bprules_ok _ _ _ BR) as (G & I & F & B). cbn [bgrammar bint bfd app andb] in *.
  destruct (bplex_ok lexicon st) as (LG & LI & LF). rewrite LG, G. assert (AI : bint (fold_left bplex lexicon st) = true <-> allinteger rules lexicon).
  { rewrite LI, I, andb_true_iff, !forallb_forall. split.
    - intros [A C]. split; [intros p ls J; exact (A _ J)|]. intros w ts ps p J K. specialize (C _ J). cbn in C. rewrite forallb_forall in C. auto.
    - intros [A C]. split; [intros [p ls] J; exact (A p ls J)|]. intros [[w ts] ps] J. cbn. apply forallb_forall. intros p K. exact (C w ts ps p J K). }
  destruct (bint (fold_left bplex lexicon st)) eqn:BI.
  - assert (A : allinteger rules lexicon) by (now apply AI). rewrite LF by reflexivity. rewrite map_map. apply (f_equal (fun x => x)) in G. clear - F A.
    assert (H : forall l, Forall2 (fun l r => match l with BRule p ls => exists q, r = (ls, Yf (bitparyf ls), q) /\ (allinteger rules lexicon -> (q == p / lhstotal rules (hd [] ls))%Q) /\ (~ allinteger rules lexicon -> q = p) end) l
      (map (fun x => let '(labels, yf, p) := match x with BRule p ls => (ls, Yf (bitparyf ls), p) end in (labels, yf, (p / dictget (bfd st) (hd [] labels))%Q)) l)); [|apply H].
    induction l as [|[p ls] l IH]; cbn [map]; constructor; [|exact IH]. eexists. split; [reflexivity|]. split; [|contradiction]. intros _. rewrite F. unfold dictget at 1. cbn [find]. rewrite Qplus_0_l. reflexivity.
  - assert (A : ~ allinteger rules lexicon) by (intros X; apply AI in X; discriminate). clear - A.
    assert (H : forall l, Forall2 (fun l r => match l with BRule p ls => exists q, r = (ls, Yf (bitparyf ls), q) /\ (allinteger rules lexicon -> (q == p / lhstotal rules (hd [] ls))%Q) /\ (~ allinteger rules lexicon -> q = p) end) l
      (map (fun x => match x with BRule p ls => (ls, Yf (bitparyf ls), p) end) l)); [|apply H].
    induction l as [|[p ls] l IH]; cbn [map]; constructor; [|exact IH]. eexists. split; [reflexivity|]. split; [contradiction|reflexivity].
Qed.
(** the only exception is for rules that are not binarized *)
Theorem C80_binarized : forall rules lexicon, read_bitpar_grammar rules lexicon = None <-> ~ binarized rules.
Proof.
  intros rules lexicon. unfold read_bitpar_grammar. destruct (bprules (BP [] true []) rules) as [st|] eqn:BR.
  - destruct (bprules_ok _ _ _ BR) as (_ & _ & _ & B). split; [discriminate|contradiction].
  - split; [|reflexivity]. intros _. eapply bprules_fail. exact BR.
Qed.
(** with integer weights the weights of the rules of a label sum to one *)
Theorem C80_sum : forall rules lexicon res a, read_bitpar_grammar rules lexicon = Some res -> allinteger rules lexicon -> ~ (lhstotal rules a == 0)%Q ->
  (qsum (map (fun r : list pystr * yfield * Q => if eqs (hd [] (fst (fst r))) a then snd r else 0) res) == 1)%Q.
Proof.
  intros rules lexicon res a E A NZ. apply C80_read in E. assert (H : forall l r, Forall2 (fun l r => match l with BRule p ls => exists q, r = (ls, Yf (bitparyf ls), q) /\ (allinteger rules lexicon -> (q == p / lhstotal rules (hd [] ls))%Q) /\ (~ allinteger rules lexicon -> q = p) end) l r ->
    (qsum (map (fun r : list pystr * yfield * Q => if eqs (hd [] (fst (fst r))) a then snd r else 0) r) == lhstotal l a / lhstotal rules a)%Q).
  { assert (CONS : forall p ls l, lhstotal (BRule p ls :: l) a = ((if eqs (hd [] ls) a then p else 0) + lhstotal l a)%Q) by reflexivity.
    induction 1 as [|[p ls] x l r (q & -> & Q & _) F IH]; [change (lhstotal [] a) with 0%Q; cbn; field; exact NZ|]. cbn [map qsum fst snd]. rewrite IH, CONS. destruct (eqs (hd [] ls) a) eqn:EA.
    - apply eqs_eq in EA. rewrite EA in Q. rewrite Q by exact A. field. exact NZ.
    - field. exact NZ. }
  rewrite (H _ _ E). field. exact NZ.
Qed.
(** no lexical rule is ever read: the lexicon is gone through twice with an iterator *)
Theorem C80_lexicon_refuted : forall rules lexicon res labels w p, read_bitpar_grammar rules lexicon = Some res -> ~ In (labels, Word w, p) res.
Proof.
  intros rules lexicon res labels w p E I. apply C80_read in E. induction E as [|[q ls] x l r (q' & -> & _) F IH]; [contradiction|]. destruct I as [X|I]; [discriminate|auto].
Qed.

(** ---- examples ---- *)
(** gen.py:229-242, the example grammar of test() *)
Definition test_rules : list (list pystr * yfield * Q) :=
  [([str "S"; str "VP2"; str "VMFIN"], Yf [[0; 1; 0]], 1%Q); ([str "VP2"; str "VP2"; str "VAINF"], Yf [[0]; [0; 1]], (1 # 2)%Q); ([str "VP2"; str "PROAV"; str "VVPP"], Yf [[0]; [1]], (1 # 2)%Q);
   ([str "VP2"; str "VP2"], Yf [[0]; [0]], (1 # 10)%Q); ([str "PROAV"; epsilon], Word (str "Darueber"), 1%Q); ([str "VAINF"; epsilon], Word (str "werden"), 1%Q);
   ([str "VMFIN"; epsilon], Word (str "muss"), 1%Q); ([str "VVPP"; epsilon], Word (str "nachgedacht"), 1%Q)]%string.
Definition test_fan (a : pystr) : nat := if eqs a (str "VP2") then 2 else 1.
Ltac cases I := cbn [In] in I; repeat (destruct I as [I|I]; [try discriminate I|]); try contradiction.
Example test_ok : wellformed test_rules test_fan /\ separate test_rules /\ positive test_rules /\ exists g, splitgrammar test_rules = Some g.
Proof.
  split; [|split; [|split]].
  - constructor.
    + intros a w p I. unfold test_rules in I. cases I; injection I; intros; subst; reflexivity.
    + intros a rest w p I. unfold test_rules in I. cases I; injection I; intros; subst; reflexivity.
    + intros a b yf w I. unfold test_rules in I. cases I; injection I; intros; subst; split; reflexivity.
    + intros a b c yf w I. unfold test_rules in I. cases I; injection I; intros; subst; (split; [discriminate|]); repeat split; reflexivity.
  - intros a w p b rest yf q I J. unfold test_rules in *. cases I; injection I; intros; subst; cases J.
  - intros ls yf w I. unfold test_rules in I. cases I; injection I; intros; subst; reflexivity.
  - eexists. vm_compute. reflexivity.
Qed.
Example test_gen : exists g, splitgrammar test_rules = Some g /\ toid g (str "S"%string) = Some 3 /\
  generate g (3 # 4) 10 3 [0; 1 # 4; 9 # 10; 0; 0; 0; 0]%Q = None /\
  option_map snd (generate g (3 # 4) 10 3 [0; 1 # 10; 8 # 10; 0; 0; 0; 0]%Q) = Some [[str "Darueber"; str "muss"; str "nachgedacht"; str "werden"]]%string.
Proof. eexists. split; [vm_compute; reflexivity|]. split; [vm_compute; reflexivity|]. split; vm_compute; reflexivity. Qed.
(** a label with a lexical rule and another rule: the lexical rule is never used *)
Definition both_rules : list (list pystr * yfield * Q) := [([str "A"; epsilon], Word (str "x"), (1 # 2)%Q); ([str "A"; str "B"], Yf [[0]], (1 # 2)%Q); ([str "B"; epsilon], Word (str "y"), 1%Q)]%string.
Theorem C79_lexical_refuted : exists g, splitgrammar both_rules = Some g /\ wellformed both_rules (fun _ => 1) /\ positive both_rules /\ toid g (str "A"%string) = Some 2 /\
  derives both_rules (str "A"%string) [[str "x"%string]] (1 # 2) /\ forall discount fuel us p, generate g discount fuel 2 us <> Some (p, [[str "x"%string]]).
Proof.
  destruct (splitgrammar both_rules) as [g|] eqn:E; [|vm_compute in E; discriminate]. assert (E0 := E). vm_compute in E. injection E as E. exists g. split; [reflexivity|]. split; [|split; [|split; [|split]]].
  - constructor; intros; match goal with I : In _ both_rules |- _ => unfold both_rules in I; cases I; injection I; intros; subst; try reflexivity end. split; reflexivity.
  - intros ls yf w I. unfold both_rules in I. cases I; injection I; intros; subst; reflexivity.
  - subst g. reflexivity.
  - constructor. left. reflexivity.
  - intros discount fuel us p G. unfold generate in G. destruct (gen g discount fuel 2 _ us) as [[[[p' l'] pc] us']|] eqn:GG; [|discriminate]. injection G as -> ->. destruct fuel as [|fuel]; [discriminate|]. destruct us as [|u us]; [discriminate|]. cbn [gen] in GG.
    assert (BA : exists r, bylhs g 2 = [r] /\ rhs1 r = 3 /\ rhs2 r = 0) by (subst g; eexists; split; [reflexivity|split; reflexivity]). destruct BA as (r & BA & R1 & R2). rewrite BA in GG. destruct (chooserule prob no [r] _ _ u) as [r'|] eqn:CH; [|discriminate]. apply choose_in in CH. destruct CH as [<-|[]]. rewrite R1, R2 in GG.
    destruct (gen g discount fuel 3 _ us) as [[[[p1 l1] pc1] us1]|] eqn:G1; [|discriminate]. cbn [Nat.eqb] in GG. injection GG as _ -> _ _. destruct fuel as [|fuel]; [discriminate|]. destruct us as [|u2 us]; [discriminate|]. cbn [gen] in G1.
    assert (BB : bylhs g 3 = [] /\ exists t, lexicalbylhs g 3 = Some [t] /\ word t = str "y"%string) by (subst g; split; [reflexivity|eexists; split; reflexivity]). destruct BB as (BB & t & BT & TW). rewrite BB, BT in G1. destruct (chooserule lprob lno [t] _ _ u2) as [t'|] eqn:CH; [|discriminate]. apply choose_in in CH. destruct CH as [<-|[]]. injection G1 as _ G1 _ _. rewrite TW in G1. discriminate.
Qed.
(** the yield function of a unary rule is not applied *)
Definition un_rules : list (list pystr * yfield * Q) := [([str "S"; str "VP"], Yf [[0; 0]], 1%Q); ([str "VP"; str "A"; str "B"], Yf [[0]; [1]], 1%Q); ([str "A"; epsilon], Word (str "a"), 1%Q); ([str "B"; epsilon], Word (str "b"), 1%Q)]%string.
Theorem C79_unary_refuted : exists g, splitgrammar un_rules = Some g /\ toid g (str "S"%string) = Some 4 /\
  option_map snd (generate g 1 10 4 [0; 0; 0; 0]%Q) = Some [[str "a"]; [str "b"]]%string /\
  (forall l p, derives un_rules (str "S"%string) l p -> length l = 1).
Proof.
  eexists. split; [vm_compute; reflexivity|]. split; [vm_compute; reflexivity|]. split; [vm_compute; reflexivity|]. intros l p D. inversion D as [a w q I|a b yf w l' q res I D' [L _]|a b c yf w l1 q1 l2 q2 res I D1 D2 [L _]]; subst; unfold un_rules in I; cases I; injection I; intros; subst; exact L.
Qed.
(** two rules for S and one word: the word is lost, the rules have relative frequencies *)
Example ex_bitpar : exists res, read_bitpar_grammar [BRule 3 [str "S"; str "A"; str "A"]; BRule 1 [str "S"; str "A"]]%string [(str "a", [str "A"], [2%Q])]%string = Some res /\
  Forall2 (fun r e => fst (fst r) = fst e /\ (snd r == snd e)%Q) res [([str "S"; str "A"; str "A"], (3 # 4)%Q); ([str "S"; str "A"], (1 # 4)%Q)]%string /\
  allinteger [BRule 3 [str "S"; str "A"; str "A"]; BRule 1 [str "S"; str "A"]]%string [(str "a", [str "A"], [2%Q])]%string.
Proof.
  eexists. split; [vm_compute; reflexivity|]. split; [repeat constructor|]. split.
  - intros p ls [E|[E|[]]]; injection E as <- <-; reflexivity.
  - intros w ts ps p [E|[]] I. injection E as <- <- <-. destruct I as [<-|[]]. reflexivity.
Qed.
