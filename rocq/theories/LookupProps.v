(** C96: looking up the number of a production. *)
From Coq Require Import String.
From Coq Require Import List Bool Arith NArith QArith Qcanon Ascii Lia Permutation Sorted.
From Verif Require Import PyStr ConcatModel LcfrsModel GrammarModel GrammarProofs GrammarProps LookupModel.
Import ListNotations.
Open Scope list_scope.
Open Scope nat_scope.

(** ** Specification *)
(** the tables of rules, counts, labels and words; everything but the two maps *)
Definition tables (g : gram) :=
  (tolabel g, freqmass g, fanouts g, rulecounts g, bylhs g, (unary g, lbinary g, rbinary g), (lexical g, lexcounts g, lexbyword g)).
(** what was in the maps is still there, and what is new has number 0 *)
Definition extends (g g' : gram) : Prop :=
  tables g' = tables g
  /\ (forall l i, lookup eqs l (toid g) = Some i -> lookup eqs l (toid g') = Some i)
  /\ (forall l i, lookup eqs l (toid g') = Some i -> lookup eqs l (toid g) = Some i \/ i = 0)
  /\ (forall k n, lookup key_eqb k (rulenos g) = Some n -> lookup key_eqb k (rulenos g') = Some n)
  /\ (forall k n, lookup key_eqb k (rulenos g') = Some n -> lookup key_eqb k (rulenos g) = Some n \/ n = 0).

Lemma extends_refl : forall g, extends g g.
Proof. intros g. unfold extends. repeat split; auto. Qed.
Lemma extends_trans : forall a b c, extends a b -> extends b c -> extends a c.
Proof.
  intros a b c (A1 & A2 & A3 & A4 & A5) (B1 & B2 & B3 & B4 & B5). unfold extends. split; [congruence|].
  split; [auto|]. split; [intros l i H; apply B3 in H; destruct H as [H| ->]; auto|].
  split; [auto|]. intros k n H. apply B5 in H. destruct H as [H| ->]; auto.
Qed.
Lemma idof_extends : forall l g, extends g (snd (idof l g)).
Proof.
  intros l g. unfold idof. destruct (lookup eqs l (toid g)) as [i|] eqn:L; cbn [snd]; [apply extends_refl|].
  unfold extends. cbn [toid rulenos setmaps]. split; [reflexivity|]. split; [|split; [|split; auto]]; intros m i H; cbn [lookup] in *.
  - destruct (eqs m l) eqn:E; [|exact H]. apply eqs_eq in E. subst m. congruence.
  - destruct (eqs m l); [injection H as <-; now right|now left].
Qed.
Lemma noof_extends : forall k g, extends g (snd (noof k g)).
Proof.
  intros k g. unfold noof. destruct (lookup key_eqb k (rulenos g)) as [i|] eqn:L; cbn [snd]; [apply extends_refl|].
  unfold extends. cbn [toid rulenos setmaps]. split; [reflexivity|]. split; [auto|]. split; [auto|].
  split; intros m i H; cbn [lookup] in *.
  - destruct (key_eqb m k) eqn:E; [|exact H]. apply key_eqb_eq in E. subst m. congruence.
  - destruct (key_eqb m k); [injection H as <-; now right|now left].
Qed.
Lemma idof_known : forall l g i, lookup eqs l (toid g) = Some i -> idof l g = (i, g).
Proof. intros l g i H. unfold idof. now rewrite H. Qed.
Lemma noof_known : forall k g n, lookup key_eqb k (rulenos g) = Some n -> noof k g = (n, g).
Proof. intros k g n H. unfold noof. now rewrite H. Qed.

(** ** Theorems *)
(** A production of the grammar is found, and looking it up changes nothing. *)
Theorem C96_known : forall g r e n, getruleno g r e = Some n -> askruleno g r e = Some (n, g).
Proof.
  intros g r e n H. destruct r as [|l [|a [|b [|z r]]]]; try discriminate; cbn [getruleno askruleno] in *.
  - destruct (lookup eqs l (toid g)) as [i|] eqn:L1; [|discriminate]. destruct (lookup eqs a (toid g)) as [j|] eqn:L2; [|discriminate].
    rewrite (idof_known _ _ _ L1), (idof_known _ _ _ L2). now rewrite (noof_known _ _ _ H).
  - destruct (lookup eqs l (toid g)) as [i|] eqn:L1; [|discriminate]. destruct (lookup eqs a (toid g)) as [j|] eqn:L2; [|discriminate].
    destruct (lookup eqs b (toid g)) as [k|] eqn:L3; [|discriminate].
    rewrite (idof_known _ _ _ L1), (idof_known _ _ _ L2), (idof_known _ _ _ L3). now rewrite (noof_known _ _ _ H).
Qed.
Lemma ask_extends : forall g r e n g', askruleno g r e = Some (n, g') -> extends g g'.
Proof.
  intros g r e n g' H. destruct r as [|l [|a r]]; try discriminate. cbn [askruleno] in H.
  destruct (idof l g) as [i g1] eqn:E1. destruct (idof a g1) as [j g2] eqn:E2.
  pose proof (idof_extends l g) as X1. rewrite E1 in X1. pose proof (idof_extends a g1) as X2. rewrite E2 in X2.
  pose proof (extends_trans _ _ _ X1 X2) as X. cbn [snd] in *.
  destruct r as [|b r].
  - injection H as H. pose proof (noof_extends (i, j, 0, args e, lengths e) g2) as Y. rewrite H in Y. eapply extends_trans; eauto.
  - destruct (idof b g2) as [k g3] eqn:E3. pose proof (idof_extends b g2) as X3. rewrite E3 in X3.
    injection H as H. pose proof (noof_extends (i, j, k, args e, lengths e) g3) as Y. rewrite H in Y.
    eapply extends_trans; [exact X|]. eapply extends_trans; eauto.
Qed.
Lemma getruleno_extends : forall g g' r e n, extends g g' -> getruleno g r e = Some n -> getruleno g' r e = Some n.
Proof.
  intros g g' r e n (_ & X1 & _ & X2 & _) H. destruct r as [|l [|a [|b [|z r]]]]; try discriminate; cbn [getruleno] in *.
  - destruct (lookup eqs l (toid g)) as [i|] eqn:L1; [|discriminate]. destruct (lookup eqs a (toid g)) as [j|] eqn:L2; [|discriminate].
    rewrite (X1 _ _ L1), (X1 _ _ L2). auto.
  - destruct (lookup eqs l (toid g)) as [i|] eqn:L1; [|discriminate]. destruct (lookup eqs a (toid g)) as [j|] eqn:L2; [|discriminate].
    destruct (lookup eqs b (toid g)) as [k|] eqn:L3; [|discriminate].
    rewrite (X1 _ _ L1), (X1 _ _ L2), (X1 _ _ L3). auto.
Qed.
(** After any history of lookups, of whatever productions, the rules of a
    grammar have the numbers they had, and all tables are the same; what was
    added to the maps has number 0. *)
Theorem C96_history : forall g qs,
  extends g (askall g qs)
  /\ forall r e n, getruleno g r e = Some n -> askruleno (askall g qs) r e = Some (n, askall g qs).
Proof.
  intros g qs. assert (X : extends g (askall g qs)).
  { unfold askall. revert g. induction qs as [|q qs IH]; intros g; cbn [fold_left]; [apply extends_refl|].
    eapply extends_trans; [|apply IH]. unfold ask. destruct (askruleno g (fst q) (snd q)) as [[n g']|] eqn:E; [|apply extends_refl].
    eapply ask_extends; eauto. }
  split; [exact X|]. intros r e n H. apply C96_known. eapply getruleno_extends; eauto.
Qed.
(** every rule of a grammar, after any history of lookups *)
Theorem C96_rules : forall sortr sortn, sorts sortr -> sorts sortn -> forall start rules lexicon calls g qs r, start <> Epsilon ->
  grammar sortr sortn start rules lexicon calls = Some g -> In r (bylhs g) ->
  askruleno (askall g qs) (klabels (tolabel g) (r_key r)) (kenc (r_key r)) = Some (r_no r, askall g qs).
Proof.
  intros sortr sortn SR SN start rules lexicon calls g qs r NE E I.
  destruct (C49_rule_numbers _ _ SR SN _ _ _ _ _ NE E) as (_ & K & _). apply C96_history. now apply K.
Qed.
(** For a node of a continuous tree noderuleno and getruleno are the same: the
    yield functions are ((0, 1),) and ((0,),). *)
Theorem C96_noderuleno : forall g label children, length children <= 2 ->
  asknoderuleno g label children =
  askruleno g (label :: children) (if length children =? 2 then mkYf 2 2 else mkYf 0 1).
Proof.
  intros g label [|a [|b [|z children]]] L; cbn in L; try lia; cbn [asknoderuleno askruleno length Nat.eqb args lengths];
    destruct (idof label g) as [i g1]; try reflexivity;
    destruct (idof a g1) as [j g2]; try reflexivity.
Qed.
(** A production whose labels are in the grammar but that is not itself a rule
    is given number 0, and is in the map from then on. *)
Theorem C96_unknown : forall g r e, In (length r) [2; 3] ->
  (forall l, In l r -> lookup eqs l (toid g) <> None) -> getruleno g r e = None ->
  exists g', askruleno g r e = Some (0, g') /\ getruleno g' r e = Some 0 /\ toid g' = toid g /\ tables g' = tables g.
Proof.
  intros g r e L K H.
  assert (R : (exists l a, r = [l; a]) \/ exists l a b, r = [l; a; b]).
  { destruct r as [|l [|a [|b [|z r]]]]; cbn in L; try lia; [left|right]; eauto. }
  destruct R as [(l & a & ->)|(l & a & b & ->)]; cbn [getruleno askruleno] in *.
  - destruct (lookup eqs l (toid g)) as [i|] eqn:L1; [|exfalso; apply (K l); [now left|exact L1]].
    destruct (lookup eqs a (toid g)) as [j|] eqn:L2; [|exfalso; apply (K a); [right; now left|exact L2]].
    rewrite (idof_known _ _ _ L1), (idof_known _ _ _ L2). unfold noof. rewrite H. eexists. split; [reflexivity|].
    cbn [setmaps toid rulenos]. rewrite L1, L2. cbn [lookup]. rewrite (proj2 (key_eqb_eq _ _) eq_refl). repeat split.
  - destruct (lookup eqs l (toid g)) as [i|] eqn:L1; [|exfalso; apply (K l); [now left|exact L1]].
    destruct (lookup eqs a (toid g)) as [j|] eqn:L2; [|exfalso; apply (K a); [right; now left|exact L2]].
    destruct (lookup eqs b (toid g)) as [m|] eqn:L3; [|exfalso; apply (K b); [right; right; now left|exact L3]].
    rewrite (idof_known _ _ _ L1), (idof_known _ _ _ L2), (idof_known _ _ _ L3). unfold noof. rewrite H. eexists. split; [reflexivity|].
    cbn [setmaps toid rulenos]. rewrite L1, L2, L3. cbn [lookup]. rewrite (proj2 (key_eqb_eq _ _) eq_refl). repeat split.
Qed.
(** A label that is not in the grammar has number 0, the number of Epsilon, from then on. *)
Theorem C96_unknown_label : forall g r e l n g', In l (firstn 3 r) -> lookup eqs l (toid g) = None ->
  askruleno g r e = Some (n, g') -> lookup eqs l (toid g') = Some 0.
Proof.
  intros g r e l n g' I L H.
  assert (A : forall m g1, idof l m = g1 -> extends g m -> lookup eqs l (toid (snd g1)) = Some 0).
  { intros m g1 <- X. unfold idof. destruct (lookup eqs l (toid m)) as [i|] eqn:M; cbn [snd].
    - rewrite M. destruct X as (_ & _ & X & _). destruct (X _ _ M) as [Y| ->]; [congruence|reflexivity].
    - cbn [setmaps toid lookup]. now rewrite (proj2 (eqs_eq _ _) eq_refl). }
  assert (S : forall m m', extends m m' -> lookup eqs l (toid m) = Some 0 -> lookup eqs l (toid m') = Some 0)
    by (intros m m' X; apply X).
  destruct r as [|x [|a r]]; try discriminate. cbn [askruleno] in H.
  destruct (idof x g) as [i g1] eqn:E1. destruct (idof a g1) as [j g2] eqn:E2.
  pose proof (idof_extends x g) as X1. rewrite E1 in X1. pose proof (idof_extends a g1) as X2. rewrite E2 in X2. cbn [snd] in X1, X2.
  assert (P : x = l \/ a = l -> lookup eqs l (toid g2) = Some 0).
  { intros [->| ->].
    - apply (S g1); [exact X2|]. exact (A _ _ E1 (extends_refl g)).
    - exact (A _ _ E2 X1). }
  destruct r as [|b r].
  - injection H as H. apply (S g2); [pose proof (noof_extends (i, j, 0, args e, lengths e) g2) as Y; rewrite H in Y; exact Y|].
    apply P. destruct I as [I|[I|[]]]; auto.
  - destruct (idof b g2) as [k g3] eqn:E3. pose proof (idof_extends b g2) as X3. rewrite E3 in X3. cbn [snd] in X3.
    injection H as H. apply (S g3); [pose proof (noof_extends (i, j, k, args e, lengths e) g3) as Y; rewrite H in Y; exact Y|].
    cbn in I. destruct I as [I|[I|[I|[]]]]; [apply (S g2), P; auto|apply (S g2), P; auto|].
    subst b. exact (A _ _ E3 (extends_trans _ _ _ X1 X2)).
Qed.

(** The claim that lookups do not affect the grammar is false of the code.  A
    rule B -> C that is added afterwards gets no entry of its own: its weight is
    counted for the rule with number 0 (S -> A B); without the lookup there are
    four rules. *)
Definition ex_new : list rline := [([str "B"; str "C"], list_ascii_of_string "0", q 2)].
Definition ex_show (g : gram) := (map (fun r => (r_key r, r_no r)) (bylhs g), map this (rulecounts g)).
Theorem C96_addrules_refuted : exists g, grammar isort isort (str "S") ex_rules ex_lex [] = Some g
  /\ getruleno g [str "B"; str "C"] (mkYf 0 1) = None
  /\ exists g', askruleno g [str "B"; str "C"] (mkYf 0 1) = Some (0, g')
  /\ option_map ex_show (addrules isort isort false g ex_new []) =
     Some ([((1, 2, 3, 2%N, 4%N), 0); ((1, 3, 0, 0%N, 1%N), 1); ((2, 4, 4, 2%N, 3%N), 2); ((3, 4, 0, 0%N, 1%N), 3)],
           [3 # 1; 1 # 1; 2 # 1; 2 # 1]%Q)
  /\ option_map ex_show (addrules isort isort false g' ex_new []) =
     Some ([((1, 2, 3, 2%N, 4%N), 0); ((1, 3, 0, 0%N, 1%N), 1); ((2, 4, 4, 2%N, 3%N), 2)],
           [5 # 1; 1 # 1; 2 # 1]%Q).
Proof.
  eexists. split; [vm_compute; reflexivity|]. split; [vm_compute; reflexivity|].
  eexists. split; [vm_compute; reflexivity|]. split; vm_compute; reflexivity.
Qed.
(** A rule with a label that was looked up before the label was in the grammar
    cannot be added at all (the label is taken for Epsilon). *)
Definition ex_newlabel : list rline := [([str "S"; str "D"], list_ascii_of_string "0", q 2)].
Definition ex_newlex : list lline := [(str "d", [(str "D", q 1)])].
Theorem C96_newlabel_refuted : exists g, grammar isort isort (str "S") ex_rules ex_lex [] = Some g
  /\ addrules isort isort false g ex_newlabel ex_newlex <> None
  /\ exists g', askruleno g [str "S"; str "D"] (mkYf 0 1) = Some (0, g')
  /\ addrules isort isort false g' ex_newlabel ex_newlex = None.
Proof.
  eexists. split; [vm_compute; reflexivity|]. split; [vm_compute; discriminate|].
  eexists. split; vm_compute; reflexivity.
Qed.
