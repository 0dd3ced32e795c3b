(** C64, part 5: the sorted grammar is aligned with the backtransform. *)
From Coq Require Import String.
From Coq Require Import List Bool Arith NArith Lia Permutation Sorted.
From Verif Require Import PyStr TreeModel BracketModel BinarizeModel TransformModel SortProofs LcfrsModel LcfrsProps TreebankModel DopModel DopProofs DDopModel DDopSpec DDopProofs DDopProofs2 DDopProofs3 DDopProofs4.
Import ListNotations.
Open Scope list_scope.

(** * the order of sortgrammar *)
Lemma strle_refl : forall a, strle a a = true.
Proof. induction a as [|x a IH]; cbn; auto. rewrite N.ltb_irrefl. exact IH. Qed.
Lemma strle_total : forall a b, strle a b = true \/ strle b a = true.
Proof. induction a as [|x a IH]; intros [|y b]; cbn; auto. destruct (N.ltb_spec x y), (N.ltb_spec y x); auto. Qed.
Lemma strle_trans : forall a b c, strle a b = true -> strle b c = true -> strle a c = true.
Proof.
  induction a as [|x a IH]; intros [|y b] [|z c] H1 H2; cbn in *; auto; try discriminate.
  destruct (N.ltb_spec x y), (N.ltb_spec y x), (N.ltb_spec y z), (N.ltb_spec z y), (N.ltb_spec x z), (N.ltb_spec z x); try lia; try discriminate; auto. now apply (IH b).
Qed.
Lemma strle_antisym : forall a b, strle a b = true -> strle b a = true -> a = b.
Proof.
  induction a as [|x a IH]; intros [|y b] H1 H2; cbn in *; auto; try discriminate. destruct (N.ltb_spec x y), (N.ltb_spec y x); try lia; try discriminate. f_equal; [lia|auto].
Qed.
Lemma eqs_true : forall a b, eqs a b = true <-> a = b.
Proof. intros a b. split; [apply eqs_eq|intros ->; apply eqs_refl]. Qed.
Lemma key_total : forall a b, key_le a b = true \/ key_le b a = true.
Proof.
  intros [[w1 b1] l1] [[w2 b2] l2]. unfold key_le. destruct (eqs w1 w2) eqn:E.
  - apply eqs_true in E. subst. rewrite eqs_refl. cbn [negb]. destruct b1, b2; cbn; auto using strle_total.
  - assert (E' : eqs w2 w1 = false) by (destruct (eqs w2 w1) eqn:Q; auto; apply eqs_true in Q; subst; rewrite eqs_refl in E; discriminate). rewrite E'. cbn. apply strle_total.
Qed.
Lemma key_trans : forall a b c, key_le a b = true -> key_le b c = true -> key_le a c = true.
Proof.
  intros [[w1 b1] l1] [[w2 b2] l2] [[w3 b3] l3]. unfold key_le.
  destruct (eqs w1 w2) eqn:E1; [apply eqs_true in E1; subst w2|]; cbn [negb].
  - destruct (eqs w1 w3) eqn:E2; cbn [negb]; [|auto]. destruct b1, b2, b3; cbn; try discriminate; auto; apply strle_trans.
  - intros H1. destruct (eqs w2 w3) eqn:E2; [apply eqs_true in E2; subst w3|]; cbn [negb].
    + rewrite E1. auto.
    + intros H2. destruct (eqs w1 w3) eqn:E3; cbn [negb].
      * apply eqs_true in E3. subst w3. exfalso. pose proof (strle_antisym _ _ H1 H2). subst. rewrite eqs_refl in E1. discriminate.
      * now apply (strle_trans w1 w2).
Qed.
Lemma sortgrammar_sorted : forall g, StronglySorted (fun a b => key_le (sortkey a) (sortkey b) = true) (sortgrammar g).
Proof. intros g. apply (sort_sorted (fun a b => key_le (sortkey a) (sortkey b))); intros; [apply key_total|eapply key_trans; eauto]. Qed.

(** * alignment *)
Section Align.
Variable back : rule -> option template.
Variable R : rule * N -> rule * N -> Prop.
Lemma align : forall L, StronglySorted R L -> (forall x y, In x L -> In y L -> R x y -> phrasal x = true -> back (fst y) <> None -> back (fst x) <> None) ->
  (forall x, In x L -> back (fst x) <> None -> phrasal x = true) ->
  forall r n t, In (r, n) L -> back r = Some t ->
  exists k, ruleno r (map fst (filter phrasal L)) = Some k /\ nth_error (flat_map (fun rw => match back (fst rw) with Some t => [t] | None => [] end) L) k = Some t.
Proof.
  induction L as [|x L IH]; intros SS H1 H2 r n t Hr B; [destruct Hr|]. inversion SS as [|? ? S1 S2]; subst. cbn [filter flat_map].
  destruct (phrasal x) eqn:P.
  - cbn [map ruleno]. assert (BX : back (fst x) <> None).
    { destruct Hr as [->|Hr]; [cbn; congruence|]. rewrite Forall_forall in S2. apply (H1 x (r, n)); [now left|now right|auto|auto|cbn; congruence]. }
    destruct (back (fst x)) as [t'|] eqn:BE; [|congruence]. cbn [app]. destruct (rule_eqb (fst x) r) eqn:E.
    + apply rule_eqb_eq in E. exists 0. split; [reflexivity|]. cbn. congruence.
    + destruct Hr as [->|Hr]; [cbn in E; assert (Y : rule_eqb r r = true) by (now apply rule_eqb_eq); congruence|].
      destruct (IH S1) with (r := r) (n := n) (t := t) as (k & K1 & K2); auto.
      * intros a b Ha Hb. apply H1; now right.
      * intros a Ha. apply H2. now right.
      * exists (S k). rewrite K1. auto.
  - assert (BX : back (fst x) = None) by (destruct (back (fst x)) eqn:BE; auto; rewrite H2 in P; [discriminate|now left|congruence]).
    rewrite BX. cbn [app]. destruct Hr as [->|Hr]; [cbn in BX; congruence|]. apply (IH S1) with (n := n); auto.
    + intros a b Ha Hb. apply H1; now right.
    + intros a Ha. apply H2. now right.
Qed.
End Align.
Lemma has_contains : forall w, has (str "}<") w <-> contains w (str "}<") = true.
Proof. intros w. rewrite contains_iff. reflexivity. Qed.
Section Prefix.
Variable prefix : pystr.
Notation newlabel := (newlabel prefix). Notation ftop := (ftop prefix). Notation fothers := (fothers prefix). Notation Inv := (Inv prefix). Notation fback := (fback prefix).
Lemma backlookup_in : forall d r t, backlookup r d = Some t -> In (r, t) d.
Proof.
  induction d as [|[k v] d IH]; intros r t H; cbn in H; [discriminate|]. destruct (rule_eqb k r) eqn:E; [apply rule_eqb_eq in E; injection H as <-; subst; now left|right; auto].
Qed.
Lemma backlookup_some : forall d r t, In (r, t) d -> (forall t', In (r, t') d -> t' = t) -> backlookup r d = Some t.
Proof.
  induction d as [|[k v] d IH]; intros r t H U; [destruct H|]. cbn [backlookup]. destruct (rule_eqb k r) eqn:E.
  - apply rule_eqb_eq in E. subst. f_equal. apply U. now left.
  - destruct H as [H|H]; [injection H as -> ->; assert (Y : rule_eqb r r = true) by (now apply rule_eqb_eq); congruence|]. apply IH; auto. intros t' H'. apply U. now right.
Qed.
Lemma top_template : forall g done f n u, Inv g done -> In (f, n, u) done -> isInner f ->
  let G := sortgrammar (g_rules g) in let B := flat_map (fun rw => match backlookup (fst rw) (g_back g) with Some t => [t] | None => [] end) G in
  exists k, ruleno (ftop (g_ids g) f u) (map fst (filter phrasal G)) = Some k /\ nth_error B k = Some (totemplate (ordered f) f).
Proof.
  intros g done f n u IV Hd If G B. set (fin := g_ids g). pose proof (i_ok _ _ _ IV) as IOK. pose proof (i_inj _ _ _ IV) as IINJ.
  pose proof (i_back _ _ _ IV fin (ext_refl _)) as IB. pose proof (i_rules _ _ _ IV fin (ext_refl _)) as IR.
  assert (BI : forall r t, In (r, t) (g_back g) <-> exists f n u, In (f, n, u) done /\ isInner f /\ r = ftop fin f u /\ t = totemplate (ordered f) f).
  { intros r t. rewrite IB, in_flat_map. split.
    - intros ([[f0 n0] u0] & H & K). exists f0, n0, u0. split; [exact H|]. cbn [DDopProofs4.fback] in K. destruct f0; cbn [In] in K; try contradiction. destruct K as [K|[]]. injection K as <- <-. cbn. auto.
    - intros (f0 & n0 & u0 & H & I0 & -> & ->). exists (f0, n0, u0). split; [exact H|]. destruct f0; try contradiction. now left. }
  assert (BL : forall f n u, In (f, n, u) done -> isInner f -> backlookup (ftop fin f u) (g_back g) = Some (totemplate (ordered f) f)).
  { intros f0 n0 u0 H I0. apply backlookup_some; [apply BI; exists f0, n0, u0; auto|]. intros t' H'. apply BI in H'. destruct H' as (f1 & n1 & u1 & H1 & I1 & E & ->).
    destruct (IOK _ _ _ H) as [O0 _]. destruct (IOK _ _ _ H1) as [O1 _]. destruct (ftop_inj prefix _ _ _ _ _ O0 O1 E) as [(_ & _ & <-)| ->]; [|reflexivity]. now rewrite (IINJ _ _ _ _ _ H H1 I0 I1). }
  assert (TopOf : forall r t, backlookup r (g_back g) = Some t -> exists f n u, In (f, n, u) done /\ isInner f /\ r = ftop fin f u).
  { intros r t H. apply backlookup_in, BI in H. destruct H as (f0 & n0 & u0 & H & I0 & -> & _). exists f0, n0, u0. auto. }
  apply (align (fun r => backlookup r (g_back g)) (fun a b => key_le (sortkey a) (sortkey b) = true) G) with (n := n).
  - apply sortgrammar_sorted.
  - intros [rx wx] [ry wy] Hx Hy Le Px By. cbn [fst] in *. destruct (backlookup ry (g_back g)) as [ty|] eqn:BE; [clear By|congruence].
    apply TopOf in BE. destruct BE as (f0 & n0 & u0 & H0 & I0 & ->). destruct (IOK _ _ _ H0) as [O0 _].
    destruct (ftop_inner prefix fin _ u0 O0 I0) as (m & rest & yf & E). rewrite E in Le.
    apply sort_In in Hx. apply IR in Hx. destruct Hx as (f1 & n1 & u1 & H1 & C). destruct (IOK _ _ _ H1) as [O1 _].
    assert (NM : ~ has (str "}<") (lhs rx)).
    { rewrite has_contains. intros HM. destruct rx as [nts [w|yfx]]; [discriminate|]. cbn [sortkey] in Le. unfold lhs in HM. cbn [fst] in HM. rewrite HM in Le. cbn [hd] in Le. unfold key_le in Le. rewrite eqs_refl in Le. cbn [negb] in Le.
      assert (F : contains (flabel f0) (str "}<") = false).
      { destruct (contains (flabel f0) (str "}<")) eqn:Q; auto. exfalso. apply has_contains in Q. destruct O0 as (O0 & _). apply oklabel_root in O0. now destruct O0 as (_ & _ & O0). }
      rewrite F in Le. discriminate. }
    destruct C as [[-> ->]|[C ->]].
    + destruct f1 as [l1 idx1|l1 i1 w1|l1 fs1]; [destruct O1 as (_ & _ & [])|discriminate|]. rewrite (BL _ _ _ H1 Logic.I). discriminate.
    + exfalso. destruct (fothers_spec prefix fin f1 u1 rx O1 C) as [(i & m' & EL & _)|(c & l & i & w & _ & -> & ->)]; [apply NM; rewrite EL; apply newlabel_has|discriminate].
  - intros [r w] Hr Br. cbn [fst] in Br. destruct (backlookup r (g_back g)) as [t|] eqn:BE; [|congruence]. apply TopOf in BE. destruct BE as (f0 & n0 & u0 & H0 & I0 & ->).
    destruct (IOK _ _ _ H0) as [O0 _]. destruct (ftop_inner prefix fin _ u0 O0 I0) as (m & rest & yf & E). rewrite E. reflexivity.
  - apply sort_In. apply IR. exists f, n, u. auto.
  - now apply (BL f n u).
Qed.
End Prefix.
