(** C90: markovthreshold. *)
From Coq Require Import String.
From Coq Require Import List Bool Arith NArith Lia Permutation.
From Verif Require Import PyStr TreeModel BinarizeModel BinarizeProps HeadModel FuncModel RrProps ThreshModel.
Import ListNotations.
Open Scope list_scope.

Notation COMMA := 44%N. Notation GT := 62%N. Notation SEMI := 59%N.
(** ** Greedy matching: the longest prefix for which the rest matches *)
Lemma greedy_some : forall {R} s (k : pystr -> pystr -> option R) x, greedy k s = Some x <->
  exists p q, s = p ++ q /\ k p q = Some x /\ forall p' q', s = p' ++ q' -> length p < length p' -> k p' q' = None.
Proof.
  induction s as [|c s IH]; intros k x; cbn [greedy].
  - split.
    + intros H. exists [], []. split; [reflexivity|]. split; [exact H|]. intros p' q' E L. destruct p'; [cbn in L; lia|discriminate].
    + intros (p & q & E & H & _). symmetry in E. apply app_eq_nil in E. destruct E as [-> ->]. exact H.
  - destruct (greedy (fun p q => k (c :: p) q) s) as [y|] eqn:G.
    + pose proof (proj1 (IH _ _) G) as (p & q & E & H & M). split.
      * intros K. injection K as <-. exists (c :: p), q. split; [now rewrite E|]. split; [exact H|]. intros p' q' E' L. destruct p' as [|d p']; [cbn in L; lia|]. injection E' as <- E'. apply M; [exact E'|cbn in L; lia].
      * intros (p1 & q1 & E1 & H1 & M1). f_equal. destruct p1 as [|d p1].
        { rewrite (M1 (c :: p) q) in H; [discriminate|now rewrite E|cbn; lia]. }
        injection E1 as <- E1. destruct (Nat.lt_trichotomy (length p) (length p1)) as [L|[L|L]].
        -- rewrite (M p1 q1) in H1; [discriminate|exact E1|exact L].
        -- assert (EP : p = p1 /\ q = q1).
           { subst s. clear - E1 L. revert p1 E1 L. induction p as [|a p IHp]; intros [|b p1] E1 L; try discriminate; [auto|]. injection E1 as <- E1. destruct (IHp p1 E1) as [-> ->]; [cbn in L; lia|auto]. }
           destruct EP as [-> ->]. congruence.
        -- rewrite (M1 (c :: p) q) in H; [discriminate|now rewrite E|cbn; lia].
    + assert (N : forall p q, s = p ++ q -> k (c :: p) q = None).
      { clear - G. revert k G. induction s as [|d s IHs]; intros k G p q E.
        - symmetry in E. apply app_eq_nil in E. destruct E as [-> ->]. exact G.
        - cbn [greedy] in G. destruct (greedy (fun p q => k (c :: d :: p) q) s) eqn:G2; [discriminate|]. destruct p as [|e p].
          + cbn in E. now subst q.
          + injection E as <- E. apply (IHs (fun p q => match p with x :: p => k (x :: d :: p) q | [] => None end)); auto. }
      split.
      * intros H. exists [], (c :: s). split; [reflexivity|]. split; [exact H|]. intros [|d p'] q' E L; [cbn in L; lia|]. injection E as <- E. now apply N.
      * intros (p & q & E & H & M). destruct p as [|d p]; [cbn in E; now subst q|]. injection E as <- E. rewrite (N p q E) in H. discriminate.
Qed.
Lemma greedy_none : forall {R} s (k : pystr -> pystr -> option R), greedy k s = None <-> forall p q, s = p ++ q -> k p q = None.
Proof.
  induction s as [|c s IH]; intros k; cbn [greedy].
  - split.
    + intros H p q E. symmetry in E. apply app_eq_nil in E. now destruct E as [-> ->].
    + intros H. now apply H.
  - destruct (greedy (fun p q => k (c :: p) q) s) as [y|] eqn:G.
    + split; [discriminate|]. intros H. apply greedy_some in G. destruct G as (p & q & E & K & _). rewrite (H (c :: p) q) in K; [discriminate|now rewrite E].
    + pose proof (proj1 (IH _) G) as N. split.
      * intros H [|d p] q E; [cbn in E; now subst q|]. injection E as <- E. now apply N.
      * intros H. now apply (H [] (c :: s)).
Qed.
Lemma lit_some : forall p s t, lit p s = Some t <-> s = p ++ t.
Proof.
  induction p as [|x p IH]; intros s t; cbn [lit app]; [split; [intros H; now injection H|now intros ->]|]. destruct s as [|y s]; [split; discriminate|].
  destruct (N.eqb_spec x y) as [->|N]; [rewrite IH; split; [now intros ->|intros H; now injection H]|]. split; [discriminate|]. intros H. injection H as H _. congruence.
Qed.
Lemma split_last : forall (x : N) s, In x s -> exists a b, s = a ++ x :: b /\ ~ In x b.
Proof.
  induction s as [|y s IH]; intros H; [destruct H|]. destruct (in_dec N.eq_dec x s) as [I|I].
  - destruct (IH I) as (a & b & E & K). exists (y :: a), b. split; [now rewrite E|exact K].
  - destruct H as [->|H]; [|contradiction]. exists [], s. split; [reflexivity|exact I].
Qed.
Lemma last_unique : forall (x : N) a b c d, a ++ x :: b = c ++ x :: d -> ~ In x b -> ~ In x d -> a = c /\ b = d.
Proof.
  intros x. induction a as [|y a IH]; intros b [|z c] d E NB ND; cbn in E.
  - injection E as ->. auto.
  - injection E as -> ->. exfalso. apply NB. apply in_or_app. right. now left.
  - injection E as -> <-. exfalso. apply ND. apply in_or_app. right. now left.
  - injection E as -> E. destruct (IH b c d E NB ND) as [-> ->]. auto.
Qed.
Lemma re_parent_none : forall a b c r, ~ In GT r -> re_parent a b c r = None.
Proof.
  intros a b c r H. unfold re_parent. destruct (lit (str "^<") r) as [r'|] eqn:L; [|reflexivity]. apply lit_some in L. apply greedy_none. intros p q E.
  destruct (lit (str ">") q) as [t|] eqn:L2; [|reflexivity]. apply lit_some in L2. exfalso. apply H. subst. apply in_or_app. right. apply in_or_app. right. now left.
Qed.
(** the siblings: up to the last '>' *)
Lemma siblings_none : forall a b r, re_siblings a b r = None <-> ~ In GT r.
Proof.
  intros a b r. unfold re_siblings. rewrite greedy_none. split.
  - intros H I. apply in_split in I. destruct I as (c & d & E). specialize (H c (GT :: d) E). cbn in H. destruct (re_parent a b c d); discriminate.
  - intros H p q E. destruct (lit (str ">") q) as [t|] eqn:L; [|reflexivity]. apply lit_some in L. exfalso. apply H. subst. apply in_or_app. right. now left.
Qed.
Lemma siblings_some : forall a b r g, re_siblings a b r = Some g <-> exists c d, r = c ++ GT :: d /\ ~ In GT d /\ g = mkG a b c None d.
Proof.
  intros a b r g. assert (X : forall c d, r = c ++ GT :: d -> ~ In GT d -> re_siblings a b r = Some (mkG a b c None d)).
  { intros c d E N. unfold re_siblings. apply greedy_some. exists c, (GT :: d). split; [exact E|]. split.
    - cbn. rewrite re_parent_none by exact N. reflexivity.
    - intros p' q' E' L. destruct (lit (str ">") q') as [t|] eqn:LT; [|reflexivity]. apply lit_some in LT. exfalso. apply N. clear - E E' L LT. subst q'. subst r. cbn [str app] in E'. change (map Ascii.N_of_ascii (list_ascii_of_string ">")) with [GT] in E'.
      revert p' E' L. induction c as [|x c IH]; intros p' E' L.
      + destruct p' as [|y p']; [cbn in L; lia|]. cbn in E'. injection E' as _ ->. apply in_or_app. right. now left.
      + destruct p' as [|y p']; [cbn in L; lia|]. cbn in E'. injection E' as _ E'. apply (IH p'); [exact E'|cbn in L; lia]. }
  split.
  - intros H. destruct (in_dec N.eq_dec GT r) as [I|I]; [|apply (siblings_none a b) in I; congruence]. destruct (split_last GT r I) as (c & d & E & N). exists c, d. rewrite (X c d E N) in H. injection H as <-. auto.
  - intros (c & d & E & N & ->). now apply X.
Qed.
(** the first group in brackets: up to the last semicolon before the last '>' *)
Lemma first_none : forall a r, re_first a r = None <-> ~ In GT r.
Proof.
  intros a r. unfold re_first. destruct (greedy _ r) as [g|] eqn:G.
  - split; [discriminate|]. intros H. apply greedy_some in G. destruct G as (p & q & E & K & _). destruct (lit (str ";") q) as [t|] eqn:L; [|discriminate]. apply lit_some in L.
    exfalso. assert (Z : re_siblings a (Some (p ++ str ";")) t <> None) by congruence. apply Z. apply siblings_none. intros I. apply H. subst. apply in_or_app. right. apply in_or_app. now right.
  - apply siblings_none.
Qed.
Lemma first_some : forall a r g, re_first a r = Some g -> exists c d, g1 g = a /\ g3 g = c /\ g4 g = None /\ g5 g = d /\ ~ In GT d /\ ~ In SEMI c /\
  ((g2 g = None /\ r = c ++ GT :: d) \/ exists b, g2 g = Some (b ++ [SEMI]) /\ r = b ++ SEMI :: c ++ GT :: d).
Proof.
  intros a r g H. unfold re_first in H. destruct (greedy _ r) as [g'|] eqn:G.
  - injection H as ->. apply greedy_some in G. destruct G as (p & q & E & K & M). destruct (lit (str ";") q) as [t|] eqn:L; [|discriminate]. apply lit_some in L. apply siblings_some in K. destruct K as (c & d & EC & N & ->).
    exists c, d. cbn [g1 g2 g3 g4 g5]. split; [reflexivity|]. split; [reflexivity|]. split; [reflexivity|]. split; [reflexivity|]. split; [exact N|]. split.
    + intros I. apply in_split in I. destruct I as (c1 & c2 & EI). assert (Z : r = (p ++ SEMI :: c1) ++ SEMI :: c2 ++ GT :: d) by (subst; cbn; repeat rewrite <- app_assoc; cbn; repeat rewrite <- app_assoc; reflexivity).
      specialize (M (p ++ SEMI :: c1) (SEMI :: c2 ++ GT :: d) Z). rewrite app_length in M. cbn [length] in M. specialize (M ltac:(lia)). cbn in M. apply siblings_none in M. apply M. apply in_or_app. right. now left.
    + right. exists p. split; [reflexivity|]. subst. reflexivity.
  - pose proof (proj1 (greedy_none _ _) G) as M. apply siblings_some in H. destruct H as (c & d & EC & N & ->). exists c, d. cbn [g1 g2 g3 g4 g5].
    split; [reflexivity|]. split; [reflexivity|]. split; [reflexivity|]. split; [reflexivity|]. split; [exact N|]. split.
    + intros I. apply in_split in I. destruct I as (c1 & c2 & EI). assert (Z : r = c1 ++ SEMI :: c2 ++ GT :: d) by (subst; cbn; repeat rewrite <- app_assoc; reflexivity).
      specialize (M _ _ Z). cbn in M. apply siblings_none in M. apply M. apply in_or_app. right. now left.
    + left. auto.
Qed.
(** Which labels are changed: those with "|<" and, somewhere after it, ">". *)
Definition parts (g : groups) : pystr := g1 g ++ str "|<" ++ match g2 g with Some b => b | None => [] end ++ g3 g ++ str ">" ++ g5 g.
Theorem C90_matches : forall l, MARKOVRE l <> None <-> exists a b c, l = a ++ str "|<" ++ b ++ str ">" ++ c.
Proof.
  intros l. split.
  - intros H. destruct (MARKOVRE l) as [g|] eqn:M; [|congruence]. unfold MARKOVRE in M. apply greedy_some in M. destruct M as (p & q & E & K & _). destruct (lit (str "|<") q) as [r|] eqn:L; [|discriminate]. apply lit_some in L.
    apply first_some in K. destruct K as (c & d & _ & _ & _ & _ & _ & _ & [[_ ER]|(b & _ & ER)]); subst.
    + exists p, c, d. reflexivity.
    + exists p, (b ++ SEMI :: c), d. cbn. repeat rewrite <- app_assoc. reflexivity.
  - intros (a & b & c & E) H. unfold MARKOVRE in H. pose proof (proj1 (greedy_none _ _) H a _ E) as K. cbn beta in K. rewrite (proj2 (lit_some (str "|<") _ (b ++ str ">" ++ c)) eq_refl) in K.
    apply first_none in K. apply K. apply in_or_app. right. now left.
Qed.
(** How a label is taken apart.  The part after the last ">" never has a parent: a parent
    in the label is taken for a part of the last sibling. *)
Theorem C90_groups : forall l g, MARKOVRE l = Some g -> l = parts g /\ g4 g = None /\ ~ In GT (g5 g) /\ ~ In SEMI (g3 g) /\
  (g2 g = None \/ exists b, g2 g = Some (b ++ str ";")) /\ (forall a b c, l = a ++ str "|<" ++ b ++ str ">" ++ c -> length a <= length (g1 g)).
Proof.
  intros l g M. unfold MARKOVRE in M. apply greedy_some in M. destruct M as (p & q & E & K & M). destruct (lit (str "|<") q) as [r|] eqn:L; [|discriminate]. apply lit_some in L.
  apply first_some in K. destruct K as (c & d & E1 & E3 & E4 & E5 & ND & NC & K). unfold parts. rewrite E1, E3, E5.
  split; [|split; [exact E4|split; [exact ND|split; [exact NC|split]]]].
  - destruct K as [[-> ER]|(b & -> & ER)]; subst; [reflexivity|]. cbn. repeat rewrite <- app_assoc. reflexivity.
  - destruct K as [[-> _]|(b & -> & _)]; eauto.
  - intros a b x EA. destruct (le_lt_dec (length a) (length p)) as [Q|Q]; [exact Q|]. exfalso. specialize (M a _ EA Q). cbn beta in M. rewrite (proj2 (lit_some (str "|<") _ (b ++ str ">" ++ x)) eq_refl) in M.
    apply first_none in M. apply M. apply in_or_app. right. now left.
Qed.
(** REFUTED: the option for the vertical order ([v]) has an effect. *)
Theorem C90_vertical_refuted : forall trees n h v v', markovthreshold trees n h v = markovthreshold trees n h v'.
Proof.
  intros. unfold markovthreshold. apply map_ext. assert (X : forall l, reduced (flat_map labelsof trees) n h v l = reduced (flat_map labelsof trees) n h v' l).
  { intros l. unfold reduced. destruct (MARKOVRE l) as [g|] eqn:M; [|reflexivity]. destruct (C90_groups l g M) as (_ & E & _). destruct (_ <? n); [|reflexivity]. unfold newlabel. now rewrite E. }
  induction a as [a|[l hd] ts IH] using tree_ind'; [reflexivity|]. cbn [relabel]. rewrite X. f_equal. clear - IH. induction IH as [|t ts E F IH]; [reflexivity|]. cbn [map]. congruence.
Qed.

(** ** What is changed *)
(** The result has the same nodes, words and heads; only labels change. *)
Theorem C90_shape : forall trees n h v, map (relabel (fun _ => [])) (markovthreshold trees n h v) = map (relabel (fun _ => [])) trees.
Proof.
  intros. unfold markovthreshold. rewrite map_map. apply map_ext. generalize (reduced (flat_map labelsof trees) n h v). intros f. clear.
  induction a as [a|[l hd] ts IH] using tree_ind'; [reflexivity|]. cbn [relabel]. f_equal. clear - IH. induction IH as [|t ts E F IH]; [reflexivity|]. cbn [map]. congruence.
Qed.
(** The new label of a node is a function of its label: labels that occur [n] times or
    more, or that are not of the form, stay; of the others the siblings after the [h]-th
    are left out, and a comma is added. *)
Definition artificial (l : pystr) : Prop := exists a b c, l = a ++ str "|<" ++ b ++ str ">" ++ c.
Theorem C90_labels : forall trees n h v, exists f,
  flat_map labelsof (markovthreshold trees n h v) = map f (flat_map labelsof trees) /\
  forall l, let occurrences := length (filter (eqs l) (flat_map labelsof trees)) in
  (n <= occurrences \/ ~ artificial l -> f l = l) /\
  (occurrences < n -> artificial l -> exists x first sibs rest, l = x ++ str "|<" ++ first ++ sibs ++ str ">" ++ rest /\
     (first = [] \/ exists b, first = b ++ str ";") /\ ~ In SEMI sibs /\ ~ In GT rest /\
     f l = x ++ str "|<" ++ first ++ BracketModel.join (str ",") (firstn h (HeadModel.splitc COMMA sibs)) ++ str ",>" ++ rest).
Proof.
  intros trees n h v. exists (reduced (flat_map labelsof trees) n h v). split.
  - unfold markovthreshold. generalize (reduced (flat_map labelsof trees) n h v). intros f.
    assert (X : forall t, labelsof (relabel f t) = map f (labelsof t)).
    { induction t as [a|[l hd] ts IH] using tree_ind'; [reflexivity|]. cbn [relabel labelsof map]. f_equal. clear - IH. induction IH as [|t ts E F IH]; [reflexivity|]. cbn [map flat_map]. rewrite map_app. congruence. }
    clear - X. induction trees as [|t ts IH]; [reflexivity|]. cbn [map flat_map]. now rewrite map_app, X, IH.
  - intros l occ. unfold reduced. change (count l (flat_map labelsof trees)) with occ. split.
    + intros H. destruct (MARKOVRE l) as [g|] eqn:M; [|reflexivity]. assert (A : artificial l) by (apply C90_matches; congruence). destruct H as [H|H]; [|contradiction]. now rewrite (proj2 (Nat.ltb_ge _ _) H).
    + intros H A. destruct (MARKOVRE l) as [g|] eqn:M; [|exfalso; revert M; now apply C90_matches]. rewrite (proj2 (Nat.ltb_lt _ _) H). destruct (C90_groups l g M) as (E & E4 & N5 & N3 & E2 & _).
      exists (g1 g), (match g2 g with Some b => b | None => [] end), (g3 g), (g5 g). split; [exact E|]. split; [destruct E2 as [->|(b & ->)]; eauto|]. split; [exact N3|]. split; [exact N5|].
      unfold newlabel. rewrite E4. reflexivity.
Qed.
Lemma reduced_artificial : forall ls n h v l, contains (reduced ls n h v l) cchar = contains l cchar /\ (contains l cchar = false -> reduced ls n h v l = l).
Proof.
  intros. unfold reduced. destruct (MARKOVRE l) as [g|] eqn:M; [|auto]. destruct (C90_groups l g M) as (E & _). assert (C : contains l cchar = true).
  { apply contains_iff. exists (g1 g). eexists. exact E. }
  rewrite C. split; [|discriminate]. destruct (_ <? n); [|exact C]. apply contains_iff. unfold newlabel. eauto.
Qed.
(** Debinarizing gives the same trees before and after: the tree of the treebank does not
    depend on the threshold. *)
Theorem C90_debinarize : forall trees n h v eu, (forall t, In t trees -> contains (labelof t) (str "|<") = false) ->
  map (unbinarize eu) (markovthreshold trees n h v) = map (unbinarize eu) trees.
Proof.
  intros trees n h v eu R. unfold markovthreshold. rewrite map_map. apply map_ext_in. intros t Ht. specialize (R t Ht). clear Ht.
  set (f := reduced (flat_map labelsof trees) n h v). assert (F : forall l, contains (f l) cchar = contains l cchar /\ (contains l cchar = false -> f l = l)) by (intros; apply reduced_artificial).
  clearbody f. assert (X : forall t, unb eu (relabel f t) = unb eu t).
  { induction t0 as [a|[l hd] ts IH] using tree_ind'; [reflexivity|]. cbn [relabel unb]. destruct (F l) as [F1 F2]. rewrite F1.
    assert (G : flat_map (unb eu) (map (relabel f) ts) = flat_map (unb eu) ts) by (clear - IH; induction IH as [|t ts E Fa IH]; [reflexivity|]; cbn [map flat_map]; congruence).
    rewrite G. destruct (contains l cchar) eqn:C; [reflexivity|]. now rewrite (F2 eq_refl). }
  destruct t as [a|[l hd] ts]; [reflexivity|]. cbn [labelof] in R. cbn [relabel unbinarize]. rewrite (proj2 (F l) R). f_equal. rewrite flat_map_concat_map, map_map, <- flat_map_concat_map.
  clear - X. induction ts as [|t ts IH]; [reflexivity|]. cbn [flat_map]. now rewrite X, IH.
Qed.

(** ** Labels made by binarization: X|<S1,...,Sk> and, with parents, X|<S1,...,Sk>^<P> *)
Lemma splitc_firstn : forall sibs rest h, (forall s, In s sibs -> ~ In COMMA s) -> h < length sibs ->
  firstn h (HeadModel.splitc COMMA (BracketModel.join (str ",") sibs ++ rest)) = firstn h sibs.
Proof.
  induction sibs as [|s sibs IH]; intros rest h C L; [cbn in L; lia|]. destruct h as [|h]; [reflexivity|]. destruct sibs as [|s2 sibs]; [cbn in L; lia|].
  change (BracketModel.join (str ",") (s :: s2 :: sibs)) with (s ++ str "," ++ BracketModel.join (str ",") (s2 :: sibs)).
  assert (X : forall y, ~ In COMMA s -> HeadModel.splitc COMMA (s ++ COMMA :: y) = s :: HeadModel.splitc COMMA y).
  { clear. induction s as [|c s IH]; intros y H; cbn [app HeadModel.splitc]; [now rewrite N.eqb_refl|]. destruct (N.eqb_spec c COMMA) as [->|]; [exfalso; apply H; now left|]. rewrite IH; [reflexivity|]. intros I; apply H; now right. }
  rewrite <- !app_assoc. change (str "," ++ BracketModel.join (str ",") (s2 :: sibs) ++ rest) with (COMMA :: BracketModel.join (str ",") (s2 :: sibs) ++ rest).
  rewrite X by (apply C; now left). cbn [firstn]. f_equal. apply IH; [|cbn in L |- *; lia]. intros; apply C; now right.
Qed.
Lemma join_notin : forall (c : N) sibs, (forall s, In s sibs -> ~ In c s) -> c <> COMMA -> ~ In c (BracketModel.join (str ",") sibs).
Proof.
  intros c. induction sibs as [|s sibs IH]; intros C N; [intros []|]. destruct sibs as [|s2 sibs]; [cbn; apply C; now left|].
  change (BracketModel.join (str ",") (s :: s2 :: sibs)) with (s ++ COMMA :: BracketModel.join (str ",") (s2 :: sibs)). intros I. apply in_app_or in I. destruct I as [I|[I|I]]; [eapply C; [now left|exact I]|congruence|].
  eapply IH; [|exact N|exact I]. intros; apply C; now right.
Qed.
Lemma markov_of : forall x y, ~ In 124%N y -> ~ In SEMI y -> MARKOVRE (x ++ str "|<" ++ y ++ str ">") = Some (mkG x None y None []).
Proof.
  intros x y N1 N2. destruct (MARKOVRE (x ++ str "|<" ++ y ++ str ">")) as [g|] eqn:M.
  2:{ exfalso. revert M. apply C90_matches. exists x, y, []. reflexivity. }
  destruct (C90_groups _ g M) as (E & E4 & N5 & N3 & E2 & LG). specialize (LG x y [] eq_refl). f_equal. destruct g as [a b c d e]. unfold parts in E. cbn [g1 g2 g3 g4 g5] in *. subst d.
  assert (EA : a = x).
  { assert (N : ~ In 124%N (str "<" ++ y ++ str ">")) by (change (~ In 124%N (60%N :: y ++ [GT])); intros [I|I]; [discriminate|]; apply in_app_or in I; destruct I as [I|[I|[]]]; [contradiction|discriminate]).
    change (x ++ str "|<" ++ y ++ str ">") with (x ++ 124%N :: (str "<" ++ y ++ str ">")) in E. change (a ++ str "|<" ++ match b with Some b => b | None => [] end ++ c ++ str ">" ++ e) with (a ++ 124%N :: (str "<" ++ match b with Some b => b | None => [] end ++ c ++ str ">" ++ e)) in E.
    revert N E LG. generalize (str "<" ++ y ++ str ">"). generalize (str "<" ++ match b with Some b => b | None => [] end ++ c ++ str ">" ++ e). clear. intros u w N E LG.
    revert a E LG. induction x as [|h x IH]; intros a E LG.
    - destruct a as [|k a]; [reflexivity|]. cbn in E. injection E as <- E. exfalso. apply N. rewrite E. apply in_or_app. right. now left.
    - destruct a as [|k a]; [cbn in LG; lia|]. cbn in E. injection E as <- E. f_equal. apply IH; [exact E|cbn in LG; lia]. }
  subst a. apply app_inv_head in E. apply app_inv_head in E. change (str ">" ++ e) with (GT :: e) in E. change (str ">") with [GT] in E. rewrite (app_assoc _ c) in E.
  destruct (last_unique GT y [] (match b with Some b => b | None => [] end ++ c) e E (fun Z => Z) N5) as [EY EE]. subst e.
  destruct E2 as [->|(z & ->)]; [cbn in EY; now subst|]. exfalso. apply N2. rewrite EY. apply in_or_app. left. apply in_or_app. right. now left.
Qed.
Definition safe (s : pystr) : Prop := ~ In COMMA s /\ ~ In 124%N s /\ ~ In SEMI s.
(** The siblings after the [h]-th are left out ... *)
Theorem C90_siblings : forall trees n h v x sibs, (forall s, In s sibs -> safe s) -> h < length sibs ->
  let l := x ++ str "|<" ++ BracketModel.join (str ",") sibs ++ str ">" in
  reduced (flat_map labelsof trees) n h v l =
    if length (filter (eqs l) (flat_map labelsof trees)) <? n then x ++ str "|<" ++ BracketModel.join (str ",") (firstn h sibs) ++ str ",>" else l.
Proof.
  intros trees n h v x sibs S L l. unfold reduced, l. rewrite markov_of.
  - unfold count. destruct (_ <? n); [|reflexivity]. unfold newlabel. cbn [g1 g2 g3 g4 g5 app]. rewrite app_nil_r. pose proof (splitc_firstn sibs [] h (fun s Hs => proj1 (S s Hs)) L) as X. rewrite app_nil_r in X. now rewrite X.
  - apply join_notin; [intros s Hs; apply S, Hs|discriminate].
  - apply join_notin; [intros s Hs; apply (S s Hs)|discriminate].
Qed.
(** ... and, although the parents should be kept up to the vertical order, the parents too. *)
Theorem C90_parent_refuted : forall trees n h v x sibs p, (forall s, In s (p :: sibs) -> safe s) -> h < length sibs ->
  let l := x ++ str "|<" ++ BracketModel.join (str ",") sibs ++ str ">^<" ++ p ++ str ">" in
  length (filter (eqs l) (flat_map labelsof trees)) < n ->
  reduced (flat_map labelsof trees) n h v l = x ++ str "|<" ++ BracketModel.join (str ",") (firstn h sibs) ++ str ",>".
Proof.
  intros trees n h v x sibs p S L l K. unfold reduced. assert (E : l = x ++ str "|<" ++ (BracketModel.join (str ",") sibs ++ str ">^<" ++ p) ++ str ">").
  { unfold l. now rewrite <- !app_assoc. }
  assert (NI : forall c, c = 124%N \/ c = SEMI -> ~ In c (BracketModel.join (str ",") sibs ++ str ">^<" ++ p)).
  { intros c Hc I. apply in_app_or in I. destruct I as [I|I].
    - revert I. apply join_notin; [|destruct Hc as [-> | ->]; discriminate]. intros s Hs. destruct (S s (or_intror Hs)) as (_ & A & B). destruct Hc as [-> | ->]; assumption.
    - apply in_app_or in I. destruct I as [I|I]; [destruct Hc as [-> | ->]; cbn in I; intuition discriminate|]. destruct (S p (or_introl eq_refl)) as (_ & A & B). destruct Hc as [-> | ->]; contradiction. }
  rewrite E at 1. rewrite markov_of by (apply NI; auto). unfold count. rewrite (proj2 (Nat.ltb_lt _ _) K). unfold newlabel. cbn [g1 g2 g3 g4 g5 app]. rewrite app_nil_r.
  rewrite splitc_firstn; [reflexivity| |exact L]. intros s Hs. apply (S s (or_intror Hs)).
Qed.
(** labels that differ only after the [h]-th sibling become the same *)
Corollary C90_merged : forall trees n h v x a b, (forall s, In s (a ++ b) -> safe s) -> h < length a -> h < length b -> firstn h a = firstn h b ->
  let la := x ++ str "|<" ++ BracketModel.join (str ",") a ++ str ">" in let lb := x ++ str "|<" ++ BracketModel.join (str ",") b ++ str ">" in
  length (filter (eqs la) (flat_map labelsof trees)) < n -> length (filter (eqs lb) (flat_map labelsof trees)) < n ->
  reduced (flat_map labelsof trees) n h v la = reduced (flat_map labelsof trees) n h v lb.
Proof.
  intros trees n h v x a b S LA LB E la lb KA KB. unfold la, lb. rewrite !C90_siblings; auto; try (intros; apply S; apply in_or_app; tauto).
  fold la lb. rewrite (proj2 (Nat.ltb_lt _ _) KA), (proj2 (Nat.ltb_lt _ _) KB). now rewrite E.
Qed.

(** ** Examples *)
Definition thresh_ex : list btree :=
  [Node (str "S", false) [Node (str "DT", false) [Leaf 0]; Node (str "S|<NN,VB>^<ROOT>", false) [Node (str "NN", false) [Leaf 1]; Node (str "S|<VB,IN>", false) [Node (str "VB", false) [Leaf 2]; Node (str "IN", false) [Leaf 3]]]]].
Example C90_example : map labelsof (markovthreshold thresh_ex 2 1 1) = [map str ["S"; "DT"; "S|<NN,>"; "NN"; "S|<VB,>"; "VB"; "IN"]%string] /\
  markovthreshold thresh_ex 1 1 1 = thresh_ex /\
  map labelsof (markovthreshold thresh_ex 2 2 1) = [map str ["S"; "DT"; "S|<NN,VB>^<ROOT,>"; "NN"; "S|<VB,IN,>"; "VB"; "IN"]%string] /\
  (forall t, In t thresh_ex -> contains (labelof t) (str "|<") = false).
Proof. split; [vm_compute; reflexivity|]. split; [vm_compute; reflexivity|]. split; [vm_compute; reflexivity|]. intros t [<-|[]]. vm_compute. reflexivity. Qed.
Example C90_example_groups : MARKOVRE (str "NP|<X;DT,NN>^<S,T>_2") = Some (mkG (str "NP") (Some (str "X;")) (str "DT,NN>^<S,T") None (str "_2")) /\
  MARKOVRE (str "NP|<A;b>|<C>") = Some (mkG (str "NP|<A;b>") None (str "C") None []) /\ MARKOVRE (str "NP>|<x") = None /\
  (forall s, In s [str "DT"; str "NN"] -> safe s).
Proof. split; [vm_compute; reflexivity|]. split; [vm_compute; reflexivity|]. split; [vm_compute; reflexivity|]. intros s [<-|[<-|[]]]; repeat split; intros I; vm_compute in I; intuition discriminate. Qed.
