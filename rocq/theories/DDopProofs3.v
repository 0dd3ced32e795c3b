(** C64, part 3: labels, and the rules collected from all the fragments. *)
From Coq Require Import String.
From Coq Require Import List Bool Arith NArith Lia Permutation Sorted.
From Verif Require Import PyStr TreeModel BracketModel BinarizeModel TransformModel SortProofs LcfrsModel TreebankModel DopModel DopProofs DDopModel DDopSpec DDopProofs DDopProofs2.
Import ListNotations.
Open Scope list_scope.

(** * strings *)
Notation mark := (str "}<").
Lemma split_first : forall l l' r r', ~ has mark l -> ~ has mark l' -> l ++ str "}" ++ str "<" ++ r = l' ++ str "}" ++ str "<" ++ r' -> l = l' /\ r = r'.
Proof.
  change (str "}") with [125%N]. change (str "<") with [60%N]. change mark with [125%N; 60%N]. cbn [app].
  assert (N : forall c l, ~ has [125%N; 60%N] (c :: l) -> ~ has [125%N; 60%N] l) by (intros c l H (a & b & ->); apply H; exists (c :: a), b; reflexivity).
  assert (B : forall l r r', ~ has [125%N; 60%N] l -> 125%N :: 60%N :: r = l ++ 125%N :: 60%N :: r' -> l = []).
  { intros [|c [|d l]] r r' H E; auto; cbn in E; injection E; intros; subst; [discriminate|]. exfalso. apply H. exists [], l. reflexivity. }
  induction l as [|c l IH]; intros [|c' l'] r r' H H' E.
  - injection E as ->. auto.
  - apply B in E; [discriminate|exact H'].
  - symmetry in E. apply B in E; [discriminate|exact H].
  - cbn in E. injection E as -> E. destruct (IH l' r r' (N _ _ H) (N _ _ H') E) as [-> ->]. auto.
Qed.
Lemma split_digits : forall a b x m m', forallb isdigit a = true -> forallb isdigit b = true -> isdigit x = false -> a ++ x :: m = b ++ x :: m' -> a = b.
Proof.
  induction a as [|c a IH]; intros [|d b] x m m' A B X E; auto; cbn in *.
  - injection E as -> _. apply andb_prop in B. destruct B. congruence.
  - injection E as -> _. apply andb_prop in A. destruct A. congruence.
  - injection E as -> E. apply andb_prop in A, B. f_equal. now apply (IH b x m m').
Qed.
Lemma has_mark_app : forall a b, has mark (a ++ str "@" ++ b) -> has mark a \/ has mark b.
Proof.
  change (str "@") with [64%N]. change mark with [125%N; 60%N]. intros a. induction a as [|c a IH]; intros b (l & r & E).
  - cbn in E. destruct l as [|d l]; [discriminate|]. cbn in E. injection E as _ E. right. now exists l, r.
  - destruct l as [|d l]; cbn in E.
    + destruct a as [|e a]; cbn in E; [discriminate|]. injection E as -> -> E. left. exists [], a. reflexivity.
    + injection E as -> E. destruct (IH b) as [(l2 & r2 & ->)|]; [exists l, r; exact E| |auto]. left. exists (d :: l2), r2. reflexivity.
Qed.
Lemma split_at : forall l l' w w', ~ In (ch "@") l -> ~ In (ch "@") l' -> l ++ str "@" ++ w = l' ++ str "@" ++ w' -> l = l' /\ w = w'.
Proof.
  change (str "@") with [64%N]. change (ch "@") with 64%N. induction l as [|c l IH]; intros [|c' l'] w w' H H' E; cbn in *.
  - injection E as ->. auto.
  - injection E as E _. exfalso. apply H'. now left.
  - injection E as E _. exfalso. apply H. now left.
  - injection E as -> E. destruct (IH l' w w') as [-> ->]; auto.
Qed.

Section Prefix.
Variable prefix : pystr.
Notation newlabel := (newlabel prefix). Notation frules := (frules prefix). Notation flatten := (flatten prefix). Notation linksF := (linksF prefix). Notation frulesF := (frulesF prefix).
Lemma newlabel_inj : forall l i m l' i' m', ~ has mark l -> ~ has mark l' -> newlabel l i m = newlabel l' i' m' -> l = l' /\ i = i'.
Proof.
  intros l i m l' i' m' H H' E. unfold DDopModel.newlabel in E. apply split_first in E; auto. destruct E as [-> E]. split; auto. apply app_inv_head in E. change (str ">") with [62%N] in E. cbn [app] in E.
  apply split_digits in E; try apply dec_digits; [|reflexivity]. now apply dec_inj.
Qed.
Lemma newlabel_has : forall l i m, has mark (newlabel l i m).
Proof. intros. exists l. eexists. unfold DDopModel.newlabel. reflexivity. Qed.
Lemma newlabel_aux : forall l i m, l <> [] -> auxlabel (newlabel l i m) = true.
Proof. intros [|c l] i m H; [congruence|]. cbn [auxlabel DDopModel.newlabel app]. apply contains_iff. exists l. eexists. reflexivity. Qed.
Lemma not_aux : forall l, ~ has mark l -> auxlabel l = false.
Proof. intros [|c l] H; auto. cbn [auxlabel]. destruct (contains l mark) eqn:E; auto. exfalso. apply contains_iff in E. destruct E as (a & b & ->). apply H. exists (c :: a), b. reflexivity. Qed.

(** * shape of the rules of a fragment *)
Lemma frulesF_shape : forall id u label order, order <> [] -> let '(aux, top) := frulesF id u label order in
  exists c0 rest ls m yf, order = c0 :: rest /\ Chain (wlabel c0) aux ls (newlabel label u m) /\
    ((rest = [] /\ ls = [] /\ top = Phrasal label [newlabel label u m] yf /\ exists yf', aux = [Phrasal (newlabel label u m) [wlabel c0] yf']) \/
     (exists pre c, rest = pre ++ [c] /\ ls = map wlabel pre /\ top = Phrasal label [newlabel label u m; wlabel c] yf)) /\
    (forall p, In p aux -> exists i m, plhs p = newlabel label i m).
Proof.
  intros id u label order NE. destruct order as [|c0 [|c1 [|c2 rest]]]; [congruence| | |]; cbn [DDopProofs2.frulesF].
  - exists c0, []. do 3 eexists. split; [reflexivity|]. split; [repeat constructor|]. split; [left; split; [reflexivity|]; split; [reflexivity|]; split; [reflexivity|]; eexists; reflexivity|]. intros p [<-|[]]. cbn. eauto.
  - exists c0, [c1]. do 3 eexists. split; [reflexivity|]. split; [repeat constructor|]. split; [right; exists [], c1; auto|]. intros p [<-|[]]. cbn. eauto.
  - pose proof (linksF_shape prefix id u (c2 :: rest) label [wlabel c0] (wlabel c0) (fidx c0) c1) as Q.
    destruct (linksF id u label [wlabel c0] (wlabel c0) (fidx c0) c1 (c2 :: rest)) as [aux top]. destruct Q as (ls & l & yf & C & T & L & A & U). destruct U as [m ->]; [discriminate|].
    exists c0, (c1 :: c2 :: rest), ls, m, yf. split; [reflexivity|]. split; [exact C|]. split; [|exact A]. right.
    exists (removelast (c1 :: c2 :: rest)), (last (c2 :: rest) c1).
    assert (E : c1 :: c2 :: rest = removelast (c1 :: c2 :: rest) ++ [last (c2 :: rest) c1]).
    { rewrite (app_removelast_last c1 (l := c1 :: c2 :: rest)) at 1 by discriminate. f_equal. }
    split; [exact E|]. split; [|exact T]. rewrite E, map_app in L. cbn [map] in L. apply app_inj_tail in L. now destruct L.
Qed.

(** * the rules of a fragment, given the table of identifiers and its own *)
Definition ftop (fin : ids) (f : frag) (u : nat) : rule :=
  match f with Inner label _ => astuple (snd (frulesF (idof fin) u label (ordered f))) | Term l _ w => ([l; str "Epsilon"], PWord w) | Site l _ => ([l], PYf []) end.
Definition fothers (fin : ids) (f : frag) (u : nat) : list rule :=
  match f with Inner label _ => map astuple (rev (fst (frulesF (idof fin) u label (ordered f))) ++ flat_map lexs (ordered f)) | _ => [] end.
Lemma frag_ind' : forall P : frag -> Prop, (forall l idx, P (Site l idx)) -> (forall l i w, P (Term l i w)) -> (forall l fs, Forall P fs -> P (Inner l fs)) -> forall f, P f.
Proof.
  intros P H1 H2 H3. fix IH 1. intros [l idx|l i w|l fs]; [apply H1|apply H2|]. apply H3. induction fs as [|f fs IHf]; constructor; auto.
Qed.
Lemma ok_sites : forall f, oknode f -> Forall oksite (sites f) /\ sites f <> [].
Proof.
  intros f. induction f as [l idx|l i w|l fs IH] using frag_ind'; intros Ok; cbn [sites].
  - split; [constructor; [exact Ok|constructor]|discriminate].
  - split; [constructor; [exact Ok|constructor]|discriminate].
  - inversion Ok as [| |? ? O1 O2 O3]; subst. split.
    + clear O1 O2 Ok. induction fs as [|f fs IHf]; cbn [flat_map]; [constructor|]. inversion IH; inversion O3; subst. apply Forall_app. split; [now apply H1|]. now apply IHf.
    + destruct fs as [|f fs]; [congruence|]. inversion IH; inversion O3; subst. cbn [flat_map]. intros E. apply app_eq_nil in E. destruct E as [E _]. now apply (proj2 (H1 H5)).
Qed.
Lemma ordered_ok : forall f, okfrag f -> (forall c, In c (ordered f) -> oksite c) /\ ordered f <> [].
Proof.
  intros f (Ok & _). destruct (ok_sites f Ok) as [S1 S2]. split.
  - intros c Hc. apply sort_In in Hc. rewrite Forall_forall in S1. auto.
  - intros E. pose proof (sort_length first_le (sites f)) as L. unfold ordered in E. rewrite E in L. destruct (sites f); [congruence|discriminate].
Qed.
Definition isInner (f : frag) : Prop := match f with Inner _ _ => True | _ => False end.
Lemma oklabel_root : forall f, oknode f -> oklabel (flabel f).
Proof. intros f H. inversion H; auto. Qed.
Lemma lhs_astuple : forall p, lhs (astuple p) = plhs p.
Proof. intros [l w|l|l rhs yf]; reflexivity. Qed.
(** the rule for the root *)
Lemma ftop_inner : forall fin f u, okfrag f -> isInner f -> exists m rest yf, ftop fin f u = (flabel f :: newlabel (flabel f) u m :: rest, PYf yf).
Proof.
  intros fin f u Ok I. destruct f as [| |label fs]; try contradiction. destruct (ordered_ok _ Ok) as [_ NE]. pose proof (frulesF_shape (idof fin) u label _ NE) as Q.
  unfold ftop. destruct (frulesF (idof fin) u label (ordered (Inner label fs))) as [aux top]. destruct Q as (c0 & rest & ls & m & yf & _ & _ & [(_ & _ & -> & _)|(pre & c & _ & _ & ->)] & _); cbn [snd astuple flabel]; do 3 eexists; reflexivity.
Qed.
Lemma ftop_lhs : forall fin f u, okfrag f -> lhs (ftop fin f u) = flabel f.
Proof.
  intros fin f u Ok. destruct f as [l idx|l i w|label fs]; [reflexivity|reflexivity|]. destruct (ftop_inner fin _ u Ok Logic.I) as (m & rest & yf & ->). reflexivity.
Qed.
(** the other rules: for binarized nodes, or for words *)
Lemma fothers_spec : forall fin f u r, okfrag f -> In r (fothers fin f u) ->
  (exists i m, lhs r = newlabel (flabel f) i m /\ exists yf, snd r = PYf yf) \/
  (exists c l i w, In c (sites f) /\ c = Term l i w /\ r = ([l ++ str "@" ++ w; str "Epsilon"], PWord w)).
Proof.
  intros fin f u r Ok H. destruct f as [l idx|l i w|label fs]; try destruct H. destruct (ordered_ok _ Ok) as [OS NE]. pose proof (frulesF_shape (idof fin) u label _ NE) as Q.
  unfold fothers in H. destruct (frulesF (idof fin) u label (ordered (Inner label fs))) as [aux top]. cbn [fst] in H. destruct Q as (c0 & rest & ls & m & yf & _ & C & _ & A).
  apply in_map_iff in H. destruct H as (p & <- & Hp). apply in_app_or in Hp. destruct Hp as [Hp|Hp].
  - apply in_rev in Hp. left. destruct (A p Hp) as (i & m' & E). exists i, m'. rewrite lhs_astuple. split; [exact E|].
    clear - C Hp. induction C; [destruct Hp| |]; (destruct Hp as [<-|Hp]; [cbn; eauto|auto]).
  - right. apply in_flat_map in Hp. destruct Hp as (c & Hc & Hp). destruct c as [|l i w|]; cbn [lexs In] in Hp; try contradiction. destruct Hp as [<-|[]]. exists (Term l i w), l, i, w. split; [now apply sort_In in Hc|]. split; reflexivity.
Qed.
Lemma fothers_lhs : forall fin f u r, okfrag f -> In r (fothers fin f u) -> ~ oklabel (lhs r).
Proof.
  intros fin f u r Ok H (_ & L1 & L2). destruct (fothers_spec fin f u r Ok H) as [(i & m & E & _)|(c & l & i & w & Hc & -> & ->)].
  - apply L2. rewrite E. apply newlabel_has.
  - apply L1. cbn. apply in_or_app. right. now left.
Qed.

(** * dictionaries of rules *)
Lemma setrule_keys : forall r w g r', In r' (map fst (setrule r w g)) <-> r' = r \/ In r' (map fst g).
Proof.
  intros r w g r'. induction g as [|[k v] g IH]; cbn [setrule map fst In]; [intuition|]. destruct (rule_eqb r k) eqn:E; cbn [map fst In].
  - apply rule_eqb_eq in E. subst. intuition.
  - rewrite IH. intuition.
Qed.
Lemma setrule_nodup : forall r w g, NoDup (map fst g) -> NoDup (map fst (setrule r w g)).
Proof.
  intros r w g. induction g as [|[k v] g IH]; intros H; cbn [setrule map fst]; [repeat constructor; intros []|]. cbn in H. inversion H as [|? ? H1 H2]; subst.
  destruct (rule_eqb r k) eqn:E; cbn [map fst]; [constructor; auto|]. constructor; [|auto]. rewrite setrule_keys. intros [->|X]; [|auto].
  assert (Y : rule_eqb r r = true) by (now apply rule_eqb_eq). congruence.
Qed.
Lemma setrule_In : forall r w g, NoDup (map fst g) -> forall r' w', In (r', w') (setrule r w g) <-> (r' = r /\ w' = w) \/ (r' <> r /\ In (r', w') g).
Proof.
  intros r w g. induction g as [|[k v] g IH]; intros H r' w'; cbn [setrule In].
  - split; [intros [E|[]]; injection E as <- <-; auto|intros [[-> ->]|[_ []]]; auto].
  - cbn in H. inversion H as [|? ? H1 H2]; subst. destruct (rule_eqb r k) eqn:E; cbn [In].
    + apply rule_eqb_eq in E. subst k. split.
      * intros [X|X]; [injection X as <- <-; auto|]. right. split; [|auto]. intros ->. apply H1. apply in_map_iff. exists (r, w'). auto.
      * intros [[-> ->]|[N [X|X]]]; [auto| |auto]. injection X as <- <-. congruence.
    + assert (N : r <> k) by (intros ->; assert (Y : rule_eqb k k = true) by (now apply rule_eqb_eq); congruence).
      rewrite (IH H2). split.
      * intros [X|[[-> ->]|[X Y]]]; [injection X as <- <-; right; split; [congruence|now left]|now left|right; split; auto].
      * intros [[-> ->]|[X [Y|Y]]]; [right; now left|now left|right; right; auto].
Qed.
Lemma fold_setrule : forall ps g, NoDup (map fst g) -> NoDup (map fst (fold_left (fun g p => setrule (astuple p) 1%N g) ps g)) /\
  forall r w, In (r, w) (fold_left (fun g p => setrule (astuple p) 1%N g) ps g) <-> (In r (map astuple ps) /\ w = 1%N) \/ (~ In r (map astuple ps) /\ In (r, w) g).
Proof.
  induction ps as [|p ps IH]; intros g H; cbn [fold_left map].
  - split; auto. intros r w. split; [intros X; right; split; auto|intros [[[] _]|[_ X]]; auto].
  - destruct (IH (setrule (astuple p) 1%N g) (setrule_nodup _ _ _ H)) as [I1 I2]. split; auto. intros r w. rewrite I2, (setrule_In _ _ _ H). cbn [In]. destruct (rule_dec r (astuple p)) as [->|N].
    + split; [intros [[X ->]|[X [[_ ->]|[Y _]]]]; [auto|auto|congruence]|intros [[X ->]|[X _]]; [|exfalso; auto]].
      destruct (in_dec rule_dec (astuple p) (map astuple ps)); auto.
    + split; [intros [[X ->]|[X [[Y _]|[_ Y]]]]; [auto|congruence|right; split; auto; intros [Z|Z]; congruence]|].
      intros [[[X|X] ->]|[X Y]]; [congruence|auto|right; split; auto].
Qed.
End Prefix.
