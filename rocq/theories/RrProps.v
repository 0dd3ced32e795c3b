(** The relational-realizational transformation and its inverse (C83) *)
From Coq Require Import String.
From Coq Require Import List Bool Arith NArith Lia Permutation Sorted.
From Verif Require Import PyStr TreeModel RrModel.
From Verif Require BracketModel EscapeProofs TransformModel GenModel HeadModel HeadProps ExportModel SortProofs.
Import ListNotations.
Open Scope list_scope.
Open Scope nat_scope.

(** ---- specification ---- *)
(** morphology that can be written after a slash *)
Definition morph_ok (m : pystr) : Prop := m <> [] /\ ~ In slash m /\ ~ In lsq m /\ ~ In rsq m.
(** a grammatical function that can be read back: a colon is only allowed when it cannot be
    confused with the context of an adjunct *)
Definition func_ok (adjunctionlabel : option pystr) (f : pystr) : Prop :=
  f <> [] /\ ~ In slash f /\ (In colon f -> adjunctionlabel = None \/ adjunctionlabel = Some [] \/ adjunctionlabel = Some f).
Inductive proper (adj : option pystr) : rtree -> Prop :=
| proper_pre : forall l src i is, ~ In slash l -> morph_ok (nth MORPH src []) -> proper adj (Node (l, src) (map Leaf (i :: is)))
| proper_con : forall l src t ts, ~ In dash l -> (forall c, In c (t :: ts) -> proper adj c /\ func_ok adj (func c)) -> proper adj (Node (l, src) (t :: ts)).
(** the tree that comes back: labels, functions (except for the root) and morphology of
    preterminals are kept, the other fields are lost *)
Definition isleaf (t : rtree) : bool := match t with Leaf _ => true | Node _ _ => false end.
Fixpoint restored (f : pystr) (t : rtree) : rtree :=
  match t with
  | Leaf i => Leaf i
  | Node (l, src) ts => Node (l, [str "--"; str "--"; l; if forallb isleaf ts then nth MORPH src [] else str "--"; f; str "--"]) (map (fun c => restored (func c) c) ts)
  end.
(** the nearest argument to the left *)
Definition nearest_left (arg : rtree -> bool) (ts : list rtree) (i : nat) (f : pystr) : Prop :=
  (f = [] /\ forall j c, j < i -> nth_error ts j = Some c -> arg c = false) \/
  (exists j c, j < i /\ nth_error ts j = Some c /\ arg c = true /\ f = func c /\ forall k d, j < k < i -> nth_error ts k = Some d -> arg d = false).
Definition nearest_right (arg : rtree -> bool) (ts : list rtree) (i : nat) (f : pystr) : Prop :=
  (f = [] /\ forall j c, i < j -> nth_error ts j = Some c -> arg c = false) \/
  (exists j c, i < j /\ nth_error ts j = Some c /\ arg c = true /\ f = func c /\ forall k d, i < k < j -> nth_error ts k = Some d -> arg d = false).
(** arguments: a function that is not the adjunction label and is not ignored *)
Definition argument (adj : option pystr) (ig ic : list pystr) (c : rtree) : Prop :=
  exists l src ts, c = Node (l, src) ts /\ func c <> [] /\ adj <> Some (func c) /\ ~ In (func c) ig /\ ~ In l ic.

(** ---- lists and strings ---- *)
Lemma all_ok_inv : forall X Y (f : X -> option Y) xs ys, ExportModel.all_ok (map f xs) = Some ys -> Forall2 (fun x y => f x = Some y) xs ys.
Proof.
  induction xs as [|x xs IH]; intros ys H; cbn in H; [injection H as <-; constructor|]. destruct (f x) eqn:E; [|discriminate]. destruct (ExportModel.all_ok (map f xs)) eqn:A; [|discriminate]. injection H as <-. constructor; auto.
Qed.
Lemma all_ok_intro : forall X Y (f : X -> option Y) xs ys, Forall2 (fun x y => f x = Some y) xs ys -> ExportModel.all_ok (map f xs) = Some ys.
Proof. induction 1 as [|x y xs ys E F IH]; [reflexivity|]. cbn. now rewrite E, IH. Qed.
Lemma Forall2_length : forall A B (R : A -> B -> Prop) l l', Forall2 R l l' -> length l = length l'.
Proof. induction 1; cbn; auto. Qed.
Lemma some_inj : forall A (a b : A), Some a = Some b -> a = b.
Proof. congruence. Qed.
Lemma before_here : forall d l f, ~ In d l -> before d (l ++ [d] ++ f) = l.
Proof. intros d l f H. unfold before. cbn [app]. apply HeadProps.before_app. exact H. Qed.
Lemma before_all : forall d l, ~ In d l -> before d l = l.
Proof. intros d l H. apply HeadProps.before_none. exact H. Qed.
Lemma splitc_none : forall c s, ~ In c s -> splitc c s = [s].
Proof.
  induction s as [|x s IH]; intros H; [reflexivity|]. unfold splitc in *. cbn [HeadModel.splitc]. destruct (N.eqb_spec x c) as [->|]; [exfalso; apply H; now left|]. rewrite IH by (intros I; apply H; now right). reflexivity.
Qed.
Lemma splitc_two : forall c a b, ~ In c a -> ~ In c b -> splitc c (a ++ [c] ++ b) = [a; b].
Proof.
  intros c a b HA HB. induction a as [|x a IH].
  - cbn [app]. unfold splitc. cbn [HeadModel.splitc]. rewrite N.eqb_refl. fold (splitc c b). now rewrite splitc_none.
  - unfold splitc in *. cbn [app HeadModel.splitc]. destruct (N.eqb_spec x c) as [->|]; [exfalso; apply HA; now left|]. cbn [app] in IH. rewrite IH by (intros I; apply HA; now right). reflexivity.
Qed.
Lemma has_iff : forall c s, has c s = true <-> In c s.
Proof. intros c s. unfold has. rewrite existsb_exists. split; [intros (x & I & E); apply N.eqb_eq in E; now subst|intros I; exists c; split; [exact I|apply N.eqb_refl]]. Qed.
Lemma truthy_iff : forall s, truthy s = true <-> s <> [].
Proof. intros [|c s]; cbn; split; congruence. Qed.
Definition sub1 (b n c : N) : N := if N.eqb b c then n else c.
Lemma replace_map : forall b n s, replace s [b] [n] = map (sub1 b n) s.
Proof. intros b n s. unfold replace. rewrite EscapeProofs.replace1. induction s as [|c s IH]; [reflexivity|]. cbn [flat_map map]. rewrite IH. unfold sub1. destruct (N.eqb b c); reflexivity. Qed.
Lemma morph_there : forall m, ~ In slash m -> let m' := replace (replace m (str "(") (str "[")) (str ")") (str "]") in ~ In slash m'.
Proof.
  intros m H. change (str "(") with [40%N]. change (str "[") with [91%N]. change (str ")") with [41%N]. change (str "]") with [93%N]. rewrite !replace_map, map_map. cbn zeta. intros I. apply in_map_iff in I. destruct I as (c & E & I). apply H. unfold sub1 in E. destruct (N.eqb 40 c); [discriminate E|]. destruct (N.eqb 41 c); [discriminate E|]. now subst.
Qed.
Lemma morph_back : forall m, morph_ok m -> let m' := replace (replace m (str "(") (str "[")) (str ")") (str "]") in truthy m' = true /\ replace (replace m' (str "[") (str "(")) (str "]") (str ")") = m.
Proof.
  intros m (H1 & _ & H2 & H3). change (str "(") with [40%N]. change (str "[") with [91%N]. change (str ")") with [41%N]. change (str "]") with [93%N]. cbn zeta. rewrite !replace_map, !map_map. split; [destruct m; [congruence|reflexivity]|].
  transitivity (map (fun x => x) m); [|apply map_id]. apply map_ext_in. intros c I. assert (C1 : c <> lsq) by (intros ->; auto). assert (C2 : c <> rsq) by (intros ->; auto). unfold lsq, rsq in *.
  unfold sub1. destruct (N.eqb_spec 40 c) as [<-|N1]; [reflexivity|]. destruct (N.eqb_spec 41 c) as [<-|N2]; [reflexivity|]. destruct (N.eqb_spec 91 c) as [E3|N3]; [congruence|]. destruct (N.eqb_spec 93 c) as [E4|N4]; [congruence|reflexivity].
Qed.

(** ---- the round trip ---- *)
Definition funcfield (adj : option pystr) (func : pystr) : pystr :=
  if truthy func && match adj with Some a => truthy a | None => false end && has colon func then match adj with Some a => a | None => [] end
  else if truthy func then func else dashes.
Section Round.
Variables (morphlevels : nat) (perc : option (list pystr)) (adj : option pystr) (ig ic : option (list pystr)) (adjleft adjright : bool).
Notation rr := (rrtransform morphlevels perc adj ig ic adjleft adjright).
Lemma field_realized : forall c label p n, func_ok adj (func c) -> ~ In slash p -> ~ In slash n -> funcfield adj (before slash (realization adj label p n c)) = func c.
Proof.
  intros c label p n (F1 & F2 & F3) HP HN. unfold realization. apply truthy_iff in F1. destruct (isadj adj (func c) && (truthy p || truthy n)) eqn:A.
  - apply andb_prop in A. destruct A as [A B]. unfold isadj in A. destruct adj as [a|]; [|discriminate]. apply eqs_eq in A. rewrite before_here.
    + unfold funcfield. assert (H : has colon (p ++ [colon] ++ n) = true) by (apply has_iff; apply in_or_app; right; now left). rewrite H. assert (T : truthy (p ++ [colon] ++ n) = true) by (destruct p; reflexivity). rewrite T. rewrite <- A, F1. reflexivity.
    + intros I. apply in_app_or in I. destruct I as [I|[I|I]]; auto. discriminate I.
  - rewrite before_here by exact F2. unfold funcfield. rewrite F1. cbn [andb]. destruct adj as [a|]; [|reflexivity]. destruct (truthy a) eqn:TA; [|reflexivity]. cbn [andb]. destruct (has colon (func c)) eqn:HC; [|reflexivity]. apply has_iff in HC. destruct (F3 HC) as [D|[D|D]]; [discriminate|injection D as ->; discriminate|now injection D].
Qed.
Lemma cfl_noslash : forall ts p, ~ In slash p -> (forall c b, In (c, b) ts -> ~ In slash (func c)) -> forall x, In x (childfuncsl p ts) -> ~ In slash x.
Proof.
  induction ts as [|[c b] ts IH]; intros p HP H x I; cbn in I.
  - destruct I as [<-|[]]. exact HP.
  - destruct I as [<-|I]; [exact HP|]. eapply IH; [| |exact I].
    + destruct b; [eapply H; now left|exact HP].
    + intros c' b' I'. eapply H. right. exact I'.
Qed.
Lemma cfl_length : forall ts p, length (childfuncsl p ts) = S (length ts).
Proof. induction ts as [|[c b] ts IH]; intros p; cbn; [reflexivity|]. now rewrite IH. Qed.
Lemma cfr_spec : forall p ts, childfuncsr p ts = repeat p (length ts - 1) ++ [[]].
Proof.
  intros p ts. unfold childfuncsr. assert (G : forall (l : list (rtree * bool)) acc, fold_left (fun acc _ => p :: acc) l acc = repeat p (length l) ++ acc).
  { induction l as [|x l IH]; intros acc; [reflexivity|]. cbn. rewrite IH. clear. induction (length l) as [|n IH]; [reflexivity|]. cbn. now rewrite IH. }
  rewrite G, rev_length. destruct ts as [|x ts]; [reflexivity|]. cbn [tl length]. do 2 f_equal. lia.
Qed.
Lemma pre_restored : forall ts : list rtree, forallb isleaf ts = true -> map (fun c => restored (func c) c) ts = ts.
Proof. induction ts as [|[i|l r] ts IH]; intros H; [reflexivity| |discriminate]. cbn in *. now rewrite IH. Qed.
Lemma round : forall t, proper adj t -> forall t' m lv, rr t = Some (t', m, lv) -> forall g, rrbacktransform adj t' g = Some (restored (funcfield adj g) t).
Proof.
  induction t as [a|[l src] ts IH] using tree_ind'; intros P t' m lv R g; [discriminate R|]. inversion P as [l0 src0 i is NS MO E|l0 src0 t0 ts0 ND C E]; subst.
  - cbn [map] in *. cbn [rrtransform] in R. cbv zeta in R. destruct (morph_back _ MO) as [M1 M2]. set (m' := replace (replace (nth MORPH src []) (str "(") (str "[")) (str ")") (str "]")) in *. destruct MO as (_ & M3 & _). pose proof (morph_there _ M3) as M4. fold m' in M4. change (fld MORPH src) with (nth MORPH src []) in R. fold m' in R.
    assert (t' = Node (l ++ [slash] ++ m', []) (Leaf i :: map Leaf is)) as -> by (destruct (0 <? morphlevels); injection R; congruence).
    cbn [rrbacktransform]. rewrite splitc_two by assumption. unfold newsource. rewrite M1, M2. cbn [restored]. assert (FL : forallb isleaf (Leaf i :: map Leaf is) = true) by (cbn; clear; induction is; auto). rewrite FL, pre_restored by exact FL. reflexivity.
  - assert (C0 : proper adj t0) by (apply C; now left). destruct t0 as [a|l1 r1]; [inversion C0|]. set (ts := Node l1 r1 :: ts0) in *. cbn [rrtransform] in R. unfold ts at 1 in R. cbn match in R. fold ts in R.
    destruct (ExportModel.all_ok (map (isarg adj ig ic) ts)) as [args|] eqn:EA; [|discriminate]. destruct (ExportModel.all_ok (map rr ts)) as [results|] eqn:ER; [|discriminate]. apply all_ok_inv in EA, ER. cbn zeta in R.
    match type of R with match ?x with _ => _ end = _ => destruct x as [[mo lv']|]; [|discriminate] end. apply some_inj in R. apply (f_equal (fun x => fst (fst x))) in R. cbn [fst] in R. subst t'.
    set (ta := combine ts args) in *. set (cfl := childfuncsl [] ta) in *. set (cfr := childfuncsr (last cfl []) ta) in *.
    assert (LT : length ta = length ts) by (unfold ta; rewrite combine_length; apply Forall2_length in EA; lia).
    assert (L1 : length ts <= length cfl) by (unfold cfl; rewrite cfl_length; lia). assert (L2 : length ts <= length cfr) by (unfold cfr; rewrite cfr_spec, app_length, repeat_length; cbn [length]; lia).
    assert (S1 : forall x, In x cfl -> ~ In slash x). { intros x I. eapply cfl_noslash; [| |exact I]; [intros []|]. intros c b J. apply in_combine_l in J. apply C in J. apply J. }
    assert (S2 : forall x, In x cfr -> ~ In slash x). { intros x I. unfold cfr in I. rewrite cfr_spec in I. apply in_app_or in I. destruct I as [I|[<-|[]]]; [|intros []]. apply repeat_spec in I. subst x. assert (cfl <> []) by (intros E; rewrite E in L1; cbn in L1; lia). apply S1. rewrite (app_removelast_last [] H) at 2. apply in_or_app. right. now left. }
    assert (HB : before dash (match mo with Some (c :: m0) => l ++ [dash] ++ c :: m0 | _ => l end) = l) by (destruct mo as [[|c0 m0]|]; [now apply before_all|now apply before_here|now apply before_all]).
    cbn [rrbacktransform]. match goal with |- context [negb (has slash ?x)] => assert (HS : has slash x = true) by (apply has_iff, in_or_app; right; now left) end. rewrite HS. cbn [negb]. rewrite HB.
    assert (ALL : forall ts' results' a b, Forall2 (fun x y => rr x = Some y) ts' results' -> (forall c, In c ts' -> In c ts) -> length ts' <= length a -> length ts' <= length b -> (forall x, In x a -> ~ In slash x) -> (forall x, In x b -> ~ In slash x) ->
       ExportModel.all_ok (map (fun c => match c with | Node (rl, _) (p :: _) => rrbacktransform adj p (before slash rl) | _ => None end)
         (map (fun x => match x with (c, (newchild, _, _), p, n) => Node (realization adj l (if adjleft then p else []) (if adjright then n else []) c, []) [newchild] end) (combine (combine (combine ts' results') a) b))) = Some (map (fun c => restored (func c) c) ts')).
    { clear - IH C. intros ts' results' a b F. revert a b. induction F as [|c [[c' mm] ll] ts' results' E F IHF]; intros a b SUB LA LB HA HB; [reflexivity|]. destruct a as [|p a]; [cbn in LA; lia|]. destruct b as [|n b]; [cbn in LB; lia|]. cbn [combine map].
      assert (IC : In c ts) by (apply SUB; now left). destruct (C c IC) as [PC FC]. rewrite Forall_forall in IH. cbn [ExportModel.all_ok]. rewrite (IH c IC PC c' mm ll E). rewrite IHF.
      - cbn [option_map]. rewrite field_realized; [reflexivity|exact FC| |].
        + destruct adjleft; [apply HA; now left|intros []].
        + destruct adjright; [apply HB; now left|intros []].
      - intros d I. apply SUB. now right.
      - cbn in LA. lia.
      - cbn in LB. lia.
      - intros x I. apply HA. now right.
      - intros x I. apply HB. now right. }
    rewrite (ALL ts results cfl cfr ER (fun c I => I) L1 L2 S1 S2). cbn [option_map restored]. unfold newsource. cbn [truthy]. reflexivity.
Qed.
End Round.

Section Shape.
Variables (morphlevels : nat) (perc : option (list pystr)) (adj : option pystr) (ig ic : list pystr) (adjleft adjright : bool).
Notation rr := (rrtransform morphlevels perc adj (Some ig) (Some ic) adjleft adjright).
Definition argb (c : rtree) : bool := match isarg adj (Some ig) (Some ic) c with Some b => b | None => false end.
Lemma isarg_total : forall c, isarg adj (Some ig) (Some ic) c = Some (argb c).
Proof. intros [i|[l src] ts]; [reflexivity|]. unfold argb. cbn [isarg]. destruct (negb _); [reflexivity|]. destruct (isadj _ _); [reflexivity|]. destruct (existsb _ ig); reflexivity. Qed.
Lemma argb_iff : forall c, argb c = true <-> argument adj ig ic c.
Proof.
  assert (EX : forall x l, existsb (eqs x) l = false <-> ~ In x l).
  { intros x l. rewrite <- not_true_iff_false, existsb_exists. split; intros H I; apply H; [exists x; split; [exact I|apply eqs_refl]|]. destruct I as (y & I & E). apply eqs_eq in E. now subst. }
  intros [i|[l src] ts]; unfold argb, argument.
  - cbn. split; [discriminate|]. intros (l & src & ts & E & _). discriminate.
  - cbn [isarg func]. unfold isadj. change (nth FUNC src []) with (fld FUNC src). split.
    + intros H. exists l, src, ts. split; [reflexivity|]. destruct (truthy (fld FUNC src)) eqn:T; [|discriminate]. cbn [negb] in H. apply truthy_iff in T. split; [exact T|].
      destruct (match adj with Some a => eqs (fld FUNC src) a | None => false end) eqn:A; [discriminate|]. destruct (existsb (eqs (fld FUNC src)) ig) eqn:G; [discriminate|]. apply negb_true_iff in H. rewrite EX in G, H. split; [|auto]. destruct adj as [a|]; [|discriminate]. apply eqs_neq in A. congruence.
    + intros (l' & src' & ts' & E & H1 & H2 & H3 & H4). injection E as <- <- <-. apply truthy_iff in H1. rewrite H1. cbn [negb]. assert (A : (match adj with Some a => eqs (fld FUNC src) a | None => false end) = false) by (destruct adj as [a|]; [apply eqs_neq; congruence|reflexivity]). rewrite A. apply EX in H3, H4. now rewrite H3, H4.
Qed.
Lemma args_total : forall ts, ExportModel.all_ok (map (isarg adj (Some ig) (Some ic)) ts) = Some (map argb ts).
Proof. induction ts as [|c ts IH]; [reflexivity|]. cbn [map ExportModel.all_ok]. rewrite isarg_total. cbn. now rewrite IH. Qed.
(** what a constituent becomes *)
Lemma shape : forall l src t ts t' m lv, let cs := t :: ts in isleaf t = false -> rr (Node (l, src) cs) = Some (t', m, lv) ->
  exists results pl, Forall2 (fun c r => rr c = Some r) cs results /\ (pl = l \/ exists f, f <> [] /\ pl = l ++ [dash] ++ f) /\
    let ta := combine cs (map argb cs) in let cfl := childfuncsl [] ta in
    t' = Node (pl, []) [Node (l ++ [slash] ++ str "<" ++ funcstr ta ++ str ">", [])
      (map (fun x => match x with (c, (newchild, _, _), p, n) => Node (realization adj l (if adjleft then p else []) (if adjright then n else []) c, []) [newchild] end)
        (combine (combine (combine cs results) cfl) (childfuncsr (last cfl []) ta)))].
Proof.
  intros l src t ts t' m lv cs NL R. destruct t as [|l1 r1]; [discriminate|]. subst cs. set (cs := Node l1 r1 :: ts) in *. cbn [rrtransform] in R. unfold cs at 1 in R. cbn match in R. fold cs in R. rewrite args_total in R.
  destruct (ExportModel.all_ok (map rr cs)) as [results|] eqn:ER; [|discriminate]. apply all_ok_inv in ER. cbn zeta in R.
  match type of R with match ?x with _ => _ end = _ => destruct x as [[mo lv']|]; [|discriminate] end. apply some_inj in R. apply (f_equal (fun x => fst (fst x))) in R. cbn [fst] in R.
  exists results, (match mo with Some (c :: m0) => l ++ [dash] ++ c :: m0 | _ => l end). split; [exact ER|]. split; [|now subst t']. destruct mo as [[|c0 m0]|]; [now left| |now left]. right. exists (c0 :: m0). split; [discriminate|reflexivity].
Qed.
Lemma leaves_same : forall t t' m lv, rr t = Some (t', m, lv) -> leaves t' = leaves t.
Proof.
  induction t as [a|[l src] ts IH] using tree_ind'; intros t' m lv R; [discriminate R|]. destruct ts as [|t ts]; [discriminate R|]. destruct t as [i|l1 r1].
  - cbn [rrtransform] in R. cbv zeta in R. destruct (0 <? morphlevels); injection R as <- _ _; reflexivity.
  - destruct (shape l src (Node l1 r1) ts t' m lv eq_refl R) as (results & pl & ER & _ & E). cbn zeta in E. set (cs := Node l1 r1 :: ts) in *. set (ta := combine cs (map argb cs)) in *. set (cfl := childfuncsl [] ta) in *. set (cfr := childfuncsr (last cfl []) ta) in *.
    assert (LT : length ta = length cs) by (unfold ta; rewrite combine_length, map_length; lia). assert (L1 : length cs <= length cfl) by (unfold cfl; rewrite cfl_length; lia). assert (L2 : length cs <= length cfr) by (unfold cfr; rewrite cfr_spec, app_length, repeat_length; cbn [length]; lia).
    rewrite E. cbn [leaves flat_map]. rewrite app_nil_r. clear E LT R. clearbody cfl cfr. clear ta. clearbody cs. revert cfl cfr L1 L2. induction ER as [|c [[c' mm] ll] cs results E F IHF]; intros a b L1 L2; [reflexivity|]. destruct a as [|p a]; [cbn in L1; lia|]. destruct b as [|n b]; [cbn in L2; lia|]. cbn [combine map flat_map leaves]. inversion IH as [|? ? H1 H2]; subst. rewrite (H1 _ _ _ E), app_nil_r. f_equal. apply IHF; [exact H2| |]; cbn in *; lia.
Qed.
Lemma cfl_nth : forall ts p i f, nth_error (childfuncsl p (combine ts (map argb ts))) i = Some f ->
  (f = p /\ forall j c, j < i -> nth_error ts j = Some c -> argb c = false) \/
  (exists j c, j < i /\ nth_error ts j = Some c /\ argb c = true /\ f = func c /\ forall k d, j < k < i -> nth_error ts k = Some d -> argb d = false).
Proof.
  induction ts as [|c ts IH]; intros p i f H; cbn in H.
  - destruct i as [|[|i]]; cbn in H; try discriminate. injection H as <-. left. split; [reflexivity|]. intros j c L. lia.
  - destruct i as [|i]; cbn in H; [injection H as <-; left; split; [reflexivity|]; intros j d L; lia|]. destruct (IH _ _ _ H) as [(-> & N0)|(j & d & L & E & A & -> & N0)].
    + destruct (argb c) eqn:A.
      * right. exists 0, c. repeat split; auto; [lia|]. intros [|k] d L E; [lia|]. cbn in E. eapply N0; eauto. lia.
      * left. split; [reflexivity|]. intros [|j] d L E; cbn in E; [congruence|]. eapply N0; eauto. lia.
    + right. exists (S j), d. repeat split; auto; [lia|]. intros [|k] e L' E'; [lia|]. cbn in E'. eapply N0; eauto. lia.
Qed.
End Shape.

(** ---- the transformation succeeds ---- *)
(** no brackets in the morphology *)
Definition lpar : N := 40%N.
Fixpoint flatmorph (t : rtree) : Prop :=
  match t with Leaf _ => True | Node (_, src) ts => ~ In lpar (nth MORPH src []) /\ fold_right (fun c r => flatmorph c /\ r) True ts end.
Lemma splitc_in : forall c s x y, In x (splitc c s) -> In y x -> In y s.
Proof.
  intros c. induction s as [|d s IH]; intros x y I J; unfold splitc in *; cbn [HeadModel.splitc] in I; [destruct I as [<-|[]]; exact J|]. destruct (N.eqb d c).
  - destruct I as [<-|I]; [destruct J|right; eapply IH; eauto].
  - destruct (HeadModel.splitc c s) as [|z zs] eqn:E; [destruct I as [<-|[]]; destruct J as [<-|[]]; now left|]. destruct I as [<-|I].
    + destruct J as [<-|J]; [now left|]. right. eapply IH; [left; reflexivity|exact J].
    + right. eapply IH; [right; exact I|exact J].
Qed.
Lemma join_in : forall sep l y, In y (BracketModel.join sep l) -> In y sep \/ exists x, In x l /\ In y x.
Proof.
  intros sep. induction l as [|a l IH]; intros y I; [destruct I|]. cbn [BracketModel.join] in I. destruct l as [|b l]; [right; exists a; split; [now left|exact I]|]. apply in_app_or in I. destruct I as [I|I]; [right; exists a; split; [now left|exact I]|]. apply in_app_or in I. destruct I as [I|I]; [now left|]. destruct (IH y I) as [S|(x & X & Y)]; [now left|]. right. exists x. split; [now right|exact Y].
Qed.
Lemma dedups_in : forall l x, In x (GenModel.dedups l) -> In x l.
Proof. induction l as [|a l IH]; intros x I; [destruct I|]. cbn [GenModel.dedups] in I. destruct (existsb (eqs a) (GenModel.dedups l)); [right; auto|]. destruct I as [<-|I]; [now left|right; auto]. Qed.
Lemma unify_total : forall feats perc, (forall a, In a feats -> ~ In lsq a) -> exists m, unifymorphfeat feats perc = Some m /\ ~ In lsq m.
Proof.
  intros feats perc H. unfold unifymorphfeat. set (sep := if existsb (has dot) feats then dot else comma).
  assert (A : ExportModel.all_ok (map (onefeat sep) feats) = Some (map (splitc sep) feats)).
  { clearbody sep. induction feats as [|a feats IH]; [reflexivity|]. cbn [map ExportModel.all_ok]. unfold onefeat at 1. assert (L : has lsq a = false) by (apply not_true_iff_false; rewrite has_iff; apply H; now left). rewrite L, IH by (intros b I; apply H; now right). reflexivity. }
  rewrite A. eexists. split; [reflexivity|]. intros I. apply join_in in I. destruct I as [[I|[]]|(x & X & I)]; [unfold sep in I; destruct (existsb _ _); discriminate I|]. unfold strsort in X. apply SortProofs.sort_In in X. apply filter_In in X. destruct X as [X _].
  assert (X' : In x (GenModel.dedups (concat (map (splitc sep) feats)))) by (destruct perc as [[|f fs]|]; [exact X|apply filter_In in X; apply X|exact X]). apply dedups_in in X'. apply in_concat in X'. destruct X' as (y & Y & J). apply in_map_iff in Y. destruct Y as (a & <- & Y). apply (H a Y). eapply splitc_in; eauto.
Qed.
Lemma succeeds : forall morphlevels perc adj ig ic adjleft adjright t, proper adj t -> morphlevels = 0 \/ flatmorph t ->
  exists t' m lv, rrtransform morphlevels perc adj (Some ig) (Some ic) adjleft adjright t = Some (t', m, lv) /\ (forall s, m = Some s -> ~ In lsq s).
Proof.
  intros ml perc adj ig ic al ar. induction t as [a|[l src] ts IH] using tree_ind'; intros P FM; [inversion P|]. inversion P as [l0 src0 i is NS MO E|l0 src0 t0 ts0 ND C E]; subst.
  - cbn [map rrtransform]. destruct (0 <? ml) eqn:M; [|eexists; eexists; eexists; split; [reflexivity|discriminate]]. apply Nat.ltb_lt in M. destruct FM as [FM|FM]; [lia|]. cbn [flatmorph] in FM. destruct FM as [FM _]. destruct MO as (_ & _ & M1 & _).
    eexists. eexists. eexists. split; [reflexivity|]. intros s X. injection X as <-. change (str "(") with [40%N]. change (str "[") with [91%N]. change (str ")") with [41%N]. change (str "]") with [93%N]. rewrite !replace_map, map_map. intros I. apply in_map_iff in I. destruct I as (c & X & I). unfold fld in I. unfold sub1 in X. destruct (N.eqb_spec 40 c) as [Q|]; [apply FM; unfold lpar; rewrite Q; exact I|]. destruct (N.eqb_spec 41 c); [discriminate X|]. subst c. exact (M1 I).
  - assert (C0 : proper adj t0) by (apply C; now left). destruct t0 as [a|l1 r1]; [inversion C0|]. set (ts := Node l1 r1 :: ts0) in *. cbn [rrtransform]. unfold ts at 1. cbn match. fold ts. rewrite args_total.
    assert (AR : exists results, ExportModel.all_ok (map (rrtransform ml perc adj (Some ig) (Some ic) al ar) ts) = Some results /\ forall t' m lv, In (t', m, lv) results -> forall s, m = Some s -> ~ In lsq s).
    { assert (FM' : ml = 0 \/ forall c, In c ts -> flatmorph c). { destruct FM as [FM|FM]; [now left|right]. cbn [flatmorph] in FM. destruct FM as [_ FM]. clear - FM. induction ts as [|c ts IHc]; intros d [].  - subst. apply FM. - apply IHc; [apply FM|assumption]. }
      clear - IH C FM'. clearbody ts. induction IH as [|c cs Hc HF IHc]; [exists []; split; [reflexivity|intros ? ? ? []]|]. destruct (Hc ltac:(apply C; now left) ltac:(destruct FM' as [|FM']; [now left|right; apply FM'; now left])) as (t' & m & lv & R & M).
      destruct IHc as (results & RS & MS); [intros d I; apply C; now right|destruct FM' as [|FM']; [now left|right; intros d I; apply FM'; now right]|]. exists ((t', m, lv) :: results). cbn [map ExportModel.all_ok]. rewrite R, RS. split; [reflexivity|]. intros a b d [X|X]; [injection X as <- <- <-; exact M|eapply MS; exact X]. }
    destruct AR as (results & RS & MS). rewrite RS. cbn zeta. set (fl := flat_map _ results). assert (FL : forall a, In a (map fst fl) -> ~ In lsq a).
    { intros a I. apply in_map_iff in I. destruct I as ([s n] & <- & I). unfold fl in I. apply in_flat_map in I. destruct I as ([[t' [m|]] lv] & I & J); [|destruct J]. destruct (truthy m && (0 <? lv)); [|destruct J]. destruct J as [J|[]]. injection J as <- <-. cbn [fst]. eapply MS; [exact I|reflexivity]. }
    destruct (unify_total (map fst fl) perc FL) as (m & U & UM). destruct fl as [|x fl0] eqn:EF; [eexists; eexists; eexists; split; [reflexivity|discriminate]|]. rewrite <- EF in *. destruct ((0 <? maxl (map snd fl)) && negb (eqs l (str "ROOT"))); [|eexists; eexists; eexists; split; [reflexivity|discriminate]]. rewrite U. cbn [option_map]. eexists. eexists. eexists. split; [reflexivity|]. intros s X. injection X as <-. exact UM.
Qed.

(** ---- C83 ---- *)
(** transforming and transforming back restores the tree *)
Theorem C83_roundtrip : forall morphlevels perc adj ig ic adjleft adjright t, proper adj t -> morphlevels = 0 \/ flatmorph t ->
  exists t' m lv, rrtransform morphlevels perc adj (Some ig) (Some ic) adjleft adjright t = Some (t', m, lv) /\ rrbacktransform adj t' [] = Some (restored (str "--") t).
Proof.
  intros ml perc adj ig ic al ar t P FM. destruct (succeeds ml perc adj ig ic al ar t P FM) as (t' & m & lv & R & _). exists t', m, lv. split; [exact R|]. rewrite (round ml perc adj (Some ig) (Some ic) al ar t P t' m lv R []). reflexivity.
Qed.
(** the words are kept *)
Theorem C83_leaves : forall morphlevels perc adj ig ic adjleft adjright t t' m lv,
  rrtransform morphlevels perc adj (Some ig) (Some ic) adjleft adjright t = Some (t', m, lv) -> leaves t' = leaves t.
Proof. intros ml perc adj ig ic al ar t t' m lv. apply leaves_same. Qed.
(** three levels: the category (with percolated features), the functions of the arguments in
    sorted order, and a realization for each child *)
Definition strle (a b : pystr) : Prop := GenModel.strleb a b = true.
Definition projection (l : pystr) (fs : list pystr) (pl : pystr) (reals : list rtree) : rtree :=
  Node (pl, []) [Node (l ++ str "/<" ++ BracketModel.join (str ",") fs ++ str ">", []) reals].
Lemma strleb_total : forall a b, GenModel.strleb a b = false -> GenModel.strleb b a = true.
Proof.
  induction a as [|x a IH]; intros [|y b] H; cbn in *; try discriminate; [reflexivity|]. apply orb_false_elim in H. destruct H as [H1 H2]. apply N.ltb_ge in H1. destruct (N.ltb_spec y x) as [L|L]; [reflexivity|]. assert (x = y) by lia. subst y. rewrite N.eqb_refl in *. cbn in *. now rewrite IH.
Qed.
Lemma strleb_trans : forall a b c, GenModel.strleb a b = true -> GenModel.strleb b c = true -> GenModel.strleb a c = true.
Proof.
  induction a as [|x a IH]; intros [|y b] [|z c] H1 H2; cbn in *; try discriminate; auto. apply orb_prop in H1, H2. apply orb_true_iff. destruct H1 as [H1|H1].
  - left. apply N.ltb_lt in H1. apply N.ltb_lt. destruct H2 as [H2|H2]; [apply N.ltb_lt in H2; lia|]. apply andb_prop in H2. destruct H2 as [H2 _]. apply N.eqb_eq in H2. lia.
  - apply andb_prop in H1. destruct H1 as [H1 H3]. apply N.eqb_eq in H1. subst y. destruct H2 as [H2|H2]; [now left|]. right. apply andb_prop in H2. destruct H2 as [H2 H4]. rewrite H2. cbn. eauto.
Qed.
Lemma strsort_sorted : forall l, StronglySorted strle (strsort l).
Proof.
  intros l. apply (SortProofs.sort_sorted GenModel.strleb); [|exact strleb_trans]. intros x y. destruct (GenModel.strleb x y) eqn:E; [now left|right; now apply strleb_total].
Qed.

Definition lastarg (arg : rtree -> bool) (cs : list rtree) (f : pystr) : Prop := nearest_left arg cs (length cs) f.
Theorem C83_structure : forall morphlevels perc adj ig ic (adjleft adjright : bool) l src t ts t' m lv (arg : rtree -> bool), let cs := t :: ts in
  (forall c, arg c = true <-> argument adj ig ic c) -> isleaf t = false ->
  rrtransform morphlevels perc adj (Some ig) (Some ic) adjleft adjright (Node (l, src) cs) = Some (t', m, lv) ->
  exists fs pl reals, t' = projection l fs pl reals /\ (pl = l \/ exists f, f <> [] /\ pl = l ++ str "-" ++ f) /\
    StronglySorted strle fs /\ Permutation fs (map func (filter arg cs)) /\ length reals = length cs /\
    forall i c, nth_error cs i = Some c -> exists c' m' lv' rl,
      rrtransform morphlevels perc adj (Some ig) (Some ic) adjleft adjright c = Some (c', m', lv') /\
      nth_error reals i = Some (Node (rl ++ str "/" ++ l, []) [c']) /\
      (adj <> Some (func c) -> rl = func c) /\
      (adj = Some (func c) -> exists p n, (if adjleft then nearest_left arg cs i p else p = []) /\
         (if adjright then if S i =? length cs then n = [] else lastarg arg cs n else n = []) /\
         (p = [] /\ n = [] /\ rl = func c \/ (p <> [] \/ n <> []) /\ rl = p ++ str ":" ++ n)).
Proof.
  intros ml perc adj ig ic al ar l src t ts t' m lv arg cs HA NL R.
  assert (AE : forall c, argb adj ig ic c = arg c). { intros c. destruct (argb adj ig ic c) eqn:E1; destruct (arg c) eqn:E2; auto; exfalso; [apply argb_iff, HA in E1|apply HA, argb_iff in E2]; congruence. }
  destruct (shape ml perc adj ig ic al ar l src t ts t' m lv NL R) as (results & pl & ER & PL & E). cbn zeta in E. fold cs in ER, E. set (ta := combine cs (map (argb adj ig ic) cs)) in *. set (cfl := childfuncsl [] ta) in *. set (cfr := childfuncsr (last cfl []) ta) in *.
  exists (strsort (map (fun c => func (fst c)) (filter snd ta))), pl. eexists. split; [exact E|]. split; [exact PL|]. split; [apply strsort_sorted|].
  assert (LT : length ta = length cs) by (unfold ta; rewrite combine_length, map_length; lia). assert (L1 : length cfl = S (length cs)) by (unfold cfl; rewrite cfl_length; lia). assert (L2 : length cfr = length cs) by (unfold cfr; rewrite cfr_spec, app_length, repeat_length, LT; unfold cs; cbn [length]; lia). assert (L3 : length results = length cs) by (symmetry; eapply Forall2_length; exact ER).
  split; [|split].
  - etransitivity; [apply Permutation_sym, SortProofs.sort_perm|]. assert (X : map (fun c => func (fst c)) (filter snd ta) = map func (filter arg cs)); [|rewrite X; apply Permutation_refl]. unfold ta. clear - AE. induction cs as [|c cs IH]; [reflexivity|]. cbn [map combine filter snd]. rewrite AE. destruct (arg c); cbn [map fst]; [f_equal; exact IH|exact IH].
  - rewrite map_length, !combine_length. lia.
  - intros i c IC. assert (LI : i < length cs) by (apply nth_error_Some; congruence). destruct (nth_error results i) as [[[c' m'] lv']|] eqn:RI; [|apply nth_error_None in RI; lia]. destruct (nth_error cfl i) as [p|] eqn:PI; [|apply nth_error_None in PI; lia]. destruct (nth_error cfr i) as [n|] eqn:NI; [|apply nth_error_None in NI; lia].
    assert (RC : rrtransform ml perc adj (Some ig) (Some ic) al ar c = Some (c', m', lv')). { clear - ER IC RI. revert i IC RI. induction ER as [|x y xs ys X F IH]; intros [|i] IC RI; cbn in *; try discriminate; [congruence|eauto]. }
    assert (NC : nth_error (combine (combine (combine cs results) cfl) cfr) i = Some (c, (c', m', lv'), p, n)).
    { assert (G : forall X Y (a : list X) (b : list Y) k x y, nth_error a k = Some x -> nth_error b k = Some y -> nth_error (combine a b) k = Some (x, y)) by (induction a as [|a0 a IHa]; intros [|b0 b] [|k] x y A B; cbn in *; try discriminate; [congruence|eauto]). apply G; [apply G; [apply G|]|]; assumption. }
    exists c', m', lv'. eexists. split; [exact RC|]. split; [rewrite nth_error_map, NC; cbn [option_map]; unfold realization; reflexivity|]. split.
    + intros NA. unfold isadj. destruct adj as [a|]; [|reflexivity]. assert (eqs (func c) a = false) as -> by (apply eqs_neq; congruence). reflexivity.
    + intros A. exists (if al then p else []), (if ar then n else []). split; [|split].
      * destruct al; [|reflexivity]. destruct (cfl_nth adj ig ic cs [] i p PI) as [(-> & N0)|(j & d & L & D & AR & -> & N0)]; [left; split; [reflexivity|]; intros j d L D; rewrite <- AE; eauto|]. right. exists j, d. rewrite AE in AR. repeat split; auto. intros k e K EK. rewrite <- AE. eauto.
      * destruct ar; [|reflexivity]. unfold cfr in NI. rewrite cfr_spec, LT in NI. destruct (Nat.eqb_spec (S i) (length cs)) as [EQ|NE].
        -- rewrite nth_error_app2 in NI by (rewrite repeat_length; lia). rewrite repeat_length in NI. replace (i - (length cs - 1)) with 0 in NI by lia. cbn in NI. congruence.
        -- rewrite nth_error_app1 in NI by (rewrite repeat_length; lia). apply nth_error_In, repeat_spec in NI. subst n. assert (LL : nth_error cfl (length cs) = Some (last cfl [])). { clear - L1. clearbody cfl cs. destruct (exists_last (l := cfl) ltac:(intros X; rewrite X in L1; discriminate)) as (u & x & Q). rewrite Q in L1 |- *. rewrite last_last. rewrite app_length in L1. cbn [length] in L1. rewrite nth_error_app2 by lia. replace (length cs - length u) with 0 by lia. reflexivity. }
           destruct (cfl_nth adj ig ic cs [] _ _ LL) as [(Q & N0)|(j & d & L & D & AR & Q & N0)]; [left; split; [exact Q|]; intros j d L D; rewrite <- AE; eauto|]. right. exists j, d. rewrite AE in AR. repeat split; auto. intros k e K EK. rewrite <- AE. eauto.
      * unfold isadj. rewrite A, eqs_refl. cbn [andb]. destruct (if al then p else []) as [|x xs]; [|right; split; [left; discriminate|reflexivity]]. destruct (if ar then n else []) as [|y ys]; [left; auto|right; split; [right; discriminate|reflexivity]].
Qed.
(** ---- concrete cases ---- *)
Definition nd (l m f : string) (ts : list rtree) : rtree := Node (str l, [[]; []; str l; str m; str f; []]) ts.
Definition ex_tree : rtree := nd "S" "--" "--" [nd "NP" "--" "SBJ" [nd "NN" "Nom.Sg" "HD" [Leaf 0]]; nd "ADV" "Pos" "MO" [Leaf 1]; nd "V" "3.Sg" "HD" [Leaf 2]; nd "NP" "--" "OBJ" [nd "DT" "Akk" "NK" [Leaf 3]; nd "NN" "Akk.Sg" "HD" [Leaf 4]]].
Fixpoint labels (t : rtree) : list pystr := match t with Leaf _ => [] | Node (l, _) ts => l :: flat_map labels ts end.
Ltac notin := intros HNI; cbn in HNI; repeat (destruct HNI as [HNI|HNI]; [discriminate HNI|]); destruct HNI.
Lemma proper_con' : forall adj l src ts, ts <> [] -> ~ In dash l -> Forall (fun c => proper adj c /\ func_ok adj (func c)) ts -> proper adj (Node (l, src) ts).
Proof. intros adj l src [|t ts] N0 ND F; [congruence|]. apply proper_con; [exact ND|]. rewrite Forall_forall in F. exact F. Qed.
Ltac propertac := cbn [nd]; unfold nd; first [eapply (proper_pre _ _ _ _ []); [notin|repeat split; [discriminate|notin|notin|notin]]
  | apply proper_con'; [discriminate|notin|repeat (constructor; [split; [propertac|repeat split; [discriminate|notin|notin]]|]); constructor]].
Theorem C83_example : proper (Some (str "MO")) ex_tree /\ flatmorph ex_tree /\
  (exists t' m lv, rrtransform 1 None (Some (str "MO")) (Some []) (Some []) true false ex_tree = Some (t', m, lv) /\ labels t' =
    map str ["S-3.Pos.Sg"; "S/<HD,OBJ,SBJ>"; "SBJ/S"; "NP-Nom.Sg"; "NP/<HD>"; "HD/NP"; "NN/Nom.Sg"; "SBJ:/S"; "ADV/Pos"; "HD/S"; "V/3.Sg"; "OBJ/S"; "NP-Akk.Sg"; "NP/<HD,NK>"; "NK/NP"; "DT/Akk"; "HD/NP"; "NN/Akk.Sg"]%string) /\
  restored (str "--") ex_tree = Node (str "S", map str ["--"; "--"; "S"; "--"; "--"; "--"]%string) (map (fun c => restored (func c) c) (match ex_tree with Node _ ts => ts | _ => [] end)).
Proof.
  split; [unfold ex_tree; propertac|]. split; [cbn [flatmorph ex_tree nd fold_right]; unfold ex_tree; cbn [flatmorph nd fold_right]; repeat (match goal with |- _ /\ _ => split end); first [exact I|notin]|]. split; [|reflexivity]. eexists. eexists. eexists. split; [vm_compute; reflexivity|vm_compute; reflexivity].
Qed.
(** FINDING: the right neighbour of an adjunct is not the nearest argument to its right but the
    last argument of the constituent, which may even be to its left *)
Theorem C83_right_neighbour_refuted : exists c1 c2 c3 c4 t' m lv,
  rrtransform 0 None (Some (str "MO")) (Some []) (Some []) false true (nd "S" "--" "--" [c1; c2; c3; c4]) = Some (t', m, lv) /\
  func c1 = str "SBJ" /\ func c2 = str "MO" /\ func c3 = str "HD" /\ func c4 = str "OBJ" /\
  nth_error (labels t') 4 = Some (str ":OBJ/S").
Proof. exists (nd "N" "x" "SBJ" [Leaf 0]), (nd "A" "x" "MO" [Leaf 1]), (nd "V" "x" "HD" [Leaf 2]), (nd "N" "x" "OBJ" [Leaf 3]). eexists. eexists. eexists. split; [vm_compute; reflexivity|]. repeat split; vm_compute; reflexivity. Qed.
Theorem C83_right_neighbour_left : exists c1 c2 c3 t' m lv,
  rrtransform 0 None (Some (str "MO")) (Some []) (Some []) false true (nd "S" "--" "--" [c1; c2; c3]) = Some (t', m, lv) /\
  func c1 = str "SBJ" /\ func c2 = str "MO" /\ func c3 = str "MO" /\ nth_error (labels t') 4 = Some (str ":SBJ/S").
Proof. exists (nd "N" "x" "SBJ" [Leaf 0]), (nd "A" "x" "MO" [Leaf 1]), (nd "A" "x" "MO" [Leaf 2]). eexists. eexists. eexists. split; [vm_compute; reflexivity|]. repeat split; vm_compute; reflexivity. Qed.
(** FINDING: with the default values of ignorefunctions and ignorecategories (None) the
    transformation fails on every constituent with a child that has a function other than the
    adjunction label *)
Theorem C83_defaults_refuted : forall morphlevels perc adj ic adjleft adjright l src ts c, In c ts -> func c <> [] -> adj <> Some (func c) ->
  match ts with Leaf _ :: _ => False | _ => True end ->
  rrtransform morphlevels perc adj None ic adjleft adjright (Node (l, src) ts) = None.
Proof.
  intros ml perc adj ic al ar l src ts c I F A H. destruct ts as [|[i|l1 r1] ts]; [destruct I|destruct H|]. set (cs := Node l1 r1 :: ts) in *. cbn [rrtransform]. unfold cs at 1. cbn match. fold cs.
  assert (X : ExportModel.all_ok (map (isarg adj None ic) cs) = None); [|now rewrite X]. assert (Y : isarg adj None ic c = None).
  { destruct c as [i|[lc sc] tc]; [now contradiction F|]. cbn [isarg func] in *. apply truthy_iff in F. rewrite F. cbn [negb]. unfold isadj. destruct adj as [a|]; [|reflexivity]. assert (eqs (fld FUNC sc) a = false) as -> by (apply eqs_neq; congruence). reflexivity. }
  clearbody cs. induction cs as [|d cs IH]; [destruct I|]. cbn [map ExportModel.all_ok]. destruct I as [->|I]; [now rewrite Y|]. rewrite (IH I). destruct (isarg adj None ic d); reflexivity.
Qed.
(** FINDING: a slash in a part-of-speech tag (or in its morphology) makes transforming back
    fail; a hyphen in a phrase label is cut off there *)
Theorem C83_slash_refuted : exists t' m lv, rrtransform 0 None None (Some []) (Some []) true true (nd "NP" "--" "--" [nd "A/B" "x" "HD" [Leaf 0]]) = Some (t', m, lv) /\ rrbacktransform None t' [] = None.
Proof. eexists. eexists. eexists. split; [vm_compute; reflexivity|vm_compute; reflexivity]. Qed.
Theorem C83_hyphen_refuted : exists t' m lv u, rrtransform 0 None None (Some []) (Some []) true true (nd "WH-NP" "--" "--" [nd "A" "x" "HD" [Leaf 0]]) = Some (t', m, lv) /\ rrbacktransform None t' [] = Some u /\ labels u = [str "WH"; str "A"].
Proof. eexists. eexists. eexists. eexists. split; [vm_compute; reflexivity|]. split; vm_compute; reflexivity. Qed.
