(** Proofs about head finding. *)
From Coq Require Import String.
From Coq Require Import List Bool Arith NArith ZArith Lia Permutation Sorted.
From Verif Require Import PyStr TransformModel PunctModel HeadModel.
Import ListNotations.
Open Scope list_scope.
Open Scope nat_scope.

Section Ind.
Variable P : htree -> Prop.
Hypothesis HP : forall a i, P (Pre a i).
Hypothesis HC : forall a ts, Forall P ts -> P (Con a ts).
Fixpoint htree_ind' (t : htree) : P t :=
  match t with
  | Pre a i => HP a i
  | Con a ts => HC a ts ((fix go (ts : list htree) : Forall P ts := match ts with [] => Forall_nil P | t :: r => Forall_cons t (htree_ind' t) (go r) end) ts)
  end.
End Ind.

(** every node has a child *)
Inductive full : htree -> Prop :=
| full_pre : forall a i, full (Pre a i)
| full_con : forall a ts, ts <> [] -> Forall full ts -> full (Con a ts).
(** exactly one child of every node is its head *)
Inductive headed : htree -> Prop :=
| headed_pre : forall a i, headed (Pre a i)
| headed_con : forall a ts, length (filter ishead ts) = 1 -> Forall headed ts -> headed (Con a ts).
(** at most one *)
Inductive athead : htree -> Prop :=
| athead_pre : forall a i, athead (Pre a i)
| athead_con : forall a ts, length (filter ishead ts) <= 1 -> Forall athead ts -> athead (Con a ts).
(** the tree without the types *)
Fixpoint bare (t : htree) : htree :=
  match t with
  | Pre a i => Pre (mkA (a_label a) (a_func a) None) i
  | Con a ts => Con (mkA (a_label a) (a_func a) None) (map bare ts)
  end.

Lemma settype_attr : forall ty t, a_type (attrof (settype ty t)) = ty.
Proof. intros ty [a i|a ts]; reflexivity. Qed.
Lemma settype_bare : forall ty t, bare (settype ty t) = bare t.
Proof. intros ty [a i|a ts]; reflexivity. Qed.
Lemma settype_label : forall ty t, label (settype ty t) = label t /\ a_func (attrof (settype ty t)) = a_func (attrof t).
Proof. intros ty [a i|a ts]; split; reflexivity. Qed.
Lemma settype_same : forall t, settype (a_type (attrof t)) t = t.
Proof. intros [[l f ty] i|[l f ty] ts]; reflexivity. Qed.
Lemma settype_twice : forall x y t, settype x (settype y t) = settype x t.
Proof. intros x y [a i|a ts]; reflexivity. Qed.
Lemma settypes_length : forall tys ts, length (settypes tys ts) = length ts.
Proof. induction tys as [|ty tys IH]; intros [|t ts]; cbn; auto. Qed.
Lemma settypes_bare : forall tys ts, map bare (settypes tys ts) = map bare ts.
Proof. induction tys as [|ty tys IH]; intros [|t ts]; cbn; auto. now rewrite settype_bare, IH. Qed.
Lemma settypes_types : forall tys ts, length tys = length ts -> map (fun c => a_type (attrof c)) (settypes tys ts) = tys.
Proof. induction tys as [|ty tys IH]; intros [|t ts]; cbn; intros E; try discriminate; auto. rewrite settype_attr, IH by lia. reflexivity. Qed.
Lemma settypes_same : forall ts, settypes (map (fun c => a_type (attrof c)) ts) ts = ts.
Proof. induction ts as [|t ts IH]; cbn; [reflexivity|]. now rewrite settype_same, IH. Qed.
Lemma sethead_length : forall k ts, length (sethead k ts) = length ts.
Proof. induction k as [|k IH]; intros [|t ts]; cbn; auto. Qed.
Lemma sethead_nth : forall ts k i, nth_error (sethead k ts) i = if i =? k then option_map (settype (Some HEAD)) (nth_error ts i) else nth_error ts i.
Proof.
  induction ts as [|t ts IH]; intros k i; cbn [sethead].
  - destruct k; cbn [sethead]; destruct i; cbn; try reflexivity; now destruct (i =? k).
  - destruct k as [|k], i as [|i]; cbn [nth_error Nat.eqb option_map]; try reflexivity. apply IH.
Qed.
Lemma isheadtype : forall t u, a_type (attrof t) = a_type (attrof u) -> ishead t = ishead u.
Proof. intros t u E. unfold ishead. now rewrite E. Qed.
Lemma filter_types : forall ts us, map (fun c => a_type (attrof c)) ts = map (fun c => a_type (attrof c)) us -> length (filter ishead ts) = length (filter ishead us).
Proof.
  induction ts as [|t ts IH]; intros [|u us] E; cbn in E; try discriminate; [reflexivity|]. injection E as E1 E2. cbn. rewrite (isheadtype _ _ E1). destruct (ishead u); cbn; rewrite (IH _ E2); reflexivity.
Qed.
Lemma sethead_count : forall ts k, k < length ts -> length (filter ishead (sethead k ts)) = (if ishead (nth k ts (Pre (mkA [] None None) 0)) then 0 else 1) + length (filter ishead ts).
Proof.
  induction ts as [|t ts IH]; intros k L; cbn [length] in L; [lia|]. destruct k as [|k]; cbn [sethead nth filter].
  - assert (X : ishead (settype (Some HEAD) t) = true) by (unfold ishead; now rewrite settype_attr). rewrite X. destruct (ishead t); reflexivity.
  - specialize (IH k ltac:(lia)). destruct (ishead t); cbn [length]; rewrite IH; lia.
Qed.

Section Heads.
Variable upper : pystr -> pystr.
Notation headfinder := (headfinder upper).
Notation applyheadrules := (applyheadrules upper).

Definition nums (ts : list htree) : list numbered := combine (seq 0 (length ts)) ts.
Lemma nums_in : forall ts k c, In (k, c) (nums ts) <-> nth_error ts k = Some c.
Proof using.
  intros ts k c. unfold nums. split.
  - intros I. apply In_nth_error in I. destruct I as [n I]. assert (L : n < length ts).
    { assert (X : n < length (combine (seq 0 (length ts)) ts)) by (apply nth_error_Some; congruence). rewrite combine_length, seq_length in X. lia. }
    pose proof (nth_error_nth _ _ (0, Pre (mkA [] None None) 0) I) as E. rewrite combine_nth, seq_nth in E by (assumption || apply seq_length). injection E as <- <-. now apply nth_error_nth'.
  - intros E. assert (L : k < length ts) by (apply nth_error_Some; congruence). apply nth_error_In with k.
    rewrite (nth_error_nth' _ (0, Pre (mkA [] None None) 0)) by (rewrite combine_length, seq_length; lia).
    rewrite combine_nth, seq_nth by (assumption || apply seq_length). now rewrite (nth_error_nth _ _ _ E).
Qed.
Definition isin (ts : list htree) (c : numbered) : Prop := nth_error ts (fst c) = Some (snd c).
Lemma find_isin : forall ts p l c, (forall x, In x l -> isin ts x) -> find p l = Some c -> isin ts c.
Proof using. intros ts p l c H E. apply find_some in E. now apply H. Qed.
Lemma find__isin : forall ts heads l c, (forall x, In x l -> isin ts x) -> find_ upper heads l = Some c -> isin ts c.
Proof using.
  induction heads as [|h heads IH]; intros l c H E; cbn [find_] in E; [discriminate|]. destruct (find _ l) as [x|] eqn:Q; [|eauto]. injection E as <-. eapply find_isin; eauto.
Qed.
Lemma tryrules_isin : forall ts rs l l', (forall x, In x l -> isin ts x) -> (forall x, In x l' <-> In x l) ->
  (forall c l2, tryrules upper rs l l' = (Some c, l2) -> isin ts c) /\ (forall l2, tryrules upper rs l l' = (None, l2) -> forall x, In x l2 <-> In x l).
Proof using.
  intros ts. induction rs as [|[d heads] rs IH]; intros l l' H S; cbn [tryrules].
  - split; intros; congruence || (injection H0 as <-; apply S).
  - set (cs := if isleft d then l else rev l). assert (SC : forall x, In x cs <-> In x l) by (intros x; unfold cs; destruct (isleft d); [tauto|symmetry; apply in_rev]).
    destruct (if isdis d then invfind upper heads cs else find_ upper heads cs) as [h|] eqn:Q; [|apply (IH l cs H SC)].
    split; [|intros; discriminate]. intros c l2 E. injection E as <- _. assert (HC : forall x, In x cs -> isin ts x) by (intros x I; apply H, SC, I).
    destruct (isdis d); [eapply find_isin; [exact HC|exact Q]|eapply find__isin; [exact HC|exact Q]].
Qed.
Lemma coord_isin : forall ts c, isin ts c -> isin ts (coord ts c).
Proof using.
  intros ts c H. unfold coord. destruct (_ && _); [|exact H]. destruct (find _ _) as [x|] eqn:Q; [|exact H]. apply find_some in Q. destruct Q as [Q _].
  apply in_rev in Q. apply (In_nth_error) in Q. destruct Q as [n Q].
  assert (I : In x (nums ts)). { unfold nums. rewrite <- (firstn_skipn (indexeq (snd c) ts - 1) (combine _ _)). apply in_or_app. left. eapply nth_error_In; exact Q. }
  destruct x as [k u]. unfold isin. cbn [fst snd]. now apply nums_in.
Qed.
Lemma headfinder_some : forall hr lab ts, ts <> [] -> exists k, headfinder hr lab ts = Some k /\ k < length ts.
Proof using.
  intros hr lab ts NE. unfold HeadModel.headfinder. fold (nums ts).
  assert (IN : forall x, In x (nums ts) -> isin ts x) by (intros [k c] I; now apply nums_in).
  assert (LT : forall c, isin ts c -> fst c < length ts) by (intros c I; apply nth_error_Some; unfold isin in I; congruence).
  destruct (find (fun c => ishead (snd c)) (nums ts)) as [c|] eqn:Q1; [exists (fst c); split; [reflexivity|]; apply LT; eapply find_isin; eauto|].
  destruct (find (fun c => hdfunc upper (snd c)) (nums ts)) as [c|] eqn:Q2; [exists (fst c); split; [reflexivity|]; apply LT; eapply find_isin; eauto|].
  destruct (tryrules_isin ts (getrules lab hr) (nums ts) (nums ts) IN (fun x => iff_refl _)) as [T1 T2].
  destruct (tryrules upper (getrules lab hr) (nums ts) (nums ts)) as [[h|] l2] eqn:Q3.
  - exists (fst (coord ts h)). split; [reflexivity|]. apply LT, coord_isin. eapply T1. reflexivity.
  - specialize (T2 l2 eq_refl). assert (NZ : l2 <> []).
    { destruct ts as [|t ts]; [congruence|]. intros ->. apply (proj2 (T2 (0, t))). apply nums_in. reflexivity. }
    unfold defaulthead. destruct (find _ l2) as [c|] eqn:Q4.
    + exists (fst c). split; [reflexivity|]. apply LT, IN, T2. now apply find_some in Q4.
    + destruct l2 as [|c l2]; [congruence|]. exists (fst c). split; [reflexivity|]. apply LT, IN, T2. now left.
Qed.
(** head information that is there already *)
Lemma headfinder_head : forall hr lab ts, length (filter ishead ts) >= 1 -> exists k c, headfinder hr lab ts = Some k /\ nth_error ts k = Some c /\ ishead c = true.
Proof using.
  intros hr lab ts H. unfold HeadModel.headfinder. fold (nums ts).
  destruct (find (fun c => ishead (snd c)) (nums ts)) as [[k c]|] eqn:Q.
  - apply find_some in Q. destruct Q as [Q1 Q2]. apply nums_in in Q1. cbn [fst snd] in *. eauto.
  - exfalso. destruct (filter ishead ts) as [|x l] eqn:F; [cbn in H; lia|]. assert (I : In x (filter ishead ts)) by (rewrite F; now left). apply filter_In in I. destruct I as [I E].
    apply In_nth_error in I. destruct I as [k I]. apply nums_in in I. pose proof (find_none _ _ Q _ I) as Z. cbn [snd] in Z. congruence.
Qed.
Lemma marktypes_length : forall rs ts prev, length (marktypes upper rs prev ts) = length ts.
Proof using. intros rs. induction ts as [|c ts IH]; intros prev; cbn [marktypes]; [reflexivity|]. destruct (ishead c); cbn [length]; now rewrite IH. Qed.
Lemma marktypes_head : forall rs ts prev i c, nth_error ts i = Some c ->
  nth_error (marktypes upper rs prev ts) i = Some (if ishead c then a_type (attrof c) else nth i (marktypes upper rs prev ts) None)
  /\ (ishead c = false -> nth i (marktypes upper rs prev ts) None = Some COMPLEMENT \/ nth i (marktypes upper rs prev ts) None = Some MODIFIER).
Proof using.
  intros rs. induction ts as [|x ts IH]; intros prev i c E; [destruct i; discriminate|]. destruct i as [|i]; cbn [nth_error] in E.
  - injection E as ->. cbn [marktypes]. destruct (ishead c) eqn:H; cbn [nth_error nth]; [split; [reflexivity|discriminate]|]. split; [reflexivity|]. intros _. match goal with |- context [if ?b then _ else _] => destruct b end; auto.
  - cbn [marktypes]. destruct (ishead x); cbn [nth_error nth]; apply IH; exact E.
Qed.
Lemma marktypes_count : forall rs ts prev us, length us = length ts -> map (fun c => a_type (attrof c)) us = marktypes upper rs prev ts -> length (filter ishead us) = length (filter ishead ts).
Proof using.
  intros rs. induction ts as [|c ts IH]; intros prev [|u us] L E; cbn in L; try discriminate; [reflexivity|]. cbn [marktypes map] in E. cbn [filter].
  destruct (ishead c) eqn:H.
  - injection E as E1 E2. rewrite (isheadtype u c E1), H. cbn [length]. f_equal. eapply IH; eauto.
  - injection E as E1 E2. assert (X : ishead u = false) by (unfold ishead; rewrite E1; now match goal with |- context [if ?b then _ else _] => destruct b end). rewrite X. eapply IH; [lia|exact E2].
Qed.
Definition kidtypes (mr : option modrules) (lab : pystr) (ts : list htree) : list (option ntype) :=
  map (fun c => a_type (attrof c)) (match mr with None => ts | Some mr => settypes (markmodifiers upper mr lab ts) ts end).
Lemma kidtypes_length : forall mr lab ts, length (kidtypes mr lab ts) = length ts.
Proof using. intros mr lab ts. unfold kidtypes. rewrite map_length. destruct mr; [apply settypes_length|reflexivity]. Qed.
Lemma apply_con : forall hr mr a ts, applyheadrules hr mr (Con a ts) = match headfinder hr (a_label a) ts with
  | None => Con a (map (applyheadrules hr mr) ts)
  | Some k => Con a (settypes (kidtypes mr (a_label a) (sethead k ts)) (map (applyheadrules hr mr) ts)) end.
Proof using. intros. cbn [HeadModel.applyheadrules]. destruct (headfinder hr (a_label a) ts) as [k|]; [|reflexivity]. unfold kidtypes. destruct mr; reflexivity. Qed.
Lemma apply_attr : forall hr mr t, attrof (applyheadrules hr mr t) = attrof t.
Proof using. intros hr mr [a i|a ts]; [reflexivity|]. rewrite apply_con. destruct (headfinder hr (a_label a) ts); reflexivity. Qed.
Lemma settype_headed : forall ty t, headed t -> headed (settype ty t).
Proof using. intros ty [a i|a ts] H; cbn [settype]; inversion H; constructor; auto. Qed.
Lemma settypes_headed : forall tys ts, Forall headed ts -> Forall headed (settypes tys ts).
Proof using. induction tys as [|ty tys IH]; intros [|t ts] H; cbn; auto. inversion H; subst. constructor; [now apply settype_headed|auto]. Qed.
Lemma kidtypes_count : forall mr lab ts us, length us = length ts -> length (filter ishead (settypes (kidtypes mr lab ts) us)) = length (filter ishead ts).
Proof using.
  intros mr lab ts us L. assert (LK : length (kidtypes mr lab ts) = length us) by now rewrite kidtypes_length.
  pose proof (settypes_types _ us LK) as T. unfold kidtypes in T at 2. destruct mr as [mr|]; [|now apply filter_types].
  rewrite (filter_types _ _ T). eapply marktypes_count; [apply settypes_length|]. apply settypes_types. unfold markmodifiers. apply marktypes_length.
Qed.
Lemma headed_apply : forall hr mr t, full t -> athead t -> headed (applyheadrules hr mr t).
Proof using.
  intros hr mr. induction t as [a i|a ts IH] using htree_ind'; intros F A; [constructor|].
  inversion F as [|? ? NE FT]; subst. inversion A as [|? ? AC AT]; subst. rewrite apply_con.
  destruct (headfinder_some hr (a_label a) ts NE) as (k & Hk & L). rewrite Hk.
  assert (HT : Forall headed (map (applyheadrules hr mr) ts)).
  { rewrite Forall_forall in *. intros u I. apply in_map_iff in I. destruct I as (t & <- & I). apply IH; auto. }
  constructor; [|now apply settypes_headed].
  rewrite kidtypes_count by (rewrite map_length; symmetry; apply sethead_length).
  rewrite (sethead_count _ _ L). destruct (ishead (nth k ts (Pre (mkA [] None None) 0))) eqn:E.
  - assert (X : In (nth k ts (Pre (mkA [] None None) 0)) (filter ishead ts)) by (apply filter_In; split; [now apply nth_In|exact E]).
    destruct (filter ishead ts) as [|x [|y l]]; [contradiction|reflexivity|cbn in AC; lia].
  - destruct (filter ishead ts) as [|x l] eqn:FE; [reflexivity|]. exfalso.
    destruct (headfinder_head hr (a_label a) ts) as (k' & c & H1 & H2 & H3); [rewrite FE; cbn; lia|]. rewrite Hk in H1. injection H1 as <-.
    rewrite (nth_error_nth _ _ _ H2) in E. congruence.
Qed.
Lemma bare_apply : forall hr mr t, bare (applyheadrules hr mr t) = bare t.
Proof using.
  intros hr mr. induction t as [a i|a ts IH] using htree_ind'; [reflexivity|]. rewrite apply_con.
  assert (E : map bare (map (applyheadrules hr mr) ts) = map bare ts) by (rewrite map_map; apply map_ext_in; intros u I; rewrite Forall_forall in IH; now apply IH).
  destruct (headfinder hr (a_label a) ts); cbn [bare]; rewrite ?settypes_bare, E; reflexivity.
Qed.
Lemma sethead_same : forall ts k c, nth_error ts k = Some c -> a_type (attrof c) = Some HEAD -> sethead k ts = ts.
Proof using.
  induction ts as [|t ts IH]; intros [|k] c E T; cbn in *; try discriminate.
  - injection E as ->. f_equal. rewrite <- T. apply settype_same.
  - f_equal. eapply IH; eauto.
Qed.
Lemma ishead_type : forall c, ishead c = true -> a_type (attrof c) = Some HEAD.
Proof using. intros c. unfold ishead. destruct (a_type (attrof c)) as [[]|]; auto; discriminate. Qed.
(** a tree whose nodes have heads is left alone *)
Lemma apply_fixed : forall hr t, headed t -> applyheadrules hr None t = t.
Proof using.
  intros hr. induction t as [a i|a ts IH] using htree_ind'; intros H; [reflexivity|]. inversion H as [|? ? C F]; subst. rewrite apply_con.
  destruct (headfinder_head hr (a_label a) ts) as (k & c & H1 & H2 & H3); [lia|]. rewrite H1. f_equal.
  assert (E : map (applyheadrules hr None) ts = ts).
  { transitivity (map (fun t : htree => t) ts); [|apply map_id]. apply map_ext_in. intros u I. rewrite Forall_forall in IH, F. auto. }
  rewrite E. unfold kidtypes. rewrite (sethead_same _ _ _ H2 (ishead_type _ H3)). apply settypes_same.
Qed.
(** modifiers: marking again gives the same *)
Lemma marktypes_again : forall rs ts prev us, length us = length ts -> map label us = map label ts -> map (fun c => a_func (attrof c)) us = map (fun c => a_func (attrof c)) ts ->
  map (fun c => a_type (attrof c)) us = marktypes upper rs prev ts -> marktypes upper rs prev us = marktypes upper rs prev ts.
Proof using.
  intros rs. induction ts as [|c ts IH]; intros prev [|u us] L E1 E2 E3; cbn in L; try discriminate; [reflexivity|].
  cbn [map] in E1, E2. injection E1 as L1 L2. injection E2 as F1 F2. cbn [marktypes map] in *.
  assert (M : existsb (modmatch upper u) rs = existsb (modmatch upper c) rs).
  { clear - L1 F1. induction rs as [|m rs IH]; [reflexivity|]. cbn. rewrite IH. f_equal. unfold modmatch, function. now rewrite L1, F1. }
  destruct (ishead c) eqn:H.
  - injection E3 as T1 T2. rewrite (isheadtype u c T1), H. rewrite T1. f_equal. apply IH; auto.
  - injection E3 as T1 T2. assert (X : ishead u = false) by (unfold ishead; rewrite T1; now match goal with |- context [if ?b then _ else _] => destruct b end). rewrite X, L1, M. f_equal. apply IH; auto.
Qed.
Lemma settypes_attrs : forall tys ts, map label (settypes tys ts) = map label ts /\ map (fun c => a_func (attrof c)) (settypes tys ts) = map (fun c => a_func (attrof c)) ts.
Proof using.
  induction tys as [|ty tys IH]; intros [|t ts]; cbn [settypes map]; auto. destruct (settype_label ty t) as [E1 E2], (IH ts) as [E3 E4]. rewrite E1, E2, E3, E4. auto.
Qed.
Lemma settypes_twice : forall tys tys' ts, length tys = length ts -> length tys' = length ts -> settypes tys (settypes tys' ts) = settypes tys ts.
Proof using. induction tys as [|ty tys IH]; intros [|ty' tys'] [|t ts] E E'; cbn in *; try discriminate; auto. rewrite settype_twice, IH by lia. reflexivity. Qed.
Lemma settypes_map : forall (f : htree -> htree) tys ts, (forall ty t, In t ts -> f (settype ty t) = settype ty (f t)) -> map f (settypes tys ts) = settypes tys (map f ts).
Proof using.
  intros f. induction tys as [|ty tys IH]; intros [|t ts] H; cbn [settypes map]; auto. rewrite H by now left. rewrite IH; [reflexivity|]. intros. apply H. now right.
Qed.
Lemma apply_settype : forall hr mr ty t, applyheadrules hr mr (settype ty t) = settype ty (applyheadrules hr mr t).
Proof using. intros hr mr ty [a i|a ts]; [reflexivity|]. cbn [settype]. rewrite !apply_con. cbn [a_label]. destruct (headfinder hr (a_label a) ts); reflexivity. Qed.
Lemma apply_idem : forall hr mr t, full t -> athead t -> applyheadrules hr mr (applyheadrules hr mr t) = applyheadrules hr mr t.
Proof using.
  intros hr mr. induction t as [a i|a ts IH] using htree_ind'; intros F A; [reflexivity|].
  pose proof (headed_apply hr mr _ F A) as HD. inversion F as [|? ? NE FT]; subst. inversion A as [|? ? AC AT]; subst.
  destruct mr as [m|]; [|now apply apply_fixed]. rewrite apply_con in *.
  destruct (headfinder_some hr (a_label a) ts NE) as (k & Hk & L). rewrite Hk in *.
  set (ks := kidtypes (Some m) (a_label a) (sethead k ts)) in *. set (us := map (applyheadrules hr (Some m)) ts) in *. set (vs := settypes ks us) in *.
  assert (LK : length ks = length us) by (unfold ks, us; rewrite kidtypes_length, sethead_length, map_length; reflexivity).
  rewrite apply_con. inversion HD as [|? ? HC HF]; subst.
  destruct (headfinder_head hr (a_label a) vs) as (k' & c & H1 & H2 & H3); [lia|]. rewrite H1. f_equal.
  rewrite (sethead_same _ _ _ H2 (ishead_type _ H3)).
  assert (E : map (applyheadrules hr (Some m)) vs = vs).
  { unfold vs. rewrite settypes_map by (intros; apply apply_settype). f_equal. unfold us. rewrite map_map. apply map_ext_in. intros u I. rewrite Forall_forall in IH, FT, AT. apply IH; auto. }
  rewrite E.
  assert (K : kidtypes (Some m) (a_label a) vs = map (fun c => a_type (attrof c)) vs).
  { unfold kidtypes. rewrite settypes_types by (unfold markmodifiers; apply marktypes_length).
    assert (TV : map (fun c => a_type (attrof c)) vs = ks) by (unfold vs; apply settypes_types, LK).
    rewrite TV. unfold ks, kidtypes, markmodifiers. rewrite settypes_types by apply marktypes_length.
    apply marktypes_again.
    - unfold vs. rewrite settypes_length. unfold us. now rewrite map_length, sethead_length.
    - unfold vs. rewrite (proj1 (settypes_attrs _ _)). unfold us. rewrite map_map. clear. revert k. induction ts as [|t ts IH]; intros [|k]; cbn [sethead map]; auto; try (f_equal; [unfold label; rewrite apply_attr; reflexivity|]).
      + f_equal; [unfold label; rewrite apply_attr; now destruct t|]. apply map_ext. intros u. unfold label. now rewrite apply_attr.
      + apply IH.
    - unfold vs. rewrite (proj2 (settypes_attrs _ _)). unfold us. rewrite map_map. clear. revert k. induction ts as [|t ts IH]; intros [|k]; cbn [sethead map]; auto; try (f_equal; [rewrite apply_attr; reflexivity|]).
      + f_equal; [rewrite apply_attr; now destruct t|]. apply map_ext. intros u. now rewrite apply_attr.
      + apply IH.
    - rewrite TV. unfold ks, kidtypes. now rewrite settypes_types by apply marktypes_length. }
  rewrite K. apply settypes_same.
Qed.
End Heads.
