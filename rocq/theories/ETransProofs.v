(** The evaluation transform keeps the remaining words and constituents (C69). *)
From Coq Require Import List Bool Arith Lia Permutation.
From Verif Require Import PyStr TreeModel TreeProps EvalModel EvalProps ETransModel ETransSpec.
Import ListNotations.
Open Scope list_scope.
Open Scope nat_scope.
Notation tr := (tree pystr nat).

Lemma memn_iff : forall k l, memn k l = true <-> In k l.
Proof. intros k l. unfold memn. rewrite existsb_exists. split; [intros (x & I & E); apply Nat.eqb_eq in E; now subst|intros I; exists k; split; auto; apply Nat.eqb_refl]. Qed.
Lemma mems_iff : forall s l, mems s l = true <-> In s l.
Proof. intros s l. unfold mems. rewrite existsb_exists. split; [intros (x & I & E); apply eqs_eq in E; now subst|intros I; exists s; split; auto; now apply eqs_eq]. Qed.
Lemma allsome_map : forall X Y (f : X -> option Y) (g : X -> Y) l, (forall x, In x l -> f x = Some (g x)) -> allsome (map f l) = Some (map g l).
Proof.
  intros X Y f g. induction l as [|x l IH]; intros H; [reflexivity|]. cbn [map allsome]. rewrite (H x) by now left.
  rewrite IH; [reflexivity|]. intros y I. apply H. now right.
Qed.

Lemma nd_app_l : forall X (a b : list X), NoDup (a ++ b) -> NoDup a.
Proof. induction a as [|x a IH]; intros b H; [constructor|]. inversion H; subst. constructor; [intros I; apply H2; apply in_or_app; now left|eauto]. Qed.
Lemma nd_app_r : forall X (a b : list X), NoDup (a ++ b) -> NoDup b.
Proof. induction a as [|x a IH]; intros b H; [exact H|]. inversion H; subst. eauto. Qed.
(** ** lists of positions *)
Definition rem (D ls : list nat) : list nat := filter (fun k => negb (memn k D)) ls.
Lemma rem_in : forall D ls k, In k (rem D ls) <-> In k ls /\ ~ In k D.
Proof. intros D ls k. unfold rem. rewrite filter_In, negb_true_iff, <- not_true_iff_false, memn_iff. tauto. Qed.
Lemma rem_nil : forall ls, rem [] ls = ls.
Proof. induction ls as [|x ls IH]; [reflexivity|]. cbn. f_equal. exact IH. Qed.
Lemma rem_rem : forall D E ls, rem D (rem E ls) = rem (D ++ E) ls.
Proof.
  intros D E ls. unfold rem. induction ls as [|x ls IH]; [reflexivity|]. cbn [filter].
  assert (Q : memn x (D ++ E) = memn x D || memn x E) by (unfold memn; apply existsb_app).
  rewrite Q. destruct (memn x E); cbn [negb filter]; [rewrite orb_true_r; cbn [negb]; exact IH|].
  rewrite orb_false_r. destruct (memn x D); cbn [negb]; [exact IH|]. f_equal. exact IH.
Qed.
Lemma rem_nodup : forall D ls, NoDup ls -> NoDup (rem D ls).
Proof. intros. now apply NoDup_filter. Qed.
Lemma removefirst_ok : forall k ls, NoDup ls -> In k ls -> removefirst k ls = Some (rem [k] ls).
Proof.
  intros k. induction ls as [|x ls IH]; intros ND I; [destruct I|]. inversion ND as [|? ? NI ND']; subst.
  cbn [removefirst]. unfold rem. cbn [filter memn existsb]. rewrite orb_false_r.
  destruct (Nat.eqb_spec x k) as [->|NE]; cbn [negb].
  - f_equal. symmetry. transitivity (rem [] ls); [|apply rem_nil]. apply filter_ext_in. intros y Iy. cbn.
    destruct (Nat.eqb_spec y k) as [->|]; [contradiction|reflexivity].
  - destruct I as [->|I]; [contradiction|]. rewrite (IH ND' I). reflexivity.
Qed.
Lemma indexof_ok : forall ls k, In k ls -> exists i, indexof k ls = Some i /\ nth_error ls i = Some k.
Proof.
  induction ls as [|x ls IH]; intros k I; [destruct I|]. cbn [indexof].
  destruct (Nat.eqb_spec x k) as [->|NE]; [now exists 0|]. destruct I as [->|I]; [contradiction|].
  destruct (IH k I) as (i & -> & E). exists (S i). auto.
Qed.

(** ** one tree *)
Section Strip.
Variable param : eparam.
Variable sent : list pystr.
Variable gpos : list (nat * pystr).
Variable grootpos : list nat.
Variable keep : nat -> bool.
Notation eql := (dictmap (eq_label param)).
Notation del := (delete_label param).
Notation rmd := (removed param sent gpos grootpos).
(** what remains of a node below the root *)
Fixpoint strip (t : tr) : list tr :=
  match t with
  | Leaf _ => []
  | Node l [Leaf k] => if keep k then [Node (eql l) [Leaf k]] else []
  | Node l ts => match flat_map strip ts with
                 | [] => []
                 | us => if mems (eql l) del then us else [Node (eql l) us]
                 end
  end.
Definition inner_strip (t : tr) : tr :=
  match t with
  | Node l ((Node _ _ :: _) as ts) => Node l (flat_map strip ts)
  | _ => t
  end.
(** every node is phrasal, empty, or a preterminal *)
Fixpoint good (t : tr) : Prop :=
  match t with
  | Leaf _ => False
  | Node _ [Leaf k] => rmd k = Some (negb (keep k))
  | Node _ ts => fold_right (fun t P => good t /\ P) True ts
  end.
Definition goods (ts : list tr) : Prop := fold_right (fun t P => good t /\ P) True ts.
Lemma goods_in : forall ts, goods ts <-> forall t, In t ts -> good t.
Proof.
  unfold goods. induction ts as [|t ts IH]; cbn [fold_right]; [split; [intros _ ? []|auto]|]. rewrite IH. split.
  - intros [A B] u [<-|I]; auto.
  - intros H. split; [apply H; now left|]. intros u I. apply H. now right.
Qed.
Lemma good_cases : forall t, good t -> (exists l, t = Node l []) \/ (exists l k, t = Node l [Leaf k] /\ rmd k = Some (negb (keep k)))
  \/ (exists l m ms ts, t = Node l (Node m ms :: ts) /\ goods (Node m ms :: ts)).
Proof.
  intros [a|l [|[k|m ms] ts]] G; [destruct G|left; eauto| |].
  - destruct ts as [|u ts]; [right; left; exists l, k; split; [reflexivity|exact G]|]. cbn in G. destruct G as [[] _].
  - right. right. exists l, m, ms, ts. split; [reflexivity|exact G].
Qed.
Lemma strip_nodes : forall t, good t -> Forall (fun u => exists l ts, u = Node l ts) (strip t).
Proof.
  intros t. induction t as [a|l ts IH] using tree_ind'; intros G; [destruct G|].
  destruct (good_cases _ G) as [(l' & E)|[(l' & k & E & _)|(l' & m & ms & us & E & GS)]]; injection E as -> ->.
  - constructor.
  - cbn [strip]. destruct (keep k); repeat constructor. eauto.
  - assert (FS : Forall (fun u => exists l ts, u = Node l ts) (flat_map strip (Node m ms :: us))).
    { rewrite Forall_forall in IH. rewrite goods_in in GS. apply Forall_forall. intros u I. apply in_flat_map in I. destruct I as (c & Ic & Iu).
      specialize (IH c Ic (GS c Ic)). rewrite Forall_forall in IH. now apply IH. }
    change (strip (Node l' (Node m ms :: us))) with (match flat_map strip (Node m ms :: us) with [] => [] | us => if mems (eql l') del then us else [Node (eql l') us] end).
    destruct (flat_map strip (Node m ms :: us)) as [|v vs] eqn:Q; [constructor|].
    destruct (mems (eql l') del); [exact FS|]. repeat constructor. eauto.
Qed.
(** words handled below a node, and by a node itself *)
Definition inner (t : tr) : list nat := match t with Node _ (Node _ _ :: _) => leaves t | _ => [] end.
Definition preterm (t : tr) : list nat := match t with Node _ [Leaf k] => [k] | _ => [] end.
Lemma leaves_split : forall t, good t -> leaves t = inner t ++ preterm t.
Proof.
  intros t G. destruct (good_cases _ G) as [(l' & ->)|[(l' & k & -> & _)|(l' & m & ms & us & -> & GS)]]; try reflexivity.
  cbn [inner preterm]. now rewrite app_nil_r.
Qed.
Lemma leaves_kids : forall ts, goods ts -> Permutation (flat_map leaves ts) (flat_map inner ts ++ flat_map preterm ts).
Proof.
  induction ts as [|t ts IH]; intros G; [reflexivity|]. destruct G as [G GS]. cbn [flat_map]. rewrite (leaves_split t G), (IH GS).
  rewrite <- !app_assoc. apply Permutation_app_head. rewrite Permutation_app_comm, <- app_assoc. apply Permutation_app_head. apply Permutation_app_comm.
Qed.
Notation kf := (filter keep).
Notation df := (filter (fun k => negb (keep k))).
Lemma filter_perm : forall f (a b : list nat), Permutation a b -> Permutation (filter f a) (filter f b).
Proof.
  intros f a b P. induction P; cbn [filter]; auto.
  - destruct (f x); auto.
  - destruct (f x), (f y); auto. constructor.
  - eapply Permutation_trans; eauto.
Qed.
Lemma filter_app' : forall f (a b : list nat), filter f (a ++ b) = filter f a ++ filter f b.
Proof. intros f. induction a as [|x a IH]; intros b; [reflexivity|]. cbn. rewrite IH. now destruct (f x). Qed.
Lemma childloop_ok : forall ts, goods ts -> forall ls ps, NoDup ls -> NoDup (flat_map preterm ts) -> incl (df (flat_map preterm ts)) ls ->
  exists D Q, childloop param sent gpos grootpos (map inner_strip ts) (ls, ps) = Some (flat_map strip ts, (rem D ls, ps ++ Q)) /\
  Permutation D (df (flat_map preterm ts)) /\ Permutation Q (kf (flat_map preterm ts)).
Proof.
  induction ts as [|t ts IH]; intros G ls ps ND NP IN.
  - exists [], []. cbn. rewrite rem_nil, app_nil_r. auto.
  - destruct G as [G GS]. cbn [flat_map] in NP, IN |- *. rewrite filter_app' in IN.
    assert (NP' : NoDup (flat_map preterm ts)) by (apply nd_app_r in NP; exact NP).
    assert (IN' : incl (df (flat_map preterm ts)) ls) by (intros k I; apply IN; apply in_or_app; now right).
    destruct (IH GS ls ps ND NP' IN') as (D & Q & E & PD & PQ).
    cbn [map childloop]. rewrite E. rewrite !filter_app'.
    destruct (good_cases _ G) as [(l' & ->)|[(l' & k & -> & RK)|(l' & m & ms & us & -> & G2)]].
    + exists D, Q. cbn. auto.
    + cbn [inner_strip preterm app strip]. rewrite RK. destruct (keep k) eqn:K; cbn [negb].
      * exists D, (Q ++ [k]). rewrite app_assoc. split; [reflexivity|]. cbn [filter app]. rewrite K. cbn [negb app].
        split; [exact PD|]. rewrite PQ. symmetry. apply Permutation_cons_append.
      * assert (NI : ~ In k (flat_map preterm ts)) by (cbn in NP; now inversion NP).
        assert (IK : In k (rem D ls)).
        { apply rem_in. split; [apply IN; cbn [filter preterm]; rewrite K; now left|].
          intros I. apply (Permutation_in _ PD) in I. apply filter_In in I. tauto. }
        rewrite (removefirst_ok k _ (rem_nodup D ls ND) IK). rewrite rem_rem. exists ([k] ++ D), Q. split; [reflexivity|].
        cbn [filter app]. rewrite K. cbn [negb app]. split; [|exact PQ]. now constructor.
    + cbn [inner_strip preterm app filter].
      change (strip (Node l' (Node m ms :: us))) with (match flat_map strip (Node m ms :: us) with [] => [] | us => if mems (eql l') del then us else [Node (eql l') us] end).
      assert (SN := strip_nodes (Node l' (Node m ms :: us))).
      assert (FN : Forall (fun u => exists l ts, u = Node l ts) (flat_map strip (Node m ms :: us))).
      { rewrite goods_in in G2. apply Forall_forall. intros u I. apply in_flat_map in I. destruct I as (c & Ic & Iu).
        pose proof (strip_nodes c (G2 c Ic)) as F. rewrite Forall_forall in F. now apply F. }
      destruct (flat_map strip (Node m ms :: us)) as [|v vs]; [exists D, Q; cbn; auto|].
      inversion FN as [|? ? (lv & tv & ->) _]; subst.
      destruct (mems (eql l') del); exists D, Q; auto.
Qed.
Lemma kids_loop : forall ts,
  Forall (fun t => good t -> forall ls ps, NoDup ls -> NoDup (inner t) -> incl (df (inner t)) ls ->
    exists D Q, nodeloop param sent gpos grootpos t (ls, ps) = Some (inner_strip t, (rem D ls, ps ++ Q)) /\
    Permutation D (df (inner t)) /\ Permutation Q (kf (inner t))) ts ->
  goods ts -> forall ls ps, NoDup ls -> NoDup (flat_map inner ts) -> incl (df (flat_map inner ts)) ls ->
  exists D Q, (fix kids (ts : list tr) (st : tstate) : option (list tr * tstate) :=
        match ts with
        | [] => Some ([], st)
        | c :: r => match kids r st with
                    | None => None
                    | Some (r, st) => match nodeloop param sent gpos grootpos c st with None => None | Some (c, st) => Some (c :: r, st) end
                    end
        end) ts (ls, ps) = Some (map inner_strip ts, (rem D ls, ps ++ Q)) /\
    Permutation D (df (flat_map inner ts)) /\ Permutation Q (kf (flat_map inner ts)).
Proof.
  induction ts as [|t ts IH]; intros FA G ls ps ND NP IN.
  - exists [], []. rewrite rem_nil, app_nil_r. auto.
  - destruct G as [G GS]. cbn [flat_map] in NP, IN |- *. rewrite filter_app' in IN. inversion FA as [|? ? H FA']; subst.
    assert (NP' : NoDup (flat_map inner ts)) by (apply nd_app_r in NP; exact NP).
    assert (NP0 : NoDup (inner t)) by (apply nd_app_l in NP; exact NP).
    assert (IN' : incl (df (flat_map inner ts)) ls) by (intros k I; apply IN; apply in_or_app; now right).
    destruct (IH FA' GS ls ps ND NP' IN') as (D & Q & E & PD & PQ). rewrite E.
    assert (IK : incl (df (inner t)) (rem D ls)).
    { intros k I. apply rem_in. split; [apply IN; apply in_or_app; now left|].
      intros I2. apply (Permutation_in _ PD) in I2. apply filter_In in I2. apply filter_In in I.
      destruct (in_split _ _ (proj1 I)) as (x & y & EQ). rewrite EQ in NP. rewrite <- app_assoc in NP. cbn in NP.
      apply NoDup_remove_2 in NP. apply NP. apply in_or_app. right. apply in_or_app. right. tauto. }
    destruct (H G (rem D ls) (ps ++ Q) (rem_nodup _ _ ND) NP0 IK) as (D2 & Q2 & E2 & PD2 & PQ2). rewrite E2.
    exists (D2 ++ D), (Q ++ Q2). rewrite rem_rem, app_assoc. split; [reflexivity|]. rewrite !filter_app'. split.
    + now apply Permutation_app.
    + rewrite Permutation_app_comm. now apply Permutation_app.
Qed.
Lemma nodeloop_ok : forall t, good t -> forall ls ps, NoDup ls -> NoDup (inner t) -> incl (df (inner t)) ls ->
    exists D Q, nodeloop param sent gpos grootpos t (ls, ps) = Some (inner_strip t, (rem D ls, ps ++ Q)) /\
    Permutation D (df (inner t)) /\ Permutation Q (kf (inner t)).
Proof.
  intros t. induction t as [a|l ts IH] using tree_ind'; intros G ls ps ND NI IN; [destruct G|].
  destruct (good_cases _ G) as [(l' & E)|[(l' & k & E & RK)|(l' & m & ms & us & E & G2)]]; injection E as -> ->.
  - exists [], []. cbn. rewrite rem_nil, app_nil_r. auto.
  - exists [], []. cbn. rewrite rem_nil, app_nil_r. auto.
  - cbn [inner leaves] in NI, IN. set (ts := Node m ms :: us) in *.
    pose proof (leaves_kids ts G2) as LK. change (leaves (Node l' ts)) with (flat_map leaves ts) in *.
    assert (NA : NoDup (flat_map inner ts ++ flat_map preterm ts)) by (eapply Permutation_NoDup; [exact LK|exact NI]).
    pose proof (filter_perm (fun k => negb (keep k)) _ _ LK) as LD. pose proof (filter_perm keep _ _ LK) as LQ. rewrite filter_app' in LD, LQ.
    assert (IA : incl (df (flat_map inner ts)) ls).
    { intros k I. apply IN. apply (Permutation_in _ (Permutation_sym LD)). apply in_or_app. now left. }
    destruct (kids_loop ts IH G2 ls ps ND (nd_app_l _ _ _ NA) IA) as (D & Q & E & PD & PQ).
    assert (IB : incl (df (flat_map preterm ts)) (rem D ls)).
    { intros k I. apply rem_in. split; [apply IN; apply (Permutation_in _ (Permutation_sym LD)); apply in_or_app; now right|].
      intros I2. apply (Permutation_in _ PD) in I2. apply filter_In in I2. apply filter_In in I.
      destruct (in_split _ _ (proj1 I2)) as (x & y & EQ). rewrite EQ in NA. rewrite <- app_assoc in NA. cbn in NA.
      apply NoDup_remove_2 in NA. apply NA. apply in_or_app. right. apply in_or_app. right. tauto. }
    destruct (childloop_ok ts G2 (rem D ls) (ps ++ Q) (rem_nodup _ _ ND) (nd_app_r _ _ _ NA) IB) as (D2 & Q2 & E2 & PD2 & PQ2).
    exists (D2 ++ D), (Q ++ Q2). split; [|split].
    + subst ts. cbn [nodeloop]. cbn [nodeloop] in E. rewrite E, E2, rem_rem, app_assoc. reflexivity.
    + change (inner (Node l' ts)) with (flat_map leaves ts). rewrite LD, Permutation_app_comm. now apply Permutation_app.
    + change (inner (Node l' ts)) with (flat_map leaves ts). rewrite LQ. now apply Permutation_app.
Qed.
End Strip.
