(** C93: dopparseprob computes the sum of the probabilities of all derivations of
    the given tree. *)
From Coq Require Import String.
From Coq Require Import List Bool Arith NArith Lia Permutation.
From Coq Require Import QArith Qcanon.
From Verif Require Import PyStr DopProbModel.
Import ListNotations.
Open Scope nat_scope.

(** ** Derivations of a tree *)
(** A derivation decorates a tree with rules of the reduction. *)
Inductive der :=
| DLex (A : nat) (p : Qc)
| DUn (r : rule) (d : der)
| DBin (r : rule) (d1 d2 : der).
Definition root (d : der) : nat := match d with DLex A _ => A | DUn r _ => lhs r | DBin r _ _ => lhs r end.
(** its probability: the product of the probabilities of its rules *)
Fixpoint prob (d : der) : Qc :=
  match d with
  | DLex _ p => p
  | DUn r d => Qcmult (rprob r) (prob d)
  | DBin r d1 d2 => Qcmult (rprob r) (Qcmult (prob d1) (prob d2))
  end.
Definition qsum (l : list Qc) : Qc := fold_right Qcplus 0%Qc l.

(** the part of a label of the reduction before '@' *)
Fixpoint base (s : pystr) : pystr :=
  match s with [] => [] | c :: s' => if N.eqb c 64 then [] else c :: base s' end.

Section Props.
  Variable tolabel : nat -> pystr.
  Variable toid : pystr -> nat.
  Variable lexical : nat -> option (list (nat * Qc)).
  Notation baseof A := (base (tolabel A)).

  (** the derivations of a tree *)
  Inductive Deriv : rtree -> der -> Prop :=
  | d_known : forall pos n rs A p, lexical n = Some rs -> In (A, p) rs -> baseof A = pos ->
      Deriv (Pre pos n) (DLex A p)
  | d_unknown : forall pos n, lexical n = None -> Deriv (Pre pos n) (DLex (toid pos) 1%Qc)
  | d_un : forall l rules c r d, In r rules -> Deriv c d -> root d = rhs1 r ->
      Deriv (Un l rules c) (DUn r d)
  | d_bin : forall l rules a b r d1 d2, In r rules -> Deriv a d1 -> root d1 = rhs1 r ->
      Deriv b d2 -> root d2 = rhs2 r -> Deriv (Bin l rules a b) (DBin r d1 d2).

  (** What is expected of the grammars: labels of the trees have no '@' and are in
      the reduction, the rules of a node are distinct rules of the reduction for its production, and
      a word has one probability per label. *)
  Inductive Wf : rtree -> Prop :=
  | wf_pre : forall pos n, ~ In 64%N pos -> tolabel (toid pos) = pos ->
      (forall rs, lexical n = Some rs -> NoDup (map fst rs)) -> Wf (Pre pos n)
  | wf_un : forall l rules c, ~ In 64%N l -> tolabel (toid l) = l -> NoDup rules ->
      (forall r, In r rules -> baseof (lhs r) = l /\ baseof (rhs1 r) = label c) ->
      Wf c -> Wf (Un l rules c)
  | wf_bin : forall l rules a b, ~ In 64%N l -> tolabel (toid l) = l -> NoDup rules ->
      (forall r, In r rules -> baseof (lhs r) = l /\ baseof (rhs1 r) = label a /\ baseof (rhs2 r) = label b) ->
      Wf a -> Wf b -> Wf (Bin l rules a b).
  Definition leaves (t : rtree) : list nat := map fst (tpos t).
  (** the labels of a node and the nodes below it with the same words *)
  Fixpoint chain (t : rtree) : list pystr :=
    label t :: match t with Un _ _ c => chain c | _ => [] end.
  Definition distinctchains (t : rtree) : Prop := forall s, In s (subtrees t) -> NoDup (chain s).

  (** ** Enumeration of the derivations *)
  Fixpoint alld (t : rtree) : list der :=
    match t with
    | Pre pos n =>
        match lexical n with
        | None => [DLex (toid pos) 1%Qc]
        | Some rs => map (fun x => DLex (fst x) (snd x)) (filter (fun x => matches tolabel pos (fst x)) rs)
        end
    | Un l rules c =>
        flat_map (fun r => map (DUn r) (filter (fun d => root d =? rhs1 r) (alld c))) rules
    | Bin l rules a b =>
        flat_map (fun r => flat_map (fun d1 => map (DBin r d1) (filter (fun d => root d =? rhs2 r) (alld b)))
                             (filter (fun d => root d =? rhs1 r) (alld a))) rules
    end.

  Lemma base_id : forall s, ~ In 64%N s -> base s = s.
  Proof.
    induction s as [|c s IH]; intros N; [reflexivity|]. cbn. destruct (N.eqb_spec c 64) as [->|_].
    - exfalso. apply N. now left.
    - f_equal. apply IH. intros I. apply N. now right.
  Qed.
  Lemma base_at : forall p s, ~ In 64%N p -> (base s = p <-> s = p \/ exists r, s = p ++ 64%N :: r).
  Proof.
    induction p as [|x p IH]; intros s N.
    - destruct s as [|c s]; cbn.
      + split; [now left|reflexivity].
      + destruct (N.eqb_spec c 64) as [->|NE]; split.
        * intros _. right. now exists s.
        * reflexivity.
        * discriminate.
        * intros [E|(r & E)]; congruence.
    - destruct s as [|c s]; cbn.
      + split; [discriminate|]. intros [E|(r & E)]; discriminate.
      + destruct (N.eqb_spec c 64) as [->|NE].
        * split; [discriminate|]. intros [E|(r & E)]; [|cbn in E]; injection E as E _; exfalso; apply N; left; congruence.
        * assert (N' : ~ In 64%N p) by (intros I; apply N; now right). specialize (IH s N'). split.
          -- intros E. injection E as -> E. apply IH in E. destruct E as [->|(r & ->)]; [now left|right; now exists r].
          -- intros [E|(r & E)]; [|cbn in E]; injection E as -> ->; f_equal; apply IH; [now left|right; now exists r].
  Qed.
  Lemma startswith_spec : forall p s, startswith s p = true <-> exists r, s = p ++ r.
  Proof. exact startswith_iff. Qed.
  Lemma matches_base : forall pos A, ~ In 64%N pos -> (matches tolabel pos A = true <-> baseof A = pos).
  Proof.
    intros pos A N. unfold matches. rewrite orb_true_iff, startswith_spec, eqs_eq, base_at by exact N.
    change (str "@"%string) with [64%N]. split; (intros [H|(r & H)]; [now left|right]); exists r.
    - now rewrite <- app_assoc in H.
    - now rewrite <- app_assoc.
  Qed.

  Lemma alld_spec : forall t, Wf t -> forall d, In d (alld t) <-> Deriv t d.
  Proof.
    induction 1 as [pos n NA _ _|l rules c NA _ _ R _ IH|l rules a b NA _ _ R _ IHa _ IHb]; intros d; cbn [alld].
    - destruct (lexical n) as [rs|] eqn:L.
      + rewrite in_map_iff. split.
        * intros ([A p] & <- & I). apply filter_In in I. destruct I as [I M]. cbn in *.
          eapply d_known; eauto. now apply matches_base.
        * intros D. inversion D as [? ? rs1 A p L1 I1 B1| | |]; subst; [|congruence]. rewrite L in L1. injection L1 as <-.
          exists (A, p). split; [reflexivity|]. apply filter_In. split; [assumption|]. cbn. now apply matches_base.
      + split.
        * intros [<-|[]]. now apply d_unknown.
        * intros D. inversion D; subst; [congruence|now left].
    - rewrite in_flat_map. split.
      + intros (r & Ir & I). apply in_map_iff in I. destruct I as (d' & <- & I). apply filter_In in I.
        destruct I as [I E]. apply Nat.eqb_eq in E. apply IH in I. now constructor.
      + intros D. inversion D; subst. exists r. split; [assumption|]. apply in_map. apply filter_In.
        split; [now apply IH|now apply Nat.eqb_eq].
    - rewrite in_flat_map. split.
      + intros (r & Ir & I). apply in_flat_map in I. destruct I as (d1 & I1 & I). apply in_map_iff in I.
        destruct I as (d2 & <- & I2). apply filter_In in I1, I2. destruct I1 as [I1 E1], I2 as [I2 E2].
        apply Nat.eqb_eq in E1, E2. apply IHa in I1. apply IHb in I2. now constructor.
      + intros D. inversion D; subst. exists r. split; [assumption|]. apply in_flat_map. exists d1. split.
        * apply filter_In. split; [now apply IHa|now apply Nat.eqb_eq].
        * apply in_map. apply filter_In. split; [now apply IHb|now apply Nat.eqb_eq].
  Qed.

  Lemma nodup_map_inj : forall A B (f : A -> B) l, (forall x y, f x = f y -> x = y) -> NoDup l -> NoDup (map f l).
  Proof.
    intros A B f l J N. induction N as [|x l NI N IH]; cbn; constructor; [|exact IH].
    intros I. apply in_map_iff in I. destruct I as (y & E & I). apply J in E. now subst.
  Qed.
  Lemma nodup_flat : forall A B (f : A -> list B) l, NoDup l -> (forall x, In x l -> NoDup (f x)) ->
    (forall x y z, In z (f x) -> In z (f y) -> x = y) -> NoDup (flat_map f l).
  Proof.
    intros A B f l N. induction N as [|x l NI N IH]; intros F D; cbn; [constructor|].
    assert (X : forall l1 l2 : list B, NoDup l1 -> NoDup l2 -> (forall z, In z l1 -> ~ In z l2) -> NoDup (l1 ++ l2)).
    { induction l1 as [|y l1 IH1]; intros l2 N1 N2 H; cbn; [exact N2|]. inversion N1; subst. constructor.
      - intros I. apply in_app_or in I. destruct I as [I|I]; [contradiction|]. apply (H y); [now left|exact I].
      - apply IH1; auto. intros z I. apply H. now right. }
    apply X.
    - apply F. now left.
    - apply IH; auto. intros y I. apply F. now right.
    - intros z I1 I2. apply in_flat_map in I2. destruct I2 as (y & Iy & Iz).
      rewrite (D x y z I1 Iz) in NI. contradiction.
  Qed.
  Lemma alld_nodup : forall t, Wf t -> NoDup (alld t).
  Proof.
    induction 1 as [pos n NA _ ND|l rules c NA _ ND R _ IH|l rules a b NA _ ND R _ IHa _ IHb]; cbn [alld].
    - destruct (lexical n) as [rs|] eqn:L; [|constructor; [intros []|constructor]].
      apply nodup_map_inj; [intros [? ?] [? ?] E; cbn in E; congruence|].
      apply NoDup_filter. apply (NoDup_map_inv fst). now apply ND.
    - apply nodup_flat; [exact ND| |].
      + intros r _. apply nodup_map_inj; [congruence|]. now apply NoDup_filter.
      + intros x y z I1 I2. apply in_map_iff in I1, I2. destruct I1 as (? & <- & _), I2 as (? & E & _). congruence.
    - apply nodup_flat; [exact ND| |].
      + intros r _. apply nodup_flat; [now apply NoDup_filter| |].
        * intros d1 _. apply nodup_map_inj; [congruence|]. now apply NoDup_filter.
        * intros x y z I1 I2. apply in_map_iff in I1, I2. destruct I1 as (? & <- & _), I2 as (? & E & _). congruence.
      + intros x y z I1 I2. apply in_flat_map in I1, I2. destruct I1 as (? & _ & I1), I2 as (? & _ & I2).
        apply in_map_iff in I1, I2. destruct I1 as (? & <- & _), I2 as (? & E & _). congruence.
  Qed.

  (** ** Sums *)
  Definition val (l : list der) : option Qc := match l with [] => None | _ => Some (qsum (map prob l)) end.
  Definition oadd (a b : option Qc) : option Qc :=
    match a, b with Some x, Some y => Some (Qcplus x y) | Some x, None => Some x | None, b => b end.
  Lemma qsum_app : forall a b, qsum (a ++ b) = Qcplus (qsum a) (qsum b).
  Proof. induction a as [|x a IH]; intros b; cbn; [now rewrite Qcplus_0_l|]. rewrite IH. apply Qcplus_assoc. Qed.
  Lemma val_app : forall a b, val (a ++ b) = oadd (val a) (val b).
  Proof.
    intros [|x a] b; [reflexivity|]. destruct b as [|y b]; [now rewrite app_nil_r|].
    unfold val. cbn [app]. cbn [oadd]. f_equal. change (x :: a ++ y :: b) with ((x :: a) ++ y :: b).
    now rewrite map_app, qsum_app.
  Qed.
  Lemma val_mult : forall (f : der -> der) q l, (forall d, prob (f d) = Qcmult q (prob d)) ->
    val (map f l) = match val l with Some s => Some (Qcmult q s) | None => None end.
  Proof.
    intros f q [|x l] H; [reflexivity|]. unfold val. cbn [map]. f_equal.
    change (qsum (map prob (map f (x :: l))) = Qcmult q (qsum (map prob (x :: l)))).
    generalize (x :: l). induction l0 as [|y m IH]; [cbn; symmetry; apply Qcmult_0_r|]. cbn [map qsum fold_right]. fold (qsum (map prob (map f m))) (qsum (map prob m)). rewrite IH, H. ring.
  Qed.
  Lemma val_prod : forall r l1 l2,
    val (flat_map (fun d1 => map (DBin r d1) l2) l1)
    = match val l1, val l2 with Some q1, Some q2 => Some (Qcmult (Qcmult (rprob r) q1) q2) | _, _ => None end.
  Proof.
    intros r l1 l2. destruct (val l2) as [q2|] eqn:V2.
    - induction l1 as [|d l1 IH]; [reflexivity|]. cbn [flat_map]. rewrite val_app, IH.
      rewrite (val_mult (DBin r d) (Qcmult (rprob r) (prob d))) by (intros; cbn; apply Qcmult_assoc).
      rewrite V2. change (d :: l1) with ([d] ++ l1). rewrite val_app. cbn [val map qsum fold_right oadd].
      destruct (val l1); cbn [oadd]; f_equal; ring.
    - destruct l2; [|discriminate]. replace (flat_map _ l1) with (@nil der); [destruct (val l1); reflexivity|].
      induction l1; [reflexivity|assumption].
  Qed.

  (** the probability of all derivations of t with root A *)
  Definition W (t : rtree) (A : nat) : option Qc := val (filter (fun d => root d =? A) (alld t)).

  Lemma filter_flat : forall A B (f : A -> list B) p l, filter p (flat_map f l) = flat_map (fun x => filter p (f x)) l.
  Proof.
    induction l as [|x l IH]; [reflexivity|]. cbn. rewrite <- IH. clear IH.
    induction (f x) as [|y m IHm]; [reflexivity|]. cbn. destruct (p y); cbn; now rewrite IHm.
  Qed.
  Lemma filter_const : forall A (p : A -> bool) b l, (forall x, In x l -> p x = b) -> filter p l = if b then l else [].
  Proof.
    induction l as [|x l IH]; intros H; [now destruct b|]. cbn. rewrite (H x) by now left.
    rewrite IH by (intros; apply H; now right). now destruct b.
  Qed.
  Lemma addto_get : forall c A p B, addto c A p B = if B =? A then oadd (c A) (Some p) else c B.
  Proof. intros. unfold addto, set. destruct (c A), (Nat.eqb_spec B A); subst; reflexivity. Qed.

  Lemma root_base : forall t d, Wf t -> Deriv t d -> baseof (root d) = label t.
  Proof.
    intros t d H D. destruct D as [pos n rs A p L I E|pos n L|l rules c r d I D E|l rules a b r d1 d2 I D1 E1 D2 E2];
      inversion H as [? ? NA T ?|? ? ? NA T ND R ?|? ? ? ? NA T ND R ? ?]; subst; cbn [root label].
    - reflexivity.
    - rewrite T. now apply base_id.
    - apply (R r I).
    - apply (R r I).
  Qed.
  Lemma W_base : forall t A, Wf t -> W t A <> None -> baseof A = label t.
  Proof.
    intros t A WF H. unfold W in H. destruct (filter _ (alld t)) as [|d l] eqn:F; [now destruct H|].
    assert (I : In d (filter (fun d => root d =? A) (alld t))) by (rewrite F; now left).
    apply filter_In in I. destruct I as [I E]. apply Nat.eqb_eq in E. subst A.
    apply root_base; [exact WF|]. now apply alld_spec.
  Qed.

  (** ** The loops over rules *)
  Lemma unary_loop : forall c (rules : list rule) (cl : cell),
    (forall r, In r rules -> cl (rhs1 r) = W c (rhs1 r)) ->
    (forall r r', In r rules -> In r' rules -> rhs1 r <> lhs r') ->
    forall A, (exists r, In r rules /\ lhs r = A) \/ True -> 
      fold_left unary rules cl A
      = oadd (cl A) (val (filter (fun d => root d =? A)
          (flat_map (fun r => map (DUn r) (filter (fun d => root d =? rhs1 r) (alld c))) rules))).
  Proof.
    intros c rules cl. induction rules as [|r rules IH] using rev_ind; intros H1 H2 A _.
    { cbn. now destruct (cl A). }
    rewrite fold_left_app. cbn [fold_left]. set (c' := fold_left unary rules cl) in *.
    assert (IH' : forall A, c' A = oadd (cl A) (val (filter (fun d => root d =? A)
          (flat_map (fun r => map (DUn r) (filter (fun d => root d =? rhs1 r) (alld c))) rules)))).
    { intros B. apply IH; auto.
      - intros; apply H1; apply in_or_app; now left.
      - intros; apply H2; apply in_or_app; now left. }
    rewrite flat_map_app, filter_app, val_app. cbn [flat_map]. rewrite app_nil_r.
    assert (E1 : c' (rhs1 r) = W c (rhs1 r)).
    { rewrite IH'. rewrite H1 by (apply in_or_app; right; now left).
      replace (filter _ (flat_map _ rules)) with (@nil der); [now destruct (W c (rhs1 r))|].
      symmetry. rewrite filter_flat.
      assert (Z : forall r', In r' rules -> lhs r' <> rhs1 r).
      { intros r' I E. apply (H2 r r'); [apply in_or_app; right; now left|apply in_or_app; now left|now symmetry]. }
      clear - Z. induction rules as [|r' rules IHr]; [reflexivity|]. cbn [flat_map].
      rewrite IHr by (intros; apply Z; now right). rewrite app_nil_r. rewrite (filter_const _ _ false); [reflexivity|].
      intros d I. apply in_map_iff in I. destruct I as (d' & <- & _). cbn. apply Nat.eqb_neq. apply Z. now left. }
    pose proof (IH' A) as IA. revert IA.
    set (V0 := val (filter (fun d => root d =? A) (flat_map (fun r0 => map (DUn r0) _) rules))). intros IA.
    unfold unary at 1. rewrite E1. unfold W.
    set (F := filter (fun d => root d =? rhs1 r) (alld c)) in *.
    rewrite (filter_const _ _ (lhs r =? A)).
    2:{ intros d I. apply in_map_iff in I. destruct I as (d' & <- & _). reflexivity. }
    pose proof (val_mult (DUn r) (rprob r) F (fun d => eq_refl)) as VM.
    destruct (val F) as [q|].
    - rewrite addto_get. rewrite (Nat.eqb_sym A). destruct (Nat.eqb_spec (lhs r) A) as [E|NE].
      + rewrite VM, E, IA. destruct (cl A), V0; cbn; f_equal; ring.
      + rewrite IA. destruct (cl A), V0; reflexivity.
    - rewrite IA. destruct (lhs r =? A); rewrite ?VM; destruct (cl A), V0; reflexivity.
  Qed.
  Lemma binary_loop : forall a b (la lb : cell) (rules : list rule),
    (forall r, In r rules -> la (rhs1 r) = W a (rhs1 r)) ->
    (forall r, In r rules -> lb (rhs2 r) = W b (rhs2 r)) ->
    forall A cl, fold_left (binary la lb) rules cl A
      = oadd (cl A) (val (filter (fun d => root d =? A) (alld (Bin [] rules a b)))).
  Proof.
    intros a b la lb rules. cbn [alld]. induction rules as [|r rules IH] using rev_ind; intros H1 H2 A cl.
    { cbn. now destruct (cl A). }
    rewrite fold_left_app. cbn [fold_left].
    assert (IH' := IH (fun r I => H1 r (in_or_app _ _ _ (or_introl I))) (fun r I => H2 r (in_or_app _ _ _ (or_introl I)))).
    clear IH.
    rewrite flat_map_app, filter_app, val_app. cbn [flat_map]. rewrite app_nil_r.
    pose proof (IH' A cl) as IA. revert IA.
    set (V0 := val (filter (fun d => root d =? A) (flat_map (fun r0 => flat_map _ _) rules))). intros IA.
    unfold binary at 1. rewrite H1, H2 by (apply in_or_app; right; now left).
    rewrite (filter_const _ _ (lhs r =? A)).
    2:{ intros d I. apply in_flat_map in I. destruct I as (d1 & _ & I). apply in_map_iff in I.
        destruct I as (d' & <- & _). reflexivity. }
    pose proof (val_prod r (filter (fun d => root d =? rhs1 r) (alld a)) (filter (fun d => root d =? rhs2 r) (alld b))) as VP.
    fold (W a (rhs1 r)) in VP. fold (W b (rhs2 r)) in VP.
    destruct (W a (rhs1 r)) as [q1|], (W b (rhs2 r)) as [q2|].
    2-4: rewrite IA; destruct (lhs r =? A); rewrite ?VP; destruct (cl A), V0; reflexivity.
    rewrite addto_get, (Nat.eqb_sym A). destruct (Nat.eqb_spec (lhs r) A) as [E|NE].
    - rewrite VP, E, IA. destruct (cl A), V0; cbn; f_equal; ring.
    - rewrite IA. destruct (cl A), V0; reflexivity.
  Qed.
  (** ** The chart *)
  Fixpoint CC (t : rtree) (A : nat) : option Qc :=
    if eqs (baseof A) (label t) then W t A else match t with Un _ _ c => CC c A | _ => None end.
  Lemma CC_top : forall t A, baseof A = label t -> CC t A = W t A.
  Proof. intros t A E. apply eqs_eq in E. destruct t; cbn [CC label] in *; now rewrite E. Qed.
  Lemma CC_chain : forall t A, CC t A <> None -> In (baseof A) (chain t).
  Proof.
    induction t as [pos n|l rules c IH|l rules a IHa b IHb]; intros A H; cbn [CC chain] in *;
      destruct (eqs (baseof A) _) eqn:E; try (apply eqs_eq in E; left; cbn in *; congruence).
    - now destruct H.
    - right. now apply IH.
    - now destruct H.
  Qed.
  Lemma val_nil : forall l, val l = None -> l = [].
  Proof. intros [|x l] H; [reflexivity|discriminate]. Qed.
  Lemma W_none : forall t A, Wf t -> baseof A <> label t -> W t A = None.
  Proof.
    intros t A WF N. destruct (W t A) eqn:E; [|reflexivity]. exfalso. apply N. apply W_base; [exact WF|congruence].
  Qed.
  Lemma poscell_W : forall pos n A, Wf (Pre pos n) -> poscell tolabel toid lexical pos n A = W (Pre pos n) A.
  Proof.
    intros pos n A WF. inversion WF as [? ? NA T ND| |]; subst. unfold poscell, W. cbn [alld].
    destruct (lexical n) as [rs|].
    - specialize (ND rs eq_refl). revert ND. induction rs as [|[B p] rs IH] using rev_ind; intros ND; [reflexivity|].
      rewrite map_app in ND. cbn [map fst] in ND.
      assert (ND' : NoDup (map fst rs) /\ ~ In B (map fst rs)).
      { apply NoDup_remove in ND. rewrite app_nil_r in ND. exact ND. }
      destruct ND' as [ND' NB]. specialize (IH ND').
      rewrite fold_left_app, filter_app, map_app, filter_app, val_app, <- IH. cbn [fold_left filter fst].
      destruct (matches tolabel pos B) eqn:M; cbn [map filter val oadd fst snd root].
      + unfold set at 1. rewrite (Nat.eqb_sym A). destruct (Nat.eqb_spec B A) as [->|NE].
        * replace (fold_left _ rs empty A) with (@None Qc); [cbn; f_equal; symmetry; apply Qcplus_0_r|].
          clear - NB. symmetry. induction rs as [|[C q] rs IH] using rev_ind; [reflexivity|].
          rewrite fold_left_app. cbn [fold_left]. rewrite map_app in NB. cbn [map fst] in NB.
          assert (N1 : ~ In A (map fst rs)) by (intros I; apply NB, in_or_app; now left).
          assert (N2 : A <> C) by (intros ->; apply NB, in_or_app; right; now left).
          destruct (matches tolabel pos C); [|auto]. unfold set at 1. apply Nat.eqb_neq in N2. rewrite N2. auto.
        * cbn. now destruct (fold_left _ rs empty A).
      + cbn. now destruct (fold_left _ rs empty A).
    - cbn [filter root]. unfold set, empty. rewrite (Nat.eqb_sym A).
      destruct (toid pos =? A); [|reflexivity]. cbn. f_equal; symmetry; apply Qcplus_0_r.
  Qed.

  Notation tb k n := (N.testbit k (N.of_nat n)).
  Lemma bits_spec : forall t n, tb (bits t) n = true <-> In n (leaves t).
  Proof.
    unfold leaves. induction t as [pos m|l rules c IH|l rules a IHa b IHb]; intros n; cbn [bits tpos map fst].
    - rewrite N.shiftl_1_l, N.pow2_bits_eqb, N.eqb_eq. cbn. split; [intros E; left; lia|intros [E|[]]; lia].
    - apply IH.
    - rewrite N.lor_spec, orb_true_iff, IHa, IHb, map_app, in_app_iff. reflexivity.
  Qed.
  Lemma leaves_cons : forall t, exists n, In n (leaves t).
  Proof.
    unfold leaves. induction t as [pos m|l rules c IH|l rules a IHa b IHb]; cbn [tpos map fst].
    - exists m. now left.
    - exact IH.
    - destruct IHa as (n & I). exists n. rewrite map_app. apply in_or_app. now left.
  Qed.
  Lemma getc_some : forall ch k cl, ch k = Some cl -> getc ch k = cl.
  Proof. intros ch k cl E. unfold getc. now rewrite E. Qed.
  Lemma nodup_app : forall (a b : list nat), NoDup (a ++ b) -> NoDup a /\ NoDup b /\ forall x, In x a -> ~ In x b.
  Proof.
    induction a as [|x a IH]; intros b N; cbn in *; [repeat split; [constructor|exact N|intros ? []]|].
    inversion N as [|? ? NI N']; subst. destruct (IH b N') as (A & B & C). split; [|split; [exact B|]].
    - constructor; [|exact A]. intros I. apply NI, in_or_app. now left.
    - intros y [<-|I]; [|auto]. intros J. apply NI, in_or_app. now right.
  Qed.
  Lemma distinct_sub : forall t s, distinctchains t -> In s (subtrees t) ->
    (forall x, In x (subtrees s) -> In x (subtrees t)) -> distinctchains s.
  Proof. intros t s D I H x Ix. apply D. now apply H. Qed.

  Lemma run_ok : forall t, Wf t -> distinctchains t -> NoDup (leaves t) -> forall ch : chart,
    (forall n pos, In (n, pos) (tpos t) -> ch (N.shiftl 1 (N.of_nat n)) = Some (poscell tolabel toid lexical pos n)) ->
    (forall k, (forall n, tb k n = true -> In n (leaves t)) ->
       (exists n m, n <> m /\ tb k n = true /\ tb k m = true) -> ch k = None) ->
    let ch' := fold_left step (rev (subtrees t)) ch in
    (exists cl, ch' (bits t) = Some cl /\ forall A, cl A = CC t A)
    /\ (forall k n, tb k n = true -> ~ In n (leaves t) -> ch' k = ch k).
  Proof.
    induction t as [pos m|l rules c IH|l rules a IHa b IHb]; intros WF D ND ch HP HK; cbv zeta.
    - cbn [subtrees rev app fold_left step]. split; [|reflexivity]. exists (poscell tolabel toid lexical pos m). split.
      + apply HP. now left.
      + intros A. rewrite poscell_W by exact WF. destruct (W (Pre pos m) A) as [q|] eqn:E.
        * rewrite <- E. symmetry. apply CC_top. apply W_base; [exact WF|congruence].
        * cbn [CC]. rewrite E. now destruct (eqs _ _).
    - inversion WF as [|? ? ? NA T NR R WFc|]; subst.
      assert (Dc : distinctchains c) by (intros x I; apply D; now right).
      destruct (IH WFc Dc ND ch HP HK) as ((cl & E1 & E2) & F).
      cbn [subtrees rev]. rewrite fold_left_app. cbn [fold_left step bits].
      set (ch1 := fold_left step (rev (subtrees c)) ch) in *. split.
      + eexists. split; [unfold setc; now rewrite N.eqb_refl|]. intros A.
        rewrite (getc_some _ _ _ E1).
        assert (NC : NoDup (l :: chain c)) by (apply (D (Un l rules c)); now left).
        inversion NC as [|? ? NI NC']; subst.
        assert (LC : In (label c) (chain c)) by (destruct c; now left).
        rewrite (unary_loop c rules cl).
        * rewrite E2. change (val _) with (W (Un l rules c) A). cbn [CC label].
          destruct (eqs (baseof A) l) eqn:Q.
          -- apply eqs_eq in Q. destruct (CC c A) eqn:Z; [|reflexivity].
             exfalso. apply NI. rewrite <- Q. apply CC_chain. congruence.
          -- rewrite (W_none (Un l rules c)).
             ++ now destruct (CC c A).
             ++ exact WF.
             ++ cbn [label]. intros X. apply eqs_eq in X. congruence.
        * intros r I. rewrite E2. apply CC_top. now apply R.
        * intros r r' I I' X. apply NI. destruct (R r I) as [_ <-] in LC.
          destruct (R r' I') as [B1 _]. rewrite X in LC. now rewrite B1 in LC.
        * now right.
      + intros k n Tk NI. unfold setc. destruct (N.eqb_spec k (bits c)) as [->|NE].
        * exfalso. apply NI. now apply bits_spec in Tk.
        * now apply (F k n).
    - inversion WF as [| |? ? ? ? NA T NR R WFa WFb]; subst.
      unfold leaves in ND, HK. cbn [tpos] in ND, HP, HK. rewrite map_app in ND, HK. fold (leaves a) (leaves b) in ND, HK.
      destruct (nodup_app _ _ ND) as (NDa & NDb & DIS).
      assert (Da : distinctchains a) by (intros x I; apply D; right; apply in_or_app; now left).
      assert (Db : distinctchains b) by (intros x I; apply D; right; apply in_or_app; now right).
      destruct (IHb WFb Db NDb ch) as ((clb & Eb1 & Eb2) & Fb).
      { intros n pos I. apply HP. apply in_or_app. now right. }
      { intros k Hk. apply HK. intros n I. apply in_or_app. right. now apply Hk. }
      set (ch1 := fold_left step (rev (subtrees b)) ch) in *.
      destruct (IHa WFa Da NDa ch1) as ((cla & Ea1 & Ea2) & Fa).
      { intros n pos I. assert (In n (leaves a)) by (unfold leaves; change n with (fst (n, pos)); now apply in_map).
        rewrite (Fb _ n).
        - apply HP. apply in_or_app. now left.
        - rewrite N.shiftl_1_l, N.pow2_bits_eqb. apply N.eqb_refl.
        - now apply DIS. }
      { intros k Hk (n & m & X & Tn & Tm). rewrite (Fb k n).
        - apply HK; [intros x I; apply in_or_app; left; now apply Hk|]. exists n, m. auto.
        - exact Tn.
        - apply DIS. now apply Hk. }
      set (ch2 := fold_left step (rev (subtrees a)) ch1) in *.
      assert (RUN : fold_left step (rev (subtrees (Bin l rules a b))) ch = step ch2 (Bin l rules a b)).
      { cbn [subtrees rev]. rewrite rev_app_distr, !fold_left_app. reflexivity. }
      rewrite RUN. cbn [step].
      destruct (leaves_cons a) as (na & Ia). destruct (leaves_cons b) as (nb & Ib).
      assert (Nab : ~ In nb (leaves a)) by (intros I; exact (DIS _ I Ib)).
      assert (Nba : ~ In na (leaves b)) by (now apply DIS).
      assert (Ta : tb (bits (Bin l rules a b)) na = true).
      { apply bits_spec. unfold leaves. cbn [tpos]. rewrite map_app. apply in_or_app. now left. }
      assert (Tb : tb (bits (Bin l rules a b)) nb = true).
      { apply bits_spec. unfold leaves. cbn [tpos]. rewrite map_app. apply in_or_app. now right. }
      assert (Z : ch2 (bits (Bin l rules a b)) = None).
      { rewrite (Fa _ nb Tb Nab), (Fb _ na Ta Nba). apply HK.
        - intros n I. apply bits_spec in I. unfold leaves in I. cbn [tpos] in I. now rewrite map_app in I.
        - exists na, nb. split; [|split; assumption]. intros ->. exact (Nab Ia). }
      assert (Eb : ch2 (bits b) = Some clb).
      { rewrite (Fa _ nb); [exact Eb1| |exact Nab]. now apply bits_spec. }
      split.
      + eexists. split; [unfold setc; now rewrite N.eqb_refl|]. intros A.
        rewrite (getc_some _ _ _ Ea1), (getc_some _ _ _ Eb). unfold getc. rewrite Z.
        rewrite (binary_loop a b cla clb rules).
        * change (val _) with (W (Bin l rules a b) A). cbn [empty oadd CC label].
          destruct (eqs (baseof A) l) eqn:Q; [reflexivity|].
          rewrite (W_none (Bin l rules a b)); [reflexivity|exact WF|].
          cbn [label]. intros X. apply eqs_eq in X. congruence.
        * intros r I. rewrite Ea2. apply CC_top. now apply R.
        * intros r I. rewrite Eb2. apply CC_top. now apply R.
      + intros k n Tk NI. unfold leaves in NI. cbn [tpos] in NI. rewrite map_app, in_app_iff in NI.
        unfold setc. destruct (N.eqb_spec k (bits (Bin l rules a b))) as [->|NE].
        * exfalso. apply NI. apply bits_spec in Tk. unfold leaves in Tk. cbn [tpos] in Tk.
          rewrite map_app in Tk. now apply in_app_or in Tk.
        * rewrite (Fa k n) by tauto. apply (Fb k n); tauto.
  Qed.

  Lemma addpos_spec : forall l : list (nat * pystr), NoDup (map fst l) ->
    let ch := fold_left (fun ch '(n, pos) => setc ch (N.shiftl 1 (N.of_nat n)) (poscell tolabel toid lexical pos n)) l (fun _ => None) in
    (forall n pos, In (n, pos) l -> ch (N.shiftl 1 (N.of_nat n)) = Some (poscell tolabel toid lexical pos n))
    /\ (forall k, (exists n m, n <> m /\ tb k n = true /\ tb k m = true) -> ch k = None).
  Proof.
    assert (SH : forall n m, tb (N.shiftl 1 (N.of_nat m)) n = (m =? n)).
    { intros n m. rewrite N.shiftl_1_l, N.pow2_bits_eqb. destruct (N.eqb_spec (N.of_nat m) (N.of_nat n)), (Nat.eqb_spec m n); lia || reflexivity. }
    induction l as [|[m q] l IH] using rev_ind; intros ND; cbv zeta.
    { split; [intros ? ? []|reflexivity]. }
    rewrite map_app in ND. cbn [map fst] in ND. apply NoDup_remove in ND. rewrite app_nil_r in ND.
    destruct ND as [ND NI]. destruct (IH ND) as [A B]. rewrite fold_left_app. cbn [fold_left].
    split.
    - intros n pos I. apply in_app_or in I. destruct I as [I|[I|[]]].
      + unfold setc at 1. destruct (N.eqb_spec (N.shiftl 1 (N.of_nat n)) (N.shiftl 1 (N.of_nat m))) as [E|NE].
        * exfalso. apply (f_equal (fun k => tb k n)) in E. rewrite !SH, Nat.eqb_refl in E.
          symmetry in E. apply Nat.eqb_eq in E. subst. apply NI. change n with (fst (n, pos)). now apply in_map.
        * now apply A.
      + injection I as <- <-. unfold setc at 1. now rewrite N.eqb_refl.
    - intros k (x & y & NE & Tx & Ty). unfold setc at 1. destruct (N.eqb_spec k (N.shiftl 1 (N.of_nat m))) as [->|_].
      + rewrite SH in Tx, Ty. apply Nat.eqb_eq in Tx, Ty. congruence.
      + apply B. exists x, y. auto.
  Qed.

  Lemma perm_sum : forall l l' : list Qc, Permutation l l' -> qsum l = qsum l'.
  Proof. unfold qsum. induction 1; cbn; [reflexivity|now rewrite IHPermutation|ring|congruence]. Qed.

  (** A tree has finitely many derivations with a given root ... *)
  Theorem C93_finite : forall t A, Wf t -> exists ds, NoDup ds /\ forall d, In d ds <-> Deriv t d /\ root d = A.
  Proof.
    intros t A WF. exists (filter (fun d => root d =? A) (alld t)). split; [apply NoDup_filter; now apply alld_nodup|].
    intros d. rewrite filter_In, alld_spec by exact WF. now rewrite Nat.eqb_eq.
  Qed.
  (** ... and dopparseprob gives the sum of the probabilities of those whose root
      is the label of the tree, each counted once ([None], a logarithm of -inf,
      when there are none). *)
  Theorem C93_dopparseprob : forall t ds, Wf t -> distinctchains t -> NoDup (leaves t) ->
    NoDup ds -> (forall d, In d ds <-> Deriv t d /\ root d = toid (label t)) ->
    dopparseprob tolabel toid lexical t = match ds with [] => None | _ => Some (qsum (map prob ds)) end.
  Proof.
    intros t ds WF D ND NS S. unfold dopparseprob.
    destruct (addpos_spec (tpos t) ND) as [A B]. fold (addpos tolabel toid lexical t) in A, B.
    destruct (run_ok t WF D ND (addpos tolabel toid lexical t) A (fun k _ => B k)) as ((cl & E1 & E2) & _).
    rewrite (getc_some _ _ _ E1), E2.
    assert (TL : baseof (toid (label t)) = label t).
    { inversion WF; subst; cbn [label]; rewrite ?H0, ?base_id; auto. }
    rewrite CC_top by exact TL. unfold W.
    assert (P : Permutation ds (filter (fun d => root d =? toid (label t)) (alld t))).
    { apply NoDup_Permutation; [exact NS|apply NoDup_filter; now apply alld_nodup|].
      intros d. rewrite S, filter_In, alld_spec by exact WF. now rewrite Nat.eqb_eq. }
    pose proof (perm_sum _ _ (Permutation_map prob P)) as Q.
    destruct ds as [|d ds].
    - apply Permutation_nil in P. now rewrite P.
    - destruct (filter _ (alld t)) as [|d' l']; [apply Permutation_sym, Permutation_nil in P; discriminate|].
      unfold val. now rewrite Q.
  Qed.
End Props.

(** ** Examples *)
Definition q (a : Z) (b : positive) : Qc := Q2Qc (a # b).
Definition ex_tolabel (A : nat) : pystr :=
  nth A [str "S"; str "A"; str "B"; str "A@1"; str "B@2"]%string [].
Definition ex_toid (s : pystr) : nat :=
  if eqs s (str "S"%string) then 0 else if eqs s (str "A"%string) then 1 else 2.
Definition ex_lexical (n : nat) : option (list (nat * Qc)) :=
  match n with 0 => Some [(1, q 1 2); (3, q 1 1)] | _ => None end.
(** (S (A 0) (B 1)): the first word has two labels, the second is unknown. *)
Definition ex_tree : rtree :=
  Bin (str "S"%string) [Rule 0 1 2 (q 1 4); Rule 0 3 2 (q 1 8); Rule 0 3 4 (q 1 8)]
    (Pre (str "A"%string) 0) (Pre (str "B"%string) 1).
Example C93_example :
  dopparseprob ex_tolabel ex_toid ex_lexical ex_tree = Some (q 1 4)
  /\ map prob (alld ex_tolabel ex_toid ex_lexical ex_tree) = [q 1 8; q 1 8].
Proof.
  split.
  - refine (f_equal Some _). apply Qc_is_canon. vm_compute. reflexivity.
  - refine (f_equal2 cons _ (f_equal2 cons _ eq_refl)); apply Qc_is_canon; vm_compute; reflexivity.
Qed.
Lemma C93_example_wf : Wf ex_tolabel ex_toid ex_lexical ex_tree /\ distinctchains ex_tree /\ NoDup (leaves ex_tree).
Proof.
  split; [|split].
  - apply wf_bin; try reflexivity.
    + vm_compute. intuition discriminate.
    + repeat (constructor; [cbn; intuition discriminate|]). constructor.
    + intros r [<-|[<-|[<-|[]]]]; repeat split; reflexivity.
    + apply wf_pre; [vm_compute; intuition discriminate|reflexivity|].
      intros rs E. injection E as <-. repeat (constructor; [cbn; intuition discriminate|]). constructor.
    + apply wf_pre; [vm_compute; intuition discriminate|reflexivity|]. discriminate.
  - intros s [<-|[<-|[<-|[]]]]; (constructor; [intros []|constructor]).
  - repeat (constructor; [cbn; intuition discriminate|]). constructor.
Qed.

(** Without distinctchains the claim is false of the code: all nodes with the same
    words share a cell, so for (A (A (B 0))) the inner A is counted as a
    derivation of the whole tree: 3/4 instead of 1/4. *)
Definition bad_lexical (n : nat) : option (list (nat * Qc)) := Some [(2, q 1 1)].
Definition bad_tree : rtree :=
  Un (str "A"%string) [Rule 1 1 0 (q 1 2)] (Un (str "A"%string) [Rule 1 2 0 (q 1 2)] (Pre (str "B"%string) 0)).
Theorem C93_chain_refuted : exists tolabel toid lexical t ds,
  Wf tolabel toid lexical t /\ NoDup (leaves t) /\ NoDup ds
  /\ (forall d, In d ds <-> Deriv tolabel toid lexical t d /\ root d = toid (label t))
  /\ qsum (map prob ds) = q 1 4
  /\ dopparseprob tolabel toid lexical t = Some (q 3 4).
Proof.
  assert (WF : Wf ex_tolabel ex_toid bad_lexical bad_tree).
  { apply wf_un; try reflexivity.
    - vm_compute. intuition discriminate.
    - repeat constructor. intros [].
    - intros r [<-|[]]; split; reflexivity.
    - apply wf_un; try reflexivity.
      + vm_compute. intuition discriminate.
      + repeat constructor. intros [].
      + intros r [<-|[]]; split; reflexivity.
      + apply wf_pre; [vm_compute; intuition discriminate|reflexivity|].
        intros rs E. injection E as <-. repeat constructor. intros []. }
  exists ex_tolabel, ex_toid, bad_lexical, bad_tree,
    (filter (fun d => root d =? 1) (alld ex_tolabel ex_toid bad_lexical bad_tree)).
  split; [exact WF|]. split; [repeat constructor; intros []|]. split; [apply NoDup_filter; now apply alld_nodup|].
  split; [|split].
  - intros d. rewrite filter_In, alld_spec by exact WF. now rewrite Nat.eqb_eq.
  - apply Qc_is_canon. vm_compute. reflexivity.
  - refine (f_equal Some _). apply Qc_is_canon. vm_compute. reflexivity.
Qed.
