(** C09, C10, C11: discodop.util.Agenda. *)
From Coq Require Import List Bool Arith ZArith Lia ZifyBool.
From Verif Require Import HeapqModel HeapqProofs AgendaModel AgendaSpec AgendaProofs.
Import ListNotations.

(** Keys with decidable equality and totally ordered values (no NaN), as
    Python's ==, < see them. *)
Definition good_keys {K} (keqb : K -> K -> bool) : Prop := forall a b, keqb a b = true <-> a = b.
Definition good_values {V} (vlt veq : V -> V -> bool) : Prop :=
  (forall a, vlt a a = false) /\
  (forall a b c, vlt a b = true -> vlt b c = true -> vlt a c = true) /\
  (forall a b c, vlt a b = false -> vlt b c = false -> vlt a c = false) /\
  (forall a b, veq a b = true <-> (vlt a b = false /\ vlt b a = false)).

Theorem C09_agenda_is_priority_queue : forall K V keqb (vlt veq : V -> V -> bool),
  @good_keys K keqb -> good_values vlt veq -> forall l ops,
  Forall (fun o => match o with OPeek | OLen | OBool => False | _ => True end) ops ->
  exists d, initial (fun a b => vlt a b = true) l d /\
            spec_run (least (fun a b => vlt a b = true)) d ops
                     (run keqb vlt veq (init keqb vlt veq l) ops).
Proof.
  intros K V keqb vlt veq GK (G1 & G2 & G3 & G4) l ops HO.
  destruct (init_ok keqb vlt veq GK G1 G2 G3 G4 l) as (d & D & HI & Hv & Hc & HL).
  exists d. split; auto. apply run_ok; auto. apply InvI_Inv; auto.
Qed.

(** The initial contents are determined by the iterable. *)
Lemma initial_keys : forall K V (lt : V -> V -> Prop) l (d : list (K * V)),
  initial lt l d -> NoDup (map fst d).
Proof.
  induction 1.
  - constructor.
  - rewrite map_app. cbn. apply NoDup_Add with (a := k) (l := map fst d).
    + rewrite <- (app_nil_r (map fst d)) at 1. apply Add_app.
    + split; auto. intros H1. apply H0. apply in_map_iff in H1. destruct H1 as ([k' v'] & E & H1).
      cbn in E. subst. exists v'. auto.
  - subst d. rewrite map_app in *. exact IHinitial.
  - auto.
Qed.
Lemma keys_inj : forall K V (d : list (K * V)) k v v', NoDup (map fst d) -> In (k, v) d -> In (k, v') d -> v = v'.
Proof.
  induction d as [|[k0 v0] d IH]; intros k v v' N H1 H2; [contradiction|]. cbn in N. inversion N; subst.
  destruct H1 as [H1|H1], H2 as [H2|H2]; try congruence.
  - inversion H1; subst. exfalso. apply H3. now apply (in_map fst) in H2.
  - inversion H2; subst. exfalso. apply H3. now apply (in_map fst) in H1.
  - eauto.
Qed.
Lemma split_inj : forall K V (d1 d2 e1 e2 : list (K * V)) k v v', NoDup (map fst (d1 ++ (k, v) :: d2)) ->
  d1 ++ (k, v) :: d2 = e1 ++ (k, v') :: e2 -> d1 = e1 /\ d2 = e2.
Proof.
  induction d1 as [|x d1 IH]; intros d2 e1 e2 k v v' N E; destruct e1 as [|y e1]; cbn in *; inversion E; subst; auto.
  - exfalso. inversion N; subst. apply H1. rewrite map_app. apply (in_elt k).
  - exfalso. inversion N; subst. apply H1. rewrite map_app. apply (in_elt k).
  - inversion N; subst. destruct (IH d2 e1 e2 k v v') as [-> ->]; auto.
Qed.
Lemma initial_fun : forall K V (lt : V -> V -> Prop) l (d d' : list (K * V)),
  initial lt l d -> initial lt l d' -> d = d'.
Proof.
  intros K V lt l d d' H. revert d'. induction H; intros d' H'.
  - inversion H'; auto; match goal with E : _ ++ [_] = [] |- _ => symmetry in E; now apply app_cons_not_nil in E end.
  - inversion H'; subst.
    + now apply app_cons_not_nil in H2.
    + apply app_inj_tail in H1. destruct H1 as [-> E]. inversion E; subst. now rewrite (IHinitial _ H2).
    + apply app_inj_tail in H1. destruct H1 as [-> E]. inversion E; subst. pose proof (IHinitial _ H2) as Ed.
      exfalso. apply H0. eexists. rewrite Ed. apply in_elt.
    + apply app_inj_tail in H1. destruct H1 as [-> E]. inversion E; subst. pose proof (IHinitial _ H2) as Ed.
      exfalso. apply H0. eexists. rewrite Ed. eassumption.
  - pose proof (initial_keys _ _ _ _ _ H) as ND. inversion H'; subst.
    + now apply app_cons_not_nil in H3.
    + apply app_inj_tail in H2. destruct H2 as [-> E]. inversion E; subst. pose proof (IHinitial _ H3) as Ed.
      exfalso. apply H4. eexists. rewrite <- Ed. apply in_elt.
    + apply app_inj_tail in H2. destruct H2 as [-> E]. inversion E; subst. pose proof (IHinitial _ H3) as Ed.
      destruct (split_inj _ _ _ _ _ _ _ _ _ ND Ed) as [-> ->]. reflexivity.
    + apply app_inj_tail in H2. destruct H2 as [-> E]. inversion E; subst. pose proof (IHinitial _ H3) as Ed.
      exfalso. match goal with I : ~ lt _ _ |- _ => apply I end. match goal with I : In (k, ?w) d' |- _ => assert (w = v0); [|congruence] end.
      apply (keys_inj _ _ d' k); auto; rewrite <- Ed; auto; apply in_elt.
  - pose proof (initial_keys _ _ _ _ _ H) as ND. inversion H'; subst.
    + now apply app_cons_not_nil in H3.
    + apply app_inj_tail in H2. destruct H2 as [-> E]. inversion E; subst. pose proof (IHinitial _ H3) as Ed.
      exfalso. apply H4. eexists. rewrite <- Ed. eassumption.
    + apply app_inj_tail in H2. destruct H2 as [-> E]. inversion E; subst. pose proof (IHinitial _ H3) as Ed.
      exfalso. apply H1. match goal with I : lt v ?w |- _ => assert (v0 = w); [|congruence] end.
      apply (keys_inj _ _ d k); auto. rewrite Ed. apply in_elt.
    + apply app_inj_tail in H2. destruct H2 as [-> E]. inversion E; subst. auto.
Qed.

(** Ties go to the oldest key, as long as no stored key is updated or deleted. *)
Theorem C09_ties_oldest_first : forall K V keqb (vlt veq : V -> V -> bool),
  @good_keys K keqb -> good_values vlt veq -> forall l d ops,
  initial (fun a b => vlt a b = true) l d ->
  fresh_history (fun a b => vlt a b = true) False d ops ->
  spec_run (oldest_least (fun a b => vlt a b = true)) d ops
           (run keqb vlt veq (init keqb vlt veq l) ops).
Proof.
  intros K V keqb vlt veq GK (G1 & G2 & G3 & G4) l d ops Hd HO.
  destruct (init_ok keqb vlt veq GK G1 G2 G3 G4 l) as (d' & D & HI & Hv & Hc & HL).
  rewrite (initial_fun _ _ _ _ _ _ Hd D) in *.
  eapply fresh_run_ok; eauto; [constructor; auto|intros []].
Qed.
(** With updates the order among ties is lost: 1 is the oldest key, 2 pops. *)
Theorem C09_ties_after_update_refuted :
  run Nat.eqb Nat.ltb Nat.eqb (init Nat.eqb Nat.ltb Nat.eqb [])
      [OSet 1 10; OSet 2 5; OSet 3 5; OSet 4 20; OSet 5 20; ODel 3; OSet 1 5; OItems; OPopItem]
  = [RNone; RNone; RNone; RNone; RNone; RNone; RNone;
     RItems [(1, 5); (2, 5); (4, 20); (5, 20)]; RItem 2 5].
Proof. reflexivity. Qed.

Lemma good_nat : good_keys Nat.eqb /\ good_values Nat.ltb Nat.eqb.
Proof. unfold good_keys, good_values. repeat split; intros; lia. Qed.
Example C09_ex : Forall (fun o => match o with OPeek | OLen | OBool => False | _ => True end)
    [OSet 7 3; OPopItem; ODel 9; OUpdate [(7, 8); (2, 8)]; OPopItem] /\
  run Nat.eqb Nat.ltb Nat.eqb (init Nat.eqb Nat.ltb Nat.eqb [(1, 4); (2, 6); (1, 2)])
    [OSet 7 3; OPopItem; ODel 9; OUpdate [(7, 8); (2, 8)]; OPopItem]
  = [RNone; RItem 1 2; RKeyError; RNone; RItem 2 8] /\
  initial (fun a b => Nat.ltb a b = true) [(1, 4); (2, 6); (1, 2)] [(1, 2); (2, 6)].
Proof.
  split; [repeat constructor|]. split; [reflexivity|].
  apply (initial_better _ [(1, 4); (2, 6)] 1 2 [(1, 4); (2, 6)] [] 4 [(2, 6)]); [|reflexivity|reflexivity].
  apply (initial_new _ [(1, 4)] 2 6 [(1, 4)]).
  - apply (initial_new _ [] 1 4 []); [constructor|]. intros [v []].
  - intros [v [H|[]]]. inversion H.
Qed.

(** ** C10 *)
(** peekitem gives the item popitem would give and changes nothing, when keys
    are only inserted and popped. *)
Theorem C10_peek_without_updates : forall K V keqb (vlt veq : V -> V -> bool),
  @good_keys K keqb -> good_values vlt veq -> forall l ops,
  NoDup (map fst l) -> fresh_history (fun a b => vlt a b = true) True l ops ->
  spec_run (oldest_least (fun a b => vlt a b = true)) l ops
           (run keqb vlt veq (init keqb vlt veq l) ops).
Proof.
  intros K V keqb vlt veq GK (G1 & G2 & G3 & G4) l ops ND HO.
  destruct (init_ok keqb vlt veq GK G1 G2 G3 G4 l) as (d' & D & HI & Hv & Hc & HL).
  pose proof (initial_nodup _ _ _ D ND) as ->.
  eapply fresh_run_ok; eauto; [constructor; auto|]. intros _. now apply init_allvalid.
Qed.
(** One call in any reachable state: if the entry on top of the heap is the
    current entry of a stored key, peekitem returns a least item and leaves the
    agenda unchanged, and popitem would return the same item. *)
Theorem C10_peek_valid_top : forall K V keqb (vlt veq : V -> V -> bool),
  @good_keys K keqb -> good_values vlt veq -> forall l ops s d e t,
  Forall (fun o => o <> OPeek) ops ->
  s = fold_left (fun s o => fst (step keqb vlt veq s o)) ops (init keqb vlt veq l) ->
  snd (step keqb vlt veq s OItems) = RItems d ->
  heap s = e :: t -> ecount e <> 0 ->
  step keqb vlt veq s OPeek = (s, RItem (ekey e) (evalue e)) /\
  least (fun a b => vlt a b = true) d (ekey e) (evalue e) /\
  snd (step keqb vlt veq s OPopItem) = RItem (ekey e) (evalue e).
Proof.
  intros K V keqb vlt veq GK (G1 & G2 & G3 & G4) l ops s d e t HO Es Hd Hh He. cbn [step].
  assert (HI : Inv vlt s d).
  { destruct (init_ok keqb vlt veq GK G1 G2 G3 G4 l) as (d0 & D & HI & Hv & Hc & HL).
    assert (HI0 : Inv vlt (init keqb vlt veq l) d0) by (apply InvI_Inv; auto).
    clear D HI Hv Hc HL. revert d0 HI0 Es. generalize (init keqb vlt veq l) as s0.
    induction HO as [|o ops Ho HO IH]; intros s0 d0 HI0 Es; cbn in Es.
    - subst s0. destruct HI0 as [A1 A2 A3]. constructor; auto. cbn in Hd. inversion Hd. reflexivity.
    - assert (exists d1, Inv vlt (fst (step keqb vlt veq s0 o)) d1) as [d1 HI1]; [|eauto].
      assert (P : plain o \/ o = OLen \/ o = OBool) by (destruct o; cbn; auto).
      destruct P as [P|P].
      + pose proof (step_ok keqb vlt veq GK G1 G2 G3 G4 s0 d0 o HI0 (or_introl P)) as S.
        destruct (step keqb vlt veq s0 o) as [s1 r]. destruct S as (d1 & _ & I1 & _). cbn. eauto.
      + exists d0. destruct P; subst o; exact HI0. }
  assert (P : snd (popitem keqb vlt veq s) = RItem (ekey e) (evalue e)).
  { unfold popitem. cbn [pop_valid].
    destruct (heappop (entry_lt vlt veq) (heap s)) as [[x h']|] eqn:Ep.
    - destruct (heappop_top _ _ _ _ Ep) as [t' E]. rewrite Hh in E. inversion E; subst.
      replace (ecount x =? 0) with false by lia. reflexivity.
    - apply heappop_nil in Ep. congruence. }
  split; [|split; auto].
  - unfold peekitem. rewrite Hh. cbn [length peek_loop]. replace (ecount e =? 0) with false by lia.
    destruct s; cbn in *; now subst.
  - pose proof (popitem_ok keqb vlt veq GK G1 G2 G3 G4 s d HI) as Q.
    destruct (popitem keqb vlt veq s) as [s' r]. cbn in P. subst r. apply Q.
Qed.
(** After an update of the best key peekitem loses an entry: key 2 is still
    listed but can never be popped any more. *)
Theorem C10_peek_after_update_refuted :
  run Nat.eqb Nat.ltb Nat.eqb (init Nat.eqb Nat.ltb Nat.eqb [(1, 1); (2, 5); (3, 9)])
      [OSet 1 7; OPeek; OItems; OPopItem; OPopItem; OPopItem; OItems]
  = [RNone; RItem 2 5; RItems [(1, 7); (2, 5); (3, 9)]; RItem 1 7; RItem 3 9; RIndexError;
     RItems [(2, 5)]].
Proof. reflexivity. Qed.
(** ... or it claims that the queue is empty. *)
Theorem C10_peek_claims_empty_refuted :
  run Nat.eqb Nat.ltb Nat.eqb (init Nat.eqb Nat.ltb Nat.eqb [(1, 1); (2, 5)])
      [ODel 1; OPeek; OItems] = [RNone; RIndexError; RItems [(2, 5)]].
Proof. reflexivity. Qed.
Example C10_ex : fresh_history (fun a b => Nat.ltb a b = true) True [(1, 4); (2, 4)]
    [OPeek; OSet 3 4; OPeek] /\
  run Nat.eqb Nat.ltb Nat.eqb (init Nat.eqb Nat.ltb Nat.eqb [(1, 4); (2, 4)]) [OPeek; OSet 3 4; OPeek]
  = [RItem 1 4; RNone; RItem 1 4].
Proof.
  split; [|reflexivity]. constructor; auto. constructor.
  - intros [v [H|[H|[]]]]; inversion H.
  - constructor; auto. constructor.
Qed.

(** ** C11 *)
Theorem C11_len : forall K V keqb (vlt veq : V -> V -> bool),
  @good_keys K keqb -> good_values vlt veq -> forall l ops,
  Forall (fun o => match o with OPeek | OClear => False | _ => True end) ops ->
  exists d, initial (fun a b => vlt a b = true) l d /\
            spec_run (least (fun a b => vlt a b = true)) d ops
                     (run keqb vlt veq (init keqb vlt veq l) ops).
Proof.
  intros K V keqb vlt veq GK (G1 & G2 & G3 & G4) l ops HO.
  destruct (init_ok keqb vlt veq GK G1 G2 G3 G4 l) as (d & D & HI & Hv & Hc & HL).
  exists d. split; auto. apply run_ok; auto. apply InvI_Inv; auto.
Qed.
Theorem C11_clear_refuted :
  run Nat.eqb Nat.ltb Nat.eqb (init Nat.eqb Nat.ltb Nat.eqb [(1, 1); (2, 5)])
      [OClear; OItems; OLen; OBool] = [RNone; RItems []; RLen 2; RBool true].
Proof. reflexivity. Qed.
Example C11_ex : run Nat.eqb Nat.ltb Nat.eqb (init Nat.eqb Nat.ltb Nat.eqb [(1, 1); (2, 5); (1, 0)])
  [OLen; OSet 2 9; OLen; OSet 3 3; OPopItem; ODel 2; OLen; OPopItem; OLen; OBool]
  = [RLen 2; RNone; RLen 2; RNone; RItem 1 0; RNone; RLen 1; RItem 3 3; RLen 0; RBool false].
Proof. reflexivity. Qed.

Print Assumptions C09_agenda_is_priority_queue.
Print Assumptions C09_ties_oldest_first.
Print Assumptions C10_peek_without_updates.
Print Assumptions C10_peek_valid_top.
Print Assumptions C11_len.
