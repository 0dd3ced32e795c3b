(** C12: the compiled agenda. *)
From Coq Require Import List Bool Arith Lia Permutation ZifyBool Sorted.
From Verif Require Import AgendaModel AgendaSpec AgendaProps CAgendaModel CAgendaSpec CAgendaProofs.
Import ListNotations.

(** Values are totally ordered and == is equality (pairs of floats without NaN). *)
Definition good_prios {V} (vlt veq : V -> V -> bool) : Prop :=
  good_values vlt veq /\ forall a b, vlt a b = false -> vlt b a = false -> a = b.
Definition ltof {V} (vlt : V -> V -> bool) (a b : V) : Prop := vlt a b = true.

(** Started empty, pop always gives a stored key of least priority, with the
    best priority stored for it, as long as priorities stored for a key that is
    not on the agenda (or stored unconditionally) do not get worse. *)
Theorem C12_pop_best : forall K V keqb (vlt veq : V -> V -> bool),
  @good_keys K keqb -> good_prios vlt veq -> forall ops rs,
  improving (ltof vlt) [] [] ops -> crun keqb vlt veq cempty ops rs ->
  qrun (ltof vlt) (least (ltof vlt)) [] ops rs.
Proof.
  intros K V keqb vlt veq GK ((G1 & G2 & G3 & G4) & G5) ops rs HM HR.
  exact (crun_ok keqb vlt veq GK G1 G2 G3 G4 G5 ops cempty [] [] rs (empty_inv vlt) HM HR).
Qed.
(** The same after filling the agenda with [replace_entries] or [kbest_entries]. *)
Theorem C12_replace_entries : forall K V keqb (vlt veq : V -> V -> bool),
  @good_keys K keqb -> good_prios vlt veq -> forall l, exists d, puts_all l [] d /\
  forall ops rs, improving (ltof vlt) d d ops ->
  crun keqb vlt veq (replace_entries keqb l) ops rs -> qrun (ltof vlt) (least (ltof vlt)) d ops rs.
Proof.
  intros K V keqb vlt veq GK ((G1 & G2 & G3 & G4) & G5) l.
  destruct (replace_ok keqb vlt GK G1 l) as (d & P & HI). exists d. split; auto.
  intros ops rs HM HR. exact (crun_ok keqb vlt veq GK G1 G2 G3 G4 G5 ops _ d d rs HI HM HR).
Qed.
Theorem C12_kbest_entries : forall K V keqb (vlt veq : V -> V -> bool),
  @good_keys K keqb -> good_prios vlt veq -> forall l k s,
  kbest_entries keqb vlt veq l k s ->
  exists d d', initial (ltof vlt) l d /\ best_of (ltof vlt) d k d' /\
  forall ops rs, improving (ltof vlt) d' d' ops ->
  crun keqb vlt veq s ops rs -> qrun (ltof vlt) (least (ltof vlt)) d' ops rs.
Proof.
  intros K V keqb vlt veq GK ((G1 & G2 & G3 & G4) & G5) l k s H.
  destruct (kbest_ok keqb vlt veq GK G1 G2 G3 G4 G5 l k s H) as (d & d' & A & B & C).
  exists d, d'. split; auto. split; auto. intros ops rs HM HR.
  exact (crun_ok keqb vlt veq GK G1 G2 G3 G4 G5 ops s d' d' rs C HM HR).
Qed.
(** Ties go to the key that was first stored earliest (improving the priority
    of a key does not change its age). *)
Theorem C12_ties_oldest_first : forall K V keqb (vlt veq : V -> V -> bool),
  @good_keys K keqb -> good_prios vlt veq -> forall ops rs,
  no_reinsert (ltof vlt) [] [] ops -> crun keqb vlt veq cempty ops rs ->
  qrun (ltof vlt) (oldest_least (ltof vlt)) [] ops rs.
Proof.
  intros K V keqb vlt veq GK ((G1 & G2 & G3 & G4) & G5) ops rs HM HR.
  exact (f_run_ok keqb vlt veq GK G1 G2 G3 G4 G5 ops cempty [] [] rs (empty_invF vlt) HM HR).
Qed.
(** The operations never get stuck (e.g. by popping from an empty heap). *)
Theorem C12_no_deadlock : forall K V keqb (vlt veq : V -> V -> bool),
  @good_keys K keqb -> good_prios vlt veq -> forall ops,
  improving (ltof vlt) [] [] ops -> exists rs, crun keqb vlt veq cempty ops rs.
Proof.
  intros K V keqb vlt veq GK ((G1 & G2 & G3 & G4) & G5) ops HM.
  assert (H : forall ops s d seen, CInv vlt s d seen -> improving (ltof vlt) d seen ops ->
            exists rs, crun keqb vlt veq s ops rs).
  { clear ops HM. induction ops as [|o ops IH]; intros s d seen HI HM; [exists []; constructor|].
    destruct (cstep_total keqb vlt veq G1 G2 G4 G5 s d seen o HI) as (r & s' & ST).
    destruct (cstep_ok keqb vlt veq GK G1 G2 G3 G4 G5 s d seen o r s' ops HI HM ST) as (d' & seen' & _ & I' & M').
    destruct (IH _ _ _ I' M') as [rs H]. exists (r :: rs). econstructor; eauto. }
  exact (H ops cempty [] [] (empty_inv vlt) HM).
Qed.

(** Popped priorities come out in order if nothing better than the last popped
    priority is stored afterwards (monotone deduction). *)
Fixpoint pops {K V} (ops : list (cop K V)) (rs : list (cres K V)) : list V :=
  match ops, rs with
  | CPop :: ops', CItem _ v :: rs' => v :: pops ops' rs'
  | _ :: ops', _ :: rs' => pops ops' rs'
  | _, _ => []
  end.
Fixpoint guarded {K V} (lt : V -> V -> Prop) (last : option V) (ops : list (cop K V)) (rs : list (cres K V)) : Prop :=
  match ops, rs with
  | CPop :: ops', CItem _ v :: rs' => guarded lt (Some v) ops' rs'
  | (CSet _ v | CSetIfBetter _ v) :: ops', _ :: rs' =>
      match last with Some u => ~ lt v u | None => True end /\ guarded lt last ops' rs'
  | _ :: ops', _ :: rs' => guarded lt last ops' rs'
  | _, _ => True
  end.
Lemma in_removes : forall K V k v (d d' : list (K * V)) x, removes k v d d' -> In x d' -> In x d.
Proof. intros K V k v d d' x H Hx. destruct H. apply in_app_or in Hx. apply in_or_app. destruct Hx; auto. right. now right. Qed.
Lemma in_mid : forall K V k v v0 (d1 d2 : list (K * V)) k' v', In (k', v') (d1 ++ (k, v) :: d2) ->
  In (k', v') (d1 ++ (k, v0) :: d2) \/ v' = v.
Proof.
  intros K V k v v0 d1 d2 k' v' H. apply in_app_or in H. destruct H as [H|[H|H]].
  - left. apply in_or_app; auto.
  - right. now inversion H.
  - left. apply in_or_app. right. now right.
Qed.
Lemma in_puts : forall K V k v (d d' : list (K * V)) k' v', puts k v d d' -> In (k', v') d' -> In (k', v') d \/ v' = v.
Proof.
  intros K V k v d d' k' v' P H. destruct P; [|eapply in_mid; eauto].
  apply in_app_or in H. destruct H as [H|[H|[]]]; auto. right. now inversion H.
Qed.
Lemma in_improves : forall K V (lt : V -> V -> Prop) k v (d d' : list (K * V)) k' v', improves lt k v d d' ->
  In (k', v') d' -> In (k', v') d \/ v' = v.
Proof.
  intros K V lt k v d d' k' v' P H. destruct P; auto; [|eapply in_mid; eauto].
  apply in_app_or in H. destruct H as [H|[H|[]]]; auto. right. now inversion H.
Qed.
Lemma monotone_aux : forall K V (vlt veq : V -> V -> bool), good_prios vlt veq ->
  forall ops rs (d : list (K * V)) last, qrun (ltof vlt) (least (ltof vlt)) d ops rs ->
  guarded (ltof vlt) last ops rs ->
  (forall k v u, In (k, v) d -> last = Some u -> ~ ltof vlt v u) ->
  Sorted (fun a b => ~ ltof vlt b a) (match last with Some u => u :: pops ops rs | None => pops ops rs end).
Proof.
  intros K V vlt veq ((G1 & G2 & G3 & G4) & G5).
  induction ops as [|o ops IH]; intros rs d last HR HG HB; inversion HR as [|? ? r d' ? rs' HS HR']; subst.
  - destruct last; repeat constructor.
  - inversion HS; subst; cbn [pops guarded] in *.
    + destruct HG as [HG1 HG]. apply (IH _ d'); auto. intros k' v' u Hin ->.
      destruct (in_puts _ _ _ _ _ _ _ _ H Hin) as [Hi| ->]; eauto.
    + destruct HG as [HG1 HG]. apply (IH _ d'); auto. intros k' v' u Hin ->.
      destruct (in_improves _ _ _ _ _ _ _ _ _ H Hin) as [Hi| ->]; eauto.
    + assert (S : Sorted (fun a b => ~ ltof vlt b a) (v :: pops ops rs')).
      { apply (IH _ d' (Some v)); auto. intros k' v' u Hin E. inversion E; subst. destruct H as [_ H].
        eapply H. eapply in_removes; eauto. }
      destruct last as [u|]; auto. constructor; auto. constructor.
      destruct H as [H _]. eapply HB; eauto.
    + apply (IH _ []); auto.
    + apply (IH _ d'); auto.
    + apply (IH _ d'); auto.
    + apply (IH _ d'); auto.
    + apply (IH _ []); auto.
    + apply (IH _ d'); auto.
Qed.
Theorem C12_monotone : forall K V keqb (vlt veq : V -> V -> bool),
  @good_keys K keqb -> good_prios vlt veq -> forall ops rs,
  improving (ltof vlt) [] [] ops -> crun keqb vlt veq cempty ops rs ->
  guarded (ltof vlt) None ops rs -> Sorted (fun a b => ~ ltof vlt b a) (pops ops rs).
Proof.
  intros K V keqb vlt veq GK GV ops rs HM HR HG.
  apply (monotone_aux K V vlt veq GV ops rs [] None); auto.
  - eapply C12_pop_best; eauto.
Qed.

Lemma nodup_end : forall K (l : list K) k, NoDup l -> ~ In k l -> NoDup (l ++ [k]).
Proof. intros K l k N H. eapply Permutation_NoDup; [apply Permutation_cons_append|]. now constructor. Qed.
Lemma puts_nodup : forall K V k v (d d' : list (K * V)), NoDup (map fst d) -> puts k v d d' -> NoDup (map fst d').
Proof.
  intros K V k v d d' N P. destruct P; rewrite map_app in *; auto. cbn. apply nodup_end; auto.
  intros H0. apply H. apply in_map_iff in H0. destruct H0 as ([k' w] & E & H0). cbn in E. subst. now exists w.
Qed.
Lemma improves_nodup : forall K V lt k v (d d' : list (K * V)), NoDup (map fst d) -> improves lt k v d d' -> NoDup (map fst d').
Proof.
  intros K V lt k v d d' N P. destruct P; auto; [|rewrite map_app in *; auto].
  eapply puts_nodup; [exact N|]. now apply puts_new.
Qed.
Lemma removes_nodup : forall K V k v (d d' : list (K * V)), NoDup (map fst d) -> removes k v d d' -> NoDup (map fst d').
Proof. intros K V k v d d' N P. destruct P. rewrite map_app in *. cbn in N. now apply NoDup_remove_1 in N. Qed.
Lemma puts_val : forall K V k v (d d' : list (K * V)) w, NoDup (map fst d) -> puts k v d d' -> In (k, w) d' -> w = v.
Proof.
  intros K V k v d d' w N P H. pose proof (puts_nodup _ _ _ _ _ _ N P) as N'.
  apply (keys_inj _ _ d' k); auto. destruct P; apply in_elt.
Qed.
(** Storing a worse priority for a key that was improved and popped before
    makes the stale heap entry come back: 10 was stored, 5 comes out. *)
Theorem C12_stale_entry_refuted :
  crun Nat.eqb Nat.ltb Nat.eqb cempty
    [CSet 1 5; CSetIfBetter 1 3; CPop; CSet 1 10; CPop]
    [CNone; CNone; CItem 1 3; CNone; CItem 1 5] /\
  ~ qrun (ltof Nat.ltb) (least (ltof Nat.ltb)) []
    [CSet 1 5; CSetIfBetter 1 3; CPop; CSet 1 10; CPop]
    [CNone; CNone; CItem 1 3; CNone; CItem 1 5].
Proof.
  split.
  - econstructor; [constructor|]. econstructor; [constructor|]. cbn.
    econstructor. { constructor. apply (pop_item _ _ _ _ [CE 1 5 1] (CE 1 3 1)); [discriminate|].
      eapply pl_found; [split; [apply Permutation_refl|repeat constructor]|reflexivity]. }
    cbn. econstructor; [constructor|]. cbn.
    econstructor. { constructor. apply (pop_item _ _ _ _ [CE 1 10 2] (CE 1 5 1)); [discriminate|].
      eapply pl_found; [split; [apply perm_swap|repeat constructor]|reflexivity]. }
    constructor.
  - intros H. inversion H as [|? ? ? d1 ? ? S1 R1]; subst. inversion R1 as [|? ? ? d2 ? ? S2 R2]; subst.
    inversion R2 as [|? ? ? d3 ? ? S3 R3]; subst. inversion R3 as [|? ? ? d4 ? ? S4 R4]; subst.
    inversion R4 as [|? ? ? d5 ? ? S5 R5]; subst.
    inversion S1 as [? ? ? ? P1| | | | | | | |]; subst. inversion S2 as [|? ? ? ? P2| | | | | | |]; subst.
    inversion S3 as [| |? ? ? ? _ P3| | | | | |]; subst.
    inversion S4 as [? ? ? ? P4| | | | | | | |]; subst. inversion S5 as [| |? ? ? ? P5 _| | | | | |]; subst.
    assert (N1 : NoDup (map fst d1)) by (eapply puts_nodup; [|exact P1]; constructor).
    assert (N2 : NoDup (map fst d2)) by (eapply improves_nodup; [exact N1|exact P2]).
    assert (N3 : NoDup (map fst d3)) by (eapply removes_nodup; [exact N2|exact P3]).
    destruct P5 as [P5 _]. pose proof (puts_val _ _ _ _ _ _ _ N3 P4 P5) as X. discriminate X.
Qed.
(** Storing a worse priority unconditionally has no effect on what is popped. *)
Theorem C12_worse_set_refuted :
  crun Nat.eqb Nat.ltb Nat.eqb cempty [CSet 1 3; CSet 1 10; CPop] [CNone; CNone; CItem 1 3].
Proof.
  econstructor; [constructor|]. econstructor; [constructor|]. cbn.
  econstructor. { constructor. apply (pop_item _ _ _ _ [CE 1 10 2] (CE 1 3 1)); [discriminate|].
      eapply pl_found; [split; [apply perm_swap|repeat constructor]|reflexivity]. }
  constructor.
Qed.
Lemma good_nat_prios : good_prios Nat.ltb Nat.eqb.
Proof. split; [apply good_nat|]. intros. lia. Qed.
Example C12_ex : improving (ltof Nat.ltb) [] [] [CSet 1 5; CSetIfBetter 2 4; CSetIfBetter 1 3; CPop] /\
  crun Nat.eqb Nat.ltb Nat.eqb cempty [CSet 1 5; CSetIfBetter 2 4; CSetIfBetter 1 3; CPop]
    [CNone; CNone; CNone; CItem 1 3] /\
  guarded (ltof Nat.ltb) None [CSet 1 5; CSetIfBetter 2 4; CSetIfBetter 1 3; CPop]
    [CNone; CNone; CNone; CItem 1 3].
Proof.
  split; [|split].
  - constructor; [contradiction|]. intros d1 P1. constructor.
    + intros _ v0 [H|[]]. inversion H.
    + intros d2 P2. constructor.
      * intros N. exfalso. apply N. assert (In (1, 5) d1) by (inversion P1; subst; [now left|apply in_elt]).
        exists 5. inversion P2; subst; auto; [apply in_or_app; auto|].
        apply in_app_or in H. apply in_or_app. destruct H as [H|[H|H]]; auto; [inversion H|right; now right].
      * intros d3 P3. constructor; intros; constructor.
  - econstructor; [constructor|]. econstructor; [constructor|]. cbn. econstructor; [constructor|]. cbn.
    econstructor; [|constructor]. constructor.
    apply (pop_item _ _ _ _ [CE 2 4 2; CE 1 5 1] (CE 1 3 1)); [discriminate|].
    eapply pl_found; [split; [apply Permutation_refl|repeat constructor]|reflexivity].
  - cbn. auto.
Qed.
Print Assumptions C12_pop_best.
Print Assumptions C12_replace_entries.
Print Assumptions C12_kbest_entries.
Print Assumptions C12_ties_oldest_first.
Print Assumptions C12_no_deadlock.
Print Assumptions C12_monotone.
Print Assumptions C12_stale_entry_refuted.
