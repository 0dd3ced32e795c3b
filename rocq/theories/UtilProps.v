(** C14, C15, C34, C37 (first part), C43. *)
From Coq Require Import String.
From Coq Require Import List Bool Arith ZArith Lia ZifyBool Sorted Permutation.
From Verif Require Import PyStr UtilModel AgendaProps.
Import ListNotations.
Open Scope string_scope. Open Scope nat_scope. Open Scope list_scope.

Ltac ifs := repeat match goal with
  | |- context [if ?b then _ else _] => destruct b eqn:?
  | H : context [if ?b then _ else _] |- _ => destruct b eqn:? end.
(** ---- C14 ---- *)
(** Python's definition of s[i:j]: the items with index k such that i <= k < j,
    None standing for the respective end and negative indices counting from the
    end. *)
Definition from_end (len i : Z) : Z := if (i <? 0)%Z then (len + i)%Z else i.
Definition selected (len : Z) (i j : option Z) (k : Z) : Prop :=
  (0 <= k < len)%Z /\
  match i with None => True | Some i => (from_end len i <= k)%Z end /\
  match j with None => True | Some j => (k < from_end len j)%Z end.

Theorem C14_slice_bounds : forall len i j st, (0 <= len)%Z -> st = None \/ st = Some 1%Z ->
  exists a b, slice_bounds len (Sl i j st) false = SOk a b 1 /\ (0 <= a <= b)%Z /\ (b <= len)%Z /\
  forall k, (a <= k < b)%Z <-> selected len i j k.
Proof.
  intros len i j st HL Hst.
  assert (M : exists a b, slice_bounds len (Sl i j st) false = SOk a b 1 /\
     a = Z.min (match i with None => 0%Z | Some v => if (v <? 0)%Z then Z.max 0 (len + v) else v end)
               (match j with None => len | Some v => Z.min len (if (v <? 0)%Z then Z.max 0 (len + v) else v) end) /\
     b = match j with None => len | Some v => Z.min len (if (v <? 0)%Z then Z.max 0 (len + v) else v) end).
  { destruct Hst as [Hst|Hst]; subst st; unfold slice_bounds; cbn [sl_step sl_start sl_stop Z.eqb Pos.eqb].
    all: eexists; eexists; (split; [reflexivity|]); destruct i as [i|], j as [j|]; ifs; lia. }
  destruct M as (a & b & E & Ha & Hb). exists a, b. split; [exact E|]. clear E Hst.
  unfold selected, from_end. split; [|split].
  - destruct i, j; ifs; lia.
  - destruct j; ifs; lia.
  - intros k. destruct i as [i|], j as [j|]; ifs; lia.
Qed.
Theorem C14_other_steps_rejected : forall len i j st, st <> 1%Z ->
  slice_bounds len (Sl i j (Some st)) false = SValueError.
Proof. intros. unfold slice_bounds. cbn [sl_step]. replace (st =? 1)%Z with false by lia. reflexivity. Qed.
(** The documented third return value for slices with a step is never
    delivered: the call raises for every slice. *)
Theorem C14_allow_step_refuted : forall len s, slice_bounds len s true = SAttributeError.
Proof. reflexivity. Qed.
Example C14_ex : slice_bounds 5 (Sl (Some (-2)%Z) (Some 9%Z) None) false = SOk 3 5 1 /\
  slice_bounds 5 (Sl (Some 4%Z) (Some (-4)%Z) None) false = SOk 1 1 1.
Proof. split; reflexivity. Qed.

(** ---- C15 ---- *)
Section OS.
Context {X : Type}.
Variable xeqb : X -> X -> bool.
Hypothesis E : good_keys xeqb.
Lemma mem_In : forall x l, mem xeqb x l = true <-> In x l.
Proof.
  intros. unfold mem. rewrite existsb_exists. split.
  - intros (y & Hy & Q). apply E in Q. now subst.
  - intros H. exists x. split; auto. now apply E.
Qed.
Lemma dedup_In : forall l x, In x (dedup xeqb l) <-> In x l.
Proof.
  induction l as [|y l IH]; intros x; cbn; [tauto|]. destruct (mem xeqb y l) eqn:M.
  - apply mem_In in M. rewrite IH. split; auto. intros [<-|H]; auto.
  - cbn. now rewrite IH.
Qed.
Lemma dedup_NoDup : forall l, NoDup (dedup xeqb l).
Proof.
  induction l as [|y l IH]; cbn; [constructor|]. destruct (mem xeqb y l) eqn:M; auto. constructor; auto.
  rewrite dedup_In, <- mem_In. congruence.
Qed.
Lemma dedup_id : forall l, NoDup l -> dedup xeqb l = l.
Proof.
  induction 1 as [|y l N _ IH]; cbn; auto. destruct (mem xeqb y l) eqn:M; [apply mem_In in M; contradiction|].
  now rewrite IH.
Qed.
End OS.

(** Every ordered set there is comes from its constructor; an element is a
    member exactly when it was given, and len counts distinct elements: the
    length of any duplicate-free list of the same elements. *)
Theorem C15_membership : forall X (xeqb : X -> X -> bool), good_keys xeqb -> forall it x,
  ocontains xeqb (oinit xeqb it) x = true <-> In x it.
Proof. intros X xeqb G it x. unfold ocontains. cbn [oset_set oinit]. rewrite (mem_In xeqb G). now apply dedup_In. Qed.
Theorem C15_len : forall X (xeqb : X -> X -> bool), good_keys xeqb -> forall it l,
  NoDup l -> (forall x, In x l <-> In x it) -> olen (oinit xeqb it) = length l.
Proof.
  intros X xeqb G it l N H. unfold olen. cbn. apply Permutation_length. apply NoDup_Permutation; auto.
  - now apply dedup_NoDup.
  - intros x. now rewrite (dedup_In xeqb G), H.
Qed.
Theorem C15_order : forall X (xeqb : X -> X -> bool) it,
  oiter (oinit xeqb it) = it /\ oreversed (oinit xeqb it) = rev it /\
  forall n, ogetitem (oinit xeqb it) n = nth_error it n.
Proof. intros. repeat split. Qed.
(** Equality disregards order. *)
Theorem C15_eq : forall X (xeqb : X -> X -> bool), good_keys xeqb -> forall a b,
  oeq xeqb (oinit xeqb a) (oinit xeqb b) = true <-> (forall x, In x a <-> In x b).
Proof.
  intros X xeqb G a b. unfold oeq, set_eqb. cbn. rewrite andb_true_iff, !forallb_forall.
  split.
  - intros [H1 H2] x. split; intros H.
    + apply (dedup_In xeqb G). apply (mem_In xeqb G). apply H1. now apply dedup_In.
    + apply (dedup_In xeqb G). apply (mem_In xeqb G). apply H2. now apply dedup_In.
  - intros H. split; intros x Hx; apply (mem_In xeqb G); rewrite (dedup_In xeqb G) in *; now apply H.
Qed.
(** The set operations have the elements they should and keep the order of the
    left operand. *)
Theorem C15_and : forall X (xeqb : X -> X -> bool), good_keys xeqb -> forall a b,
  let r := oand xeqb (oinit xeqb a) (oinit xeqb b) in
  (forall x, ocontains xeqb r x = true <-> In x a /\ In x b) /\
  exists p, oiter r = filter p a.
Proof.
  intros X xeqb G a b r. split.
  - intros x. unfold r, oand. rewrite C15_membership by auto. rewrite filter_In. cbn [oiter oseq oinit].
    now rewrite C15_membership.
  - now eexists.
Qed.
Theorem C15_or_sub_le : forall X (xeqb : X -> X -> bool), good_keys xeqb -> forall a b,
  (forall x, ocontains xeqb (oor xeqb (oinit xeqb a) (oinit xeqb b)) x = true <-> In x a \/ In x b) /\
  (forall x, ocontains xeqb (osub xeqb (oinit xeqb a) (oinit xeqb b)) x = true <-> In x a /\ ~ In x b) /\
  (ole xeqb (oinit xeqb a) (oinit xeqb b) = true <-> (forall x, In x a -> In x b)).
Proof.
  intros X xeqb G a b. split; [|split; [|split]].
  - intros x. unfold oor. rewrite C15_membership by auto. cbn. now rewrite in_app_iff.
  - intros x. unfold osub. rewrite C15_membership by auto. rewrite filter_In, negb_true_iff. cbn [oiter oseq oinit].
    rewrite <- (C15_membership X xeqb G b x). rewrite not_true_iff_false. tauto.
  - intros H. unfold ole in H. destruct (_ <? _); [discriminate|]. rewrite forallb_forall in H. intros x Hx.
    apply (C15_membership X xeqb G). now apply H.
  - intros H. unfold ole. replace (olen (oinit xeqb b) <? olen (oinit xeqb a)) with false.
    + apply forallb_forall. intros x Hx. apply C15_membership; auto.
    + symmetry. apply Nat.ltb_ge. unfold olen. cbn. apply NoDup_incl_length; [now apply dedup_NoDup|].
      intros x Hx. rewrite (dedup_In xeqb G) in *. auto.
Qed.
(** For distinct elements iteration yields each member once and as many as len
    says; with repeated elements it does not. *)
Theorem C15_iteration_distinct : forall X (xeqb : X -> X -> bool), good_keys xeqb -> forall it, NoDup it ->
  NoDup (oiter (oinit xeqb it)) /\ length (oiter (oinit xeqb it)) = olen (oinit xeqb it).
Proof. intros X xeqb G it N. cbn. split; auto. unfold olen. cbn. now rewrite dedup_id. Qed.
Theorem C15_iteration_with_duplicates_refuted : exists it : list nat,
  length (oiter (oinit Nat.eqb it)) <> olen (oinit Nat.eqb it) /\ ~ NoDup (oiter (oinit Nat.eqb it)).
Proof.
  exists [3; 1; 3]. split; [discriminate|]. cbn. intros H. inversion H; subst. apply H2. cbn. auto.
Qed.
Example C15_ex : good_keys Nat.eqb /\ oiter (oand Nat.eqb (oinit Nat.eqb [4; 2; 9; 1]) (oinit Nat.eqb [1; 2; 3; 4])) = [4; 2; 1].
Proof. split; [intros a b; apply Nat.eqb_eq|reflexivity]. Qed.

(** ---- C34 ---- *)
Section UID.
Context {K : Type}.
Variable keqb : K -> K -> bool.
Hypothesis G : good_keys keqb.
Lemma ulookup_In : forall k l v, ulookup keqb k l = Some v -> In (k, v) l.
Proof.
  induction l as [|[k' v'] l IH]; intros v H; cbn in *; [discriminate|]. destruct (keqb k k') eqn:Q.
  - apply G in Q. inversion H; subst. auto.
  - auto.
Qed.
Definition uinv (u : @uids K) : Prop :=
  forall k v, In (k, v) (u_ids u) -> exists c, c < u_cnt u /\ v = u_prefix u ++ dec c.
Definition uinj (u : @uids K) : Prop :=
  forall k k' v, In (k, v) (u_ids u) -> In (k', v) (u_ids u) -> k = k'.
(** value of each answer: the counter it carries *)
Lemma urun_cases : forall ops u, uinv u -> uinj u ->
  length (urun keqb u ops) = length ops /\
  (forall j o v, nth_error ops j = Some o -> nth_error (urun keqb u ops) j = Some v ->
     exists c, v = u_prefix u ++ dec c /\
       (u_cnt u <= c \/ exists k, o = Some k /\ ulookup keqb k (u_ids u) = Some v)) /\
  (forall j k v w, nth_error ops j = Some (Some k) -> ulookup keqb k (u_ids u) = Some w ->
     nth_error (urun keqb u ops) j = Some v -> v = w) /\
  (forall i j a b v w, i < j -> nth_error ops i = Some a -> nth_error ops j = Some b ->
     nth_error (urun keqb u ops) i = Some v -> nth_error (urun keqb u ops) j = Some w ->
     (v = w <-> exists k, a = Some k /\ b = Some k)).
Proof.
  induction ops as [|o ops IH]; intros u HI HJ.
  { cbn. split; auto. split; [|split]; intros; destruct j; try destruct i; discriminate. }
  assert (STEP : exists v u', urun keqb u (o :: ops) = v :: urun keqb u' ops /\ uinv u' /\ uinj u' /\
     u_prefix u' = u_prefix u /\ u_cnt u <= u_cnt u' /\
     (exists c, v = u_prefix u ++ dec c /\ c < u_cnt u' /\
        (u_cnt u <= c \/ exists k, o = Some k /\ ulookup keqb k (u_ids u) = Some v)) /\
     (forall k, o = Some k -> ulookup keqb k (u_ids u') = Some v) /\
     (forall k w, ulookup keqb k (u_ids u) = Some w -> ulookup keqb k (u_ids u') = Some w) /\
     (forall k w, ulookup keqb k (u_ids u') = Some w -> ulookup keqb k (u_ids u) = Some w \/ (o = Some k /\ w = v)) /\
     (o = None -> u_cnt u' = S (u_cnt u) /\ v = u_prefix u ++ dec (u_cnt u) /\ u_ids u' = u_ids u)).
  { destruct o as [k|].
    - cbn [urun]. unfold ugetitem. destruct (ulookup keqb k (u_ids u)) as [v|] eqn:L.
      + exists v, u. split; [reflexivity|]. do 4 (split; auto). split.
        * destruct (HI k v) as (c & Hc & E); [now apply ulookup_In|]. exists c. split; auto. split; auto.
          right. eauto.
        * split; [intros k' Q; inversion Q; subst; auto|]. split; auto. split; auto. discriminate.
      + eexists; eexists. split; [reflexivity|]. cbn [u_cnt u_ids u_prefix ulookup]. split.
        { intros k' v' [H|H].
          - inversion H; subst. exists (u_cnt u). cbn. auto.
          - destruct (HI _ _ H) as (c & Hc & Ev). exists c. cbn. auto. }
        split.
        { intros k1 k2 v' [H1|H1] [H2|H2].
          - congruence.
          - inversion H1; subst. destruct (HI _ _ H2) as (c & Hc & Ev). apply app_inv_head in Ev. apply dec_inj in Ev. lia.
          - inversion H2; subst. destruct (HI _ _ H1) as (c & Hc & Ev). apply app_inv_head in Ev. apply dec_inj in Ev. lia.
          - exact (HJ _ _ _ H1 H2). }
        split; auto. split; auto. split; [exists (u_cnt u); repeat split; auto|].
        split.
        { intros k' Q. inversion Q; subst. replace (keqb k' k') with true by (symmetry; now apply G). auto. }
        split.
        { intros k' w H. destruct (keqb k' k) eqn:Q; auto. apply G in Q. subst. congruence. }
        split; [|discriminate].
        intros k' w H. destruct (keqb k' k) eqn:Q; auto. apply G in Q. subst. inversion H. auto.
    - cbn [urun]. unfold unext. eexists; eexists. split; [reflexivity|]. cbn [u_cnt u_ids u_prefix].
      split; [intros k v H; destruct (HI _ _ H) as (c & Hc & Ev); exists c; cbn; auto|].
      split; [exact HJ|]. split; auto. split; auto. replace (S (u_cnt u) - 1) with (u_cnt u) by lia.
      split; [exists (u_cnt u); repeat split; auto|]. split; [discriminate|]. split; auto. }
  destruct STEP as (v & u' & ER & HI' & HJ' & EP & HC & (c & Ev & Hcu & Hc) & K1 & K2 & K3 & K4).
  destruct (IH u' HI' HJ') as (L & A & B & C). rewrite ER. rewrite EP in A.
  split; [cbn; now rewrite L|]. split; [|split].
  - intros j o' w Ho Hw. destruct j as [|j]; cbn in Ho, Hw.
    + inversion Ho; inversion Hw; subst. exists c. split; auto.
    + destruct (A j o' w Ho Hw) as (c' & Ew & [Hc'|(k & -> & Lk)]).
      * exists c'. split; auto. left. lia.
      * destruct (K3 _ _ Lk) as [H|[-> ->]].
        -- exists c'. split; auto. right. eauto.
        -- exists c. split; auto.
  - intros j k w z Ho Lk Hw. destruct j as [|j]; cbn in Ho, Hw.
    + inversion Ho; inversion Hw; subst. pose proof (K2 _ _ Lk). rewrite (K1 k eq_refl) in H. congruence.
    + eapply B; eauto.
  - intros i j a b w z Hij Ha Hb Hw Hz. destruct j as [|j]; [lia|]. destruct i as [|i]; cbn in Ha, Hb, Hw, Hz.
    + inversion Ha; inversion Hw; subst a w. clear Ha Hw.
      split.
      * intros ->. destruct (A j b z Hb Hz) as (c' & Ez & [Hc'|(k & -> & Lk)]).
        -- exfalso. rewrite Ez in Ev. apply app_inv_head in Ev. apply dec_inj in Ev. lia.
        -- destruct (K3 _ _ Lk) as [H|[-> _]]; [|eauto].
           destruct o as [k0|].
           ++ pose proof (K1 k0 eq_refl) as L0. apply ulookup_In in L0. apply ulookup_In in Lk.
              assert (k0 = k) by (eapply HJ'; eauto). subst. eauto.
           ++ destruct (K4 eq_refl) as (_ & Ez' & _). apply ulookup_In in H. destruct (HI _ _ H) as (c2 & Hc2 & Ec2).
              rewrite Ez' in Ec2. apply app_inv_head in Ec2. apply dec_inj in Ec2. lia.
      * intros (k & -> & ->). symmetry. eapply B; eauto.
    + apply (C i j a b w z); auto; lia.
Qed.
End UID.

(** For every history of lookups ids[k] ([Some k]) and next(ids) ([None]), two
    answers are the same string exactly when both are lookups of one key. *)
Theorem C34_ids_unique : forall K (keqb : K -> K -> bool), good_keys keqb -> forall prefix ops,
  length (urun keqb (uinit prefix) ops) = length ops /\
  forall i j a b v w, i <> j -> nth_error ops i = Some a -> nth_error ops j = Some b ->
    nth_error (urun keqb (uinit prefix) ops) i = Some v ->
    nth_error (urun keqb (uinit prefix) ops) j = Some w ->
    (v = w <-> exists k, a = Some k /\ b = Some k).
Proof.
  intros K keqb G prefix ops.
  destruct (urun_cases keqb G ops (uinit prefix)) as (L & _ & _ & C); [intros ? ? HF; inversion HF|intros ? ? ? HF; inversion HF|].
  split; auto. intros i j a b v w N Ha Hb Hv Hw. destruct (Nat.lt_total i j) as [H|[H|H]]; [eapply C; eauto|lia|].
  pose proof (C j i b a w v H Hb Ha Hw Hv) as Q. split; intros Q'.
  - symmetry in Q'. apply Q in Q'. destruct Q' as (k & ? & ?). eauto.
  - symmetry. apply Q. destruct Q' as (k & ? & ?). eauto.
Qed.
(** each identifier starts with the prefix and continues with a number *)
Theorem C34_ids_format : forall K (keqb : K -> K -> bool), good_keys keqb -> forall prefix ops v,
  In v (urun keqb (uinit prefix) ops) -> exists c, v = prefix ++ dec c.
Proof.
  intros K keqb G prefix ops v H.
  destruct (urun_cases keqb G ops (uinit prefix)) as (L & A & _ & _); [intros ? ? HF; inversion HF|intros ? ? ? HF; inversion HF|].
  apply In_nth_error in H. destruct H as [j H].
  destruct (nth_error ops j) as [o|] eqn:Eo.
  - destruct (A j o v Eo H) as (c & Ec & _). exists c. exact Ec.
  - apply nth_error_None in Eo. assert (nth_error (urun keqb (uinit prefix) ops) j = None) by (apply nth_error_None; lia). congruence.
Qed.
Example C34_ex : urun Nat.eqb (uinit (str "x")) [None; Some 7; Some 8; Some 7; None] =
  [str "x0"; str "x1"; str "x2"; str "x1"; str "x3"].
Proof. reflexivity. Qed.

(** ---- C43 ---- *)
Fixpoint lex {X} (R : X -> X -> Prop) (p q : list X) : Prop :=
  match p, q with
  | x :: p', y :: q' => R x y \/ (x = y /\ lex R p' q')
  | _, _ => False
  end.
Lemma lex_app : forall X (R : X -> X -> Prop) p q a b, length p = length q -> lex R p q -> lex R (p ++ a) (q ++ b).
Proof.
  induction p as [|x p IH]; intros [|y q] a b E H; cbn in *; try contradiction; try discriminate.
  destruct H as [H|[-> H]]; auto.
Qed.
Lemma lex_same : forall X (R : X -> X -> Prop) p x y, R x y -> lex R (p ++ [x]) (p ++ [y]).
Proof. induction p; cbn; auto. Qed.
Lemma cart_In : forall X (rs : list (list X)) p, In p (cartpi_rev rs) <-> Forall2 (@In X) (rev p) rs.
Proof.
  induction rs as [|l rs IH]; intros p; cbn.
  - split.
    + intros [<-|[]]. constructor.
    + intros H. left. destruct p as [|x p]; auto. cbn in H. inversion H as [E1 E2|]. now apply app_cons_not_nil in E1.
  - rewrite in_flat_map. split.
    + intros (b & Hb & Hp). apply in_map_iff in Hp. destruct Hp as (a & <- & Ha). rewrite rev_app_distr. cbn.
      constructor; auto. now apply IH.
    + intros H. inversion H as [|a l' p' ? Ha Hr E1 E2]; subst. exists (rev p'). split.
      * apply IH. now rewrite rev_involutive.
      * apply in_map_iff. exists a. split; auto. apply (f_equal (@rev X)) in E1. cbn in E1. now rewrite rev_involutive in E1.
Qed.
Lemma Forall2_rev : forall A B (R : A -> B -> Prop) l m, Forall2 R l m -> Forall2 R (rev l) (rev m).
Proof. induction 1; cbn; [constructor|]. apply Forall2_app; auto. Qed.
Lemma ss_app : forall A (R : A -> A -> Prop) l m, StronglySorted R l -> StronglySorted R m ->
  (forall x y, In x l -> In y m -> R x y) -> StronglySorted R (l ++ m).
Proof.
  induction l as [|a l IH]; intros m H1 H2 H; cbn; auto. inversion H1; subst. constructor.
  - apply IH; auto. intros; apply H; auto. now right.
  - apply Forall_app. split; auto. apply Forall_forall. intros y Hy. apply H; auto. now left.
Qed.
Lemma Forall2_len : forall A B (R : A -> B -> Prop) l m, Forall2 R l m -> length l = length m.
Proof. induction 1; cbn; auto. Qed.
Lemma cart_sorted : forall X (R : X -> X -> Prop) rs, Forall (StronglySorted R) rs ->
  StronglySorted (lex R) (cartpi_rev rs).
Proof.
  induction rs as [|l rs IH]; intros H; cbn; [repeat constructor|]. inversion H; subst.
  specialize (IH H3). revert IH.
  assert (LEN : forall p q, In p (cartpi_rev rs) -> In q (cartpi_rev rs) -> length p = length q).
  { intros p q Hp Hq. apply cart_In in Hp. apply cart_In in Hq. apply Forall2_len in Hp. apply Forall2_len in Hq.
    rewrite rev_length in *. congruence. }
  induction (cartpi_rev rs) as [|p ps IHp]; intros S; cbn; [constructor|]. inversion S; subst. apply ss_app.
  - clear - H2. induction H2; cbn; constructor; auto. rewrite Forall_forall in *. intros q Hq. apply in_map_iff in Hq.
    destruct Hq as (y & <- & Hy). apply lex_same. auto.
  - apply IHp; auto. intros; apply LEN; now right.
  - intros x y Hx Hy. apply in_map_iff in Hx. destruct Hx as (a & <- & Ha).
    apply in_flat_map in Hy. destruct Hy as (q & Hq & Hy). apply in_map_iff in Hy. destruct Hy as (b & <- & Hb).
    apply lex_app; [apply LEN; [now left|now right]|]. rewrite Forall_forall in H5. auto.
Qed.
Theorem C43_cartesian_product : forall X (seq : list (list X)) p, In p (cartpi seq) <-> Forall2 (@In X) p seq.
Proof.
  intros. unfold cartpi. rewrite cart_In. split; intros H; apply Forall2_rev in H; rewrite ?rev_involutive in H; auto.
Qed.
Theorem C43_lexicographic : forall X (R : X -> X -> Prop) seq, Forall (StronglySorted R) seq ->
  StronglySorted (lex R) (cartpi seq).
Proof. intros. apply cart_sorted. apply Forall_forall. intros l Hl. apply in_rev in Hl. rewrite Forall_forall in H. auto. Qed.
Lemma ss_nodup : forall X (l : list X), StronglySorted (fun a b => a <> b) l <-> NoDup l.
Proof.
  induction l as [|a l IH]; split; intros H; try constructor; inversion H; subst; try (now apply IH).
  - intros I. rewrite Forall_forall in H3. now apply (H3 a).
  - apply Forall_forall. intros b Hb <-. contradiction.
Qed.
Theorem C43_once : forall X (seq : list (list X)), Forall (@NoDup X) seq -> NoDup (cartpi seq).
Proof.
  intros X seq H. apply ss_nodup.
  assert (S : StronglySorted (lex (fun a b : X => a <> b)) (cartpi seq)).
  { apply C43_lexicographic. eapply Forall_impl; [|exact H]. intros l. apply ss_nodup. }
  induction S; constructor; auto. eapply Forall_impl; [|exact H0]. cbn. intros q Hq <-. clear - Hq.
  induction a; cbn in Hq; [auto|]. destruct Hq as [Hq|[_ Hq]]; auto.
Qed.
(** with positions counted, repeated elements included *)
Theorem C43_count : forall X (seq : list (list X)), length (cartpi seq) = fold_right (fun l n => length l * n) 1 seq.
Proof.
  intros X seq.
  assert (M : forall (f : list (list X)), length (cartpi_rev f) = fold_right (fun l n => length l * n) 1 f).
  { induction f as [|l f IH]; cbn; auto. rewrite <- IH. clear. induction (cartpi_rev f); cbn; [lia|].
    rewrite app_length, map_length, IHl0. lia. }
  unfold cartpi. rewrite M. clear M. induction seq as [|l seq IH]; cbn; auto. rewrite fold_right_app. cbn.
  rewrite <- IH. clear IH. generalize (rev seq) as r. induction r as [|m r IH]; cbn; [lia|]. rewrite IH. nia.
Qed.
Example C43_ex : cartpi [[1; 2]; [7]; [3; 4]] = [[1; 7; 3]; [1; 7; 4]; [2; 7; 3]; [2; 7; 4]].
Proof. reflexivity. Qed.

(** ---- C37: ranges and rangeheads ---- *)
(** consecutive integers *)
Fixpoint consecutive (l : list Z) : Prop :=
  match l with x :: ((y :: _) as t) => y = (x + 1)%Z /\ consecutive t | _ => True end.
(** no two neighbouring runs could be joined *)
Fixpoint separated (l : list (list Z)) : Prop :=
  match l with a :: ((b :: _) as t) => hd 0%Z b <> (last a 0%Z + 1)%Z /\ separated t | _ => True end.
Lemma consecutive_app : forall l x, l <> [] -> consecutive l -> x = (last l 0 + 1)%Z -> consecutive (l ++ [x]).
Proof.
  induction l as [|a l IH]; intros x N H E; [congruence|]. destruct l as [|b l].
  - cbn in *. auto.
  - cbn [app]. destruct H as [H1 H2]. split; auto. apply IH; auto. discriminate.
Qed.
Lemma ranges_loop_ok : forall s rng, rng <> [] -> consecutive rng ->
  concat (ranges_loop rng s) = rng ++ s /\ Forall (fun r => r <> [] /\ consecutive r) (ranges_loop rng s) /\
  separated (ranges_loop rng s) /\ exists r t, ranges_loop rng s = (rng ++ r) :: t.
Proof.
  induction s as [|a s IH]; intros rng N HC.
  - destruct rng as [|b rng]; [congruence|]. cbn [ranges_loop concat]. rewrite !app_nil_r.
    split; auto. split; [repeat constructor; auto|]. split; [exact I|]. exists [], []. now rewrite app_nil_r.
  - assert (U : ranges_loop rng (a :: s) = if (a =? last rng 0 + 1)%Z then ranges_loop (rng ++ [a]) s else rng :: ranges_loop [a] s)
      by (destruct rng; [congruence|reflexivity]).
    rewrite U. destruct (Z.eqb_spec a (last rng 0 + 1)%Z).
    + destruct (IH (rng ++ [a])) as (A & B & C & (r & t & D)); [now destruct rng; cbn|now apply consecutive_app|].
      split; [rewrite A, <- app_assoc; reflexivity|]. split; auto. split; auto. exists (a :: r), t. rewrite D, <- app_assoc. reflexivity.
    + destruct (IH [a]) as (A & B & C & (r & t & D)); [discriminate|exact I|].
      split; [cbn [concat]; now rewrite A|]. split; [constructor; auto|]. split; [|exists [], (ranges_loop [a] s); now rewrite app_nil_r].
      cbn [separated]. rewrite D in *. split; auto.
Qed.
Theorem C37_ranges : forall s, concat (ranges s) = s /\
  Forall (fun r => r <> [] /\ consecutive r) (ranges s) /\ separated (ranges s).
Proof.
  intros [|a s]; [cbn; auto|]. unfold ranges. cbn [ranges_loop].
  destruct (ranges_loop_ok s [a]) as (A & B & C & _); [discriminate|exact I|]. auto.
Qed.
(** these three facts determine the result *)
Theorem C37_ranges_unique : forall s rs, concat rs = s -> Forall (fun r => r <> [] /\ consecutive r) rs ->
  separated rs -> rs = ranges s.
Proof.
  intros s rs <- F S.
  assert (LOOP : forall rs rng r, rng <> [] -> consecutive (rng ++ r) -> Forall (fun r => r <> [] /\ consecutive r) rs ->
     separated ((rng ++ r) :: rs) -> ranges_loop rng (r ++ concat rs) = (rng ++ r) :: rs).
  { clear. induction rs as [|q rs IHr].
    - intros rng r. revert rng. induction r as [|a r IH]; intros rng N C F S.
      + cbn. rewrite app_nil_r. destruct rng; [congruence|reflexivity].
      + cbn [app concat]. assert (U : ranges_loop rng (a :: r ++ []) = if (a =? last rng 0 + 1)%Z then ranges_loop (rng ++ [a]) (r ++ []) else rng :: ranges_loop [a] (r ++ []))
          by (destruct rng; [congruence|reflexivity]). rewrite U. clear U.
        assert (EA : a = (last rng 0 + 1)%Z).
        { clear - C N. induction rng as [|x rng IH]; [congruence|]. destruct rng as [|y rng]; [cbn in C; apply C|].
          apply IH; [discriminate|]. apply C. }
        replace (a =? last rng 0 + 1)%Z with true by lia. rewrite IH; rewrite <- ?app_assoc; auto. now destruct rng.
    - intros rng r. revert rng. induction r as [|a r IH]; intros rng N C F S.
      + rewrite app_nil_r in *. cbn [app concat]. inversion F as [|? ? [Q1 Q2] F']; subst. destruct q as [|b q]; [congruence|].
        destruct S as [S1 S2]. cbn [hd] in S1. cbn [app].
        assert (U : ranges_loop rng (b :: q ++ concat rs) = if (b =? last rng 0 + 1)%Z then ranges_loop (rng ++ [b]) (q ++ concat rs) else rng :: ranges_loop [b] (q ++ concat rs))
          by (destruct rng; [congruence|reflexivity]). rewrite U. clear U. replace (b =? last rng 0 + 1)%Z with false by lia.
        f_equal. apply (IHr [b] q); auto. discriminate.
      + cbn [app]. match goal with |- ranges_loop rng (a :: ?T) = _ =>
          assert (U : ranges_loop rng (a :: T) = if (a =? last rng 0 + 1)%Z then ranges_loop (rng ++ [a]) T else rng :: ranges_loop [a] T)
          by (destruct rng; [congruence|reflexivity]) end. rewrite U. clear U.
        assert (EA : a = (last rng 0 + 1)%Z).
        { clear - C N. induction rng as [|x rng IH]; [congruence|]. destruct rng as [|y rng]; [cbn in C; apply C|].
          apply IH; [discriminate|]. apply C. }
        replace (a =? last rng 0 + 1)%Z with true by lia. rewrite IH; rewrite <- ?app_assoc; auto. now destruct rng. }
  destruct rs as [|r rs]; [reflexivity|]. inversion F as [|? ? [Q1 Q2] F']; subst. destruct r as [|a r]; [congruence|].
  cbn [concat]. unfold ranges. cbn [app ranges_loop]. symmetry. apply (LOOP rs [a] r); auto. discriminate.
Qed.
Lemma ss_lt_app : forall (l m : list Z), StronglySorted Z.lt (l ++ m) ->
  StronglySorted Z.lt l /\ StronglySorted Z.lt m /\ forall x y, In x l -> In y m -> (x < y)%Z.
Proof.
  induction l as [|a l IH]; intros m H; cbn in *; [split; [constructor|split; [exact H|intros x y []]]|].
  inversion H; subst. destruct (IH _ H2) as (A & B & C). apply Forall_app in H3. destruct H3 as [H3 H4].
  split; [constructor; auto|]. split; auto. intros x y [<-|Hx] Hy; auto. rewrite Forall_forall in H4. auto.
Qed.
(** For strictly increasing sequences rangeheads gives the first element of each range. *)
Theorem C37_rangeheads : forall s, StronglySorted Z.lt s -> rangeheads s = map (hd 0%Z) (ranges s).
Proof.
  intros s HS. destruct (C37_ranges s) as (A & B & C). unfold rangeheads.
  remember (ranges s) as rs eqn:Ers. clear Ers.
  assert (GEN : forall full rs, StronglySorted Z.lt full -> Forall (fun r => r <> [] /\ consecutive r) rs -> separated rs ->
     forall before, full = before ++ concat rs ->
     match rs with [] => True | r :: _ => forall x, In x before -> (x + 1)%Z <> hd 0%Z r end ->
     filter (fun a => negb (existsb (Z.eqb (a - 1)) full)) (concat rs) = map (hd 0%Z) rs).
  { clear. intros full rs HS. induction rs as [|r rs IH]; intros F S before E HB; [reflexivity|].
    pose proof (Forall_inv F) as [Q1 Q2]; pose proof (Forall_inv_tail F) as F'. cbn [concat map]. destruct r as [|a r]; [congruence|]. cbn [hd] in *.
    assert (INF : forall x, In x full <-> In x before \/ In x (a :: r) \/ In x (concat rs)).
    { intros x. rewrite E. cbn [concat]. rewrite !in_app_iff. tauto. }
    rewrite E in HS. destruct (ss_lt_app _ _ HS) as (_ & HS2 & HB1). cbn [concat] in HS2, HB1.
    destruct (ss_lt_app _ _ HS2) as (HSr & HSc & HR1).
    rewrite filter_app. cbn [filter].
    replace (existsb (Z.eqb (a - 1)) full) with false.
    - cbn [negb app]. f_equal.
      replace (filter (fun a0 => negb (existsb (Z.eqb (a0 - 1)) full)) r) with (@nil Z).
      + cbn [app]. apply (IH F' ltac:(destruct rs; [exact I|apply S]) (before ++ a :: r)).
        * rewrite E. cbn [concat]. now rewrite <- app_assoc.
        * destruct rs as [|q rs]; [exact I|]. intros x Hx. destruct S as [S1 S2].
          assert (LASTLE : forall l, l <> [] -> consecutive l -> forall y, In y l -> (y <= last l 0)%Z).
          { clear. induction l as [|b l IH]; intros N Cc y Hy; [contradiction|]. destruct l as [|c l].
            - destruct Hy as [<-|[]]. cbn. lia.
            - destruct Cc as [-> Cc]. assert (In (b+1)%Z ((b+1)%Z :: l)) by now left.
              pose proof (IH ltac:(discriminate) Cc _ H). change (last (b :: (b + 1)%Z :: l) 0%Z) with (last ((b+1)%Z :: l) 0%Z).
              destruct Hy as [<-|Hy]; [lia|]. now apply IH. }
          assert (HQ : In (hd 0%Z q) (concat (q :: rs))).
          { inversion F' as [|? ? [Q3 _] _]; subst. destruct q; [congruence|]. cbn. auto. }
          apply in_app_iff in Hx. destruct Hx as [Hx|Hx].
          -- assert (x < a)%Z by (apply HB1; auto; now left).
             assert (a < hd 0 q)%Z by (apply HR1; auto; now left). lia.
          -- pose proof (LASTLE (a :: r) Q1 Q2 x Hx).
             assert (HLAST : In (last (a :: r) 0%Z) (a :: r)).
             { clear. generalize a. induction r as [|b r IH]; intros c; [now left|]. right. apply IH. }
             pose proof (HR1 _ _ HLAST HQ). lia.
      + symmetry. clear - Q2 INF.
        assert (PRED : forall x, In x r -> In (x - 1)%Z (a :: r)).
        { clear INF. revert a Q2. induction r as [|b r IH]; intros a Q2 x Hx; [contradiction|]. destruct Q2 as [-> Q2].
          destruct Hx as [<-|Hx]; [left; lia|]. right. now apply IH. }
        assert (ALL : forall x, In x r -> existsb (Z.eqb (x - 1)) full = true).
        { intros x Hx. apply existsb_exists. exists (x - 1)%Z. split; [|lia]. apply INF. right. left. auto. }
        clear - ALL. induction r as [|b r IH]; auto. cbn [filter]. rewrite (ALL b) by now left. cbn [negb].
        apply IH. intros; apply ALL; now right.
    - symmetry. apply not_true_is_false. intros H. apply existsb_exists in H. destruct H as (x & Hx & Ex).
      apply INF in Hx. destruct Hx as [Hx|[Hx|Hx]].
      + apply (HB x Hx). lia.
      + destruct Hx as [<-|Hx]; [lia|]. inversion HSr; subst. rewrite Forall_forall in H2. specialize (H2 x Hx). lia.
      + specialize (HR1 a x (or_introl eq_refl) Hx). lia. }
  rewrite <- (GEN s rs HS B C []); [now rewrite A|now rewrite A|destruct rs; auto; intros x []].
Qed.
Example C37_ex : ranges [0; 1; 3; 4; 6]%Z = [[0; 1]; [3; 4]; [6]]%Z /\ rangeheads [0; 1; 3; 4; 6]%Z = [0; 3; 6]%Z.
Proof. split; reflexivity. Qed.
Print Assumptions C14_slice_bounds.
Print Assumptions C15_or_sub_le.
Print Assumptions C15_eq.
Print Assumptions C34_ids_unique.
Print Assumptions C43_lexicographic.
Print Assumptions C43_cartesian_product.
Print Assumptions C37_ranges_unique.
Print Assumptions C37_rangeheads.
