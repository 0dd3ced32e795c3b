(** C54: the derivations of the specification and those of the parser; instances
    for machine words and for arrays. *)
From Coq Require Import List Bool Arith NArith ZArith Lia.
From Verif Require Import BitsModel BitsSpec BitsProofs FanoutProofs ArrayProofs ConcatModel ConcatSpec ConcatProps.
From Verif Require Import PlcfrsModel PlcfrsSpec PlcfrsProofs.
Import ListNotations.
Open Scope list_scope.
Open Scope nat_scope.

(** ** changing the way spans are put together *)
Section Join.
Variables (vec : Type) (single : nat -> vec) (J1 J2 : list (list bool) -> vec -> vec -> vec -> Prop).
Variables (allowed : nat -> vec -> Prop) (rules : list prule) (mask : nat -> bool) (daughter : nat -> vec -> Prop) (sent : list word).
Variable P : nat -> vec -> Prop.
Notation D1 := (derives vec single J1 allowed rules mask daughter sent).
Notation D2 := (derives vec single J2 allowed rules mask daughter sent).
Hypothesis P_word : forall i x c, tagged vec single allowed sent i x c -> P x (single i).
Hypothesis P_unary : forall r v, In r rules -> prhs2 r = 0 -> P (prhs1 r) v -> P (plhs r) v.
Hypothesis P_binary : forall r l u v, In r rules -> prhs2 r <> 0 -> P (prhs1 r) l -> P (prhs2 r) u -> J1 (ryf r) l u v -> P (plhs r) v.
Hypothesis same : forall r l u v, In r rules -> prhs2 r <> 0 -> P (prhs1 r) l -> P (prhs2 r) u -> (J1 (ryf r) l u v <-> J2 (ryf r) l u v).
Lemma join_fwd : forall x v c, D1 x v c -> P x v /\ D2 x v c.
Proof.
  intros x v c D. induction D as [i x c T|r v c U E D [IP IH] G A|r v1 v2 v a b U E _ [P1 D1] G1 _ [P2 D2] G2 J A].
  - split; [eauto|now constructor].
  - split; [apply P_unary; auto; apply U|now constructor].
  - pose proof (proj1 U) as UR. split; [eapply P_binary; eauto|]. eapply d_binary; eauto. now apply same.
Qed.
Lemma join_bwd : forall x v c, D2 x v c -> P x v /\ D1 x v c.
Proof.
  intros x v c D. induction D as [i x c T|r v c U E D [IP IH] G A|r v1 v2 v a b U E _ [P1 D1] G1 _ [P2 D2] G2 J A].
  - split; [eauto|now constructor].
  - split; [apply P_unary; auto; apply U|now constructor].
  - pose proof (proj1 U) as UR. assert (J' : J1 (ryf r) v1 v2 v) by (apply same; auto).
    split; [eapply P_binary; eauto|]. eapply d_binary; eauto.
Qed.
Lemma join_derives : forall x v c, D1 x v c <-> D2 x v c.
Proof. intros x v c. split; intros D; [now apply join_fwd|now apply join_bwd]. Qed.
Lemma join_best : forall x v p, best vec single J1 allowed rules mask daughter sent x v p <-> best vec single J2 allowed rules mask daughter sent x v p.
Proof.
  intros x v p. unfold best. rewrite join_derives. split; intros [D O]; split; auto; intros c H; apply O; now apply join_derives.
Qed.
Lemma join_edges : forall x v e, valid_edge vec single J1 allowed rules mask daughter sent x v e <-> valid_edge vec single J2 allowed rules mask daughter sent x v e.
Proof.
  intros x v e. assert (DD : forall y w, derivable vec single J1 allowed rules mask daughter sent y w <-> derivable vec single J2 allowed rules mask daughter sent y w).
  { intros y w. split; intros [c H]; exists c; now apply join_derives. }
  split; intros [i c T E|r U E1 E2 D G A|r v1 v2 U E1 E2 D1 G1 D2 G2 J A].
  - eapply v_word; eauto.
  - apply v_unary; auto. now apply DD.
  - eapply v_binary; eauto; try (now apply DD). destruct D1 as [a D1]. destruct D2 as [b D2]. apply join_fwd in D1, D2. apply same; tauto || apply U.
  - eapply v_word; eauto.
  - apply v_unary; auto. now apply DD.
  - eapply v_binary; eauto; try (now apply DD). destruct D1 as [a D1]. destruct D2 as [b D2]. apply join_bwd in D1, D2. apply same; tauto || apply U.
Qed.
End Join.

(** ** derivations of the goal that use the goal inside are not better *)
Section Goal.
Variables (vec : Type) (single : nat -> vec) (J : list (list bool) -> vec -> vec -> vec -> Prop).
Variables (allowed : nat -> vec -> Prop) (rules : list prule) (mask : nat -> bool) (sent : list word) (goal : nat * vec).
Hypothesis dec : forall a b : nat * vec, {a = b} + {a <> b}.
Notation DG := (derives vec single J allowed rules mask (not_goal goal) sent).
Notation DA := (derives vec single J allowed rules mask anywhere sent).
Lemma goal_any : forall x v c, DG x v c -> DA x v c.
Proof. intros x v c D. induction D; econstructor; eauto; exact Logic.I. Qed.
Lemma at_goal : forall x v c, (x, v) = goal -> DG x v c -> DG (fst goal) (snd goal) c.
Proof. intros x v c E D. change (DG (fst (x, v)) (snd (x, v)) c) in D. rewrite E in D. exact D. Qed.
Lemma any_goal : forall x v c, DA x v c -> exists c', (c' <= c)%N /\ (DG x v c' \/ DG (fst goal) (snd goal) c').
Proof.
  intros x v c D. induction D as [i x c T|r v c U E D (c' & LE & IH) G A|r v1 v2 v a b U E _ (a' & LEa & IHa) G1 _ (b' & LEb & IHb) G2 J0 A].
  - exists c. split; [lia|]. left. now constructor.
  - destruct IH as [IH|IH]; [|exists c'; split; [lia|now right]]. destruct (dec (prhs1 r, v) goal) as [EG|NG].
    + exists c'. split; [lia|]. right. now apply at_goal with (1 := EG).
    + exists (pprob r + c')%N. split; [lia|]. left. now constructor.
  - destruct IHa as [IHa|IHa]; [|exists a'; split; [lia|now right]]. destruct IHb as [IHb|IHb]; [|exists b'; split; [lia|now right]].
    destruct (dec (prhs1 r, v1) goal) as [EG|NG1]; [exists a'; split; [lia|]; right; now apply at_goal with (1 := EG)|].
    destruct (dec (prhs2 r, v2) goal) as [EG|NG2]; [exists b'; split; [lia|]; right; now apply at_goal with (1 := EG)|].
    exists (pprob r + a' + b')%N. split; [lia|]. left. eapply d_binary; eauto.
Qed.
Lemma best_goal : forall p, best vec single J allowed rules mask (not_goal goal) sent (fst goal) (snd goal) p <->
  best vec single J allowed rules mask anywhere sent (fst goal) (snd goal) p.
Proof.
  intros p. split; intros [D O].
  - split; [now apply goal_any|]. intros c H. apply any_goal in H. destruct H as (c' & LE & [H|H]); specialize (O c' H); lia.
  - pose proof (any_goal _ _ _ D) as (c' & LE & H). assert (H' : DG (fst goal) (snd goal) c') by tauto.
    assert (p = c') by (specialize (O c' (goal_any _ _ _ H')); lia). subst c'. split; auto. intros c X. apply O. now apply goal_any.
Qed.
End Goal.

(** ** machine words *)
Section Small.
Local Open Scope N_scope.
Variable n : nat.
Definition sgood (v : N) : Prop := v <> 0 /\ v < 2 ^ N.of_nat n.
Notation bit i := (2 ^ N.of_nat i).
Lemma member_bit : forall i j, member (bit i) j <-> j = N.of_nat i.
Proof. intros i j. unfold member. rewrite N.pow2_bits_eqb, N.eqb_eq. split; auto. Qed.
Lemma nonzero_member : forall v, v <> 0 -> exists i, member v i.
Proof. intros v H. exists (N.log2 v). now apply N.bit_log2. Qed.
Lemma below_member : forall v k, v < 2 ^ k <-> forall i, member v i -> i < k.
Proof.
  intros v k. split.
  - intros H i M. destruct (N.lt_ge_cases i k) as [|G]; auto. unfold member in M. rewrite (proj1 (lt_pow2_bits v k) H i G) in M. discriminate.
  - intros H. apply lt_pow2_bits. intros i G. destruct (N.testbit v i) eqn:E; auto. apply H in E. lia.
Qed.
Lemma land_zero : forall l r, N.land l r = 0 -> forall i, ~ (member l i /\ member r i).
Proof. intros l r H i [A B]. unfold member in *. assert (N.testbit (N.land l r) i = false) by (rewrite H; apply N.bits_0). rewrite N.land_spec, A, B in H0. discriminate. Qed.
Lemma lxor_member : forall l r, N.land l r = 0 -> forall i, member (N.lxor l r) i <-> member l i \/ member r i.
Proof.
  intros l r H i. pose proof (land_zero l r H i) as D. unfold member in *. rewrite N.lxor_spec.
  destruct (N.testbit l i), (N.testbit r i); cbn; intuition congruence.
Qed.
Lemma popcount_le : forall a b, (forall i, member a i -> member b i) -> popcount a <= popcount b.
Proof.
  intros a b H. rewrite <- !bits_of_length.
  destruct (bits_of_spec a) as [Na Ia]. destruct (bits_of_spec b) as [Nb Ib].
  assert (length (bits_of a) <= length (bits_of b))%nat; [|lia]. apply NoDup_incl_length; auto.
  intros i X. apply Ib, H, Ia. exact X.
Qed.
Lemma concat_small_disjoint : forall e l r, concat_small e l r = true -> N.land l r = 0.
Proof. intros e l r. unfold concat_small. destruct (N.land l r =? 0) eqn:E; cbn [negb]; [|discriminate]. intros _. now apply N.eqb_eq. Qed.
Lemma s_single_good : forall i, (i < n)%nat -> sgood (bit i).
Proof. intros i H. split; [apply N.pow_nonzero; lia|]. apply N.pow_lt_mono_r; lia. Qed.
Lemma s_single_inj : forall i j : nat, bit i = bit j -> i = j.
Proof. intros i j H. apply N.pow_inj_r in H; lia. Qed.
Lemma s_combine_good : forall e l r, sgood l -> sgood r -> concat_small e l r = true ->
  sgood (combine_small l r) /\ bitcount l <= bitcount (combine_small l r) /\ bitcount r <= bitcount (combine_small l r) /\
  forall i : nat, combine_small l r <> bit i.
Proof.
  intros e l r [L0 L1] [R0 R1] C. apply concat_small_disjoint in C. pose proof (lxor_member l r C) as X. unfold combine_small, bitcount.
  destruct (nonzero_member l L0) as [a A]. destruct (nonzero_member r R0) as [b B].
  split; [split|split; [|split]].
  - intros Z. assert (Y : member (N.lxor l r) a) by (apply X; auto). rewrite Z in Y. unfold member in Y. rewrite N.bits_0 in Y. discriminate.
  - apply below_member. intros i H. apply X in H. destruct H as [H|H]; [exact (proj1 (below_member l _) L1 i H)|exact (proj1 (below_member r _) R1 i H)].
  - apply popcount_le. intros i H. apply X. auto.
  - apply popcount_le. intros i H. apply X. auto.
  - intros i E. assert (Ya : member (N.lxor l r) a) by (apply X; auto). assert (Yb : member (N.lxor l r) b) by (apply X; auto).
    rewrite E in Ya, Yb. apply member_bit in Ya, Yb. subst a b. apply (land_zero l r C (N.of_nat i)). auto.
Qed.
Lemma s_no_self : forall e v, sgood v -> concat_small e v v = false.
Proof.
  intros e v [V _]. destruct (concat_small e v v) eqn:C; auto. apply concat_small_disjoint in C. rewrite N.land_diag in C. contradiction.
Qed.
Lemma s_combine_inj : forall l r r', combine_small l r = combine_small l r' -> r = r'.
Proof.
  unfold combine_small. intros l r r' H. apply (f_equal (N.lxor l)) in H. rewrite <- !N.lxor_assoc, N.lxor_nilpotent, !N.lxor_0_l in H. exact H.
Qed.
Lemma s_goal_alone : forall e v, sgood v -> concat_small e (2 ^ N.of_nat n - 1) v = false /\ concat_small e v (2 ^ N.of_nat n - 1) = false.
Proof.
  assert (ON : forall v, v < 2 ^ N.of_nat n -> N.land v (2 ^ N.of_nat n - 1) = v).
  { intros v H. rewrite N.sub_1_r, <- N.ones_equiv, N.land_ones. now apply N.mod_small. }
  intros e v [V0 V1]. split.
  - destruct (concat_small e _ v) eqn:C; auto. apply concat_small_disjoint in C. rewrite N.land_comm, ON in C by exact V1. contradiction.
  - destruct (concat_small e v _) eqn:C; auto. apply concat_small_disjoint in C. rewrite ON in C by exact V1. contradiction.
Qed.
Definition s_allvecs : list N := map N.of_nat (seq 0 (N.to_nat (2 ^ N.of_nat n))).
Lemma s_allvecs_ok : forall v, sgood v -> In v s_allvecs.
Proof.
  intros v [_ H]. apply in_map_iff. exists (N.to_nat v). split; [apply N2Nat.id|]. apply in_seq. lia.
Qed.
End Small.

(** the grammar: number of components of the spans of each label *)
Definition wf_grammar (fan : nat -> nat) (rules : list prule) : Prop :=
  Forall (fun r => if prhs2 r =? 0 then fan (plhs r) = fan (prhs1 r)
    else wf_yf (ryf r) /\ length (concat (ryf r)) <= 64 /\ length (ryf r) = fan (plhs r) /\
         expects false (ryf r) = fan (prhs1 r) /\ expects true (ryf r) = fan (prhs2 r)) rules.
Definition wf_lexicon (fan : nat -> nat) (sent : list word) : Prop :=
  Forall (fun w => (forall x c, In (x, c) (entries w) -> fan x = 1) /\ (forall x, In x (goldlabels w) -> fan x = 1) /\ NoDup (goldlabels w)) sent.

Section SmallJoin.
Variables (wl : item N -> bool) (rules : list prule) (mask : nat -> bool) (sent : list word) (fan : nat -> nat).
Hypothesis WG : wf_grammar fan rules.
Hypothesis WL : wf_lexicon fan sent.
Hypothesis LEN : length sent < 64.
Notation bit := (fun i => 2 ^ N.of_nat i)%N.
Notation allowed := (callowed N wl).
Definition SP (x : nat) (v : N) : Prop := (v < 2 ^ 63)%N /\ exists L, components v L /\ length L = fan x.
Lemma components_bit : forall i, components (bit i) [(N.of_nat i, N.of_nat i + 1)%N].
Proof.
  intros i. split; [cbn; lia|]. intros j. rewrite member_bit. unfold covered. split.
  - intros ->. exists (N.of_nat i), (N.of_nat i + 1)%N. split; [now left|lia].
  - intros (a & b & [E|[]] & H). inversion E; subst. lia.
Qed.
Lemma SP_word : forall i x c, tagged N bit allowed sent i x c -> SP x (bit i).
Proof.
  intros i x c T. assert (Hi : i < length sent) by (destruct T; apply nth_error_Some; congruence). split.
  - apply N.pow_lt_mono_r; lia.
  - exists [(N.of_nat i, N.of_nat i + 1)%N]. split; [apply components_bit|]. cbn [length]. unfold wf_lexicon in WL. rewrite Forall_forall in WL.
    destruct T as [w E F A|w E _ G _]; apply nth_error_In in E; destruct (WL w E) as (W1 & W2 & _); symmetry; [eapply W1; eapply first_entry_in; eauto|auto].
Qed.
Lemma SP_unary : forall r v, In r rules -> prhs2 r = 0 -> SP (prhs1 r) v -> SP (plhs r) v.
Proof.
  intros r v H E [B (L & C & N0)]. split; auto. exists L. split; auto. unfold wf_grammar in WG. rewrite Forall_forall in WG. specialize (WG r H).
  apply Nat.eqb_eq in E. rewrite E in WG. congruence.
Qed.
Lemma small_same : forall r l u v, In r rules -> prhs2 r <> 0 -> SP (prhs1 r) l -> SP (prhs2 r) u ->
  (cjoin N concat_small combine_small (ryf r) l u v <-> set_join (ryf r) l u v).
Proof.
  intros r l u v H E [B1 (L & C1 & N1)] [B2 (R & C2 & N2)]. unfold wf_grammar in WG. rewrite Forall_forall in WG. specialize (WG r H).
  apply Nat.eqb_neq in E. rewrite E in WG. destruct WG as (W & WN & F0 & F1 & F2). unfold cjoin, set_join. split.
  - intros [J ->]. destruct (C05_combined_item (ryf r) l u L R W WN B1 B2 C1 C2 ltac:(congruence) ltac:(congruence) J) as (_ & M & _).
    exists L, R. split; auto. split; auto. split; auto. apply (C05_concat_small (ryf r) l u L R); auto; congruence.
  - intros (L' & R' & C1' & C2' & J & M). rewrite (components_unique l L' L C1' C1) in J. rewrite (components_unique u R' R C2' C2) in J.
    assert (J' : concat_small (getyf (ryf r)) l u = true) by (apply (C05_concat_small (ryf r) l u L R); auto; congruence).
    split; auto. destruct (C05_combined_item (ryf r) l u L R W WN B1 B2 C1 C2 ltac:(congruence) ltac:(congruence) J') as (_ & M' & _).
    apply N.bits_inj. intros i. apply eq_iff_eq_true. specialize (M i). specialize (M' i). unfold member in *. rewrite M, M'. reflexivity.
Qed.
Lemma SP_binary : forall r l u v, In r rules -> prhs2 r <> 0 -> SP (prhs1 r) l -> SP (prhs2 r) u ->
  cjoin N concat_small combine_small (ryf r) l u v -> SP (plhs r) v.
Proof.
  intros r l u v H E [B1 (L & C1 & N1)] [B2 (R & C2 & N2)] [J ->]. unfold wf_grammar in WG. rewrite Forall_forall in WG. specialize (WG r H).
  apply Nat.eqb_neq in E. rewrite E in WG. destruct WG as (W & WN & F0 & F1 & F2).
  destruct (C05_combined_item (ryf r) l u L R W WN B1 B2 C1 C2 ltac:(congruence) ltac:(congruence) J) as (_ & M & U & Y & CU & LU).
  split; [|exists U; split; auto; congruence]. apply below_member. intros i X. apply M in X. destruct X as [X|X]; [exact (proj1 (below_member l _) B1 i X)|exact (proj1 (below_member u _) B2 i X)].
Qed.
End SmallJoin.
