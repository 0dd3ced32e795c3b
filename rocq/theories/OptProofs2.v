(** The search of minimalbinarization: without and with head (C77) *)
From Coq Require Import String.
From Coq Require Import List Bool Arith NArith Lia Permutation.
From Verif Require Import PyStr TreeModel TransformModel OptModel OptProofs.
Import ListNotations.
Open Scope list_scope.
Open Scope nat_scope.

(** all parts of a binarization *)
Fixpoint parts (t : bt) : list bt := t :: match t with BL _ => [] | BN l r => parts l ++ parts r end.
(** [s] is at least as good as [t]: the maximal score of its parts is not higher *)
Definition noworse (score : bt -> nat * nat) (s t : bt) : Prop :=
  forall p, In p (parts s) -> exists q, In q (parts t) /\ le2 (score p) (score q).
Lemma parts_self : forall t, In t (parts t). Proof. destruct t; now left. Qed.
Lemma leaf_part : forall t i, In i (btleaves t) -> In (BL i) (parts t).
Proof. induction t as [j|l IHl r IHr]; cbn; intros i H; [destruct H as [->|[]]; now left|]. right. apply in_app_iff in H. apply in_or_app. destruct H; auto. Qed.
Lemma wf_leaves : forall n t, wf n t -> NoDup (btleaves t) /\ forall j, In j (btleaves t) -> j < n.
Proof.
  intros n t W. induction W as [i L|l r Wl [N1 B1] Wr [N2 B2] D]; cbn.
  - split; [constructor; [intros []|constructor]|]. intros j [<-|[]]. exact L.
  - split; [|intros j J; apply in_app_iff in J; destruct J; auto]. pose proof (proj1 (mask_disjoint _ _) D) as DJ.
    clear - N1 N2 DJ. induction (btleaves l) as [|a x IH]; cbn; [exact N2|]. inversion N1; subst. constructor; [|apply IH; auto; intros j J; apply DJ; now right].
    rewrite in_app_iff. intros [I|I]; [contradiction|]. apply (DJ a); [now left|exact I].
Qed.
Lemma leaves_wf : forall n t, NoDup (btleaves t) -> (forall j, In j (btleaves t) -> j < n) -> wf n t.
Proof.
  intros n t. induction t as [i|l IHl r IHr]; cbn; intros ND B; [constructor; apply B; now left|].
  assert (DJ : forall j, In j (btleaves l) -> ~ In j (btleaves r)).
  { clear - ND. induction (btleaves l) as [|a x IH]; cbn in *; [intros j []|]. inversion ND; subst. intros j [<-|J] K; [apply H1; apply in_or_app; now right|exact (IH H2 j J K)]. }
  assert (NL : NoDup (btleaves l)). { clear - ND. induction (btleaves l) as [|a x IH]; [constructor|]. cbn in ND. inversion ND; subst. constructor; [intros I; apply H1, in_or_app; now left|auto]. }
  assert (NR : NoDup (btleaves r)). { clear - ND. induction (btleaves l) as [|a x IH]; [exact ND|]. cbn in ND. inversion ND; subst. auto. }
  constructor; [apply IHl; auto; intros; apply B, in_or_app; auto|apply IHr; auto; intros; apply B, in_or_app; auto|]. apply mask_disjoint. exact DJ.
Qed.
Lemma goal_spec : forall n j, N.testbit (goal n) (N.of_nat j) = true <-> j < n.
Proof.
  intros n j. unfold goal. destruct (Nat.lt_ge_cases j n) as [L|L].
  - rewrite N.ones_spec_low by lia. tauto.
  - rewrite N.ones_spec_high by lia. split; [discriminate|lia].
Qed.
Lemma mask_goal : forall n t, wf n t -> (mask t = goal n <-> Permutation (btleaves t) (seq 0 n)).
Proof.
  intros n t W. destruct (wf_leaves n t W) as [ND B]. split.
  - intros E. apply NoDup_Permutation; [exact ND|apply seq_NoDup|]. intros j. rewrite in_seq, <- mask_spec, E, goal_spec. lia.
  - intros P. apply N.bits_inj. intros k. rewrite <- (N2Nat.id k). apply eq_true_iff_eq. rewrite mask_spec, goal_spec. split; [apply B|]. intros L. apply (Permutation_in _ (Permutation_sym P)). apply in_seq. lia.
Qed.
Lemma dget_mapt : forall (V : Type) (f : bt -> V) (l : list bt) t v, NoDup l -> (dget bt_eqb (map (fun t => (t, f t)) l) t = Some v <-> In t l /\ v = f t).
Proof.
  intros V f l t v ND. assert (NK : NoDup (map fst (map (fun t => (t, f t)) l))) by (rewrite map_map; cbn; rewrite map_id; exact ND). split.
  - intros E. apply (dget_in _ bt_eqb_ok) in E. apply in_map_iff in E. destruct E as (u & E & I). injection E as <- <-. auto.
  - intros [I ->]. apply (in_dget _ bt_eqb_ok); [exact NK|]. apply in_map_iff. eauto.
Qed.
Lemma dget_maskt : forall (l : list bt) m t, NoDup (map mask l) -> (dget N.eqb (map (fun t => (mask t, t)) l) m = Some t <-> In t l /\ mask t = m).
Proof.
  intros l m t ND. assert (NK : NoDup (map fst (map (fun t => (mask t, t)) l))) by (rewrite map_map; cbn; exact ND). split.
  - intros E. apply (dget_in _ N.eqb_eq) in E. apply in_map_iff in E. destruct E as (u & E & I). injection E as <- <-. auto.
  - intros [I <-]. apply (in_dget _ N.eqb_eq); [exact NK|]. apply in_map_iff. eauto.
Qed.
Lemma nodup_mask : forall l, NoDup (map mask l) -> NoDup l.
Proof. intros l. apply NoDup_map_inv. Qed.

(** ---- without head ---- *)
Section Free.
Variable n : nat.
Variable score : bt -> nat * nat.
Hypothesis score_mask : forall l r l' r', wf n l -> wf n r -> wf n l' -> wf n r' -> mask l = mask l' -> mask r = mask r' -> score (BN l r) = score (BN l' r').
Hypothesis score_sym : forall l r, wf n l -> wf n r -> score (BN l r) = score (BN r l).
Hypothesis n_pos : 0 < n.
Let ts := map BL (seq 0 n).
Let start := map (fun t => (t, (score t, 0))) ts.
Lemma bit_inj : forall i j, bit i = bit j -> i = j.
Proof. intros i j E. assert (X : N.testbit (bit j) (N.of_nat i) = true) by (rewrite <- E, bit_spec; apply Nat.eqb_refl). rewrite bit_spec in X. apply Nat.eqb_eq in X. auto. Qed.
Lemma ts_masks : NoDup (map mask ts).
Proof. unfold ts. rewrite map_map. cbn [mask]. apply FinFun.Injective_map_NoDup; [exact bit_inj|apply seq_NoDup]. Qed.
Lemma in_ts : forall t, In t ts <-> exists i, t = BL i /\ i < n.
Proof. intros t. unfold ts. rewrite in_map_iff. split; intros (i & A & B); exists i; [apply in_seq in B; split; [auto|lia]|split; [auto|apply in_seq; lia]]. Qed.
Lemma free_inv : inv n None score start (init n None score).
Proof.
  assert (EI : init n None score = mkO start start (map (fun t => (t, mask t)) ts) (map (fun t => (mask t, t)) ts)) by (unfold init, start, ts; rewrite !map_map; reflexivity).
  rewrite EI. pose proof ts_masks as NM. pose proof (nodup_mask _ NM) as NT.
  assert (WS : forall t x, dget bt_eqb start t = Some x <-> In t ts /\ x = (score t, 0)) by (intros t x; apply (dget_mapt _ (fun t => (score t, 0))); exact NT).
  assert (NS : forall t x, ~ settled (mkO start start (map (fun t => (t, mask t)) ts) (map (fun t => (mask t, t)) ts)) t x) by (intros t x [A B]; cbn [workingset agenda] in *; congruence).
  constructor.
  - constructor; cbn [workingset agenda nonterms revnonterms].
    + unfold start. rewrite map_map. cbn. rewrite map_id. exact NT.
    + unfold start. rewrite map_map. cbn. rewrite map_id. exact NT.
    + intros t x E. apply d_init. now apply (dget_in _ bt_eqb_ok).
    + intros t x E. apply WS in E. apply dget_mapt; [exact NT|]. tauto.
    + intros t x E. apply WS in E. apply dget_maskt; [exact NM|]. tauto.
    + intros m t E. apply dget_maskt in E; [|exact NM]. destruct E as [I M]. split; [exact M|]. left. exists (score t, 0). apply WS. auto.
    + intros t x E. auto.
  - intros t z u w S. exfalso. exact (NS _ _ S).
  - intros t1 x1 t2 x2 S. exfalso. exact (NS _ _ S).
  - intros t x I. exists t, x. cbn [workingset]. unfold start in I. apply in_map_iff in I. destruct I as (u & E & I). injection E as <- <-. split; [apply WS; auto|]. split; [reflexivity|apply le2_refl].
  - intros t z S. exfalso. exact (NS _ _ S).
Qed.
Lemma free_bounds : forall t x, deriv n None score start t x -> (forall p, In p (parts t) -> le2 (score p) (fst x)) /\ exists p, In p (parts t) /\ le2 (fst x) (score p).
Proof.
  induction 1 as [t x I|t1 x1 t2 x2 t D1 [U1 A1] D2 [U2 A2] DJ DY C].
  - unfold start in I. apply in_map_iff in I. destruct I as (u & E & I). injection E as <- <-. apply in_ts in I. destruct I as (i & -> & _). cbn. split; [intros p [<-|[]]; apply le2_refl|exists (BL i); split; [now left|apply le2_refl]].
  - cbn in C. injection C as <-. unfold newscore. cbn [fst parts]. split.
    + intros p [<-|I]; [eapply le2_trans; [apply max2_l|apply max2_l]|]. apply in_app_iff in I. destruct I as [I|I].
      * eapply le2_trans; [exact (U1 p I)|apply max2_r].
      * eapply le2_trans; [exact (U2 p I)|]. eapply le2_trans; [apply max2_r|apply max2_l].
    + unfold max2. destruct A1 as (p1 & I1 & L1), A2 as (p2 & I2 & L2). match goal with |- context [if ?b then _ else _] => destruct b end.
      { exists p1. split; [right; apply in_or_app; now left|exact L1]. }
      match goal with |- context [if ?b then _ else _] => destruct b end; [exists p2; split; [right; apply in_or_app; now right|exact L2]|exists (BN t1 t2); split; [now left|apply le2_refl]].
Qed.
Lemma free_deriv : forall t, wf n t -> exists x, deriv n None score start t x.
Proof.
  induction 1 as [i L|l r Wl [x Dl] Wr [y Dr] D].
  - exists (score (BL i), 0). apply d_init. unfold start. apply in_map_iff. exists (BL i). split; [reflexivity|]. apply in_ts. eauto.
  - eexists. eapply d_comb; [exact Dl|exact Dr|exact D|now left|reflexivity].
Qed.
Lemma start_ok : forall t x, In (t, x) start -> wf n t.
Proof. intros t x I. unfold start in I. apply in_map_iff in I. destruct I as (u & E & I). injection E as <- <-. apply in_ts in I. destruct I as (i & -> & L). now constructor. Qed.
Fixpoint bigtree (k : nat) : bt := match k with O => BL 0 | S k => BN (BL (S k)) (bigtree k) end.
Lemma bigtree_leaves : forall k, Permutation (btleaves (bigtree k)) (seq 0 (S k)).
Proof. induction k as [|k IH]; [apply Permutation_refl|]. cbn [bigtree btleaves app]. rewrite seq_S. cbn [plus]. rewrite <- Permutation_cons_append. constructor. exact IH. Qed.
Theorem free_ok : exists p, minimal n None score = Found p /\ Permutation (btleaves p) (seq 0 n) /\ forall t, Permutation (btleaves t) (seq 0 n) -> noworse score p t.
Proof.
  assert (WFP : forall t, Permutation (btleaves t) (seq 0 n) -> wf n t).
  { intros t P. apply leaves_wf; [apply (Permutation_NoDup (Permutation_sym P)), seq_NoDup|]. intros j J. apply (Permutation_in _ P) in J. apply in_seq in J. lia. }
  destruct (search_ok n None score score_mask score_sym start start_ok (fun _ _ h _ E => ltac:(discriminate E))) with (fuel := S (2 ^ n)) (done := @nil N) (st := init n None score) as (p & x & E & D & G & OPT).
  - pose proof (bigtree_leaves (n - 1)) as P. replace (S (n - 1)) with n in P by lia. destruct (free_deriv _ (WFP _ P)) as (x & D). exists (bigtree (n - 1)), x. split; [exact D|]. apply mask_goal; auto.
  - apply free_inv.
  - constructor.
  - intros m [].
  - cbn. lia.
  - exists p. split; [exact E|]. assert (W : wf n p) by (eapply deriv_wf; [exact start_ok|exact D]). split; [now apply mask_goal|]. intros t P q Q.
    destruct (free_deriv _ (WFP _ P)) as (y & Dy). specialize (OPT t y Dy (proj2 (mask_goal n t (WFP _ P)) P)). destruct (proj2 (free_bounds _ _ Dy)) as (r & R & L). exists r. split; [exact R|].
    eapply le2_trans; [exact (proj1 (free_bounds _ _ D) q Q)|]. eapply le2_trans; eauto.
Qed.
End Free.

(** ---- with head: the other children are added to the head one by one ---- *)
Inductive headfirst (h : nat) : bt -> Prop :=
| hf_one : forall i, i <> h -> headfirst h (BN (BL i) (BL h))
| hf_more : forall i t, headfirst h t -> headfirst h (BN (BL i) t).
Section Head.
Variable n h : nat.
Variable score : bt -> nat * nat.
Hypothesis score_mask : forall l r l' r', wf n l -> wf n r -> wf n l' -> wf n r' -> mask l = mask l' -> mask r = mask r' -> score (BN l r) = score (BN l' r').
Hypothesis score_sym : forall l r, wf n l -> wf n r -> score (BN l r) = score (BN r l).
Hypothesis h_lt : h < n.
Hypothesis n_two : 2 <= n.
Let others := filter (fun i => negb (i =? h)) (seq 0 n).
Let ones := map BL others.
Let firsts := map (fun i => BN (BL i) (BL h)) others.
Let val (t : bt) : nat * nat * nat := match t with BL _ => (score t, 0) | BN _ _ => (score t, fst (score t)) end.
Let start := map (fun t => (t, val t)) (ones ++ firsts).
Let all := map BL (seq 0 n) ++ firsts.
Lemma in_others : forall i, In i others <-> i < n /\ i <> h.
Proof. intros i. unfold others. rewrite filter_In, in_seq, negb_true_iff, Nat.eqb_neq. intuition lia. Qed.
Lemma in_ones : forall t, In t ones <-> exists i, t = BL i /\ i < n /\ i <> h.
Proof. intros t. unfold ones. rewrite in_map_iff. split; intros (i & A & B); exists i; [apply in_others in B; auto|rewrite in_others; auto]. Qed.
Lemma in_firsts : forall t, In t firsts <-> exists i, t = BN (BL i) (BL h) /\ i < n /\ i <> h.
Proof. intros t. unfold firsts. rewrite in_map_iff. split; intros (i & A & B); exists i; [apply in_others in B; auto|rewrite in_others; auto]. Qed.
Lemma nodup_appl : forall A (a b : list A), NoDup a -> NoDup b -> (forall x, In x a -> ~ In x b) -> NoDup (a ++ b).
Proof. induction a as [|x a IH]; intros b Na Nb D; [exact Nb|]. inversion Na; subst. cbn. constructor; [|apply IH; auto; intros y I; apply D; now right]. rewrite in_app_iff. intros [I|I]; [contradiction|]. apply (D x); [now left|exact I]. Qed.
Lemma masks_ok : NoDup (map mask all).
Proof.
  unfold all. rewrite map_app. apply nodup_appl.
  - rewrite map_map. cbn [mask]. apply FinFun.Injective_map_NoDup; [exact bit_inj|apply seq_NoDup].
  - unfold firsts. rewrite map_map. cbn [mask]. assert (NO : NoDup others) by (apply NoDup_filter, seq_NoDup). assert (NI : forall i, In i others -> i <> h) by (intros i I; now apply in_others).
    clear - NO NI. induction NO as [|i l I ND IH]; cbn [map]; [constructor|]. constructor; [|apply IH; intros; apply NI; now right]. intros X. apply in_map_iff in X. destruct X as (j & E & J).
    assert (Y : N.testbit (N.lor (bit j) (bit h)) (N.of_nat i) = true) by (rewrite E, N.lor_spec, bit_spec, Nat.eqb_refl; reflexivity). rewrite N.lor_spec, !bit_spec in Y.
    apply orb_true_iff in Y. destruct Y as [Y|Y]; apply Nat.eqb_eq in Y; [subst; contradiction|]. apply (NI i (or_introl eq_refl)). auto.
  - intros m A B. apply in_map_iff in A, B. destruct A as (u & <- & A), B as (w & E & B). apply in_map_iff in A. destruct A as (i & <- & _). apply in_firsts in B. destruct B as (j & -> & _ & NJ). cbn [mask] in E.
    assert (Y1 : N.testbit (bit i) (N.of_nat j) = true) by (rewrite <- E, N.lor_spec, bit_spec, Nat.eqb_refl; reflexivity).
    assert (Y2 : N.testbit (bit i) (N.of_nat h) = true) by (rewrite <- E, N.lor_spec, (bit_spec h h), Nat.eqb_refl; apply orb_true_r). rewrite bit_spec in Y1, Y2. apply Nat.eqb_eq in Y1, Y2. congruence.
Qed.
Lemma sub_all : forall t, In t (ones ++ firsts) -> In t all.
Proof. intros t I. unfold all. apply in_app_iff in I. apply in_or_app. destruct I as [I|I]; [left|now right]. apply in_ones in I. destruct I as (i & -> & L & _). apply in_map, in_seq. lia. Qed.
Lemma nodup_some : NoDup (ones ++ firsts).
Proof.
  assert (NO : NoDup others) by (apply NoDup_filter, seq_NoDup). apply nodup_appl; [unfold ones; apply FinFun.Injective_map_NoDup; [intros a b E; congruence|exact NO]|unfold firsts; apply FinFun.Injective_map_NoDup; [intros a b E; congruence|exact NO]|].
  intros x A B. apply in_ones in A. apply in_firsts in B. destruct A as (i & -> & _), B as (j & B & _). discriminate.
Qed.
Lemma head_inv : inv n (Some h) score start (init n (Some h) score).
Proof.
  assert (EI : init n (Some h) score = mkO (map (fun t => (t, val t)) firsts) start (map (fun t => (t, mask t)) all) (map (fun t => (mask t, t)) all)).
  { unfold init, start, all, firsts, ones. cbv zeta. fold others. rewrite !map_app, !map_map. reflexivity. }
  rewrite EI. pose proof masks_ok as NM. pose proof (nodup_mask _ NM) as NA. pose proof nodup_some as NS.
  assert (NF : NoDup firsts) by (clear - NS; induction ones as [|a l IH]; [exact NS|]; cbn in NS; inversion NS; auto).
  assert (WS : forall t x, dget bt_eqb start t = Some x <-> In t (ones ++ firsts) /\ x = val t) by (intros t x; apply (dget_mapt _ val); exact NS).
  assert (AG : forall t x, dget bt_eqb (map (fun t => (t, val t)) firsts) t = Some x <-> In t firsts /\ x = val t) by (intros t x; apply (dget_mapt _ val); exact NF).
  set (st := mkO _ _ _ _). assert (SE : forall t x, settled st t x -> exists i, t = BL i /\ i < n /\ i <> h).
  { intros t x [A B]. cbn [st workingset agenda] in *. apply WS in A. destruct A as [A ->]. apply in_app_iff in A. destruct A as [A|A]; [now apply in_ones|]. assert (X : dget bt_eqb (map (fun t => (t, val t)) firsts) t = Some (val t)) by (apply AG; auto). congruence. }
  assert (ND : forall i, i <> h -> dynm (Some h) (mask (BL i)) = false) by (intros i N; cbn [dynm mask]; rewrite bit_spec; now apply Nat.eqb_neq).
  constructor.
  - constructor; cbn [st workingset agenda nonterms revnonterms].
    + unfold start. rewrite map_map. cbn. rewrite map_id. exact NS.
    + rewrite map_map. cbn. rewrite map_id. exact NF.
    + intros t x E. apply d_init. now apply (dget_in _ bt_eqb_ok).
    + intros t x E. apply WS in E. apply dget_mapt; [exact NA|]. split; [apply sub_all|]; tauto.
    + intros t x E. apply WS in E. apply dget_maskt; [exact NM|]. split; [apply sub_all|]; tauto.
    + intros m t E. apply dget_maskt in E; [|exact NM]. destruct E as [I M]. split; [exact M|]. unfold all in I. apply in_app_iff in I. destruct I as [I|I].
      * apply in_map_iff in I. destruct I as (i & <- & I). apply in_seq in I. destruct (Nat.eq_dec i h) as [->|N]; [right; exists h; cbn in M; auto|]. left. exists (val (BL i)). apply WS. split; [|reflexivity]. apply in_or_app. left. apply in_ones. exists i. split; [reflexivity|lia].
      * left. exists (val t). apply WS. split; [|reflexivity]. apply in_or_app. now right.
    + intros t x E. apply AG in E. destruct E as [I ->]. split; [apply WS; split; [apply in_or_app; now right|reflexivity]|]. apply in_firsts in I. destruct I as (i & -> & _). cbn [dynm mask]. rewrite N.lor_spec, (bit_spec h h), Nat.eqb_refl. apply orb_true_r.
  - intros t z u w S D. exfalso. destruct (SE _ _ S) as (i & -> & _ & N). rewrite ND in D by exact N. discriminate.
  - intros t1 x1 t2 x2 S1 S2 _ DY. exfalso. destruct (SE _ _ S1) as (i & -> & _ & N1), (SE _ _ S2) as (j & -> & _ & N2). rewrite !ND in DY by assumption. destruct DY; discriminate.
  - intros t x I. exists t, x. cbn [st workingset]. unfold start in I. apply in_map_iff in I. destruct I as (u & E & I). injection E as <- <-. split; [apply WS; auto|]. split; [reflexivity|apply le2_refl].
  - intros t z S E. destruct (SE _ _ S) as (i & -> & _ & N). cbn [mask] in E. assert (X : N.testbit (goal n) (N.of_nat h) = true) by now apply goal_spec. rewrite <- E, bit_spec in X. apply Nat.eqb_eq in X. contradiction.
Qed.
Lemma hf_has : forall t, headfirst h t -> In h (btleaves t) /\ exists i, i <> h /\ In i (btleaves t).
Proof. induction 1 as [i N|i t H [A (j & B & C)]]; cbn; [split; [tauto|exists i; tauto]|split; [tauto|exists j; tauto]]. Qed.
Lemma card_leaf : forall i, i < n -> card n (mask (BL i)) = 1.
Proof.
  intros i L. unfold card. cbn [mask]. assert (E : filter (fun j => N.testbit (bit i) (N.of_nat j)) (seq 0 n) = [i]).
  { apply Permutation_length_1_inv. apply NoDup_Permutation; [constructor; [intros []|constructor]|apply NoDup_filter, seq_NoDup|]. intros j. rewrite filter_In, in_seq, bit_spec, Nat.eqb_eq. cbn. lia. }
  now rewrite E.
Qed.
Lemma card_hf : forall t, wf n t -> headfirst h t -> card n (mask t) <> 1.
Proof.
  intros t W H E. destruct (hf_has t H) as [A (i & N & B)]. destruct (wf_leaves n t W) as [_ BD].
  assert (L : length [h; i] <= card n (mask t)).
  { unfold card. apply NoDup_incl_length; [constructor; [intros [X|[]]; auto|constructor; [intros []|constructor]]|]. intros j [<-|[<-|[]]]; apply filter_In; rewrite in_seq; (split; [split; [lia|apply BD; assumption]|now apply mask_spec]). }
  cbn in L. lia.
Qed.
Lemma start_okh : forall t x, In (t, x) start -> wf n t.
Proof.
  intros t x I. unfold start in I. apply in_map_iff in I. destruct I as (u & E & I). injection E as <- <-. apply in_app_iff in I. destruct I as [I|I].
  - apply in_ones in I. destruct I as (i & -> & L & _). now constructor.
  - apply in_firsts in I. destruct I as (i & -> & L & N). constructor; [now constructor|now constructor|]. apply mask_disjoint. cbn. intros j [<-|[]] [X|[]]. auto.
Qed.
Lemma start_headh : forall t x h', In (t, x) start -> Some h = Some h' -> mask t <> bit h'.
Proof.
  intros t x h' I E. injection E as <-. unfold start in I. apply in_map_iff in I. destruct I as (u & E & I). injection E as <- <-. intros M. apply in_app_iff in I. destruct I as [I|I].
  - apply in_ones in I. destruct I as (i & -> & L & N). apply N. now apply bit_inj.
  - apply in_firsts in I. destruct I as (i & -> & L & N). cbn [mask] in M. assert (X : N.testbit (bit h) (N.of_nat i) = true) by (rewrite <- M, N.lor_spec, bit_spec, Nat.eqb_refl; reflexivity). rewrite bit_spec in X. apply Nat.eqb_eq in X. auto.
Qed.
Lemma head_shape : forall t x, deriv n (Some h) score start t x -> (exists i, t = BL i /\ i < n /\ i <> h /\ fst x = score t) \/
  headfirst h t /\ (forall p, In p (parts t) -> le2 (score p) (fst x) \/ exists i, p = BL i) /\ exists p, In p (parts t) /\ le2 (fst x) (score p).
Proof.
  intros t x D. induction D as [t x I|t1 x1 t2 x2 t D1 IH1 D2 IH2 DJ DY C].
  - unfold start in I. apply in_map_iff in I. destruct I as (u & E & I). injection E as <- <-. apply in_app_iff in I. destruct I as [I|I].
    + left. apply in_ones in I. destruct I as (i & -> & L & N). exists i. auto.
    + right. apply in_firsts in I. destruct I as (i & -> & L & N). split; [now constructor|]. cbn [val fst parts app]. split.
      * intros p [<-|[<-|[<-|[]]]]; [left; apply le2_refl|right; eauto|right; eauto].
      * eexists. split; [now left|apply le2_refl].
  - right. pose proof (deriv_wf n (Some h) score start start_okh _ _ D1) as W1. pose proof (deriv_wf n (Some h) score start start_okh _ _ D2) as W2.
    assert (ADD : forall i u xi xu, i <> h -> i < n -> xi = score (BL i) -> headfirst h u -> (forall p, In p (parts u) -> le2 (score p) xu \/ exists i, p = BL i) -> (exists p, In p (parts u) /\ le2 xu (score p)) ->
      forall y, (le2 (score (BN (BL i) u)) y /\ le2 xi y /\ le2 xu y) -> (y = score (BN (BL i) u) \/ y = xi \/ y = xu) ->
      headfirst h (BN (BL i) u) /\ (forall p, In p (parts (BN (BL i) u)) -> le2 (score p) y \/ exists i, p = BL i) /\ exists p, In p (parts (BN (BL i) u)) /\ le2 y (score p)).
    { intros i u xi xu NI LI -> HU UB (q & Q1 & Q2) y (Y1 & Y2 & Y3) Y4. split; [now constructor|]. cbn [parts app]. split.
      - intros p [<-|[<-|I]]; [now left|right; eauto|]. destruct (UB p I) as [X|X]; [left; eapply le2_trans; eauto|now right].
      - destruct Y4 as [->|[->| ->]]; [eexists; split; [now left|apply le2_refl]|exists (BL i); split; [right; now left|apply le2_refl]|exists q; split; [right; right; exact Q1|exact Q2]]. }
    assert (MX : forall a b c : nat * nat, (le2 a (max2 (max2 a b) c) /\ le2 b (max2 (max2 a b) c) /\ le2 c (max2 (max2 a b) c)) /\ (max2 (max2 a b) c = a \/ max2 (max2 a b) c = b \/ max2 (max2 a b) c = c)).
    { intros a b c. split; [split; [eapply le2_trans; [apply max2_l|apply max2_l]|split; [eapply le2_trans; [apply max2_r|apply max2_l]|apply max2_r]]|]. unfold max2. repeat match goal with |- context [if ?b then _ else _] => destruct b end; auto. }
    destruct IH1 as [(i & -> & Li & Ni & S1)|(H1 & U1 & A1)], IH2 as [(j & -> & Lj & Nj & S2)|(H2 & U2 & A2)].
    + exfalso. cbn [dynm mask] in DY. rewrite !bit_spec, !Nat.eqb_eq in DY. tauto.
    + cbn [combine] in C. rewrite (proj2 (Nat.eqb_neq _ _) (card_hf t2 W2 H2)), (card_leaf i Li) in C. cbn [Nat.eqb] in C. injection C as <-. destruct (MX (score (BN (BL i) t2)) (fst x2) (fst x1)) as [(X1 & X2 & X3) X4].
      eapply ADD; [exact Ni|exact Li|exact S1|exact H2|exact U2|exact A2|unfold newscore; cbn [fst]; tauto|unfold newscore; cbn [fst]; tauto].
    + cbn [combine] in C. rewrite (card_leaf j Lj) in C. cbn [Nat.eqb] in C. injection C as <-. destruct (MX (score (BN (BL j) t1)) (fst x2) (fst x1)) as [(X1 & X2 & X3) X4].
      eapply ADD; [exact Nj|exact Lj|exact S2|exact H1|exact U1|exact A1|unfold newscore; cbn [fst]; tauto|unfold newscore; cbn [fst]; tauto].
    + exfalso. destruct (hf_has _ H1) as [B1 _], (hf_has _ H2) as [B2 _]. exact (proj1 (mask_disjoint _ _) DJ h B1 B2).
Qed.
Lemma head_deriv : forall t, headfirst h t -> wf n t -> exists x, deriv n (Some h) score start t x.
Proof.
  induction 1 as [i N|i t H IH]; intros W; inversion W as [|? ? Wl Wr D]; subst.
  - inversion Wl; subst. eexists. apply d_init. unfold start. apply in_map_iff. exists (BN (BL i) (BL h)). split; [reflexivity|]. apply in_or_app. right. apply in_firsts. eauto.
  - inversion Wl; subst. destruct (IH Wr) as (x & Dx). destruct (hf_has t H) as [B _].
    assert (N : i <> h) by (intros ->; apply (proj1 (mask_disjoint _ _) D h); [now left|exact B]).
    eexists. eapply d_comb; [exact Dx|apply d_init; unfold start; apply in_map_iff; exists (BL i); split; [reflexivity|apply in_or_app; left; apply in_ones; eauto]|now apply disjoint_sym|left; cbn [dynm]; now apply mask_spec|].
    cbn [combine]. rewrite (card_leaf i) by assumption. reflexivity.
Qed.
Fixpoint chainof (l : list nat) : bt := match l with [] => BL h | i :: r => BN (BL i) (chainof r) end.
Lemma chainof_leaves : forall l, btleaves (chainof l) = l ++ [h]. Proof using. induction l; cbn; congruence. Qed.
Lemma chainof_hf : forall l, l <> [] -> (forall i, In i l -> i <> h) -> headfirst h (chainof l).
Proof.
  induction l as [|i l IH]; intros NE H; [congruence|]. cbn. destruct l as [|j l]; [apply hf_one; apply H; now left|]. apply hf_more. apply IH; [discriminate|]. intros k K. apply H. now right.
Qed.
Theorem head_ok : exists p, minimal n (Some h) score = Found p /\ Permutation (btleaves p) (seq 0 n) /\ headfirst h p /\ forall t, Permutation (btleaves t) (seq 0 n) -> headfirst h t -> noworse score p t.
Proof.
  assert (WFP : forall t, Permutation (btleaves t) (seq 0 n) -> wf n t).
  { intros t P. apply leaves_wf; [apply (Permutation_NoDup (Permutation_sym P)), seq_NoDup|]. intros j J. apply (Permutation_in _ P) in J. apply in_seq in J. lia. }
  destruct (search_ok n (Some h) score score_mask score_sym start start_okh start_headh) with (fuel := S (2 ^ n)) (done := @nil N) (st := init n (Some h) score) as (p & x & E & D & G & OPT).
  - set (t := chainof others). assert (P : Permutation (btleaves t) (seq 0 n)).
    { unfold t. rewrite chainof_leaves. apply NoDup_Permutation; [|apply seq_NoDup|].
      - apply (Permutation_NoDup (Permutation_cons_append others h)). constructor; [intros I; apply in_others in I; tauto|apply NoDup_filter, seq_NoDup].
      - intros j. rewrite in_app_iff, in_others, in_seq. cbn. destruct (Nat.eq_dec j h) as [->|N]; intuition lia. }
    assert (H : headfirst h t). { unfold t. apply chainof_hf; [|intros i I; now apply in_others]. intros X. assert (I : In (if h =? 0 then 1 else 0) others) by (apply in_others; destruct (h =? 0) eqn:Q; [apply Nat.eqb_eq in Q|apply Nat.eqb_neq in Q]; lia). rewrite X in I. exact I. }
    destruct (head_deriv t H (WFP _ P)) as (x & D). exists t, x. split; [exact D|]. apply mask_goal; auto.
  - apply head_inv.
  - constructor.
  - intros m [].
  - cbn. lia.
  - exists p. split; [exact E|]. assert (W : wf n p) by (eapply deriv_wf; [exact start_okh|exact D]). assert (P : Permutation (btleaves p) (seq 0 n)) by now apply mask_goal. split; [exact P|].
    destruct (head_shape _ _ D) as [(i & -> & L & N & _)|(HF & UB & _)].
    { exfalso. assert (X : In h [i]) by (apply (Permutation_in _ (Permutation_sym P)), in_seq; lia). destruct X as [X|[]]. auto. }
    split; [exact HF|]. intros t PT HT q Q. destruct (UB q Q) as [X|(i & ->)].
    + destruct (head_deriv t HT (WFP _ PT)) as (y & Dy). specialize (OPT t y Dy (proj2 (mask_goal n t (WFP _ PT)) PT)). destruct (head_shape _ _ Dy) as [(i & -> & L & N & _)|(_ & _ & (r & R & LR))]; [inversion HT|].
      exists r. split; [exact R|]. eapply le2_trans; [exact X|]. eapply le2_trans; eauto.
    + exists (BL i). split; [|apply le2_refl]. apply leaf_part. apply (Permutation_in _ (Permutation_sym PT)), (Permutation_in _ P). clear - Q. induction p as [j|l IHl r IHr]; cbn in *; [destruct Q as [E|[]]; injection E as ->; now left|].
      destruct Q as [E|Q]; [discriminate|]. apply in_app_iff in Q. apply in_or_app. destruct Q; auto.
Qed.
End Head.
