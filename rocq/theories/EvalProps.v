(** C44: evaluation measures. *)
From Coq Require Import String.
From Coq Require Import List Bool Arith NArith ZArith QArith Qcanon Lia Permutation.
From Verif Require Import PyStr TreeModel TreeProps BitsModel BitsSpec FanoutProofs BitsProps BinarizeModel TransformModel EvalModel.
Import ListNotations.
Open Scope list_scope.
Open Scope nat_scope.

(** ** Specification: multisets as lists *)
(** [i] is the intersection of the multisets [g] and [c]: what is left of them has
    nothing in common *)
Definition intersection {K} (g c i : list K) : Prop := exists g' c', Permutation g (i ++ g') /\ Permutation c (i ++ c') /\ forall x, In x g' -> ~ In x c'.

(** ** Numbers *)
Lemma nq_add : forall a b, nq (a + b) = (nq a + nq b)%Qc.
Proof. intros. unfold nq. rewrite Nat2Z.inj_add. apply Qc_is_canon. unfold Qcplus, Q2Qc. cbn [this]. rewrite !Qred_correct. unfold Qeq, Qplus. cbn [Qnum Qden]. lia. Qed.
Lemma nq_le : forall a b, (nq a <= nq b)%Qc <-> a <= b.
Proof. intros. unfold nq, Qcle, Q2Qc. cbn [this]. rewrite !Qred_correct. unfold Qle. cbn [Qnum Qden]. lia. Qed.
Lemma nq_inj : forall a b, nq a = nq b <-> a = b.
Proof. intros. split; [|congruence]. intros H. apply Nat.le_antisymm; apply nq_le; rewrite H; apply Qcle_refl. Qed.
Lemma nq_pos : forall a, 0 < a -> (0 < nq a)%Qc.
Proof. intros a H. change 0%Qc with (nq 0). apply Qcnot_le_lt. rewrite nq_le. lia. Qed.
Lemma nq_nz : forall a, 0 < a -> nq a <> 0%Qc.
Proof. intros a H E. change 0%Qc with (nq 0) in E. apply nq_inj in E. lia. Qed.
Lemma ratio_range : forall a b, a <= b -> 0 < b -> (0 <= nq a / nq b <= 1)%Qc.
Proof.
  intros a b H P. assert (IV : (0 < / nq b)%Qc). { destruct (Qclt_le_dec 0 (/ nq b)) as [L|L]; [exact L|]. exfalso.
    assert (X : (nq b * / nq b <= 0)%Qc). { rewrite <- (Qcmult_0_l (nq b)). rewrite (Qcmult_comm (nq b)). apply Qcmult_le_compat_r; [assumption|]. apply Qclt_le_weak, nq_pos, P. }
    rewrite Qcmult_inv_r in X by (now apply nq_nz). apply Qcle_not_lt in X. apply X. reflexivity. }
  split; unfold Qcdiv.
  - rewrite <- (Qcmult_0_l (/ nq b)). apply Qcmult_le_compat_r; [|now apply Qclt_le_weak]. change 0%Qc with (nq 0). apply nq_le. lia.
  - rewrite <- (Qcmult_inv_r (nq b)) by (now apply nq_nz). apply Qcmult_le_compat_r; [now apply nq_le|now apply Qclt_le_weak].
Qed.
Lemma ratio_one : forall a b, 0 < b -> (nq a / nq b = 1)%Qc <-> a = b.
Proof.
  intros a b P. pose proof (nq_nz b P) as NZ. split.
  - intros H. apply nq_inj. rewrite <- (Qcmult_1_l (nq b)), <- H. unfold Qcdiv. rewrite <- Qcmult_assoc, (Qcmult_comm (/ nq b)), (Qcmult_inv_r _ NZ). ring.
  - intros ->. now apply Qcmult_inv_r.
Qed.

(** ** Counters *)
Section Counter.
Context {K : Type}.
Variable eqb : K -> K -> bool.
Hypothesis eqb_eq : forall a b, eqb a b = true <-> a = b.
Definition cnt (l : list K) (k : K) : nat := length (filter (eqb k) l).
Definition wf (c : Counter K) : Prop := NoDup (map fst c) /\ forall p, In p c -> 0 < snd p.
Lemma eqb_rfl : forall a, eqb a a = true. Proof. intros. now apply eqb_eq. Qed.
Lemma cnt_app : forall l m k, cnt (l ++ m) k = cnt l k + cnt m k.
Proof. intros. unfold cnt. now rewrite filter_app, app_length. Qed.
Lemma cnt_perm : forall l m k, Permutation l m -> cnt l k = cnt m k.
Proof. induction 1; unfold cnt in *; cbn; repeat match goal with |- context [if ?b then _ else _] => destruct b end; cbn; congruence. Qed.
Lemma cnt_in : forall l k, 0 < cnt l k <-> In k l.
Proof.
  induction l as [|x l IH]; intros k; unfold cnt; cbn; [split; [lia|tauto]|]. destruct (eqb k x) eqn:E; cbn.
  - apply eqb_eq in E. subst. split; [auto|lia].
  - fold (cnt l k). rewrite IH. split; [auto|]. intros [->|H]; [rewrite eqb_rfl in E; discriminate|assumption].
Qed.
Lemma cadd_keys : forall c n k, (In k (map fst c) /\ map fst (cadd eqb n c k) = map fst c) \/ (~ In k (map fst c) /\ map fst (cadd eqb n c k) = map fst c ++ [k]).
Proof.
  induction c as [|[k' m] c IH]; intros n k; cbn; [right; split; [tauto|reflexivity]|]. destruct (eqb k k') eqn:E; cbn.
  - apply eqb_eq in E. subst. left. auto.
  - assert (k' <> k) by (intros ->; rewrite eqb_rfl in E; discriminate). destruct (IH n k) as [[A B]|[A B]]; rewrite B; [left|right]; (split; [|reflexivity]); [now right|]. intros [X|X]; auto.
Qed.
Lemma cget_cadd : forall c n k j, cget eqb (cadd eqb n c k) j = cget eqb c j + (if eqb j k then n else 0).
Proof.
  induction c as [|[k' m] c IH]; intros n k j; cbn; [destruct (eqb j k); lia|]. destruct (eqb k k') eqn:E; cbn.
  - apply eqb_eq in E. subst. destruct (eqb j k'); lia.
  - destruct (eqb j k') eqn:E2; [|apply IH]. apply eqb_eq in E2. subst. destruct (eqb k' k) eqn:E3; [|lia]. apply eqb_eq in E3. subst. rewrite eqb_rfl in E. discriminate.
Qed.
Lemma cadd_wf : forall c n k, 0 < n -> wf c -> wf (cadd eqb n c k).
Proof.
  intros c n k Hn [A B]. split.
  - destruct (cadd_keys c n k) as [[X ->]|[X ->]]; [assumption|]. eapply Permutation_NoDup; [apply Permutation_cons_append|]. now constructor.
  - clear A. induction c as [|[k' m] c IH]; intros p H; cbn in H; [destruct H as [<-|[]]; assumption|]. destruct (eqb k k'); cbn in H; destruct H as [<-|H]; cbn.
    + specialize (B (k', m) (or_introl eq_refl)). cbn in B. lia.
    + apply B. now right.
    + apply (B (k', m)). now left.
    + apply IH; [intros; apply B; now right|assumption].
Qed.
Lemma update_spec : forall ks c, wf c -> wf (update eqb c ks) /\ forall k, cget eqb (update eqb c ks) k = cget eqb c k + cnt ks k.
Proof.
  unfold update. induction ks as [|x ks IH]; intros c W; cbn [fold_left]; [split; [assumption|intros; cbn; lia]|]. destruct (IH _ (cadd_wf c 1 x Nat.lt_0_1 W)) as [A B]. split; [assumption|].
  intros k. rewrite B, cget_cadd. unfold cnt. cbn. destruct (eqb k x); cbn; lia.
Qed.
Lemma counter_spec : forall ks, wf (counter eqb ks) /\ forall k, cget eqb (counter eqb ks) k = cnt ks k.
Proof. intros. unfold counter. destruct (update_spec ks []) as [A B]; [split; [constructor|intros ? []]|]. split; [assumption|]. exact B. Qed.
Lemma cget_in : forall c, wf c -> forall k n, In (k, n) c -> cget eqb c k = n.
Proof.
  intros c [A _]. induction c as [|[k' m] c IH]; intros k n H; [contradiction|]. cbn in *. inversion A as [|? ? N A']; subst. destruct H as [H|H].
  - injection H as -> ->. now rewrite eqb_rfl.
  - destruct (eqb k k') eqn:E; [|auto]. apply eqb_eq in E. subst. exfalso. apply N. apply (in_map fst) in H. exact H.
Qed.
Lemma cget_pos : forall c, wf c -> forall k, 0 < cget eqb c k <-> In k (map fst c).
Proof.
  intros c W k. split.
  - clear W. induction c as [|[k' m] c IH]; cbn; [lia|]. destruct (eqb k k') eqn:E; [apply eqb_eq in E; subst; auto|]. intros H. right. auto.
  - intros H. apply in_map_iff in H. destruct H as ([k' n] & <- & H). cbn. rewrite (cget_in c W k' n H). apply (proj2 W) in H. exact H.
Qed.
(** the elements of a counter *)
Lemma cnt_repeat : forall k n j, cnt (repeat k n) j = if eqb j k then n else 0.
Proof. intros k n j. unfold cnt. induction n as [|n IH]; cbn; [now destruct (eqb j k)|]. destruct (eqb j k); cbn; congruence. Qed.
Lemma elements_cnt : forall c, wf c -> forall k, cnt (elements c) k = cget eqb c k.
Proof.
  intros c W k. destruct W as [A _]. induction c as [|[k' m] c IH]; [reflexivity|]. cbn [elements flat_map fst snd]. fold (elements c). rewrite cnt_app, cnt_repeat. inversion A as [|? ? N A']; subst. cbn [cget]. rewrite IH by assumption.
  destruct (eqb k k') eqn:E; [|reflexivity]. apply eqb_eq in E. subst. enough (X : cget eqb c k' = 0) by (rewrite X; lia). clear - N eqb_eq. induction c as [|[k m] c IH]; [reflexivity|]. cbn in *. destruct (eqb k' k) eqn:E; [|tauto]. apply eqb_eq in E. subst. tauto.
Qed.
Lemma elements_length : forall c : Counter K, length (elements c) = csum c.
Proof. induction c as [|[k n] c IH]; [reflexivity|]. cbn [elements flat_map csum fold_right fst snd]. rewrite app_length, repeat_length. f_equal. exact IH. Qed.
Lemma perm_cnt : forall l m, (forall k, cnt l k = cnt m k) -> Permutation l m.
Proof.
  induction l as [|x l IH]; intros m H.
  - destruct m as [|y m]; [constructor|]. specialize (H y). unfold cnt in H. cbn in H. rewrite eqb_rfl in H. discriminate.
  - assert (I : In x m). { apply cnt_in. rewrite <- H. apply cnt_in. now left. } apply in_split in I. destruct I as (a & b & ->). apply Permutation_cons_app, IH. intros k. specialize (H k). rewrite cnt_app in *. unfold cnt in *. cbn in H. destruct (eqb k x); cbn in H; lia.
Qed.
Lemma counter_elements : forall l, Permutation (elements (counter eqb l)) l.
Proof. intros. destruct (counter_spec l) as [W C]. apply perm_cnt. intros k. now rewrite elements_cnt. Qed.
Lemma elements_counter_csum : forall l, csum (counter eqb l) = length l.
Proof. intros. rewrite <- elements_length. apply Permutation_length, counter_elements. Qed.
(** the intersection exists, and its size is what is summed *)
Lemma in_dec' : forall x (l : list K), {In x l} + {~ In x l}.
Proof. intros x l. destruct (existsb (eqb x) l) eqn:E; [left|right]. - apply existsb_exists in E. destruct E as (y & A & B). apply eqb_eq in B. now subst. - intros H. assert (X : existsb (eqb x) l = true) by (apply existsb_exists; exists x; split; [assumption|apply eqb_rfl]). congruence. Qed.
Lemma intersection_exists : forall g c : list K, exists i, intersection g c i.
Proof.
  induction g as [|x g IH]; intros c; [exists [], [], c; repeat split; auto|]. destruct (in_dec' x c) as [I|I].
  - apply in_split in I. destruct I as (a & b & ->). destruct (IH (a ++ b)) as (i & g' & c' & A & B & C). exists (x :: i), g', c'. split; [cbn; now constructor|]. split; [|assumption]. cbn. rewrite <- B. symmetry. apply Permutation_middle.
  - destruct (IH c) as (i & g' & c' & A & B & C). exists i, (x :: g'), c'. split; [rewrite A; apply Permutation_middle|]. split; [assumption|]. intros y [<-|Hy]; [|auto]. intros Hc. apply I. eapply Permutation_in; [apply Permutation_sym, B|]. apply in_or_app. now right.
Qed.
Lemma sum_cnt : forall i ks, NoDup ks -> (forall x, In x i -> In x ks) -> fold_right (fun k acc => cnt i k + acc) 0 ks = length i.
Proof.
  intros i ks. revert i. induction ks as [|k ks IH]; intros i N S; cbn.
  - destruct i as [|x i]; [reflexivity|]. destruct (S x (or_introl eq_refl)).
  - inversion N as [|? ? NK N']; subst. set (r := filter (fun x => negb (eqb k x)) i).
    assert (E : fold_right (fun j acc => cnt i j + acc) 0 ks = fold_right (fun j acc => cnt r j + acc) 0 ks).
    { assert (X : forall j, In j ks -> cnt i j = cnt r j). { intros j Hj. unfold r, cnt. clear - NK Hj eqb_eq. induction i as [|y i IH]; [reflexivity|]. cbn. destruct (eqb k y) eqn:E1; cbn.
        - apply eqb_eq in E1. subst. destruct (eqb j y) eqn:E2; [|assumption]. apply eqb_eq in E2. subst. contradiction.
        - destruct (eqb j y); cbn; congruence. }
      clear - X. induction ks as [|j ks IH]; [reflexivity|]. cbn. rewrite X by (now left). rewrite IH by (intros; apply X; now right). reflexivity. }
    rewrite E, IH; [|assumption|].
    + unfold r, cnt. clear. induction i as [|y i IH]; [reflexivity|]. cbn. destruct (eqb k y); cbn; lia.
    + intros x Hx. unfold r in Hx. apply filter_In in Hx. destruct Hx as [Hx D]. destruct (S x Hx) as [->|X]; [rewrite eqb_rfl in D; discriminate|assumption].
Qed.
Lemma overlap_all : forall r c, wf r -> overlap eqb r c = fold_right (fun k acc => min (cget eqb r k) (cget eqb c k) + acc) 0 (map fst r).
Proof.
  intros r c W. unfold overlap, cinter.
  assert (G : forall l, (forall p, In p l -> In p r) -> fold_right (fun k acc => min (cget eqb r k) (cget eqb c k) + acc) 0 (map fst (filter (fun p => 0 <? min (snd p) (cget eqb c (fst p))) l)) =
    fold_right (fun k acc => min (cget eqb r k) (cget eqb c k) + acc) 0 (map fst l)).
  { induction l as [|[k n] l IH]; intros S; [reflexivity|]. cbn [filter map fst snd fold_right]. assert (E : cget eqb r k = n) by (apply cget_in; auto; apply S; now left).
    rewrite <- IH by (intros; apply S; now right). destruct (0 <? min n (cget eqb c k)) eqn:P; [reflexivity|]. apply Nat.ltb_ge in P. rewrite E. lia. }
  apply G. auto.
Qed.
Lemma overlap_intersection : forall r c, wf r -> wf c -> forall i, intersection (elements r) (elements c) i -> overlap eqb r c = length i.
Proof.
  intros r c Wr Wc i (g' & c' & A & B & D). rewrite overlap_all by assumption. rewrite <- (sum_cnt i (map fst r)).
  - clear - A B D eqb_eq Wr Wc. induction (map fst r) as [|k ks IH]; [reflexivity|]. cbn. rewrite IH. f_equal. rewrite <- !elements_cnt by assumption.
    rewrite (cnt_perm _ _ k A), (cnt_perm _ _ k B), !cnt_app. specialize (D k). rewrite <- !cnt_in in D. lia.
  - apply Wr.
  - intros x Hx. apply cget_pos; [assumption|]. rewrite <- elements_cnt by assumption. apply cnt_in. eapply Permutation_in; [apply Permutation_sym, A|]. apply in_or_app. now left.
Qed.
Lemma overlap_le : forall r c, wf r -> wf c -> overlap eqb r c <= csum r /\ overlap eqb r c <= csum c /\ (overlap eqb r c = csum r -> overlap eqb r c = csum c -> Permutation (elements r) (elements c)).
Proof.
  intros r c Wr Wc. destruct (intersection_exists (elements r) (elements c)) as (i & H). rewrite (overlap_intersection r c Wr Wc i H). destruct H as (g' & c' & A & B & D). rewrite <- !elements_length. rewrite (Permutation_length A), (Permutation_length B), !app_length.
  repeat split; try lia. intros E1 E2. rewrite A, B. destruct g'; [|cbn in E1; lia]. destruct c'; [|cbn in E2; lia]. reflexivity.
Qed.
Lemma intersection_sym : forall g c i : list K, intersection g c i -> intersection c g i.
Proof. intros g c i (g' & c' & A & B & D). exists c', g'. repeat split; auto. intros x Hx Hg. exact (D x Hg Hx). Qed.
Lemma intersection_perm : forall g c g2 c2 i : list K, Permutation g g2 -> Permutation c c2 -> intersection g c i -> intersection g2 c2 i.
Proof. intros g c g2 c2 i P Q (g' & c' & A & B & D). exists g', c'. repeat split; auto; [now rewrite <- P|now rewrite <- Q]. Qed.
End Counter.

Lemma some_inj : forall {X} (a b : X), Some a = Some b -> a = b.
Proof. intros X a b E. now injection E. Qed.

(** ** Precision, recall and F-measure *)
Section Measures.
Context {K : Type}.
Variable eqb : K -> K -> bool.
Hypothesis eqb_eq : forall a b, eqb a b = true <-> a = b.
Lemma counter_nil : forall l, counter eqb l = [] <-> l = [].
Proof. intros l. pose proof (elements_counter_csum eqb eqb_eq l) as E. split; intros H; [rewrite H in E; destruct l; [reflexivity|discriminate]|now subst]. Qed.
Lemma overlap_counter : forall g c i, intersection g c i -> overlap eqb (counter eqb g) (counter eqb c) = length i.
Proof.
  intros g c i H. apply overlap_intersection; try assumption; try (now apply counter_spec).
  eapply intersection_perm; [apply Permutation_sym, counter_elements; assumption|apply Permutation_sym, counter_elements; assumption|exact H].
Qed.
(** The size of the intersection of two multisets is well defined. *)
Theorem C44_intersection_exists : forall g c : list K, exists i, intersection g c i.
Proof. exact (intersection_exists eqb eqb_eq). Qed.
Theorem C44_recall : forall g c i, intersection g c i -> g <> [] ->
  recall eqb (counter eqb g) (counter eqb c) = Some (nq (length i) / nq (length g))%Qc.
Proof.
  intros g c i H N. unfold recall. rewrite (overlap_counter g c i H), (elements_counter_csum eqb eqb_eq).
  destruct (counter eqb g) eqn:E; [|reflexivity]. apply counter_nil in E. contradiction.
Qed.
Theorem C44_precision : forall g c i, intersection g c i -> c <> [] ->
  precision eqb (counter eqb g) (counter eqb c) = Some (nq (length i) / nq (length c))%Qc.
Proof.
  intros g c i H N. unfold precision. rewrite (overlap_counter g c i H), (elements_counter_csum eqb eqb_eq).
  destruct (counter eqb c) eqn:E; [|reflexivity]. apply counter_nil in E. contradiction.
Qed.
Theorem C44_undefined : forall g c,
  (recall eqb (counter eqb g) (counter eqb c) = None <-> g = []) /\
  (precision eqb (counter eqb g) (counter eqb c) = None <-> c = []).
Proof.
  intros g c. rewrite <- (counter_nil g), <- (counter_nil c). unfold recall, precision.
  split; (split; intros H; [destruct (counter eqb _) eqn:E in H; [exact E|discriminate]|now rewrite H]).
Qed.
Lemma inter_lengths : forall g c i : list K, intersection g c i -> length i <= length g /\ length i <= length c.
Proof. intros g c i (g' & c' & A & B & _). rewrite (Permutation_length A), (Permutation_length B), !app_length. lia. Qed.
Theorem C44_range : forall g c x,
  recall eqb (counter eqb g) (counter eqb c) = Some x \/ precision eqb (counter eqb g) (counter eqb c) = Some x -> (0 <= x <= 1)%Qc.
Proof.
  intros g c x H. destruct (C44_intersection_exists g c) as (i & I). pose proof (inter_lengths g c i I) as [L1 L2].
  destruct (C44_undefined g c) as [U1 U2]. destruct H as [H|H].
  - assert (N : g <> []) by (intros E; apply U1 in E; congruence). rewrite (C44_recall g c i I N) in H. injection H as <-. apply ratio_range; [assumption|]. destruct g; [congruence|cbn; lia].
  - assert (N : c <> []) by (intros E; apply U2 in E; congruence). rewrite (C44_precision g c i I N) in H. injection H as <-. apply ratio_range; [assumption|]. destruct c; [congruence|cbn; lia].
Qed.
Theorem C44_swap : forall g c, precision eqb (counter eqb g) (counter eqb c) = recall eqb (counter eqb c) (counter eqb g).
Proof.
  intros g c. destruct (C44_undefined g c) as [_ U2]. destruct (C44_undefined c g) as [U1 _].
  destruct c as [|x c]; [rewrite (proj2 U2 eq_refl), (proj2 U1 eq_refl); reflexivity|].
  destruct (C44_intersection_exists g (x :: c)) as (i & I). rewrite (C44_precision _ _ i I), (C44_recall _ _ i (intersection_sym _ _ _ I)); congruence.
Qed.
Lemma inter_full : forall g c i : list K, intersection g c i -> length i = length g -> length i = length c -> Permutation g c.
Proof. intros g c i (g' & c' & A & B & _) E1 E2. rewrite (Permutation_length A), app_length in E1. rewrite (Permutation_length B), app_length in E2. rewrite A, B. destruct g'; [|cbn in E1; lia]. destruct c'; [|cbn in E2; lia]. reflexivity. Qed.
Lemma inter_self : forall g c : list K, Permutation g c -> intersection g c g.
Proof. intros g c P. exists [], []. rewrite app_nil_r. repeat split; auto. now apply Permutation_sym. Qed.
Theorem C44_perfect : forall g c, g <> [] -> c <> [] ->
  (recall eqb (counter eqb g) (counter eqb c) = Some 1%Qc /\ precision eqb (counter eqb g) (counter eqb c) = Some 1%Qc) <-> Permutation g c.
Proof.
  intros g c Ng Nc. destruct (C44_intersection_exists g c) as (i & I). split.
  - intros [R P]. rewrite (C44_recall g c i I Ng) in R. rewrite (C44_precision g c i I Nc) in P. apply some_inj in R. apply some_inj in P.
    apply ratio_one in R; [|destruct g; [congruence|cbn; lia]]. apply ratio_one in P; [|destruct c; [congruence|cbn; lia]]. eapply inter_full; eauto.
  - intros P. pose proof (inter_self g c P) as S. rewrite (C44_recall g c g S Ng), (C44_precision g c g S Nc). rewrite <- (Permutation_length P).
    assert (E : (nq (length g) / nq (length g) = 1)%Qc) by (apply ratio_one; [destruct g; [congruence|cbn; lia]|reflexivity]). rewrite E. auto.
Qed.
Definition half : Qc := Q2Qc (1 # 2).
Lemma Qc_eq_bool_iff : forall x y, Qc_eq_bool x y = true <-> x = y.
Proof. intros. split; [apply Qc_eq_bool_correct|]. intros ->. unfold Qc_eq_bool. now destruct (Qc_eq_dec y y). Qed.
Lemma ratio_zero : forall a b, 0 < b -> (nq a / nq b = 0)%Qc <-> a = 0.
Proof.
  intros a b P. pose proof (nq_nz b P) as NZ. split.
  - intros H. apply nq_inj. change (nq a = 0%Qc). rewrite <- (Qcmult_0_l (nq b)), <- H. unfold Qcdiv. rewrite <- Qcmult_assoc, (Qcmult_comm (/ nq b)), (Qcmult_inv_r _ NZ). ring.
  - intros ->. unfold Qcdiv. change (nq 0) with 0%Qc. ring.
Qed.
Theorem C44_f_measure : forall g c i, intersection g c i ->
  f_measure eqb (counter eqb g) (counter eqb c) half = match i with [] => None | _ => Some (nq (2 * length i) / nq (length g + length c))%Qc end.
Proof.
  intros g c i I. pose proof (inter_lengths g c i I) as [L1 L2]. destruct (C44_undefined g c) as [U1 U2]. unfold f_measure.
  destruct g as [|x g]; [rewrite (proj2 U1 eq_refl); destruct i; [destruct (precision _ _ _)|cbn in L1; lia]; reflexivity|].
  destruct c as [|y c]; [rewrite (proj2 U2 eq_refl); destruct i; [|cbn in L2; lia]; reflexivity|].
  rewrite (C44_precision _ _ i I), (C44_recall _ _ i I) by congruence. set (G := length (x :: g)) in *. set (C := length (y :: c)) in *.
  assert (PG : 0 < G) by (unfold G; cbn; lia). assert (PC : 0 < C) by (unfold C; cbn; lia). clearbody G C.
  destruct i as [|z i].
  - cbn [length]. rewrite (proj2 (Qc_eq_bool_iff _ _) (proj2 (ratio_zero 0 C PC) eq_refl)). reflexivity.
  - set (k := length (z :: i)) in *. assert (PK : 0 < k) by (unfold k; cbn; lia). clearbody k.
    destruct (Qc_eq_bool (nq k / nq C) 0) eqn:E1; [apply Qc_eq_bool_iff in E1; apply ratio_zero in E1; lia|].
    destruct (Qc_eq_bool (nq k / nq G) 0) eqn:E2; [apply Qc_eq_bool_iff in E2; apply ratio_zero in E2; lia|]. cbn [orb]. f_equal.
    replace (2 * k) with (k + k) by lia. rewrite !nq_add. pose proof (nq_nz k PK) as A. pose proof (nq_nz G PG) as B. pose proof (nq_nz C PC) as D.
    assert (S : (nq G + nq C <> 0)%Qc) by (rewrite <- nq_add; apply nq_nz; lia).
    assert (T : (1 + 1 <> 0 :> Qc)%Qc) by (intros H; vm_compute in H; discriminate H). replace (1 - half)%Qc with (1 / (1 + 1))%Qc by (apply Qc_is_canon; reflexivity). replace half with (1 / (1 + 1))%Qc by (apply Qc_is_canon; reflexivity). field. repeat split; assumption.
Qed.
(** F lies between 0 and 1 and is 1 exactly for equal multisets *)
Theorem C44_f_range : forall g c x, f_measure eqb (counter eqb g) (counter eqb c) half = Some x ->
  (0 <= x <= 1)%Qc /\ (x = 1%Qc <-> Permutation g c).
Proof.
  intros g c x H. destruct (C44_intersection_exists g c) as (i & I). pose proof (inter_lengths g c i I) as [L1 L2]. rewrite (C44_f_measure g c i I) in H. destruct i as [|z i]; [discriminate|]. injection H as <-.
  cbn [length] in L1, L2. split; [apply ratio_range; cbn [length]; lia|]. rewrite ratio_one by lia. split.
  - intros E. cbn [length] in E. eapply inter_full; [exact I| |]; cbn [length]; lia.
  - intros P. pose proof (Permutation_length P) as EL.
    assert (X : Some (overlap eqb (counter eqb g) (counter eqb c)) = Some (length (z :: i))) by (f_equal; now apply overlap_counter). rewrite (overlap_counter g c g (inter_self g c P)) in X. injection X as X. cbn [length]. lia.
Qed.
(** in general, alpha is the weight of precision *)
Theorem C44_f_measure_weighted : forall g c i alpha, intersection g c i -> i <> [] -> (alpha * nq (length c) + (1 - alpha) * nq (length g) <> 0)%Qc ->
  f_measure eqb (counter eqb g) (counter eqb c) alpha = Some (nq (length i) / (alpha * nq (length c) + (1 - alpha) * nq (length g)))%Qc.
Proof.
  intros g c i alpha I NE NZ. pose proof (inter_lengths g c i I) as [L1 L2]. destruct i as [|z i]; [congruence|]. unfold f_measure. assert (NG : g <> []) by (intros ->; cbn in L1; lia). assert (NC : c <> []) by (intros ->; cbn in L2; lia).
  rewrite (C44_precision _ _ _ I), (C44_recall _ _ _ I) by auto. set (G := length g) in *. set (C := length c) in *. set (k := length (z :: i)) in *. assert (PK : 0 < k) by (unfold k; cbn; lia). assert (PG : 0 < G) by lia. assert (PC : 0 < C) by lia. clearbody G C k.
  destruct (Qc_eq_bool (nq k / nq C) 0) eqn:E1; [apply Qc_eq_bool_iff in E1; apply ratio_zero in E1; lia|].
  destruct (Qc_eq_bool (nq k / nq G) 0) eqn:E2; [apply Qc_eq_bool_iff in E2; apply ratio_zero in E2; lia|]. cbn [orb]. f_equal.
  assert (Z : forall n, 0 < n -> nq n <> 0%Qc) by (intros n Hn E; assert (R := proj1 (ratio_zero n 1 ltac:(lia))); rewrite E in R; assert (0 / nq 1 = 0)%Qc by (unfold Qcdiv; ring); specialize (R H); lia).
  field. repeat split; auto.
Qed.
End Measures.

(** ** Bracketings of a tree *)
Lemma memn_in : forall n l, memn n l = true <-> In n l.
Proof. intros. unfold memn. rewrite existsb_exists. split; [intros (y & A & B); apply Nat.eqb_eq in B; now subst|intros H; exists n; split; [assumption|apply Nat.eqb_refl]]. Qed.
Lemma bitset_list : forall l, NoDup l -> forall k, N.testbit (fold_right (fun n acc => (N.shiftl 1 (N.of_nat n) + acc)%N) 0%N l) k = memn (N.to_nat k) l.
Proof.
  induction 1 as [|x l Nx ND IH]; intros k; cbn [fold_right]; [apply N.bits_0|].
  set (m := fold_right _ 0%N l) in *.
  assert (Z : memn x l = false) by (destruct (memn x l) eqn:E; [apply memn_in in E; contradiction|reflexivity]).
  rewrite N.add_nocarry_lxor.
  - rewrite N.lxor_spec, IH, N.shiftl_1_l, N.pow2_bits_eqb. unfold memn at 2. cbn [existsb]. fold (memn (N.to_nat k) l).
    destruct (N.eqb_spec (N.of_nat x) k) as [<-|E].
    + rewrite Nat2N.id, Nat.eqb_refl, Z. reflexivity.
    + replace (N.to_nat k =? x) with false; [|symmetry]. { destruct (memn (N.to_nat k) l); reflexivity. } { apply Nat.eqb_neq. intros <-. apply E. apply N2Nat.id. }
  - apply N.bits_inj. intros j. rewrite N.land_spec, N.bits_0, N.shiftl_1_l, N.pow2_bits_eqb, IH. destruct (N.eqb_spec (N.of_nat x) j) as [<-|]; [|reflexivity]. rewrite Nat2N.id, Z. reflexivity.
Qed.
(** the positions of the terminals below a node *)
Theorem C44_bitset : forall t, NoDup (leaves t) -> forall k, N.testbit (bitset t) (N.of_nat k) = true <-> In k (leaves t).
Proof. intros t H k. unfold bitset. rewrite bitset_list by assumption. rewrite Nat2N.id. apply memn_in. Qed.
Lemma beqb_eq : forall a b, beqb a b = true <-> a = b.
Proof. intros [a m] [b n]. unfold beqb. cbn. rewrite andb_true_iff, eqs_eq, N.eqb_eq. split; [intros [-> ->]; reflexivity|intros E; injection E as -> ->; auto]. Qed.
(** the nodes that are scored *)
Definition scored (dellabel : list pystr) (disconly : bool) (t s : tree pystr nat) : Prop :=
  In s (pre t) /\ exists l c r, s = Node l (c :: r) /\ (exists l' ts, c = Node l' ts) /\ ~ In l dellabel /\
  (disconly = true -> exists ivs, components (bitset s) ivs /\ 1 < length ivs).
Theorem C44_bracketings : forall labeled dellabel disconly t, exists nodes,
  (forall s, In s nodes <-> scored dellabel disconly t s) /\
  (exists keep, nodes = filter keep (pre t)) /\
  Permutation (elements (bracketings labeled dellabel disconly t))
    (map (fun s => (if labeled then tlabel s else str "", bitset s)) nodes).
Proof.
  intros labeled dellabel disconly t.
  set (keep := fun a => phrasal a && negb (existsb (eqs (tlabel a)) dellabel) && (negb disconly || (1 <? bitfanout (bitset a))%N)).
  exists (filter keep (pre t)). split; [|split; [now exists keep|]].
  - intros s. rewrite filter_In. unfold scored, keep. split; intros [A B]; (split; [assumption|]).
    + rewrite !andb_true_iff, negb_true_iff, orb_true_iff, negb_true_iff, N.ltb_lt in B. destruct B as [[P D] F].
      destruct s as [x|l [|c r]]; try discriminate. exists l, c, r. split; [reflexivity|]. split; [destruct c; [discriminate|eauto]|]. split.
      * intros H. rewrite (proj2 (existsb_exists _ _)) in D; [discriminate|]. exists l. split; [assumption|apply eqs_refl].
      * intros E. destruct F as [F|F]; [congruence|]. destruct (components_exist (bitset (Node l (c :: r)))) as [ivs C]. exists ivs. split; [assumption|]. rewrite (C01_fallback_counts_components _ _ C) in F. lia.
    + destruct B as (l & c & r & -> & (l' & ts & ->) & D & F). rewrite !andb_true_iff. split; [split; [reflexivity|]|].
      * apply negb_true_iff. destruct (existsb _ _) eqn:E; [|reflexivity]. apply existsb_exists in E. destruct E as (y & Hy & E). apply eqs_eq in E. cbn in E. subst. contradiction.
      * destruct disconly; [|reflexivity]. destruct (F eq_refl) as (ivs & C & L). cbn [negb orb]. apply N.ltb_lt. rewrite (C01_fallback_counts_components _ _ C). lia.
  - unfold bracketings. rewrite C16_subtrees_preorder. fold keep. rewrite counter_elements by apply beqb_eq.
    erewrite map_ext_in; [apply Permutation_refl|]. intros s Hs. apply filter_In in Hs. destruct Hs as [_ Hs]. destruct s as [x|l [|c r]]; [discriminate|discriminate|]. unfold bracketing, tlabel. now destruct labeled.
Qed.

(** ** Scores of a corpus *)
Lemma nbeqb_eq : forall a b, nbeqb a b = true <-> a = b.
Proof. intros [n a] [m b]. unfold nbeqb. cbn. rewrite andb_true_iff, Nat.eqb_eq, beqb_eq. split; [intros [-> ->]; reflexivity|intros E; injection E as -> ->; auto]. Qed.
Definition tagged (sel : pair -> Counter (pystr * N)) (ps : list pair) : list (nat * (pystr * N)) :=
  flat_map (fun p => map (fun a => (p_n p, a)) (elements (sel p))) ps.
Lemma update_app : forall {K} eqb (c : Counter K) a b, update eqb (update eqb c a) b = update eqb c (a ++ b).
Proof. intros. unfold update. now rewrite fold_left_app. Qed.
Lemma accumulate_gen : forall d ps s, let r := fold_left (addpair d) ps s in
  goldb r = update nbeqb (goldb s) (tagged p_gbrack ps) /\ candb r = update nbeqb (candb s) (tagged p_cbrack ps) /\
  goldpos r = goldpos s ++ flat_map p_gpos ps /\ candpos r = candpos s ++ flat_map p_cpos ps /\ lascores r = lascores s ++ map p_lascore ps /\
  exact r = exact s + length (filter (fun p => ceqb beqb (p_cbrack p) (p_gbrack p) && (negb d || nonempty (p_cbrack p) || nonempty (p_gbrack p))) ps) /\
  sentcount r = sentcount s + length (filter (fun p => negb d || nonempty (p_cbrack p) || nonempty (p_gbrack p)) ps) /\
  maxlenseen r = fold_right (fun p m => max (p_lengpos p) m) (maxlenseen s) ps.
Proof.
  intros d. induction ps as [|p ps IH]; intros s; cbn [fold_left]; [cbn; rewrite !app_nil_r, !Nat.add_0_r; auto 10|].
  specialize (IH (addpair d s p)). cbv zeta in *. destruct IH as (A & B & C & D & E & F & G & H). rewrite A, B, C, D, E, F, G, H.
  cbn [addpair goldb candb goldpos candpos lascores exact sentcount maxlenseen tagged flat_map map filter]. rewrite !update_app, <- !app_assoc. unfold tagged. repeat split; try reflexivity.
  - destruct (ceqb beqb (p_cbrack p) (p_gbrack p) && (negb d || nonempty (p_cbrack p) || nonempty (p_gbrack p))); cbn; lia.
  - destruct (negb d || nonempty (p_cbrack p) || nonempty (p_gbrack p)); cbn; lia.
  - cbn [fold_right]. clear. destruct (Nat.ltb_spec (maxlenseen s) (p_lengpos p)); induction ps as [|q ps IH]; cbn; lia.
Qed.

Lemma intersection_app : forall {K} (g1 c1 i1 g2 c2 i2 : list K), intersection g1 c1 i1 -> intersection g2 c2 i2 ->
  (forall x, In x g1 -> ~ In x c2) -> (forall x, In x c1 -> ~ In x g2) -> intersection (g1 ++ g2) (c1 ++ c2) (i1 ++ i2).
Proof.
  intros K g1 c1 i1 g2 c2 i2 (g1' & c1' & A1 & B1 & D1) (g2' & c2' & A2 & B2 & D2) X Y. exists (g1' ++ g2'), (c1' ++ c2').
  assert (G : forall a b c d : list K, Permutation ((a ++ b) ++ (c ++ d)) ((a ++ c) ++ (b ++ d))).
  { intros. rewrite <- !app_assoc. apply Permutation_app_head. rewrite !app_assoc. apply Permutation_app_tail, Permutation_app_comm. }
  split; [rewrite A1, A2; apply G|]. split; [rewrite B1, B2; apply G|]. intros x Hx Hy. apply in_app_or in Hx. apply in_app_or in Hy. destruct Hx as [Hx|Hx], Hy as [Hy|Hy].
  - exact (D1 x Hx Hy).
  - apply (X x); [eapply Permutation_in; [apply Permutation_sym, A1|]|eapply Permutation_in; [apply Permutation_sym, B2|]]; apply in_or_app; auto.
  - apply (Y x); [eapply Permutation_in; [apply Permutation_sym, B1|]|eapply Permutation_in; [apply Permutation_sym, A2|]]; apply in_or_app; auto.
  - exact (D2 x Hx Hy).
Qed.
Lemma intersection_map : forall {K L} (f : K -> L) g c i, (forall a b, f a = f b -> a = b) -> intersection g c i -> intersection (map f g) (map f c) (map f i).
Proof.
  intros K L f g c i J (g' & c' & A & B & D). exists (map f g'), (map f c'). rewrite <- !map_app. split; [now apply Permutation_map|]. split; [now apply Permutation_map|].
  intros x Hx Hy. apply in_map_iff in Hx. destruct Hx as (a & <- & Ha). apply in_map_iff in Hy. destruct Hy as (b & E & Hb). apply J in E. subst. exact (D a Ha Hb).
Qed.
Lemma tagged_n : forall sel ps n a, In (n, a) (tagged sel ps) -> In n (map p_n ps).
Proof. intros sel ps n a H. apply in_flat_map in H. destruct H as (p & Hp & H). apply in_map_iff in H. destruct H as (b & E & _). injection E as <- _. now apply in_map. Qed.
(** the matches of the sentences, with the number of the sentence *)
Lemma tagged_intersection : forall ps (inter : pair -> list (pystr * N)), NoDup (map p_n ps) ->
  (forall p, In p ps -> intersection (elements (p_gbrack p)) (elements (p_cbrack p)) (inter p)) ->
  intersection (tagged p_gbrack ps) (tagged p_cbrack ps) (flat_map (fun p => map (fun a => (p_n p, a)) (inter p)) ps).
Proof.
  induction ps as [|p ps IH]; intros inter ND H; [exists [], []; repeat split; auto|]. cbn [map] in ND. inversion ND as [|? ? NI ND']; subst. unfold tagged. cbn [flat_map]. apply intersection_app.
  - apply intersection_map; [intros a b E; now injection E|]. apply H. now left.
  - apply IH; [assumption|]. intros q Hq. apply H. now right.
  - intros [n a] Hx Hy. apply tagged_n in Hy. apply in_map_iff in Hx. destruct Hx as (b & E & _). injection E as <- _. contradiction.
  - intros [n a] Hx Hy. apply tagged_n in Hy. apply in_map_iff in Hx. destruct Hx as (b & E & _). injection E as <- _. contradiction.
Qed.
Lemma tagged_length : forall (f : pair -> list (pystr * N)) ps, length (flat_map (fun p => map (fun a => (p_n p, a)) (f p)) ps) = list_sum (map (fun p => length (f p)) ps).
Proof. intros f. induction ps as [|p ps IH]; [reflexivity|]. cbn [flat_map map list_sum fold_right]. rewrite app_length, map_length, IH. reflexivity. Qed.
Definition golds (ps : list pair) : nat := list_sum (map (fun p => csum (p_gbrack p)) ps).
Definition cands (ps : list pair) : nat := list_sum (map (fun p => csum (p_cbrack p)) ps).
(** Corpus scores are micro-averages: the numbers of matching, gold and candidate
    brackets are summed over the sentences. *)
Theorem C44_corpus : forall d ps (inter : pair -> list (pystr * N)), NoDup (map p_n ps) ->
  (forall p, In p ps -> intersection (elements (p_gbrack p)) (elements (p_cbrack p)) (inter p)) ->
  let acc := accumulate d ps in let matched := list_sum (map (fun p => length (inter p)) ps) in
  (0 < golds ps -> recall nbeqb (goldb acc) (candb acc) = Some (nq matched / nq (golds ps))%Qc) /\
  (0 < cands ps -> precision nbeqb (goldb acc) (candb acc) = Some (nq matched / nq (cands ps))%Qc) /\
  (0 < matched -> f_measure nbeqb (goldb acc) (candb acc) half = Some (nq (2 * matched) / nq (golds ps + cands ps))%Qc).
Proof.
  intros d ps inter ND H acc matched. pose proof (tagged_intersection ps inter ND H) as I. pose proof (accumulate_gen d ps acc0) as A. cbv zeta in A. destruct A as (G & C & _). fold (accumulate d ps) in G, C. fold acc in G, C. cbn [acc0 goldb candb] in G, C. fold (counter nbeqb (tagged p_gbrack ps)) in G. fold (counter nbeqb (tagged p_cbrack ps)) in C. rewrite G, C.
  assert (LG : length (tagged p_gbrack ps) = golds ps) by (unfold tagged, golds; rewrite tagged_length; f_equal; apply map_ext; intros; apply elements_length).
  assert (LC : length (tagged p_cbrack ps) = cands ps) by (unfold tagged, cands; rewrite tagged_length; f_equal; apply map_ext; intros; apply elements_length).
  assert (LI := tagged_length inter ps). fold matched in LI. repeat split; intros P.
  - rewrite (C44_recall nbeqb nbeqb_eq _ _ _ I); [now rewrite LG, LI|]. intros E. rewrite E in LG. cbn in LG. lia.
  - rewrite (C44_precision nbeqb nbeqb_eq _ _ _ I); [now rewrite LC, LI|]. intros E. rewrite E in LC. cbn in LC. lia.
  - rewrite (C44_f_measure nbeqb nbeqb_eq _ _ _ I), LG, LC, LI. destruct (flat_map _ ps); [cbn in LI; lia|reflexivity].
Qed.
Lemma ceqb_perm : forall {K} (eqb : K -> K -> bool), (forall a b, eqb a b = true <-> a = b) -> forall a b, wf a -> wf b -> ceqb eqb a b = true <-> Permutation (elements a) (elements b).
Proof.
  intros K eqb EQ a b Wa Wb. unfold ceqb. rewrite forallb_forall. split.
  - intros H. apply (perm_cnt eqb EQ). intros k. rewrite !(elements_cnt eqb EQ) by assumption.
    destruct (in_dec' eqb EQ k (map fst (a ++ b))) as [I|I]; [apply in_map_iff in I; destruct I as (p & <- & I); now apply Nat.eqb_eq, H|].
    rewrite map_app in I. pose proof (cget_pos eqb EQ a Wa k). pose proof (cget_pos eqb EQ b Wb k). rewrite in_app_iff in I. destruct (cget eqb a k), (cget eqb b k); try reflexivity; exfalso; apply I; [right; apply H1|left; apply H0|left; apply H0]; lia.
  - intros P p _. apply Nat.eqb_eq. rewrite <- !(elements_cnt eqb EQ) by assumption. now apply cnt_perm.
Qed.
(** exact match: the sentences of which all brackets match; longest sentence; all
    tags are compared, sentence by sentence *)
Theorem C44_exact : forall ps (same : pair -> bool),
  (forall p, In p ps -> wf (p_gbrack p) /\ wf (p_cbrack p)) ->
  (forall p, In p ps -> same p = true <-> Permutation (elements (p_gbrack p)) (elements (p_cbrack p))) ->
  exact (accumulate false ps) = length (filter same ps) /\ sentcount (accumulate false ps) = length ps.
Proof.
  intros ps same W H. pose proof (accumulate_gen false ps acc0) as A. cbv zeta in A. destruct A as (_ & _ & _ & _ & _ & E & S & _). fold (accumulate false ps) in E, S. rewrite E, S. cbn [acc0 exact sentcount Nat.add negb orb]. split.
  - f_equal. apply filter_ext_in. intros p Hp. rewrite andb_true_r. apply Bool.eq_iff_eq_true. rewrite (H p Hp). rewrite ceqb_perm; try apply W; try assumption; [split; apply Permutation_sym|exact beqb_eq].
  - f_equal. clear. induction ps as [|p ps IH]; [reflexivity|]. cbn. now rewrite IH.
Qed.
(** with disconly, sentences without discontinuous brackets are not counted *)
Theorem C44_exact_disconly : forall ps (same disc : pair -> bool),
  (forall p, In p ps -> wf (p_gbrack p) /\ wf (p_cbrack p)) ->
  (forall p, In p ps -> same p = true <-> Permutation (elements (p_gbrack p)) (elements (p_cbrack p))) ->
  (forall p, In p ps -> disc p = true <-> p_gbrack p <> [] \/ p_cbrack p <> []) ->
  exact (accumulate true ps) = length (filter same (filter disc ps)) /\ sentcount (accumulate true ps) = length (filter disc ps).
Proof.
  intros ps same disc W H D. pose proof (accumulate_gen true ps acc0) as A. cbv zeta in A. destruct A as (_ & _ & _ & _ & _ & E & S & _). fold (accumulate true ps) in E, S. rewrite E, S. cbn [acc0 exact sentcount Nat.add negb orb].
  assert (X : forall p, In p ps -> nonempty (p_cbrack p) || nonempty (p_gbrack p) = disc p).
  { intros p Hp. apply Bool.eq_iff_eq_true. rewrite (D p Hp), orb_true_iff. destruct (p_cbrack p), (p_gbrack p); cbn; intuition congruence. }
  split; [|f_equal; now apply filter_ext_in].
  assert (F : forall f g (l : list pair), filter f (filter g l) = filter (fun x => f x && g x) l).
  { clear. intros f g. induction l as [|x l IH]; [reflexivity|]. cbn. destruct (g x); cbn; [destruct (f x); cbn; now rewrite IH|]. now rewrite andb_false_r. }
  rewrite F. f_equal. apply filter_ext_in. intros p Hp. rewrite (X p Hp). f_equal. apply Bool.eq_iff_eq_true. rewrite (H p Hp). rewrite ceqb_perm; try apply W; try assumption; [split; apply Permutation_sym|exact beqb_eq].
Qed.
Theorem C44_tags : forall d ps, goldpos (accumulate d ps) = flat_map p_gpos ps /\ candpos (accumulate d ps) = flat_map p_cpos ps /\
  maxlenseen (accumulate d ps) = fold_right (fun p m => max (p_lengpos p) m) 0 ps.
Proof. intros d ps. pose proof (accumulate_gen d ps acc0) as A. cbv zeta in A. destruct A as (_ & _ & G & C & _ & _ & _ & M). fold (accumulate d ps) in G, C, M. auto. Qed.
Theorem C44_accuracy : forall {X} (eqb : X -> X -> bool), (forall a b, eqb a b = true <-> a = b) -> forall g c x, accuracy eqb g c = Some x ->
  length g = length c /\ g <> [] /\ (0 <= x <= 1)%Qc /\ (x = 1%Qc <-> g = c).
Proof.
  intros X eqb EQ g c x H. unfold accuracy in H. destruct (Nat.eqb_spec (length g) (length c)) as [L|L]; [|discriminate]. cbn [negb] in H. destruct g as [|a g]; [discriminate|]. apply some_inj in H. split; [assumption|]. split; [discriminate|].
  set (g0 := a :: g) in *. assert (P : 0 < length g0) by (cbn; lia). clearbody g0. clear a g.
  assert (B : length (filter (fun p => eqb (fst p) (snd p)) (combine g0 c)) <= length g0 /\ (length (filter (fun p => eqb (fst p) (snd p)) (combine g0 c)) = length g0 <-> g0 = c)).
  { clear - L EQ. revert c L. induction g0 as [|a g IH]; intros [|b c] L; try discriminate; [cbn; split; [lia|tauto]|]. cbn in L. injection L as L. specialize (IH c L). cbn [combine filter fst snd length]. destruct (eqb a b) eqn:E; cbn [length].
    - apply EQ in E. subst. split; [lia|]. split; [intros X0; f_equal; apply IH; lia|]. intros X0. injection X0 as X0. f_equal. now apply IH.
    - split; [lia|]. split; [intros X0; exfalso; lia|]. intros X0. injection X0 as -> _. exfalso. rewrite (proj2 (EQ b b) eq_refl) in E. discriminate. }
  destruct B as [B1 B2]. rewrite <- H. split; [now apply ratio_range|]. now rewrite ratio_one.
Qed.
(** REFUTED: "the mean ignores sentences without a score".  A sentence with only
    punctuation has a leaf-ancestor score NaN (never None), and makes the mean NaN. *)
Theorem C44_nan_poisons_mean : forall d ps, (exists p, In p ps /\ p_lascore p = None) -> mean (lascores (accumulate d ps)) = None.
Proof.
  intros d ps (p & Hp & N). pose proof (accumulate_gen d ps acc0) as A. cbv zeta in A. destruct A as (_ & _ & _ & _ & L & _). fold (accumulate d ps) in L. rewrite L. cbn [acc0 lascores app].
  assert (I : In None (map p_lascore ps)) by (rewrite <- N; now apply in_map). clear - I. unfold mean.
  assert (G : forall xs a, In None xs \/ a = None -> fold_left (fun acc x => match acc, x with Some u, Some b => Some (u + b)%Qc | _, _ => None end) xs a = None).
  { induction xs as [|y xs IH]; intros a [H|H]; cbn; [destruct H|assumption| |apply IH; right; now subst]. destruct H as [->|H]; apply IH; [right; now destruct a|now left]. }
  destruct (map p_lascore ps) eqn:E; [destruct I|]. rewrite G by (now left). reflexivity.
Qed.

(** ** Examples *)
Definition ext1 : tree pystr nat := Node (str "S") [Node (str "NP") [Leaf 1]; Node (str "VP") [Node (str "VB") [Leaf 0]; Node (str "JJ") [Leaf 2]]].
Definition ext2 : tree pystr nat := Node (str "S") [Node (str "VB") [Leaf 0]; Node (str "VP") [Node (str "NP") [Leaf 1]; Node (str "JJ") [Leaf 2]]].
(** the doctest of bracketings *)
Example C44_ex_brackets : elements (bracketings true [] false ext1) = [(str "S", 7%N); (str "VP", 5%N)] /\ elements (bracketings true [str "S"] true ext1) = [(str "VP", 5%N)].
Proof. split; vm_compute; reflexivity. Qed.
Example C44_ex_scored : scored [str "ROOT"] true ext1 (Node (str "VP") [Node (str "VB") [Leaf 0]; Node (str "JJ") [Leaf 2]]).
Proof.
  split; [cbn; auto|]. exists (str "VP"), (Node (str "VB") [Leaf 0]), [Node (str "JJ") [Leaf 2]]. split; [reflexivity|]. split; [eauto|]. split; [intros [H|[]]; discriminate H|]. intros _. exists [(0, 1)%N; (2, 3)%N]. split; [|cbn; lia]. split; [cbn; lia|]. intros i.
  change (bitset (Node (str "VP") [Node (str "VB") [Leaf 0]; Node (str "JJ") [Leaf 2]])) with 5%N. unfold member, covered. split.
  - intros H. destruct (N.eq_dec i 0) as [->|N0]; [exists 0%N, 1%N; cbn; split; [auto|lia]|]. destruct (N.eq_dec i 2) as [->|N2]; [exists 2%N, 3%N; cbn; split; [auto|lia]|].
    exfalso. destruct (N.lt_ge_cases i 3); [assert (i = 1%N) by lia; subst; discriminate H|]. rewrite N.bits_above_log2 in H; [discriminate|]. cbn. lia.
  - intros (a & b & [E|[E|[]]] & L); injection E as <- <-; [replace i with 0%N by lia|replace i with 2%N by lia]; reflexivity.
Qed.
Definition expair (n : nat) (g c : tree pystr nat) : pair :=
  mkPair n (bracketings true [] false g) (bracketings true [] false c) [str "NP"] [str "NP"] 3 None None None.
Example C44_ex_corpus : let acc := accumulate false [expair 1 ext1 ext2; expair 2 ext1 ext1] in
  recall nbeqb (goldb acc) (candb acc) = Some (nq 3 / nq 4)%Qc /\ exact acc = 1 /\ sentcount acc = 2.
Proof. vm_compute. repeat split; try reflexivity. Qed.
(** the hypotheses of the corpus theorems are met *)
Example C44_ex_hyps : let ps := [expair 1 ext1 ext2; expair 2 ext1 ext1] in NoDup (map p_n ps) /\ (forall p, In p ps -> wf (p_gbrack p) /\ wf (p_cbrack p)) /\ 0 < golds ps.
Proof. split; [repeat constructor; cbn; intuition lia|]. split; [|vm_compute; lia]. intros p [<-|[<-|[]]]; split; apply counter_spec, beqb_eq. Qed.

Print Assumptions C44_recall.
Print Assumptions C44_precision.
Print Assumptions C44_undefined.
Print Assumptions C44_range.
Print Assumptions C44_swap.
Print Assumptions C44_perfect.
Print Assumptions C44_f_measure.
Print Assumptions C44_f_range.
Print Assumptions C44_bracketings.
Print Assumptions C44_bitset.
Print Assumptions C44_corpus.
Print Assumptions C44_exact.
Print Assumptions C44_exact_disconly.
Print Assumptions C44_tags.
Print Assumptions C44_accuracy.
Print Assumptions C44_nan_poisons_mean.
Print Assumptions C44_f_measure_weighted.
