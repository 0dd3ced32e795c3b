(** C07: dense chart cell numbering. *)
From Coq Require Import ZArith List Bool Lia ZifyBool Znumtheory.
From Verif Require Import CellModel.
Import ListNotations.
Local Open Scope Z_scope.

(** A span of a sentence of length [n]. *)
Definition span (n start stop : Z) : Prop := 0 <= start < stop /\ stop <= n.
Definition ncells (n : Z) : Z := n * (n + 1) / 2.

(** Number of cells with a start position before [s]. *)
Definition base (n s : Z) : Z := n * s - ((s - 1) * s / 2).

Lemma tri_step : forall s, (s + 1 - 1) * (s + 1) / 2 = (s - 1) * s / 2 + s.
Proof.
  intros s. replace ((s + 1 - 1) * (s + 1)) with ((s - 1) * s + s * 2) by ring.
  rewrite Z.div_add by lia. reflexivity.
Qed.
Lemma base_0 : forall n, base n 0 = 0.
Proof. intros. unfold base. cbn. lia. Qed.
Lemma base_S : forall n s, base n (s + 1) = base n s + (n - s).
Proof. intros. unfold base. rewrite tri_step. lia. Qed.
Lemma base_n : forall n, base n n = ncells n.
Proof.
  intros n. unfold base, ncells.
  replace (n * (n + 1)) with ((n - 1) * n + n * 2) by ring.
  rewrite Z.div_add by lia.
  assert (E : exists k, (n - 1) * n = k * 2).
  { destruct (Z.Even_or_Odd n) as [[k ->]|[k ->]]; [exists ((2 * k - 1) * k)|exists (k * (2 * k + 1))]; ring. }
  destruct E as [k E]. rewrite E, Z.div_mul by lia.
  replace (n * n) with (n + (n - 1) * n) by ring. rewrite E. ring.
Qed.
Lemma base_mono : forall n s t, 0 <= s -> s <= t -> t <= n -> base n s <= base n t.
Proof.
  intros n s t Hs H. revert Hs. pattern t.
  apply (Zlt_lower_bound_ind _ s); auto. intros x IH Hx Hs Hn.
  destruct (Z.eq_dec s x) as [->|D]; [lia|].
  replace x with ((x - 1) + 1) by lia. rewrite base_S.
  specialize (IH (x - 1)). lia.
Qed.
Lemma base_step_mono : forall n s t, 0 <= s -> s < t -> t <= n -> base n s + (n - s) <= base n t.
Proof. intros. rewrite <- base_S. apply base_mono; lia. Qed.

Lemma ncells_bound : forall n s e, span n s e -> 0 <= base n s + (e - s - 1) < ncells n.
Proof.
  intros n s e H. unfold span in H. rewrite <- base_n.
  pose proof (base_mono n 0 s). rewrite base_0 in *.
  pose proof (base_step_mono n s n). lia.
Qed.

Lemma cellidx_base : forall n nts s e, span n s e -> 0 < nts -> nts * ncells n <= 2 ^ 32 ->
  cellidx s e n nts = nts * (base n s + (e - s - 1)).
Proof.
  intros n nts s e H Hn Hb. unfold cellidx.
  replace (n * s - (s - 1) * s / 2 + e - s - 1) with (base n s + (e - s - 1)) by (unfold base; lia).
  apply Z.mod_small. pose proof (ncells_bound n s e H). nia.
Qed.

Theorem C07_cells_in_range : forall n nts s e,
  span n s e -> 0 < nts -> nts * ncells n <= 2 ^ 32 ->
  exists k, cellidx s e n nts = nts * k /\ 0 <= k < ncells n.
Proof.
  intros n nts s e H Hn Hb. exists (base n s + (e - s - 1)).
  split; [now apply cellidx_base|now apply ncells_bound].
Qed.

Theorem C07_cells_distinct : forall n nts s e s' e',
  span n s e -> span n s' e' -> 0 < nts -> nts * ncells n <= 2 ^ 32 ->
  cellidx s e n nts = cellidx s' e' n nts -> s = s' /\ e = e'.
Proof.
  intros n nts s e s' e' H H' Hn Hb E. rewrite !cellidx_base in E by auto.
  apply Z.mul_reg_l in E; [|lia]. unfold span in *.
  pose proof (base_step_mono n s s'). pose proof (base_step_mono n s' s).
  destruct (Z.lt_trichotomy s s') as [L|[L|L]]; [lia| |lia]. subst. lia.
Qed.

(** No two cells overlap: a cell occupies [nts] consecutive entries. *)
Corollary C07_cells_do_not_overlap : forall n nts s e s' e' a a',
  span n s e -> span n s' e' -> 0 < nts -> nts * ncells n <= 2 ^ 32 ->
  0 <= a < nts -> 0 <= a' < nts ->
  cellidx s e n nts + a = cellidx s' e' n nts + a' -> s = s' /\ e = e' /\ a = a'.
Proof.
  intros n nts s e s' e' a a' H H' Hn Hb Ha Ha' E.
  destruct (C07_cells_in_range n nts s e) as (k & Ek & _); auto.
  destruct (C07_cells_in_range n nts s' e') as (k' & Ek' & _); auto.
  assert (k = k') by nia. subst k'.
  destruct (C07_cells_distinct n nts s e s' e') as [-> ->]; auto; [lia|]. lia.
Qed.

Lemma locate : forall n m, 0 <= m <= n -> forall k, 0 <= k < base n m -> exists s, 0 <= s < m /\ base n s <= k < base n s + (n - s).
Proof.
  intros n m [H Hm]. revert Hm. pattern m. apply natlike_ind; auto.
  - rewrite base_0. lia.
  - intros x Hx IH Hm k Hk. unfold Z.succ in *. rewrite base_S in Hk.
    destruct (Z_lt_ge_dec k (base n x)) as [L|G].
    + destruct (IH ltac:(lia) k ltac:(lia)) as (s & A & B). exists s. lia.
    + exists x. lia.
Qed.

Theorem C07_cells_onto : forall n nts k,
  0 <= n -> 0 < nts -> nts * ncells n <= 2 ^ 32 -> 0 <= k < ncells n ->
  exists s e, span n s e /\ cellidx s e n nts = nts * k.
Proof.
  intros n nts k Hn Hnts Hb Hk. rewrite <- base_n in Hk.
  destruct (locate n n ltac:(lia) k Hk) as (s & A & B).
  exists s, (k - base n s + s + 1).
  assert (S : span n s (k - base n s + s + 1)) by (unfold span; lia).
  split; auto. rewrite cellidx_base by auto. f_equal. lia.
Qed.

(** *** Recovering the span *)
Lemma to_short_id : forall x, - 2 ^ 15 <= x < 2 ^ 15 -> to_short x = x.
Proof. intros. unfold to_short. rewrite Z.mod_small; lia. Qed.

Lemma cell_loop_ok : forall n s, 0 <= s < n -> n < 2 ^ 15 -> base n s < 2 ^ 15 ->
  forall c, base n s <= c < base n s + (n - s) ->
  forall d t fuel, t = s - Z.of_nat d -> 0 <= t -> (d < fuel)%nat ->
  cell_loop fuel c (n - t) (base n t) t = (s, base n s).
Proof.
  intros n s Hs Hn Hb c Hc. induction d; intros t fuel Ht H0 Hf.
  - replace t with s by lia. destruct fuel; [lia|]. cbn [cell_loop].
    pose proof (base_mono n 0 s). rewrite base_0 in *.
    rewrite Z.mod_small by lia. replace (base n s + (n - s) <=? c) with false by lia. reflexivity.
  - destruct fuel; [lia|]. cbn [cell_loop].
    pose proof (base_mono n 0 t). pose proof (base_step_mono n t s). rewrite base_0 in *.
    rewrite Z.mod_small by lia. replace (base n t + (n - t) <=? c) with true by lia.
    rewrite !to_short_id by lia.
    replace (n - t - 1) with (n - (t + 1)) by lia. rewrite <- base_S.
    apply IHd; lia.
Qed.

Lemma cell_recover : forall n nts s e fuel,
  span n s e -> n < 2 ^ 15 -> 0 < nts -> nts * ncells n <= 2 ^ 32 ->
  n * s - ((s - 1) * s / 2) < 2 ^ 15 -> s < Z.of_nat fuel -> forall lab, 0 <= lab < nts ->
  cell_loop fuel ((cellidx s e n nts + lab) / nts) n 0 0 = (s, base n s) /\
  (cellidx s e n nts + lab) / nts = base n s + (e - s - 1).
Proof.
  intros n nts s e fuel H Hn Hnts Hb Hs Hf lab Hl.
  assert (E : (cellidx s e n nts + lab) / nts = base n s + (e - s - 1)).
  { rewrite cellidx_base by auto. rewrite Z.mul_comm, Z.div_add_l by lia.
    rewrite (Z.div_small lab) by lia. lia. }
  split; auto. rewrite E.
  change 0 with (base n 0) at 1 || idtac.
  pose proof (cell_loop_ok n s) as L. unfold span in H.
  specialize (L ltac:(lia) Hn Hs (base n s + (e - s - 1)) ltac:(lia) (Z.to_nat s) 0 fuel).
  rewrite base_0 in L. replace (n - 0) with n in L by lia. apply L; lia.
Qed.

(** For every item [cell + label]: as long as the number of cells before those
    starting at [s] is below 2^15 the loops recover the span. *)
Theorem C07_span_recovered : forall n nts s e fuel lab,
  span n s e -> n < 2 ^ 15 -> 0 < nts -> nts * ncells n <= 2 ^ 32 ->
  n * s - ((s - 1) * s / 2) < 2 ^ 15 -> 0 <= lab < nts -> s < Z.of_nat fuel ->
  cellstart fuel (cellidx s e n nts + lab) n nts = s /\
  cellend fuel (cellidx s e n nts + lab) n nts = e.
Proof.
  intros n nts s e fuel lab H Hn Hnts Hb Hs Hl Hf.
  destruct (cell_recover n nts s e fuel H Hn Hnts Hb Hs Hf lab Hl) as [A B].
  unfold cellstart, cellend. rewrite A, B. cbn [fst]. split; auto. unfold span in H.
  replace (s + (base n s + (e - s - 1) - base n s) + 1) with e by lia.
  rewrite Z.mod_small by lia. apply to_short_id. lia.
Qed.

(** In particular for all sentences of up to 255 words. *)
Corollary C07_span_recovered_255 : forall n nts s e fuel lab,
  span n s e -> n <= 255 -> 0 < nts -> nts * ncells n <= 2 ^ 32 ->
  0 <= lab < nts -> s < Z.of_nat fuel ->
  cellstart fuel (cellidx s e n nts + lab) n nts = s /\
  cellend fuel (cellidx s e n nts + lab) n nts = e.
Proof.
  intros n nts s e fuel lab H Hn Hnts Hb Hl Hf. apply C07_span_recovered; auto; [lia|].
  unfold span in *. change (base n s < 2 ^ 15).
  pose proof (base_mono n s n). rewrite base_n in *.
  assert (ncells n <= 32640); [|lia]. unfold ncells.
  change 32640 with (255 * (255 + 1) / 2). apply Z.div_le_mono; [lia|]. nia.
Qed.

(** With 256 words the 16-bit counter overflows and the last words' items are
    attributed to the wrong span, however long the loop runs. *)
Theorem C07_long_sentence_refuted :
  span 256 255 256 /\ forall fuel, (242 <= fuel)%nat ->
  cellstart fuel (cellidx 255 256 256 1) 256 1 = 241 /\
  cellend fuel (cellidx 255 256 256 1) 256 1 = 361.
Proof.
  split; [unfold span; lia|]. intros fuel H.
  assert (E : forall k, cell_loop (242 + k) 32895 256 0 0 = (241, -32760)).
  { intros k. vm_compute. reflexivity. }
  replace fuel with (242 + (fuel - 242))%nat by lia.
  unfold cellstart, cellend.
  change (cellidx 255 256 256 1 / 1) with 32895. rewrite E. split; reflexivity.
Qed.
(** With enough labels the 32-bit product wraps and two spans share a cell. *)
Theorem C07_many_labels_refuted : exists n nts s e s' e',
  span n s e /\ span n s' e' /\ 0 < nts < 2 ^ 32 /\ n <= 64 /\ (s, e) <> (s', e') /\
  cellidx s e n nts = cellidx s' e' n nts.
Proof.
  exists 64, (2 ^ 22), 0, 1, 18, 44. unfold span. repeat split; try lia; try discriminate; reflexivity.
Qed.
Example C07_ex : span 40 3 17 /\ 500 * ncells 40 <= 2 ^ 32 /\
  cellstart 40 (cellidx 3 17 40 500 + 7) 40 500 = 3 /\ cellend 40 (cellidx 3 17 40 500 + 7) 40 500 = 17.
Proof. unfold span. repeat split; try lia; vm_compute; congruence. Qed.

Print Assumptions C07_cells_in_range.
Print Assumptions C07_cells_distinct.
Print Assumptions C07_cells_do_not_overlap.
Print Assumptions C07_cells_onto.
Print Assumptions C07_span_recovered.
Print Assumptions C07_span_recovered_255.
Print Assumptions C07_long_sentence_refuted.
Print Assumptions C07_many_labels_refuted.
