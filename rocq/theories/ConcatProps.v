(** Properties C05, C06, C08: rule application and yield functions. *)
From Coq Require Import NArith ZArith List Bool Lia ZifyBool ZifyN ZifyNat Ascii.
From Verif Require Import BitsModel BitsSpec BitsProofs FanoutProofs ArrayProofs
  ConcatModel ConcatSpec ConcatProofs ConcatFat YfProofs.
Import ListNotations.
Local Open Scope N_scope.

(** ** C05 *)
Theorem C05_concat_small : forall yf l r L R,
  wf_yf yf -> (length (concat yf) <= 64)%nat -> l < 2 ^ 63 -> r < 2 ^ 63 ->
  components l L -> components r R ->
  length L = expects false yf -> length R = expects true yf ->
  (concat_small (getyf yf) l r = true <-> combines yf L R).
Proof.
  intros yf l r L R W HL Hl Hr CL CR NL NR. rewrite combines_flow; auto.
  - now apply concat_small_flow.
  - eapply separated_nonempty; apply CL.
  - eapply separated_nonempty; apply CR.
Qed.
(** The new item's vector denotes the union, its components are the arguments
    of the yield function, and the daughters did not overlap. *)
Theorem C05_combined_item : forall yf l r L R,
  wf_yf yf -> (length (concat yf) <= 64)%nat -> l < 2 ^ 63 -> r < 2 ^ 63 ->
  components l L -> components r R ->
  length L = expects false yf -> length R = expects true yf ->
  concat_small (getyf yf) l r = true ->
  (forall i, ~ (member l i /\ member r i)) /\
  (forall i, member (combine_small l r) i <-> member l i \/ member r i) /\
  exists U, Yield yf L R U /\ components (combine_small l r) U /\ length U = length yf.
Proof.
  intros yf l r L R W HL Hl Hr CL CR NL NR H.
  pose proof (proj1 (concat_small_flow yf l r L R W HL Hl Hr CL CR NL NR) H) as FL.
  apply (C05_concat_small yf l r L R) in H; auto. destruct H as (U & Y & S).
  assert (D : forall i, ~ (member l i /\ member r i)).
  { intros i [H1 H2]. apply CL in H1. apply CR in H2. exact (Flow_disjoint _ _ _ _ _ FL i H1 H2). }
  assert (E : forall i, member (combine_small l r) i <-> member l i \/ member r i).
  { intros i. specialize (D i). unfold member, combine_small in *. rewrite N.lxor_spec.
    destruct (N.testbit l i), (N.testbit r i); cbn; intuition. }
  split; auto. split; auto. exists U. split; auto. split; [|eapply Yield_length; eauto].
  split; auto. intros i. rewrite E.
  rewrite (Yield_covered _ _ _ _ Y); [|eapply separated_nonempty; apply CL|eapply separated_nonempty; apply CR].
  destruct CL as [_ CL], CR as [_ CR]. rewrite CL, CR. reflexivity.
Qed.
(** Without the fan-out condition the single-word test is wrong: the span
    {0,2} combines with {1} under a yield function that uses one component. *)
Theorem C05_fanout_condition_refuted : exists yf l r L R,
  wf_yf yf /\ components l L /\ components r R /\
  concat_small (getyf yf) l r = true /\ ~ combines yf L R.
Proof.
  destruct (components_exist 2) as [L CL]. destruct (components_exist 5) as [R CR].
  exists [[false; true]], 2, 5, L, R. split; [split; [discriminate|repeat constructor; discriminate]|].
  split; auto. split; auto. split; [reflexivity|].
  assert (EL : L = [(1, 2)]).
  { apply (components_unique 2); auto. split; [cbn; lia|]. intros i. unfold member. split.
    - intros H. exists 1, 2. split; [now left|]. apply (N.pow2_bits_eqb 1 i) in H || idtac.
      destruct (N.eq_dec i 1) as [->|Hn]; [lia|]. exfalso.
      change 2 with (2 ^ 1) in H. rewrite N.pow2_bits_false in H by congruence. discriminate.
    - intros (a & b & [E|[]] & H). inversion E; subst. assert (i = 1) by lia. subst. reflexivity. }
  assert (LR : length R = 2%nat).
  { pose proof (fanout_ok 5 R CR) as F. cbn in F. lia. }
  subst L. intros (U & Y & _). inversion Y as [|x xs L0 R0 a b L' R' U' A Y']; subst.
  inversion A; subst. inversion Y'; subst.
  match goal with H : Arg [true] _ _ _ _ _ _ |- _ => inversion H; subst end. cbn in LR. lia.
Qed.
Example C05_ex : wf_yf [[false; true]; [false]] /\
  concat_small (getyf [[false; true]; [false]]) 0x11 0x2 = true /\
  fanout 0x11 = N.of_nat (expects false [[false; true]; [false]]) /\
  fanout 0x2 = N.of_nat (expects true [[false; true]; [false]]).
Proof. repeat split; try reflexivity; try discriminate; repeat constructor; discriminate. Qed.

(** ** C06 *)
Theorem C06_concat_fat : forall yf al ar L R,
  wf_yf yf -> (length (concat yf) <= 64)%nat -> words al -> words ar -> length al = length ar ->
  acomponents al L -> acomponents ar R ->
  ~ amember al (nbits al - 1) -> ~ amember ar (nbits ar - 1) ->
  (concat_fat (getyf yf) al ar = true <-> combines yf L R).
Proof.
  intros yf al ar L R W HL Wl Wr HLen CL CR TL TR. rewrite combines_flow; auto.
  - now apply concat_fat_flow.
  - eapply separated_nonempty; apply CL.
  - eapply separated_nonempty; apply CR.
Qed.
Lemma amember_small : forall v rest i, v < 2 ^ 63 -> Forall (fun w => w = 0) rest ->
  (amember (v :: rest) i <-> member v i).
Proof.
  intros v rest i Hv Z. rewrite amember_cons. split.
  - intros [[_ H]|[_ H]]; auto. exfalso. unfold amember, member in H.
    assert (E : nth (N.to_nat ((i - 64) / 64)) rest 0 = 0).
    { destruct (nth_in_or_default (N.to_nat ((i - 64) / 64)) rest 0) as [H1|H1]; auto.
      rewrite Forall_forall in Z. auto. }
    rewrite E, N.bits_0 in H. discriminate.
  - intros H. left. split; auto. destruct (N.lt_ge_cases i 64); auto. unfold member in H.
    rewrite (proj1 (lt_pow2_bits v 63) Hv) in H by lia. discriminate.
Qed.
(** Both parsers agree on sentences short enough for the single-word one. *)
Theorem C06_small_fat_agree : forall yf l r L R rest,
  wf_yf yf -> (length (concat yf) <= 64)%nat -> l < 2 ^ 63 -> r < 2 ^ 63 ->
  components l L -> components r R ->
  length L = expects false yf -> length R = expects true yf ->
  Forall (fun w => w = 0) rest ->
  concat_small (getyf yf) l r = concat_fat (getyf yf) (l :: rest) (r :: rest).
Proof.
  intros yf l r L R rest W HL Hl Hr CL CR NL NR Z. apply eq_iff_eq_true.
  rewrite (C05_concat_small yf l r L R) by assumption. symmetry.
  assert (L64 : forall v, v < 2 ^ 63 -> v < 2 ^ 64).
  { intros v Hv. change (2 ^ 63) with 9223372036854775808 in Hv. change (2 ^ 64) with 18446744073709551616. lia. }
  assert (WR : words rest).
  { unfold words. rewrite Forall_forall in *. intros x Hx. rewrite (Z x Hx). reflexivity. }
  assert (TOP : forall v, v < 2 ^ 63 -> ~ amember (v :: rest) (nbits (v :: rest) - 1)).
  { intros v Hv H. apply (amember_small v rest _ Hv Z) in H. unfold member in H.
    rewrite (proj1 (lt_pow2_bits v 63) Hv) in H; [discriminate|]. unfold nbits. cbn [length]. lia. }
  apply C06_concat_fat; auto.
  - constructor; auto. 
  - constructor; auto.
  - split; [apply CL|]. intros i. rewrite amember_small by auto. apply CL.
  - split; [apply CR|]. intros i. rewrite amember_small by auto. apply CR.
Qed.
Example C06_ex : words [2 ^ 63; 0] /\ words [0; 1] /\
  concat_fat (getyf [[false; true]]) [2 ^ 63; 0] [0; 1] = true /\
  concat_fat (getyf [[false]; [true]]) [2 ^ 63; 0] [0; 1] = false /\
  concat_fat (getyf [[false]; [true]]) [2 ^ 62; 0] [0; 1] = true.
Proof. repeat split; repeat constructor. Qed.

(** ** C08 *)
Theorem C08_print_after_encode : forall yf, wf_yf yf -> (length (concat yf) <= 32)%nat ->
  yfstr (getyf yf) (N.of_nat (length yf)) = Some (yftext yf).
Proof. exact yfstr_ok. Qed.
Theorem C08_read_written : forall yf, wf_yf yf -> (length (concat yf) < 32)%nat ->
  exists c, readyf (yftext yf) = Some c /\ yc_enc c = getyf yf /\
    yc_fan c = N.of_nat (length yf) /\
    yc_r1 c = N.of_nat (expects false yf) /\ yc_r2 c = N.of_nat (expects true yf) /\
    yfstr (yc_enc c) (yc_fan c) = Some (yftext yf).
Proof.
  intros yf W HL. eexists. split; [apply readyf_ok; [apply W|assumption]|].
  cbn [yc_enc yc_fan yc_r1 yc_r2]. repeat split; auto. apply yfstr_ok; auto. lia.
Qed.
Theorem C08_encoding_injective : forall yf yf', wf_yf yf -> wf_yf yf' ->
  (length (concat yf) <= 32)%nat -> (length (concat yf') <= 32)%nat -> length yf = length yf' ->
  getyf yf = getyf yf' -> yf = yf'.
Proof. exact getyf_inj. Qed.
(** 32 variables or more are rejected on reading rather than silently truncated. *)
Theorem C08_too_long_rejected : forall yf, yf <> [] -> (32 <= length (concat yf))%nat ->
  readyf (yftext yf) = None.
Proof.
  intros yf H HL. unfold readyf.
  destruct (readyf_loop_ok yf (mkYf 0 0) 0 1 0 0 H) as (c & R1 & R2 & R3 & R4 & R5 & R6).
  rewrite R1, R2. cbn [yc_m]. destruct (N.leb_spec 32 (yc_m c)); [reflexivity|lia].
Qed.
(** A yield function with an empty component is misread: the text "0,,1" has
    three components but only two end markers. *)
Theorem C08_empty_component_refuted : exists s c,
  readyf s = Some c /\ yc_fan c <> popcount (lengths (yc_enc c)) /\ yfstr (yc_enc c) (yc_fan c) = None.
Proof.
  exists ["0"; ","; ","; "1"]%char. eexists. split; [reflexivity|]. split; [vm_compute; discriminate|reflexivity].
Qed.
Example C08_ex : wf_yf [[false; true; false]; [true; false]] /\
  yftext [[false; true; false]; [true; false]] = ["0"; "1"; "0"; ","; "1"; "0"]%char /\
  getyf [[false; true; false]; [true; false]] = mkYf 10 20.
Proof. repeat split; try reflexivity; try discriminate; repeat constructor; discriminate. Qed.

Print Assumptions C05_concat_small.
Print Assumptions C05_fanout_condition_refuted.
Print Assumptions C06_small_fat_agree.
Print Assumptions C08_read_written.
