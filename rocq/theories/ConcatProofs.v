From Coq Require Import NArith ZArith List Bool Lia ZifyBool ZifyN ZifyNat.
From Verif Require Import BitsModel BitsSpec BitsProofs FanoutProofs ArrayProofs ConcatModel ConcatSpec.
Import ListNotations.
Local Open Scope N_scope.

(** * Flattened yield functions *)
Fixpoint flat_part (p : list bool) : list (bool * bool) :=
  match p with
  | [] => []
  | [x] => [(x, true)]
  | x :: r => (x, false) :: flat_part r
  end.
Definition flat (yf : yieldfun) : list (bool * bool) := flat_map flat_part yf.

Lemma flat_part_cons2 : forall x y r, flat_part (x :: y :: r) = (x, false) :: flat_part (y :: r).
Proof. reflexivity. Qed.
Lemma flat_part_length : forall p, length (flat_part p) = length p.
Proof.
  induction p as [|x [|y r] IH]; auto. rewrite flat_part_cons2. cbn [length] in *. congruence.
Qed.
Lemma flat_part_fst : forall p, map fst (flat_part p) = p.
Proof.
  induction p as [|x [|y r] IH]; auto. rewrite flat_part_cons2. cbn [map fst] in *. congruence.
Qed.
Lemma flat_fst : forall yf, map fst (flat yf) = concat yf.
Proof.
  induction yf as [|p yf IH]; auto. unfold flat in *. cbn. now rewrite map_app, flat_part_fst, IH.
Qed.
Lemma flat_length : forall yf, length (flat yf) = length (concat yf).
Proof. intros. now rewrite <- flat_fst, map_length. Qed.

(** * The encoding *)
(** [enc_ok F m e]: bits m.. of e spell F, and nothing is set at or above the end. *)
Definition spells (F : list (bool * bool)) (m : N) (e : yfenc) : Prop :=
  (forall i, (i < length F)%nat ->
     N.testbit (args e) (m + N.of_nat i) = fst (nth i F (false, false)) /\
     N.testbit (lengths e) (m + N.of_nat i) = snd (nth i F (false, false))).
Definition above (m : N) (e : yfenc) : Prop :=
  args e < 2 ^ m /\ lengths e < 2 ^ m.

Lemma add_pow_bit : forall a m i, a < 2 ^ m ->
  N.testbit (a + 2 ^ m) i = if i =? m then true else N.testbit a i.
Proof.
  intros a m i H. assert (D : N.land a (2 ^ m) = 0).
  { apply zero_bits. intros j. rewrite N.land_spec. destruct (N.eq_dec j m) as [->|].
    - rewrite (proj1 (lt_pow2_bits a m) H) by lia. reflexivity.
    - rewrite N.pow2_bits_false by congruence. apply andb_false_r. }
  rewrite N.add_nocarry_lxor by assumption. rewrite N.lxor_spec.
  destruct (N.eqb_spec i m) as [->|].
  - rewrite N.pow2_bits_true, (proj1 (lt_pow2_bits a m) H) by lia. reflexivity.
  - rewrite N.pow2_bits_false by congruence. apply xorb_false_r.
Qed.

Lemma getyf_part_ok : forall p m a, a < 2 ^ m ->
  let (m', a') := getyf_part p m a in
  m' = m + N.of_nat (length p) /\ a' < 2 ^ m' /\
  (forall i, i < m -> N.testbit a' i = N.testbit a i) /\
  (forall i, (i < length p)%nat -> N.testbit a' (m + N.of_nat i) = nth i p false).
Proof.
  induction p as [|x p IH]; intros m a H; cbn [getyf_part length].
  - split; [lia|]. split; [assumption|]. split; auto. lia.
  - assert (H2 : (if x then a + 2 ^ m else a) < 2 ^ (m + 1)).
    { rewrite N.pow_add_r, N.pow_1_r. destruct x; lia. }
    specialize (IH (m + 1) _ H2). destruct (getyf_part p (m + 1) _) as [m' a'].
    destruct IH as (I1 & I2 & I3 & I4). split; [lia|]. split; [assumption|]. split.
    + intros i Hi. rewrite I3 by lia. destruct x; auto. rewrite add_pow_bit by assumption.
      destruct (N.eqb_spec i m); [lia|reflexivity].
    + intros [|i] Hi.
      * rewrite N.add_0_r, I3 by lia. cbn [nth]. destruct x.
        -- rewrite add_pow_bit, N.eqb_refl; auto.
        -- apply (proj1 (lt_pow2_bits a m) H). lia.
      * cbn [nth]. rewrite <- I4 by lia. f_equal. lia.
Qed.
Lemma flat_part_snd : forall p i, (i < length p)%nat ->
  snd (nth i (flat_part p) (false, false)) = (N.of_nat i =? N.of_nat (length p) - 1).
Proof.
  induction p as [|x [|y r] IH]; intros i H; cbn [length] in H; [lia| |].
  - assert (i = 0)%nat by lia. subst. reflexivity.
  - rewrite flat_part_cons2. destruct i as [|i]; cbn [nth snd].
    + cbn [length]. symmetry. apply N.eqb_neq. lia.
    + rewrite IH by (cbn [length]; lia). cbn [length].
      destruct (N.eqb_spec (N.of_nat i) (N.of_nat (S (length r)) - 1));
        destruct (N.eqb_spec (N.of_nat (S i)) (N.of_nat (S (S (length r))) - 1)); auto; lia.
Qed.
Lemma nth_map_fst : forall (F : list (bool * bool)) i, fst (nth i F (false, false)) = nth i (map fst F) false.
Proof. intros. now rewrite <- (map_nth fst F (false, false) i). Qed.

Lemma getyf_loop_ok : forall yf m e, Forall (fun p => p <> []) yf -> above m e ->
  let e' := getyf_loop yf m e in
  above (m + N.of_nat (length (flat yf))) e' /\
  (forall i, i < m -> N.testbit (args e') i = N.testbit (args e) i /\
                      N.testbit (lengths e') i = N.testbit (lengths e) i) /\
  spells (flat yf) m e'.
Proof.
  induction yf as [|p yf IH]; intros m e W [A1 A2]; cbn [getyf_loop].
  - cbv zeta. unfold flat. cbn. rewrite N.add_0_r. split; [split; auto|]. split; [auto|].
    intros i Hi. cbn in Hi. lia.
  - inversion W as [|? ? Hp W']; subst.
    pose proof (getyf_part_ok p m (args e) A1) as P. destruct (getyf_part p m (args e)) as [m' a'].
    destruct P as (P1 & P2 & P3 & P4).
    assert (Lp : (0 < length p)%nat) by (destruct p; [congruence|cbn; lia]).
    set (e1 := mkYf a' (N.lor (lengths e) (2 ^ (m' - 1)))).
    assert (Ab : above m' e1).
    { split; auto. cbn. apply lor_lt.
      - rewrite lt_pow2_bits in *. intros i Hi. apply A2. lia.
      - apply N.pow_lt_mono_r; lia. }
    specialize (IH m' e1 W' Ab). cbv zeta in IH. destruct IH as (I1 & I2 & I3).
    cbv zeta. set (e' := getyf_loop yf m' e1) in *.
    assert (FL : length (flat (p :: yf)) = (length p + length (flat yf))%nat).
    { unfold flat. cbn. now rewrite app_length, flat_part_length. }
    split; [|split].
    + rewrite FL. replace (m + N.of_nat (length p + length (flat yf))) with (m' + N.of_nat (length (flat yf))) by lia. assumption.
    + intros i Hi. destruct (I2 i ltac:(lia)) as [J1 J2]. rewrite J1, J2. cbn [args lengths e1].
      split; [apply P3; lia|]. rewrite N.lor_spec, N.pow2_bits_false by lia. apply orb_false_r.
    + intros i Hi. unfold flat. cbn [flat_map]. change (flat_map flat_part yf) with (flat yf).
      destruct (Nat.lt_ge_cases i (length p)) as [L|L].
      * rewrite app_nth1 by (rewrite flat_part_length; lia).
        destruct (I2 (m + N.of_nat i) ltac:(lia)) as [J1 J2]. rewrite J1, J2. cbn [args lengths e1].
        split.
        -- rewrite P4 by assumption. rewrite nth_map_fst, flat_part_fst. reflexivity.
        -- rewrite flat_part_snd by assumption. rewrite N.lor_spec.
           rewrite (proj1 (lt_pow2_bits _ m) A2) by lia. cbn [orb].
           destruct (N.eqb_spec (N.of_nat i) (N.of_nat (length p) - 1)).
           ++ replace (m + N.of_nat i) with (m' - 1) by lia. apply N.pow2_bits_true.
           ++ apply N.pow2_bits_false. lia.
      * rewrite app_nth2 by (rewrite flat_part_length; lia). rewrite flat_part_length.
        destruct (I3 (i - length p)%nat ltac:(lia)) as [J1 J2].
        replace (m + N.of_nat i) with (m' + N.of_nat (i - length p)) by lia. auto.
Qed.

Lemma flat_last : forall yf, wf_yf yf -> exists F x, flat yf = F ++ [(x, true)].
Proof.
  assert (FP : forall p, p <> [] -> exists F x, flat_part p = F ++ [(x, true)]).
  { induction p as [|x [|y r] IH]; intros H; [congruence| |].
    - exists [], x. reflexivity.
    - destruct (IH ltac:(discriminate)) as (F & z & E). rewrite flat_part_cons2, E.
      exists ((x, false) :: F), z. reflexivity. }
  intros yf [H W]. induction yf as [|p yf IH]; [congruence|]. inversion W; subst.
  destruct yf as [|q yf].
  - unfold flat. cbn. rewrite app_nil_r. auto.
  - destruct IH as (F & x & E); [discriminate|assumption|].
    exists (flat_part p ++ F), x. unfold flat in *. cbn [flat_map] in *. rewrite E. now rewrite app_assoc.
Qed.

Lemma getyf_spells : forall yf, wf_yf yf -> spells (flat yf) 0 (getyf yf) /\
  above (N.of_nat (length (flat yf))) (getyf yf).
Proof.
  intros yf [_ W]. destruct (getyf_loop_ok yf 0 (mkYf 0 0) W) as (H1 & _ & H3); [split; reflexivity|].
  split; auto.
Qed.
Lemma getyf_bitlength : forall yf, wf_yf yf -> (length (flat yf) <= 64)%nat ->
  bitlength (lengths (getyf yf)) = N.of_nat (length (flat yf)).
Proof.
  intros yf W HL. destruct (getyf_spells yf W) as [S [_ A]].
  destruct (flat_last yf W) as (F & x & E).
  assert (T : N.testbit (lengths (getyf yf)) (N.of_nat (length F)) = true).
  { destruct (S (length F)) as [_ S2]; [rewrite E, app_length; cbn; lia|].
    rewrite N.add_0_l in S2. rewrite S2, E, app_nth2, Nat.sub_diag by lia. reflexivity. }
  assert (L64 : lengths (getyf yf) < 2 ^ 64).
  { rewrite lt_pow2_bits in *. intros i Hi. apply A. lia. }
  assert (NZ : lengths (getyf yf) <> 0) by (intros Z; rewrite Z, N.bits_0 in T; discriminate).
  rewrite bitlength_log2 by assumption.
  rewrite E, app_length. cbn [length].
  assert (N.log2 (lengths (getyf yf)) < N.of_nat (length (flat yf))) by (apply N.log2_lt_pow2; lia).
  rewrite E, app_length in H. cbn [length] in H.
  destruct (N.lt_ge_cases (N.log2 (lengths (getyf yf))) (N.of_nat (length F))) as [C|C].
  - rewrite N.bits_above_log2 in T by assumption. discriminate.
  - lia.
Qed.

(** * Order-based characterisation *)
(** [Flow e pl F L R]: read the rest [F]; the previous component ended at [e]
    ([None] at the start) and was the last of its argument iff [pl]. *)
Inductive Flow : option N -> bool -> list (bool * bool) -> list interval -> list interval -> Prop :=
| Flow_nil : forall e, Flow e true [] [] []
| Flow_left : forall (e : option N) (pl last : bool) (a b : N) F L R,
    match e with None => True | Some x => if pl then x < a else a = x end ->
    a < b -> Flow (Some b) last F L R -> Flow e pl ((false, last) :: F) ((a, b) :: L) R
| Flow_right : forall (e : option N) (pl last : bool) (a b : N) F L R,
    match e with None => True | Some x => if pl then x < a else a = x end ->
    a < b -> Flow (Some b) last F L R -> Flow e pl ((true, last) :: F) L ((a, b) :: R).

Definition nonempty_ivs (l : list interval) : Prop := Forall (fun iv : interval => fst iv < snd iv) l.
Lemma separated_nonempty : forall l lo, separated lo l -> nonempty_ivs l.
Proof.
  induction l as [|[a b] l IH]; intros lo H; constructor.
  - cbn in H. tauto.
  - cbn in H. destruct H as (_ & _ & H). apply (IH _ H).
Qed.

Lemma Arg_nonnil : forall p L R a b L' R', Arg p L R a b L' R' -> p <> [].
Proof. intros. inversion H; discriminate. Qed.
Lemma Flow_part_sound : forall p e F L R, p <> [] -> Flow e true (flat_part p ++ F) L R ->
  exists a b L' R', Arg p L R a b L' R' /\ a < b /\
    match e with None => True | Some x => x < a end /\ Flow (Some b) true F L' R'.
Proof.
  assert (G : forall p e (pl : bool) F L R, p <> [] -> Flow e pl (flat_part p ++ F) L R ->
    exists a b L' R', Arg p L R a b L' R' /\ a < b /\
      match e with None => True | Some x => if pl then x < a else a = x end /\ Flow (Some b) true F L' R').
  { induction p as [|x [|y r] IH]; intros e pl F L R Hp H; [congruence| |].
    - cbn in H. inversion H; subst.
      + exists a, b, L0, R. repeat split; auto. constructor.
      + exists a, b, L, R0. repeat split; auto. constructor.
    - rewrite flat_part_cons2 in H. cbn [app] in H. inversion H; subst.
      + destruct (IH (Some b) false F L0 R ltac:(discriminate) H9) as (a' & c & L' & R' & A & AB & E & FL).
        subst a'. exists a, c, L', R'. repeat split; auto; [now constructor|lia].
      + destruct (IH (Some b) false F L R0 ltac:(discriminate) H9) as (a' & c & L' & R' & A & AB & E & FL).
        subst a'. exists a, c, L', R'. repeat split; auto; [now constructor|lia]. }
  intros p e F L R Hp H. destruct (G p e true F L R Hp H) as (a & b & L' & R' & ? & ? & ? & ?).
  exists a, b, L', R'. auto.
Qed.
Lemma Flow_part_complete : forall p L R a b L' R', Arg p L R a b L' R' ->
  nonempty_ivs L -> nonempty_ivs R ->
  a < b /\ nonempty_ivs L' /\ nonempty_ivs R' /\
  forall e (pl : bool) F, match e with None => True | Some x => if pl then x < a else a = x end ->
    Flow (Some b) true F L' R' -> Flow e pl (flat_part p ++ F) L R.
Proof.
  induction 1; intros NL NR.
  - inversion NL; subst. repeat split; auto. intros. cbn. now constructor.
  - inversion NR; subst. repeat split; auto. intros. cbn. now constructor.
  - inversion NL; subst. destruct (IHArg H3 NR) as (I1 & I2 & I3 & I4).
    cbn [fst snd] in *. split; [lia|]. split; auto. split; auto. intros e pl F E FL. rewrite flat_part_cons2. cbn [app].
    constructor; auto.
  - inversion NR; subst. destruct (IHArg NL H3) as (I1 & I2 & I3 & I4).
    cbn [fst snd] in *. split; [lia|]. split; auto. split; auto. intros e pl F E FL. rewrite flat_part_cons2. cbn [app].
    constructor; auto.
Qed.

Lemma Flow_yield : forall yf e L R, Forall (fun p => p <> []) yf ->
  Flow e true (flat yf) L R ->
  exists U, Yield yf L R U /\ separated (match e with None => 0 | Some x => x + 1 end) U.
Proof.
  induction yf as [|p yf IH]; intros e L R W H.
  - unfold flat in H. cbn in H. inversion H; subst. exists []. split; [constructor|exact I].
  - inversion W; subst. unfold flat in H. cbn [flat_map] in H.
    destruct (Flow_part_sound _ _ _ _ _ H2 H) as (a & b & L' & R' & A & AB & E & FL).
    destruct (IH (Some b) L' R' H3 FL) as (U & Y & S).
    exists ((a, b) :: U). split; [econstructor; eauto|]. cbn. split; [destruct e; lia|]. auto.
Qed.
Lemma Yield_flow : forall yf L R U, Yield yf L R U -> nonempty_ivs L -> nonempty_ivs R ->
  forall e, separated (match e with None => 0 | Some x => x + 1 end) U ->
  Flow e true (flat yf) L R.
Proof.
  induction 1; intros NL NR e S.
  - constructor.
  - destruct (Flow_part_complete _ _ _ _ _ _ _ H NL NR) as (AB & N1 & N2 & K).
    cbn in S. destruct S as (S1 & S2 & S3). unfold flat. cbn [flat_map].
    apply K; [destruct e; [lia|auto]|]. apply IHYield; auto.
Qed.
Lemma combines_flow : forall yf L R, wf_yf yf -> nonempty_ivs L -> nonempty_ivs R ->
  (combines yf L R <-> Flow None true (flat yf) L R).
Proof.
  intros yf L R [_ W] NL NR. split.
  - intros (U & Y & S). apply (Yield_flow yf L R U Y NL NR None S).
  - intros H. destruct (Flow_yield yf None L R W H) as (U & Y & S). exists U. auto.
Qed.

(** All remaining intervals start after the previous end. *)
Definition starts_ge (e : N) (l : list interval) : Prop := Forall (fun iv => e <= fst iv) l.
Definition starts_gt (e : N) (l : list interval) : Prop := Forall (fun iv => e < fst iv) l.
Lemma starts_ge_weaken : forall e e' l, e' <= e -> starts_ge e l -> starts_ge e' l.
Proof. intros e e' l H. apply Forall_impl. intros. lia. Qed.
Lemma starts_gt_ge : forall e e' l, e' < e -> starts_ge e l -> starts_gt e' l.
Proof. intros e e' l H. apply Forall_impl. intros. lia. Qed.
Lemma Flow_starts : forall e pl F L R, Flow e pl F L R -> forall x, e = Some x ->
  starts_ge x L /\ starts_ge x R /\ (pl = true -> starts_gt x L /\ starts_gt x R).
Proof.
  induction 1; intros x E.
  - repeat split; constructor.
  - destruct (IHFlow b eq_refl) as (I1 & I2 & I3). subst e.
    assert (x <= a) by (destruct pl; lia).
    split; [constructor; [cbn; lia|apply (starts_ge_weaken b); auto; lia]|].
    split; [apply (starts_ge_weaken b); auto; lia|]. intros ->.
    split; [constructor; [cbn; lia|apply (starts_gt_ge b); auto; lia]|apply (starts_gt_ge b); auto; lia].
  - destruct (IHFlow b eq_refl) as (I1 & I2 & I3). subst e.
    assert (x <= a) by (destruct pl; lia).
    split; [apply (starts_ge_weaken b); auto; lia|].
    split; [constructor; [cbn; lia|apply (starts_ge_weaken b); auto; lia]|]. intros ->.
    split; [apply (starts_gt_ge b); auto; lia|constructor; [cbn; lia|apply (starts_gt_ge b); auto; lia]].
Qed.
Lemma starts_ge_covered : forall e l i, starts_ge e l -> covered l i -> e <= i.
Proof.
  intros e l i H (a & b & Hin & Hi). unfold starts_ge in H. rewrite Forall_forall in H.
  specialize (H _ Hin). cbn in H. lia.
Qed.
Lemma Flow_disjoint : forall e pl F L R, Flow e pl F L R -> forall i, covered L i -> covered R i -> False.
Proof.
  induction 1; intros i CL CR.
  - now apply covered_nil in CL.
  - destruct (Flow_starts _ _ _ _ _ H1 b eq_refl) as (I1 & I2 & _).
    apply covered_cons in CL. destruct CL as [CL|CL]; [|eauto].
    apply (starts_ge_covered b) in CR; auto. lia.
  - destruct (Flow_starts _ _ _ _ _ H1 b eq_refl) as (I1 & I2 & _).
    apply covered_cons in CR. destruct CR as [CR|CR]; [|eauto].
    apply (starts_ge_covered b) in CL; auto. lia.
Qed.
Lemma Flow_counts : forall e pl F L R, Flow e pl F L R ->
  length L = length (filter (Bool.eqb false) (map fst F)) /\
  length R = length (filter (Bool.eqb true) (map fst F)).
Proof. induction 1; cbn; intuition. Qed.

(** * The single-word loop *)
Definition upd {A} (s : bool) (x : A) (l r : A) : A * A := if s then (l, x) else (x, r).

(** [v] has components [l]. *)
Definition comps (v : N) (l : list interval) : Prop :=
  separated 0 l /\ (forall i, member v i <-> covered l i).

Lemma comps_lowest : forall v a b l, comps v ((a, b) :: l) -> lowest v a.
Proof. exact components_head. Qed.

Lemma wsub1 : forall v, v < 2 ^ 64 -> v <> 0 -> wsub v 1 = v - 1.
Proof.
  intros v H H0. unfold wsub. replace (v + two64 - 1) with (v - 1 + 1 * two64) by (unfold two64; lia).
  rewrite N.mod_add by (unfold two64; lia). apply N.mod_small. rewrite two64_pow. lia.
Qed.
Lemma wsub1_0 : wsub 0 1 = ones64. Proof. reflexivity. Qed.
Lemma wadd1_ones : forall b, b < 64 -> wadd (N.ones b) 1 = 2 ^ b.
Proof.
  intros b H. unfold wadd. rewrite N.ones_equiv.
  assert (2 ^ b <> 0) by (apply N.pow_nonzero; lia).
  replace (N.pred (2 ^ b) + 1) with (2 ^ b) by lia. apply N.mod_small. rewrite two64_pow.
  apply N.pow_lt_mono_r; lia.
Qed.
Lemma ones_lt : forall b, b <= 64 -> N.ones b < 2 ^ 64.
Proof. intros b H. apply lt_pow2_bits. intros i Hi. apply N.ones_spec_high. lia. Qed.

Lemma comps_head_end : forall v a b l, v < 2 ^ 63 -> comps v ((a, b) :: l) -> b <= 63.
Proof.
  intros v a b l H [S C]. cbn in S. destruct S as (_ & S & _).
  assert (M : member v (b - 1)) by (apply C; apply covered_cons; lia).
  destruct (N.lt_ge_cases (b - 1) 63); [lia|]. unfold member in M.
  rewrite (proj1 (lt_pow2_bits v 63) H) in M by assumption. discriminate.
Qed.

(** |v - 1 then mask of the bits below the end of the first component *)
Lemma mask_head : forall v a b l, v < 2 ^ 63 -> comps v ((a, b) :: l) ->
  let v1 := N.lor v (wsub v 1) in
  N.land v1 (wsub (wnot v1) 1) = N.ones b /\
  (forall i, b <= i -> N.testbit v1 i = N.testbit v i).
Proof.
  intros v a b l Hv C. pose proof (comps_lowest _ _ _ _ C) as L.
  pose proof (comps_head_end _ _ _ _ Hv C) as Hb.
  destruct C as [S C]. cbn in S. destruct S as (_ & Hab & S3).
  cbv zeta. assert (Hv64 : v < 2 ^ 64) by (change (2 ^ 63) with 9223372036854775808 in Hv; change (2 ^ 64) with 18446744073709551616; lia).
  rewrite (wsub1 v Hv64) by (apply (lowest_nonzero _ _ L)).
  set (v1 := N.lor v (v - 1)).
  assert (B1 : forall i, N.testbit v1 i = if i <? b then true else N.testbit v i).
  { intros i. unfold v1. rewrite N.lor_spec, (pred_bits v a L).
    destruct (N.ltb_spec i b).
    - destruct (N.ltb_spec i a); [apply orb_true_r|].
      assert (M : member v i) by (apply C, covered_cons; lia). unfold member in M. now rewrite M.
    - destruct (N.ltb_spec i a); [lia|]. destruct (N.eqb_spec i a); [lia|]. apply orb_diag. }
  assert (Bb : N.testbit v1 b = false).
  { rewrite B1. destruct (N.ltb_spec b b); [lia|]. destruct (N.testbit v b) eqn:E; auto.
    apply C in E. apply covered_cons in E. destruct E as [E|E]; [lia|].
    apply (separated_covered_ge _ _ _ S3) in E. lia. }
  assert (V1 : v1 < 2 ^ 64).
  { apply lt_pow2_bits. intros i Hi. rewrite B1. destruct (N.ltb_spec i b); [lia|].
    apply (proj1 (lt_pow2_bits v 64) Hv64). assumption. }
  assert (LW : lowest (wnot v1) b).
  { split.
    - rewrite bits_wnot by assumption. rewrite Bb. destruct (N.ltb_spec b 64); [reflexivity|lia].
    - intros i Hi. rewrite bits_wnot by assumption. rewrite B1.
      destruct (N.ltb_spec i b); [|lia]. apply andb_false_r. }
  rewrite wsub1 by (first [now apply wnot_lt|apply (lowest_nonzero _ _ LW)]).
  split.
  - apply N.bits_inj. intros i. rewrite N.land_spec, (pred_bits _ b LW), bits_ones, B1.
    destruct (N.ltb_spec i b); [reflexivity|].
    destruct (N.eqb_spec i b) as [->|]; [apply andb_false_r|].
    rewrite bits_wnot by assumption. rewrite B1. destruct (N.ltb_spec i b); [lia|].
    destruct (N.testbit v i); cbn; [apply andb_false_r|reflexivity].
  - intros i Hi. rewrite B1. destruct (N.ltb_spec i b); [lia|reflexivity].
Qed.

(** Clearing everything below b *)
Lemma clear_below : forall v b i, b <= 64 -> v < 2 ^ 64 ->
  N.testbit (N.land v (wnot (N.ones b))) i = (b <=? i) && N.testbit v i.
Proof.
  intros v b i Hb Hv. rewrite N.land_spec, bits_wnot, bits_ones by now apply ones_lt.
  destruct (N.ltb_spec i b); destruct (N.leb_spec b i); try lia; cbn [negb andb].
  destruct (N.ltb_spec i 64); cbn [andb]; [apply andb_true_r|].
    rewrite (proj1 (lt_pow2_bits v 64) Hv) by assumption. reflexivity.
Qed.

(** Drop the intervals below b. *)
Fixpoint drop_below (b : N) (l : list interval) : list interval :=
  match l with
  | [] => []
  | (x, y) :: r => if x <? b then drop_below b r else l
  end.
Lemma drop_below_covered : forall l b lo i, separated lo l ->
  (forall x y, In (x, y) l -> y <= b \/ b <= x) ->
  (covered (drop_below b l) i <-> b <= i /\ covered l i).
Proof.
  induction l as [|[x y] l IH]; intros b lo i S H; cbn [drop_below].
  - split; [intros C; now apply covered_nil in C|intros [_ C]; now apply covered_nil in C].
  - cbn in S. destruct S as (S1 & S2 & S3). destruct (N.ltb_spec x b).
    + rewrite (IH b (y + 1)); auto; [|intros; apply H; now right]. rewrite covered_cons.
      destruct (H x y (or_introl eq_refl)); [|lia]. intuition lia.
    + rewrite covered_cons. split; [|tauto]. intros C. split; auto. destruct C as [C|C]; [lia|].
      apply (separated_covered_ge _ _ _ S3) in C. lia.
Qed.
Lemma drop_below_separated : forall l b lo, separated lo l -> separated lo (drop_below b l).
Proof.
  induction l as [|[x y] l IH]; intros b lo S; cbn [drop_below]; auto.
  cbn in S. destruct S as (S1 & S2 & S3). destruct (x <? b); [|cbn; auto].
  apply (separated_weaken _ (y + 1)); [lia|]. auto.
Qed.
Lemma drop_below_starts : forall l b lo, separated lo l -> starts_ge b (drop_below b l).
Proof.
  induction l as [|[x y] l IH]; intros b lo S; cbn [drop_below]; [constructor|].
  cbn in S. destruct S as (S1 & S2 & S3). destruct (N.ltb_spec x b); [eauto|].
  constructor; [cbn; lia|]. clear - S3 H S2. revert y S3 S2. induction l as [|[u w] l IH]; intros y S3 S2; constructor.
  - cbn in *. lia.
  - cbn in S3. destruct S3 as (A & B & C). apply (IH w C). lia.
Qed.
Lemma drop_below_length : forall l b, (length (drop_below b l) <= length l)%nat.
Proof. induction l as [|[x y] l IH]; intros b; cbn; auto. destruct (x <? b); cbn; auto. Qed.
Lemma drop_below_same : forall l b, starts_ge b l -> drop_below b l = l.
Proof.
  intros [|[x y] l] b H; auto. inversion H; subst. cbn in *. destruct (N.ltb_spec x b); [lia|auto].
Qed.
Lemma drop_below_same_length : forall l b lo, separated lo l ->
  length (drop_below b l) = length l -> starts_ge b l.
Proof.
  intros [|[x y] l] b lo S H; [constructor|]. cbn [drop_below] in H.
  destruct (N.ltb_spec x b).
  - pose proof (drop_below_length l b). cbn in H. lia.
  - pose proof (drop_below_starts ((x, y) :: l) b lo S). cbn [drop_below] in H1.
    destruct (N.ltb_spec x b); [lia|]. assumption.
Qed.

Lemma disjoint_endpoints : forall va vb a b A B,
  comps va ((a, b) :: A) -> comps vb B -> N.land va vb = 0 ->
  forall x y, In (x, y) B -> y <= b \/ b <= x.
Proof.
  intros va vb a b A B [S C] [S' C'] D x y Hin.
  cbn in S. destruct S as (_ & Hab & _).
  destruct (N.le_gt_cases y b) as [|H1]; auto. destruct (N.le_gt_cases b x) as [|H2]; auto.
  exfalso.
  assert (M1 : member va (b - 1)) by (apply C, covered_cons; lia).
  assert (M2 : member vb (b - 1)) by (apply C'; exists x, y; split; auto; lia).
  assert (T : N.testbit (N.land va vb) (b - 1) = false) by (rewrite D; apply N.bits_0).
  rewrite N.land_spec in T. unfold member in M1, M2. rewrite M1, M2 in T. discriminate.
Qed.

Lemma disjoint_start : forall va vb a b A B,
  comps va ((a, b) :: A) -> comps vb B -> N.land va vb = 0 ->
  forall x y, In (x, y) B -> x < y -> x < a \/ b <= x.
Proof.
  intros va vb a b A B [S C] [S' C'] D x y Hin Hxy.
  destruct (N.lt_ge_cases x a) as [|H1]; auto. destruct (N.le_gt_cases b x) as [|H2]; auto.
  exfalso.
  assert (M1 : member va x) by (apply C, covered_cons; lia).
  assert (M2 : member vb x) by (apply C'; exists x, y; split; auto; lia).
  assert (T : N.testbit (N.land va vb) x = false) by (rewrite D; apply N.bits_0).
  rewrite N.land_spec in T. unfold member in M1, M2. rewrite M1, M2 in T. discriminate.
Qed.

Lemma comps_clear_tail : forall v v1 a b l, v1 < 2 ^ 64 -> b <= 64 ->
  comps v ((a, b) :: l) -> (forall i, b <= i -> N.testbit v1 i = N.testbit v i) ->
  comps (N.land v1 (wnot (N.ones b))) l.
Proof.
  intros v v1 a b l Hv Hb [S C] E. cbn in S. destruct S as (S1 & S2 & S3). split.
  - apply (separated_weaken _ (b + 1)); auto. lia.
  - intros i. unfold member. rewrite clear_below by assumption.
    destruct (N.leb_spec b i); cbn.
    + rewrite E by assumption. change (N.testbit v i = true) with (member v i).
      rewrite C, covered_cons. intuition lia.
    + split; [discriminate|]. intros K. apply (separated_covered_ge _ _ _ S3) in K. lia.
Qed.
Lemma comps_clear_other : forall v va a b A l, v < 2 ^ 64 -> b <= 64 ->
  comps va ((a, b) :: A) -> comps v l -> N.land va v = 0 ->
  comps (N.land v (wnot (N.ones b))) (drop_below b l).
Proof.
  intros v va a b A l Hv Hb Ca C D.
  pose proof (disjoint_endpoints va v a b A l Ca C D) as DE. destruct C as [S C]. split.
  - now apply drop_below_separated.
  - intros i. unfold member. rewrite clear_below by assumption.
    rewrite (drop_below_covered _ _ _ _ S DE), andb_true_iff, N.leb_le.
    rewrite <- C. reflexivity.
Qed.

(** Head position of a list of components. *)
Definition head_is (l : list interval) (p : N) : Prop := exists b r, l = (p, b) :: r.
Definition head (l : list interval) : option N := match l with [] => None | (a, _) :: _ => Some a end.

(** The list-driven small loop. *)
Fixpoint csl (F : list (bool * bool)) (lvec rvec mask : N) : bool :=
  match F with
  | [] => (lvec =? rvec) && (rvec =? 0)
  | (s, last) :: F' =>
      let finish lvec rvec mask :=
        let lvec := N.land lvec (wnot mask) in
        let rvec := N.land rvec (wnot mask) in
        if last then
          if negb (N.land (N.lxor lvec rvec) (wadd mask 1) =? 0) then false
          else csl F' lvec rvec (wadd (N.land (N.land (wnot lvec) (wsub lvec 1))
                               (N.land (wnot rvec) (wsub rvec 1))) 1)
        else csl F' lvec rvec (wadd mask 1) in
      if s then
        if N.land rvec mask =? 0 then false
        else finish lvec (N.lor rvec (wsub rvec 1))
               (N.land (N.lor rvec (wsub rvec 1)) (wsub (wnot (N.lor rvec (wsub rvec 1))) 1))
      else
        if N.land lvec mask =? 0 then false
        else finish (N.lor lvec (wsub lvec 1)) rvec
               (N.land (N.lor lvec (wsub lvec 1)) (wsub (wnot (N.lor lvec (wsub lvec 1))) 1))
  end.
Lemma spells_tail : forall x F n e, spells (x :: F) n e ->
  N.testbit (args e) n = fst x /\ N.testbit (lengths e) n = snd x /\ spells F (n + 1) e.
Proof.
  intros x F n e S. destruct (S 0%nat ltac:(cbn; lia)) as [S1 S2]. rewrite N.add_0_r in *.
  split; auto. split; auto. intros i Hi. destruct (S (Datatypes.S i) ltac:(cbn; lia)) as [S3 S4].
  cbn [nth] in *. replace (n + 1 + N.of_nat i) with (n + N.of_nat (Datatypes.S i)) by lia. auto.
Qed.
Lemma csl_ok : forall F n e l r m, spells F n e -> n + N.of_nat (length F) <= 64 ->
  concat_small_loop (length F) n e l r m = csl F l r m.
Proof.
  induction F as [|[s last] F IH]; intros n e l r m S H; [reflexivity|].
  destruct (spells_tail _ _ _ _ S) as (S1 & S2 & S3). cbn [length] in H.
  cbn [concat_small_loop csl length]. rewrite !testbit_ok by lia. rewrite S1, S2. cbn [fst snd].
  assert (IH' : forall l r m, concat_small_loop (length F) (n + 1) e l r m = csl F l r m)
    by (intros; apply IH; auto; lia).
  rewrite !IH'. reflexivity.
Qed.

Lemma comps_lt : forall v l, comps v l -> v < 2 ^ 63 -> forall w, (forall i, member w i -> member v i) -> w < 2 ^ 63.
Proof.
  intros v l C H w E. apply lt_pow2_bits. intros i Hi. destruct (N.testbit w i) eqn:T; auto.
  apply E in T. unfold member in T. rewrite (proj1 (lt_pow2_bits v 63) H) in T by assumption. discriminate.
Qed.

(** Trailing zeros: ~v & (v - 1) *)
Lemma trailing : forall v l, v < 2 ^ 63 -> comps v l ->
  N.land (wnot v) (wsub v 1) = match head l with None => ones64 | Some a => N.ones a end.
Proof.
  intros v [|[a b] l] Hv C.
  - assert (v = 0) by now apply components_nil. subst. reflexivity.
  - pose proof (comps_lowest _ _ _ _ C) as L. cbn [head].
    assert (Hv64 : v < 2 ^ 64) by (change (2 ^ 63) with 9223372036854775808 in Hv; change (2 ^ 64) with 18446744073709551616; lia).
    rewrite wsub1 by (auto; apply (lowest_nonzero _ _ L)).
    pose proof (comps_head_end _ _ _ _ Hv C).
    assert (a < b) by (destruct C as [S _]; cbn in S; lia).
    apply N.bits_inj. intros i. rewrite N.land_spec, bits_wnot, (pred_bits v a L), bits_ones by assumption.
    destruct (N.ltb_spec i a).
    + destruct (N.ltb_spec i 64); [|lia]. destruct L as [_ L]. rewrite L by assumption. reflexivity.
    + destruct (N.eqb_spec i a); [apply andb_false_r|].
      destruct (N.testbit v i); cbn; rewrite ?andb_false_r; auto.
Qed.
Definition minhead (L R : list interval) : option N :=
  match head L, head R with
  | None, x => x
  | x, None => x
  | Some a, Some b => Some (N.min a b)
  end.
Lemma gap_mask : forall l r L R, l < 2 ^ 63 -> r < 2 ^ 63 -> comps l L -> comps r R ->
  wadd (N.land (N.land (wnot l) (wsub l 1)) (N.land (wnot r) (wsub r 1))) 1 =
  match minhead L R with None => 0 | Some p => 2 ^ p end.
Proof.
  intros l r L R Hl Hr CL CR. rewrite (trailing l L Hl CL), (trailing r R Hr CR). unfold minhead.
  assert (HB : forall v X a b A, v < 2 ^ 63 -> comps v X -> X = (a, b) :: A -> a < 63).
  { intros v X a b A Hv C ->. pose proof (comps_head_end _ _ _ _ Hv C).
    destruct C as [S _]. cbn in S. lia. }
  assert (LO : forall a, a < 63 -> N.land ones64 (N.ones a) = N.ones a).
  { intros a Ha. apply N.bits_inj. intros i. rewrite N.land_spec, bits_ones64, bits_ones.
    destruct (N.ltb_spec i a), (N.ltb_spec i 64); auto; lia. }
  assert (OO : forall a b, N.land (N.ones a) (N.ones b) = N.ones (N.min a b)).
  { intros a b. apply N.bits_inj. intros i. rewrite N.land_spec, !bits_ones.
    destruct (N.ltb_spec i a), (N.ltb_spec i b), (N.ltb_spec i (N.min a b)); auto; lia. }
  destruct L as [|[a b] L], R as [|[a' b'] R]; cbn [head].
  - reflexivity.
  - pose proof (HB _ _ _ _ _ Hr CR eq_refl). rewrite LO by assumption. apply wadd1_ones. lia.
  - pose proof (HB _ _ _ _ _ Hl CL eq_refl). rewrite N.land_comm, LO by assumption. apply wadd1_ones. lia.
  - pose proof (HB _ _ _ _ _ Hl CL eq_refl). pose proof (HB _ _ _ _ _ Hr CR eq_refl).
    rewrite OO. apply wadd1_ones. lia.
Qed.

(** Whether the mask selects the head of X. *)
Definition mask_ok (e : N) (pl : bool) (L R : list interval) (mask : N) : Prop :=
  if pl then starts_gt e L /\ starts_gt e R /\ mask = match minhead L R with None => 0 | Some p => 2 ^ p end
  else starts_ge e L /\ starts_ge e R /\ mask = 2 ^ e.

Lemma land_pow_head : forall v l p, comps v l -> starts_ge p l ->
  (N.land v (2 ^ p) =? 0) = match head l with Some a => negb (a =? p) | None => true end.
Proof.
  intros v l p C S. rewrite N.land_comm, land_pow2_zero. destruct l as [|[a b] l]; cbn [head].
  - rewrite (components_nil _ C), N.bits_0. reflexivity.
  - f_equal. destruct (N.eqb_spec a p) as [->|Hne].
    + apply (comps_lowest _ _ _ _ C).
    + destruct (N.testbit v p) eqn:T; auto. inversion S; subst. cbn in H1.
      destruct (comps_lowest _ _ _ _ C) as [_ LL]. rewrite LL in T by lia. discriminate.
Qed.

Lemma minhead_starts : forall L R p lo lo', separated lo L -> separated lo' R ->
  minhead L R = Some p -> starts_ge p L /\ starts_ge p R.
Proof.
  assert (G : forall l a b lo, separated lo ((a, b) :: l) -> starts_ge a ((a, b) :: l)).
  { intros l a b lo S. cbn in S. destruct S as (S1 & S2 & S3). constructor; [cbn; lia|].
    revert b S2 S3. induction l as [|[x y] l IH]; intros b S2 S3; constructor.
    - cbn in *. lia.
    - cbn in S3. destruct S3 as (A & B & C). apply (IH y); auto. lia. }
  intros [|[a b] L] [|[a' b'] R] p lo lo' SL SR; cbn [minhead head]; intros E; inversion E; subst.
  - split; [constructor|eauto].
  - split; [eauto|constructor].
  - split; [apply (starts_ge_weaken a); [lia|eauto]|apply (starts_ge_weaken a'); [lia|eauto]].
Qed.
Lemma sep_tail_gt : forall l b, separated (b + 1) l -> starts_gt b l.
Proof.
  induction l as [|[x y] l IH]; intros b S; constructor; cbn in *; [lia|].
  destruct S as (A & B & C). apply IH in C. apply (Forall_impl _ (P := fun iv => y < fst iv)); auto. intros. lia.
Qed.

(** One step after the component [a,b) of side s has been selected. *)
Definition after (s : bool) (b : N) (v : N) : N := N.land v (wnot (N.ones b)).

Lemma xor_bit_zero : forall l r b, N.land l r = 0 ->
  negb (N.land (N.lxor l r) (2 ^ b) =? 0) = N.testbit l b || N.testbit r b.
Proof.
  intros l r b D. rewrite N.land_comm, land_pow2_zero, negb_involutive, N.lxor_spec.
  assert (T : N.testbit (N.land l r) b = false) by (rewrite D; apply N.bits_0).
  rewrite N.land_spec in T. destruct (N.testbit l b), (N.testbit r b); auto; discriminate.
Qed.

Lemma comps_bit : forall v l b, comps v l -> starts_ge b l -> N.testbit v b = true -> head l = Some b.
Proof.
  intros v l b [S C] G T. apply C in T. destruct l as [|[x y] l]; [now apply covered_nil in T|].
  cbn. apply covered_cons in T. inversion G; subst. cbn in *. destruct T as [T|T]; [f_equal; lia|].
  destruct S as (A & B & S). apply (separated_covered_ge _ _ _ S) in T. lia.
Qed.

Lemma sub_disjoint : forall l r l' r', N.land l r = 0 ->
  (forall i, member l' i -> member l i) -> (forall i, member r' i -> member r i) -> N.land l' r' = 0.
Proof.
  intros l r l' r' D H1 H2. apply zero_bits. intros i. rewrite N.land_spec.
  destruct (N.testbit l' i) eqn:E1; auto. destruct (N.testbit r' i) eqn:E2; auto.
  apply H1 in E1. apply H2 in E2. assert (T : N.testbit (N.land l r) i = false) by (rewrite D; apply N.bits_0).
  rewrite N.land_spec in T. unfold member in *. rewrite E1, E2 in T. discriminate.
Qed.

Lemma nil_loop : forall l r L R e, comps l L -> comps r R ->
  ((l =? r) && (r =? 0) = true <-> Flow e true [] L R).
Proof.
  intros l r L R e CL CR. rewrite andb_true_iff, !N.eqb_eq. split.
  - intros [-> ->]. assert (L = []) by (eapply components_unique; [exact CL|apply components_zero]).
    assert (R = []) by (eapply components_unique; [exact CR|apply components_zero]). subst. constructor.
  - intros H. inversion H; subst. split; [|now apply components_nil].
    rewrite (components_nil _ CL), (components_nil _ CR). reflexivity.
Qed.

Lemma Flow_left_inv : forall e pl last F L R, Flow e pl ((false, last) :: F) L R ->
  exists a b L', L = (a, b) :: L' /\
    match e with None => True | Some x => if pl then x < a else a = x end /\ a < b /\ Flow (Some b) last F L' R.
Proof. intros. inversion H; subst. eauto 8. Qed.
Lemma Flow_right_inv : forall e pl last F L R, Flow e pl ((true, last) :: F) L R ->
  exists a b R', R = (a, b) :: R' /\
    match e with None => True | Some x => if pl then x < a else a = x end /\ a < b /\ Flow (Some b) last F L R'.
Proof. intros. inversion H; subst. eauto 8. Qed.

(** After choosing component (a,b) from one side (X) with other side Y (vector
    vy), the rest of the loop decides Flow (Some b) last F' on the dropped lists.
    [fin] abstracts over which side is which. *)
Lemma finish_ok : forall F (last : bool) l r L R a b,
  (forall l r L R mask e pl, l < 2 ^ 63 -> r < 2 ^ 63 -> comps l L -> comps r R ->
     N.land l r = 0 -> mask_ok e pl L R mask -> (F = [] -> pl = true) ->
     (csl F l r mask = true <-> Flow (Some e) pl F L R)) ->
  l < 2 ^ 63 -> r < 2 ^ 63 -> comps l L -> comps r R -> N.land l r = 0 ->
  starts_ge b L -> starts_ge b R -> b <= 63 -> a < b ->
  (F = [] -> last = true) ->
  ((if last then
      if negb (N.land (N.lxor l r) (wadd (N.ones b) 1) =? 0) then false
      else csl F l r (wadd (N.land (N.land (wnot l) (wsub l 1)) (N.land (wnot r) (wsub r 1))) 1)
    else csl F l r (wadd (N.ones b) 1)) = true <-> Flow (Some b) last F L R).
Proof.
  intros F last l r L R a b IH Hl Hr CL CR D GL GR Hb Hab HF.
  rewrite wadd1_ones by lia. destruct last.
  - rewrite xor_bit_zero by assumption.
    assert (HG : N.testbit l b || N.testbit r b = true -> ~ Flow (Some b) true F L R).
    { intros T K. destruct (Flow_starts _ _ _ _ _ K b eq_refl) as (_ & _ & K2).
      destruct (K2 eq_refl) as [K3 K4]. apply orb_true_iff in T. destruct T as [T|T].
      - apply (comps_bit _ _ _ CL GL) in T. destruct L as [|[x y] L]; [discriminate|]. inversion T; subst.
        inversion K3; subst. cbn in *. lia.
      - apply (comps_bit _ _ _ CR GR) in T. destruct R as [|[x y] R]; [discriminate|]. inversion T; subst.
        inversion K4; subst. cbn in *. lia. }
    destruct (N.testbit l b || N.testbit r b) eqn:T; [split; [discriminate|intros K; now apply HG in K]|].
    apply orb_false_iff in T. destruct T as [T1 T2].
    rewrite (gap_mask l r L R) by assumption.
    apply IH; auto. cbn.
    assert (GT : forall v X, comps v X -> starts_ge b X -> N.testbit v b = false -> starts_gt b X).
    { intros v X [S C] G T. unfold starts_gt, starts_ge in *. rewrite Forall_forall in *.
      intros [x y] Hin. specialize (G _ Hin). cbn in *. destruct (N.eq_dec b x) as [->|]; [|lia].
      exfalso. assert (N1 : nonempty_ivs X) by (eapply separated_nonempty; eauto).
      unfold nonempty_ivs in N1. rewrite Forall_forall in N1. specialize (N1 _ Hin). cbn in N1.
      assert (M : member v x) by (apply C; exists x, y; split; auto; lia). unfold member in M. congruence. }
    split; [eauto|]. split; [eauto|]. reflexivity.
  - apply IH; auto. cbn. auto.
Qed.

Lemma csl_flow : forall F l r L R mask e pl, l < 2 ^ 63 -> r < 2 ^ 63 -> comps l L -> comps r R ->
  N.land l r = 0 -> mask_ok e pl L R mask -> (F = [] -> pl = true) ->
  (forall F1 x, F = F1 ++ [x] -> snd x = true) ->
  (csl F l r mask = true <-> Flow (Some e) pl F L R).
Proof.
  induction F as [|[s last] F IH]; intros l r L R mask e pl Hl Hr CL CR D M HF HW.
  - rewrite (HF eq_refl). now apply nil_loop.
  - assert (HW' : forall F1 x, F = F1 ++ [x] -> snd x = true).
    { intros F1 x E. apply (HW ((s, last) :: F1) x). rewrite E. reflexivity. }
    assert (HF' : F = [] -> last = true).
    { intros ->. apply (HW [] (s, last) eq_refl). }
    assert (IH' : forall l r L R mask e pl, l < 2 ^ 63 -> r < 2 ^ 63 -> comps l L -> comps r R ->
       N.land l r = 0 -> mask_ok e pl L R mask -> (F = [] -> pl = true) ->
       (csl F l r mask = true <-> Flow (Some e) pl F L R)).
    { intros. apply IH; auto. }
    clear IH HW.
    assert (W63 : forall v, v < 2 ^ 63 -> v < 2 ^ 64).
    { intros v Hv. change (2 ^ 63) with 9223372036854775808 in Hv. change (2 ^ 64) with 18446744073709551616. lia. }
    (* mask selects head of X iff X's head is the required start *)
    assert (SEL : forall v X, (v = l /\ X = L) \/ (v = r /\ X = R) ->
       (N.land v mask =? 0) = match head X with
                              | Some a => negb (if pl then match minhead L R with Some p => a =? p | None => false end else a =? e)
                              | None => true end).
    { intros v X Hvx. destruct pl; cbn in M.
      - destruct M as (M1 & M2 & ->). destruct (minhead L R) as [p|] eqn:E.
        + destruct (minhead_starts L R p 0 0) as [G1 G2]; [apply CL|apply CR|auto|].
          destruct Hvx as [[-> ->]|[-> ->]]; now apply land_pow_head.
        + destruct L as [|[a b] L], R as [|[a' b'] R]; cbn in E; try discriminate.
          rewrite N.land_0_r. destruct Hvx as [[-> ->]|[-> ->]]; reflexivity.
      - destruct M as (M1 & M2 & ->). destruct Hvx as [[-> ->]|[-> ->]]; now apply land_pow_head. }
    (* every start is >= the selected head *)
    assert (LOW : forall a, (if pl then match minhead L R with Some p => a =? p | None => false end else a =? e) = true ->
              starts_ge a L /\ starts_ge a R).
    { intros a Ha. destruct pl; cbn in M.
      - destruct (minhead L R) as [p|] eqn:E; [|discriminate]. apply N.eqb_eq in Ha. subst.
        apply (minhead_starts L R p 0 0); [apply CL|apply CR|auto].
      - apply N.eqb_eq in Ha. subst. tauto. }
    cbn [csl]. destruct s.
    + rewrite (SEL r R) by auto.
      destruct R as [|[a b] R]; cbn [head].
      { split; [discriminate|]. intros K. apply Flow_right_inv in K. destruct K as (? & ? & ? & K & _). discriminate. }
      match goal with |- (if negb ?c then _ else _) = _ <-> _ => destruct c eqn:SE end; cbn [negb].
      2:{ cbv iota. split; [intros K; discriminate K|]. intros K. apply Flow_right_inv in K.
          destruct K as (a0 & b0 & R' & E & K1 & K2 & K3). inversion E; subst a0 b0 R'. exfalso.
          destruct pl; [|subst a; rewrite N.eqb_refl in SE; discriminate].
          destruct L as [|[x y] L]; cbn in SE; [rewrite N.eqb_refl in SE; discriminate|].
          destruct (Flow_starts _ _ _ _ _ K3 b eq_refl) as (G & _ & _). inversion G; subst. cbn in *.
          apply N.eqb_neq in SE. lia. }
      destruct (LOW a SE) as [GL GR].
      destruct (mask_head r a b R Hr CR) as [MH1 MH2]. cbv zeta in MH1. rewrite MH1.
      pose proof (comps_head_end _ _ _ _ Hr CR) as Hb.
      assert (Hab : a < b) by (destruct CR as [SR _]; cbn in SR; lia).
      assert (R1 : N.lor r (wsub r 1) < 2 ^ 64).
      { apply lor_lt; [auto|]. unfold wsub. rewrite <- two64_pow. apply N.mod_lt. unfold two64. lia. }
      pose proof (comps_clear_tail r _ a b R R1 ltac:(lia) CR MH2) as CR'.
      pose proof (comps_clear_other l r a b R L (W63 _ Hl) ltac:(lia) CR CL ltac:(rewrite N.land_comm; auto)) as CL'.
      assert (GLb : starts_ge b L).
      { pose proof (disjoint_start r l a b R L CR CL ltac:(rewrite N.land_comm; auto)) as DE.
        destruct CL as [SL _]. apply separated_nonempty in SL.
        unfold starts_ge, nonempty_ivs in *. rewrite Forall_forall in *. intros [x y] Hin.
        specialize (GL _ Hin). specialize (SL _ Hin). cbn in *. destruct (DE _ _ Hin); auto; lia. }
      rewrite (drop_below_same L b GLb) in CL'.
      assert (GRb : starts_ge b R).
      { destruct CR as [SR _]. cbn in SR. destruct SR as (_ & _ & SR). apply sep_tail_gt in SR.
        apply (Forall_impl _ (P := fun iv => b < fst iv)); auto. intros. lia. }
      assert (SUBr : forall i, member (N.land (N.lor r (wsub r 1)) (wnot (N.ones b))) i -> member r i).
      { intros i Mi. apply CR' in Mi. apply CR. apply covered_cons. auto. }
      assert (SUBl : forall i, member (N.land l (wnot (N.ones b))) i -> member l i).
      { intros i Mi. unfold member in *. rewrite clear_below in Mi by (auto; lia).
        apply andb_true_iff in Mi. tauto. }
      rewrite (finish_ok F last _ _ L R a b IH'); auto.
      * split.
        -- intros K. constructor; auto.
           destruct pl; cbn in M.
           ++ destruct M as (_ & M & _). inversion M; subst. auto.
           ++ now apply N.eqb_eq in SE.
        -- intros K. apply Flow_right_inv in K. destruct K as (? & ? & ? & E & _ & _ & K). inversion E; subst. auto.
      * apply (comps_lt l L); auto.
      * apply (comps_lt r ((a, b) :: R)); auto.
      * apply (sub_disjoint l r); auto.
    + rewrite (SEL l L) by auto.
      destruct L as [|[a b] L]; cbn [head].
      { split; [discriminate|]. intros K. apply Flow_left_inv in K. destruct K as (? & ? & ? & K & _). discriminate. }
      match goal with |- (if negb ?c then _ else _) = _ <-> _ => destruct c eqn:SE end; cbn [negb].
      2:{ cbv iota. split; [intros K; discriminate K|]. intros K. apply Flow_left_inv in K.
          destruct K as (a0 & b0 & L' & E & K1 & K2 & K3). inversion E; subst a0 b0 L'. exfalso.
          destruct pl; [|subst a; rewrite N.eqb_refl in SE; discriminate].
          destruct R as [|[x y] R]; cbn in SE; [rewrite N.eqb_refl in SE; discriminate|].
          destruct (Flow_starts _ _ _ _ _ K3 b eq_refl) as (_ & G & _). inversion G; subst. cbn in *.
          apply N.eqb_neq in SE. lia. }
      destruct (LOW a SE) as [GL GR].
      destruct (mask_head l a b L Hl CL) as [MH1 MH2]. cbv zeta in MH1. rewrite MH1.
      pose proof (comps_head_end _ _ _ _ Hl CL) as Hb.
      assert (Hab : a < b) by (destruct CL as [SL _]; cbn in SL; lia).
      assert (L1 : N.lor l (wsub l 1) < 2 ^ 64).
      { apply lor_lt; [auto|]. unfold wsub. rewrite <- two64_pow. apply N.mod_lt. unfold two64. lia. }
      pose proof (comps_clear_tail l _ a b L L1 ltac:(lia) CL MH2) as CL'.
      pose proof (comps_clear_other r l a b L R (W63 _ Hr) ltac:(lia) CL CR D) as CR'.
      assert (GRb : starts_ge b R).
      { pose proof (disjoint_start l r a b L R CL CR D) as DE.
        destruct CR as [SR _]. apply separated_nonempty in SR.
        unfold starts_ge, nonempty_ivs in *. rewrite Forall_forall in *. intros [x y] Hin.
        specialize (GR _ Hin). specialize (SR _ Hin). cbn in *. destruct (DE _ _ Hin); auto; lia. }
      rewrite (drop_below_same R b GRb) in CR'.
      assert (GLb : starts_ge b L).
      { destruct CL as [SL _]. cbn in SL. destruct SL as (_ & _ & SL). apply sep_tail_gt in SL.
        apply (Forall_impl _ (P := fun iv => b < fst iv)); auto. intros. lia. }
      assert (SUBl : forall i, member (N.land (N.lor l (wsub l 1)) (wnot (N.ones b))) i -> member l i).
      { intros i Mi. apply CL' in Mi. apply CL. apply covered_cons. auto. }
      assert (SUBr : forall i, member (N.land r (wnot (N.ones b))) i -> member r i).
      { intros i Mi. unfold member in *. rewrite clear_below in Mi by (auto; lia).
        apply andb_true_iff in Mi. tauto. }
      rewrite (finish_ok F last _ _ L R a b IH'); auto.
      * split.
        -- intros K. constructor; auto.
           destruct pl; cbn in M.
           ++ destruct M as (M & _ & _). inversion M; subst. auto.
           ++ now apply N.eqb_eq in SE.
        -- intros K. apply Flow_left_inv in K. destruct K as (? & ? & ? & E & _ & _ & K). inversion E; subst. auto.
      * apply (comps_lt l ((a, b) :: L)); auto.
      * apply (comps_lt r R); auto.
      * apply (sub_disjoint l r); auto.
Qed.

(** First iteration: mask = the whole chosen vector; components of the other
    vector below the first component are silently dropped. *)
Lemma csl_first : forall s last F l r L R, l < 2 ^ 63 -> r < 2 ^ 63 -> comps l L -> comps r R ->
  N.land l r = 0 -> (F = [] -> last = true) -> (forall F1 x, F = F1 ++ [x] -> snd x = true) ->
  (csl ((s, last) :: F) l r (if s then r else l) = true <->
   if s then exists a b R', R = (a, b) :: R' /\ Flow (Some b) last F (drop_below b L) R'
   else exists a b L', L = (a, b) :: L' /\ Flow (Some b) last F L' (drop_below b R)).
Proof.
  intros s last F l r L R Hl Hr CL CR D HF HW.
  assert (IH' : forall l r L R mask e pl, l < 2 ^ 63 -> r < 2 ^ 63 -> comps l L -> comps r R ->
     N.land l r = 0 -> mask_ok e pl L R mask -> (F = [] -> pl = true) ->
     (csl F l r mask = true <-> Flow (Some e) pl F L R)).
  { intros. now apply csl_flow. }
  assert (W63 : forall v, v < 2 ^ 63 -> v < 2 ^ 64).
  { intros v Hv. change (2 ^ 63) with 9223372036854775808 in Hv. change (2 ^ 64) with 18446744073709551616. lia. }
  cbn [csl]. destruct s.
  - rewrite N.land_diag. destruct R as [|[a b] R].
    { rewrite (components_nil _ CR). cbn. split; [discriminate|]. intros (? & ? & ? & E & _). discriminate. }
    destruct (N.eqb_spec r 0) as [Z|NZ].
    { exfalso. apply (lowest_nonzero r a); auto. apply (comps_lowest _ _ _ _ CR). }
    destruct (mask_head r a b R Hr CR) as [MH1 MH2]. cbv zeta in MH1. rewrite MH1.
    pose proof (comps_head_end _ _ _ _ Hr CR) as Hb.
    assert (Hab : a < b) by (destruct CR as [SR _]; cbn in SR; lia).
    assert (R1 : N.lor r (wsub r 1) < 2 ^ 64).
    { apply lor_lt; [auto|]. unfold wsub. rewrite <- two64_pow. apply N.mod_lt. unfold two64. lia. }
    pose proof (comps_clear_tail r _ a b R R1 ltac:(lia) CR MH2) as CR'.
    pose proof (comps_clear_other l r a b R L (W63 _ Hl) ltac:(lia) CR CL ltac:(rewrite N.land_comm; auto)) as CL'.
    assert (GLb : starts_ge b (drop_below b L)) by (eapply drop_below_starts; apply CL).
    assert (GRb : starts_ge b R).
    { destruct CR as [SR _]. cbn in SR. destruct SR as (_ & _ & SR). apply sep_tail_gt in SR.
      apply (Forall_impl _ (P := fun iv => b < fst iv)); auto. intros. lia. }
    assert (SUBr : forall i, member (N.land (N.lor r (wsub r 1)) (wnot (N.ones b))) i -> member r i).
    { intros i Mi. apply CR' in Mi. apply CR. apply covered_cons. auto. }
    assert (SUBl : forall i, member (N.land l (wnot (N.ones b))) i -> member l i).
    { intros i Mi. unfold member in *. rewrite clear_below in Mi by (auto; lia).
      apply andb_true_iff in Mi. tauto. }
    rewrite (finish_ok F last _ _ (drop_below b L) R a b IH'); auto.
    + split; [intros K; eauto|]. intros (? & ? & ? & E & K). inversion E; subst. auto.
    + apply (comps_lt l L); auto.
    + apply (comps_lt r ((a, b) :: R)); auto.
    + apply (sub_disjoint l r); auto.
  - rewrite N.land_diag. destruct L as [|[a b] L].
    { rewrite (components_nil _ CL). cbn. split; [discriminate|]. intros (? & ? & ? & E & _). discriminate. }
    destruct (N.eqb_spec l 0) as [Z|NZ].
    { exfalso. apply (lowest_nonzero l a); auto. apply (comps_lowest _ _ _ _ CL). }
    destruct (mask_head l a b L Hl CL) as [MH1 MH2]. cbv zeta in MH1. rewrite MH1.
    pose proof (comps_head_end _ _ _ _ Hl CL) as Hb.
    assert (Hab : a < b) by (destruct CL as [SL _]; cbn in SL; lia).
    assert (L1 : N.lor l (wsub l 1) < 2 ^ 64).
    { apply lor_lt; [auto|]. unfold wsub. rewrite <- two64_pow. apply N.mod_lt. unfold two64. lia. }
    pose proof (comps_clear_tail l _ a b L L1 ltac:(lia) CL MH2) as CL'.
    pose proof (comps_clear_other r l a b L R (W63 _ Hr) ltac:(lia) CL CR D) as CR'.
    assert (GRb : starts_ge b (drop_below b R)) by (eapply drop_below_starts; apply CR).
    assert (GLb : starts_ge b L).
    { destruct CL as [SL _]. cbn in SL. destruct SL as (_ & _ & SL). apply sep_tail_gt in SL.
      apply (Forall_impl _ (P := fun iv => b < fst iv)); auto. intros. lia. }
    assert (SUBl : forall i, member (N.land (N.lor l (wsub l 1)) (wnot (N.ones b))) i -> member l i).
    { intros i Mi. apply CL' in Mi. apply CL. apply covered_cons. auto. }
    assert (SUBr : forall i, member (N.land r (wnot (N.ones b))) i -> member r i).
    { intros i Mi. unfold member in *. rewrite clear_below in Mi by (auto; lia).
      apply andb_true_iff in Mi. tauto. }
    rewrite (finish_ok F last _ _ L (drop_below b R) a b IH'); auto.
    + split; [intros K; eauto|]. intros (? & ? & ? & E & K). inversion E; subst. auto.
    + apply (comps_lt l ((a, b) :: L)); auto.
    + apply (comps_lt r R); auto.
    + apply (sub_disjoint l r); auto.
Qed.

Lemma flat_counts : forall yf s, length (filter (Bool.eqb s) (map fst (flat yf))) = expects s yf.
Proof. intros. rewrite flat_fst. reflexivity. Qed.

Lemma concat_small_flow : forall yf l r L R,
  wf_yf yf -> (length (concat yf) <= 64)%nat -> l < 2 ^ 63 -> r < 2 ^ 63 ->
  components l L -> components r R ->
  length L = expects false yf -> length R = expects true yf ->
  (concat_small (getyf yf) l r = true <-> Flow None true (flat yf) L R).
Proof.
  intros yf l r L R W HL Hl Hr CL CR NL NR. rewrite <- flat_length in HL.
  rewrite <- flat_counts in NL, NR.
  unfold concat_small. destruct (N.eqb_spec (N.land l r) 0) as [D|D]; cbn [negb].
  2:{ split; [discriminate|]. intros K. exfalso. destruct (nonzero_has_bit _ D) as [i Hi].
      rewrite N.land_spec in Hi. apply andb_true_iff in Hi. destruct Hi as [H1 H2].
      apply CL in H1. apply CR in H2. apply (Flow_disjoint _ _ _ _ _ K i H1 H2). }
  rewrite (getyf_bitlength yf W HL), Nat2N.id.
  destruct (getyf_spells yf W) as [SP _].
  rewrite (csl_ok _ _ _ _ _ _ SP) by lia.
  destruct (flat_last yf W) as (F0 & x0 & EF).
  destruct (flat yf) as [|[s last] F] eqn:EFl.
  { apply (f_equal (@length _)) in EF. rewrite app_length in EF. cbn in EF. lia. }
  rewrite testbit_ok by lia. destruct (spells_tail _ _ _ _ SP) as (S1 & _ & _). rewrite S1. cbn [fst].
  assert (HW : forall F1 x, F = F1 ++ [x] -> snd x = true).
  { intros F1 x E. subst F. rewrite app_comm_cons in EF. apply app_inj_tail in EF. destruct EF as [_ ->]. reflexivity. }
  assert (HF : F = [] -> last = true).
  { intros ->. destruct F0 as [|y F0]; [inversion EF; auto|].
    apply (f_equal (@length _)) in EF. rewrite app_length in EF. cbn in EF. lia. }
  rewrite (csl_first s last F l r L R) by auto.
  destruct s.
  - split.
    + intros (a & b & R' & -> & K). constructor; auto.
      * destruct CR as [S _]. cbn in S. tauto.
      * destruct (Flow_counts _ _ _ _ _ K) as [K1 K2].
        assert (G : starts_ge b L).
        { eapply drop_below_same_length; [apply CL|]. rewrite K1. cbn in NL. congruence. }
        rewrite (drop_below_same L b G) in K. assumption.
    + intros K. apply Flow_right_inv in K. destruct K as (a & b & R' & -> & _ & _ & K).
      exists a, b, R'. split; auto.
      destruct (Flow_starts _ _ _ _ _ K b eq_refl) as (G & _). rewrite (drop_below_same L b G). assumption.
  - split.
    + intros (a & b & L' & -> & K). constructor; auto.
      * destruct CL as [S _]. cbn in S. tauto.
      * destruct (Flow_counts _ _ _ _ _ K) as [K1 K2].
        assert (G : starts_ge b R).
        { eapply drop_below_same_length; [apply CR|]. rewrite K2. cbn in NR. congruence. }
        rewrite (drop_below_same R b G) in K. assumption.
    + intros K. apply Flow_left_inv in K. destruct K as (a & b & L' & -> & _ & _ & K).
      exists a, b, L'. split; auto.
      destruct (Flow_starts _ _ _ _ _ K b eq_refl) as (_ & G & _). rewrite (drop_below_same R b G). assumption.
Qed.
