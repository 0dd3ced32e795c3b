(** Proofs about escape / unescape. *)
From Coq Require Import String.
From Coq Require Import List Bool Arith NArith Lia ZifyBool ZifyN.
From Verif Require Import PyStr TreeModel BracketModel BracketProofs.
Import ListNotations.
Open Scope list_scope.

Lemma replace1 : forall b new s, replace s [b] new = flat_map (fun c => if N.eqb b c then new else [c]) s.
Proof.
  unfold replace. intros b new. induction s as [|c s IH]; [reflexivity|]. cbn [replace_loop startswith flat_map length].
  destruct (N.eqb b c); cbn [andb Nat.sub]; destruct s; cbn [replace_loop] in *; rewrite IH; reflexivity.
Qed.
(** ---- one kind of bracket ---- *)
Section One.
Variable x b : N.
Hypothesis Hx : x <> 35%N.
Hypothesis Hb : b <> 35%N.
Hypothesis Hbx : b <> x.
Hypothesis Hb82 : b <> 82%N.
Hypothesis Hb66 : b <> 66%N.
Definition pat := [35; x; 82; 66; 35]%N.
Definition esc1 (s : pystr) : pystr := flat_map (fun c => if N.eqb b c then pat else [c]) s.
Definition unesc1 (s : pystr) : pystr := replace s pat [b].

Lemma unesc_pat : forall s, unesc1 (pat ++ s) = b :: unesc1 s.
Proof.
  intros s. unfold unesc1, replace, pat. cbn [app replace_loop startswith length Nat.sub].
  rewrite !N.eqb_refl. destruct s; reflexivity.
Qed.
Lemma esc_step : forall c s, esc1 (c :: s) = (if N.eqb b c then pat else [c]) ++ esc1 s.
Proof. reflexivity. Qed.
Lemma esc_head : forall y p s, y <> 35%N -> y <> b -> startswith (esc1 s) (y :: p) = match s with c :: s' => N.eqb y c && startswith (esc1 s') p | [] => false end.
Proof.
  intros y p s H1 H2. destruct s as [|c s]; [reflexivity|]. rewrite esc_step. destruct (N.eqb_spec b c).
  - subst. cbn [pat app startswith]. replace (N.eqb y 35) with false by (symmetry; now apply N.eqb_neq).
    replace (N.eqb y b) with false by (symmetry; now apply N.eqb_neq). reflexivity.
  - reflexivity.
Qed.
Lemma esc_hash : forall s, startswith (esc1 s) [35%N] = match s with c :: _ => N.eqb 35 c || N.eqb b c | [] => false end.
Proof.
  destruct s as [|c s]; [reflexivity|]. rewrite esc_step. destruct (N.eqb b c).
  - cbn [pat app startswith]. rewrite N.eqb_refl, orb_true_r. reflexivity.
  - cbn [app startswith]. destruct (N.eqb 35 c); cbn [andb orb]; auto. destruct (esc1 s); reflexivity.
Qed.
Definition bad (s : pystr) : bool := startswith s pat || startswith s [35; x; 82; 66; b]%N.
Lemma bad_iff : forall c s, N.eqb b c = false -> startswith (c :: esc1 s) pat = bad (c :: s).
Proof.
  intros c s E. unfold bad, pat. cbn [startswith]. destruct (N.eqb 35 c) eqn:E35; [|reflexivity]. cbn [andb].
  rewrite esc_head by auto. destruct s as [|c1 s]; [reflexivity|]. cbn [startswith]. destruct (N.eqb x c1); [|reflexivity]. cbn [andb].
  rewrite esc_head by (auto; discriminate). destruct s as [|c2 s]; [reflexivity|]. cbn [startswith]. destruct (N.eqb 82 c2); [|reflexivity]. cbn [andb].
  rewrite esc_head by (auto; discriminate). destruct s as [|c3 s]; [reflexivity|]. cbn [startswith]. destruct (N.eqb 66 c3); [|reflexivity]. cbn [andb].
  rewrite esc_hash. destruct s as [|c4 s]; [reflexivity|]. cbn [startswith].
  destruct (N.eqb 35 c4), (N.eqb b c4); destruct s; reflexivity.
Qed.
(** exactly which strings survive *)
Fixpoint no_bad (s : pystr) : bool := negb (bad s) && match s with [] => true | _ :: t => no_bad t end.
Lemma esc_unesc : forall v, unesc1 (esc1 v) = v <-> no_bad v = true.
Proof.
  induction v as [|c v IH]; [split; reflexivity|]. cbn [no_bad]. rewrite esc_step. destruct (N.eqb b c) eqn:E.
  - apply N.eqb_eq in E. subst c. rewrite unesc_pat.
    replace (bad (b :: v)) with false. 2: { unfold bad, pat. cbn [startswith]. replace (N.eqb 35 b) with false by (symmetry; apply N.eqb_neq; auto). reflexivity. }
    cbn [negb andb]. rewrite <- IH. split; intros H; [injection H as H; exact H|now rewrite H].
  - cbn [app]. unfold unesc1, replace. cbn [replace_loop]. rewrite bad_iff by auto.
    destruct (bad (c :: v)) eqn:B; cbn [negb andb].
    + split; [|discriminate]. cbn [app]. intros H. inversion H as [[H1 H2]]. subst c. now rewrite N.eqb_refl in E.
    + rewrite <- IH. unfold unesc1, replace. split; intros H; [injection H as H; exact H|now rewrite H].
Qed.
Lemma no_bad_iff : forall v, no_bad v = true <-> ~ (exists l r, v = l ++ pat ++ r) /\ ~ (exists l r, v = l ++ [35; x; 82; 66; b]%N ++ r).
Proof.
  intros v. rewrite <- !contains_iff. rewrite !not_true_iff_false. induction v as [|c v IH].
  - cbn. split; auto.
  - cbn [no_bad contains]. unfold bad. rewrite andb_true_iff, negb_true_iff, orb_false_iff, !orb_false_iff, IH. tauto.
Qed.
Lemma no_bracket_left : forall s, ~ In b (esc1 s).
Proof.
  induction s as [|c s IH]; [tauto|]. rewrite esc_step. intros H. apply in_app_or in H. destruct H as [H|H]; auto.
  destruct (N.eqb_spec b c); [|destruct H as [H|[]]; congruence].
  cbn in H. intuition congruence.
Qed.
Lemma esc_of_unesc : forall s, ~ In b s -> esc1 (unesc1 s) = s.
Proof.
  intros s. unfold unesc1, replace. remember (length s) as n eqn:E. revert s E. induction n as [n IH] using lt_wf_ind.
  intros s E N. destruct s as [|c s]; [reflexivity|]. cbn in E. cbn [replace_loop].
  destruct (startswith (c :: s) pat) eqn:P.
  - apply startswith_iff in P. destruct P as [t P]. unfold pat in P. cbn [app] in P. inversion P; subst c s.
    cbn [app length pat Nat.sub replace_loop]. rewrite esc_step, N.eqb_refl. destruct t as [|d t].
    + reflexivity.
    + unfold pat at 1. cbn [app]. do 5 f_equal. apply (IH (length (d :: t))); auto; [cbn in *; lia|].
      intros H. apply N. cbn in *. tauto.
  - rewrite esc_step. destruct (N.eqb_spec b c); [exfalso; apply N; now left|]. cbn [app]. f_equal.
    apply (IH (length s)); auto; [lia|]. intros H. apply N. now right.
Qed.
End One.

Definition rrb := esc1 82%N 41%N.
Definition lrb := esc1 76%N 40%N.
Lemma escape_eq : forall w, escape (Some w) = rrb (lrb w).
Proof. intros. unfold escape. change (str "(") with [40%N]. change (str ")") with [41%N]. now rewrite !replace1. Qed.
Lemma escape_comm : forall w, rrb (lrb w) = lrb (rrb w).
Proof.
  induction w as [|c w IH]; [reflexivity|]. unfold rrb, lrb in *. rewrite (esc_step 76 40 c w), (esc_step 82 41 c w).
  destruct (N.eqb_spec 40 c).
  - subst c. cbn [app pat]. rewrite !esc_step. cbn. unfold rrb, lrb in *. rewrite IH. reflexivity.
  - destruct (N.eqb_spec 41 c).
    + subst c. cbn [app pat]. rewrite !esc_step. cbn. rewrite IH. reflexivity.
    + cbn [app]. rewrite !esc_step. replace (N.eqb 40 c) with false by (symmetry; now apply N.eqb_neq).
      replace (N.eqb 41 c) with false by (symmetry; now apply N.eqb_neq). cbn [app]. now rewrite IH.
Qed.
Lemma unescape_eq : forall s, unescape s = if eqs s [] || eqs s (str "#FRONTIER#") then None
  else Some (unesc1 82 41 (unesc1 76 40 s)).
Proof. reflexivity. Qed.
Lemma no_paren_unesc : forall s, ~ In 41%N s -> ~ In 41%N (unesc1 76 40 s).
Proof.
  unfold unesc1, replace. intros s. generalize 0 as k. induction s as [|c s IH]; intros k N; [tauto|].
  cbn [replace_loop]. destruct k; [|apply IH; intros H; apply N; now right].
  destruct (startswith (c :: s) (pat 76)).
  - intros H. apply in_app_or in H. destruct H as [[H|[]]|H]; [discriminate|]. revert H. apply IH. intros H; apply N; now right.
  - intros [H|H]; [apply N; now left|]. revert H. apply IH. intros H'; apply N; now right.
Qed.
Lemma escape_special : forall w, escape (Some w) = [] \/ escape (Some w) = str "#FRONTIER#" -> w = [] \/ w = str "#FRONTIER#".
Proof.
  intros w. rewrite escape_eq. intros [H|H].
  - left. destruct w as [|c w]; auto. unfold rrb, lrb in H. rewrite esc_step in H. destruct (N.eqb 40 c); [discriminate H|].
    cbn [app] in H. rewrite esc_step in H. destruct (N.eqb 41 c); discriminate H.
  - right.
    assert (G : forall p w, rrb (lrb w) = p -> contains p [82; 66; 35]%N = false -> w = p).
    { clear. intros p w H NC. rewrite <- H in *. clear H p.
      induction w as [|c w IH]; [reflexivity|]. unfold rrb, lrb in *. rewrite esc_step in *. destruct (N.eqb 40 c).
      - exfalso. apply not_true_iff_false in NC. apply NC. apply contains_iff. exists [35; 76]%N, (esc1 82 41 (esc1 76 40 w)). reflexivity.
      - cbn [app] in *. rewrite esc_step in *. destruct (N.eqb 41 c).
        + exfalso. apply not_true_iff_false in NC. apply NC. apply contains_iff. exists [35; 82]%N, (esc1 82 41 (esc1 76 40 w)). reflexivity.
        + cbn [app] in *. f_equal. apply IH. cbn [contains] in NC. apply orb_false_elim in NC. tauto. }
    apply G; auto.
Qed.
(** The exact condition. *)
Lemma roundtrip_iff : forall w, unescape (escape (Some w)) = Some w <->
  w <> [] /\ w <> str "#FRONTIER#" /\ no_bad 76 40 (rrb w) = true /\ no_bad 82 41 w = true.
Proof.
  intros w. rewrite unescape_eq.
  destruct (eqs (escape (Some w)) [] || eqs (escape (Some w)) (str "#FRONTIER#")) eqn:Q.
  - split; [discriminate|]. intros (N1 & N2 & _). exfalso.
    apply orb_prop in Q. rewrite !eqs_eq in Q. apply escape_special in Q. tauto.
  - apply orb_false_elim in Q. rewrite !eqs_neq in Q. destruct Q as [Q1 Q2].
    assert (W1 : w <> []) by (intros ->; now apply Q1).
    assert (W2 : w <> str "#FRONTIER#") by (intros ->; now apply Q2).
    rewrite escape_eq, escape_comm.
    set (I := unesc1 76 40 (lrb (rrb w))).
    split.
    + intros H. injection H as H'. split; [exact W1|]. split; [exact W2|].
      assert (EI : rrb w = I).
      { rewrite <- H' at 1. unfold rrb. apply esc_of_unesc; try discriminate. unfold I. apply no_paren_unesc.
        rewrite <- escape_comm. unfold rrb. apply no_bracket_left; discriminate. }
      split.
      * apply esc_unesc; try discriminate. fold lrb. fold I. now rewrite <- EI.
      * apply esc_unesc; try discriminate. fold rrb. rewrite EI. exact H'.
    + intros (_ & _ & B1 & B2). f_equal. apply esc_unesc in B1; try discriminate. apply esc_unesc in B2; try discriminate.
      unfold I. fold lrb in B1. rewrite B1. exact B2.
Qed.
Lemma escape_clean : forall w c, In c (escape w) -> c <> openb /\ c <> closeb.
Proof.
  intros [w|] c H; [|contradiction]. rewrite escape_eq in H. split; intros ->.
  - rewrite escape_comm in H. revert H. apply no_bracket_left; discriminate.
  - revert H. apply no_bracket_left; discriminate.
Qed.
Lemma escape_labelchars : forall w, forallb (fun c => negb (isspace c)) w = true -> forallb labelchar (escape (Some w)) = true.
Proof.
  intros w H. apply forallb_forall. intros c Hc. pose proof (escape_clean (Some w) c Hc) as [N1 N2].
  unfold labelchar. apply N.eqb_neq in N1, N2. rewrite N1, N2.
  replace (isspace c) with false; auto.
  rewrite escape_eq in Hc. symmetry.
  assert (G : forall x b s, N.eqb x 76 = true \/ N.eqb x 82 = true -> (forall c, In c s -> isspace c = false) -> forall c, In c (esc1 x b s) -> isspace c = false).
  { clear. intros x b s Hx H c Hc. unfold esc1 in Hc. apply in_flat_map in Hc. destruct Hc as (d & Hd & Hc).
    destruct (N.eqb b d).
    - assert (x = 76 \/ x = 82)%N as [-> | ->] by (rewrite !N.eqb_eq in Hx; exact Hx);
      cbn in Hc; repeat (destruct Hc as [<-|Hc]; [reflexivity|]); contradiction.
    - destruct Hc as [<-|[]]. auto. }
  apply (G 82%N 41%N (lrb w)); auto. apply G; auto. intros d Hd. rewrite forallb_forall in H. specialize (H d Hd).
  now apply negb_true_iff.
Qed.
