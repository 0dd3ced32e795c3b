(** Proofs for C40 (1): what holds for every chart *)
From Coq Require Import List Bool Arith NArith Lia Permutation Sorted.
From Verif Require Import KbestModel KbestSpec.
Import ListNotations.
Open Scope list_scope.
Open Scope nat_scope.

Lemma eqon_eq : forall a b, eqon a b = true <-> a = b.
Proof. intros [x|] [y|]; cbn; try (split; congruence). rewrite Nat.eqb_eq. split; congruence. Qed.
Lemma req_iff : forall a b, req a b = true <-> rl a = rl b /\ rr a = rr b /\ epos (re a) = epos (re b) /\ eno (re a) = eno (re b).
Proof. intros a b. unfold req. rewrite !andb_true_iff, !eqon_eq, Nat.eqb_eq. tauto. Qed.
Lemma req_refl : forall a, req a a = true.
Proof. intros. apply req_iff. auto. Qed.
Lemma popmin_none : forall l, popmin l = None -> l = [].
Proof. intros [|x l] H; auto. cbn in H. destruct (popmin l) as [[y r]|]; [destruct (snd y <? snd x)%N|]; discriminate. Qed.
Definition le_e (x y : entry) : Prop := (snd x <= snd y)%N.
Lemma popmin_some : forall l x r, popmin l = Some (x, r) -> Permutation l (x :: r) /\ Forall (le_e x) r.
Proof.
  induction l as [|y l IH]; intros x r H; [discriminate|]. cbn in H. destruct (popmin l) as [[z r']|] eqn:E.
  - destruct (IH _ _ eq_refl) as [P F]. destruct (snd z <? snd y)%N eqn:L; injection H as <- <-.
    + apply N.ltb_lt in L. split; [rewrite P; apply perm_swap|]. constructor; auto. unfold le_e. lia.
    + apply N.ltb_ge in L. split; auto. apply Forall_forall. intros w Hw. apply (Permutation_in _ P) in Hw. destruct Hw as [<-|Hw]; [exact L|]. rewrite Forall_forall in F. specialize (F _ Hw). unfold le_e in *. lia.
  - apply popmin_none in E. subst l. injection H as <- <-. split; auto.
Qed.
Lemma popk_spec : forall k l, exists rest, Permutation l (popk k l ++ rest) /\ (forall x y, In x rest -> In y (popk k l) -> le_e y x) /\ (length (popk k l) = k \/ rest = []).
Proof.
  induction k as [|k IH]; intros l; [exists l; cbn; repeat split; auto; intros x y _ []|]. cbn. destruct (popmin l) as [[x r]|] eqn:E.
  - apply popmin_some in E. destruct E as [P F]. destruct (IH r) as (rest & P1 & L1 & Q1). exists rest. cbn. split; [rewrite P; constructor; exact P1|]. split.
    + intros a b Ha [<-|Hb]; [|now apply L1]. rewrite Forall_forall in F. apply F. eapply Permutation_in; [symmetry; exact P1|]. apply in_app_iff. auto.
    + destruct Q1; [left; cbn; lia|now right].
  - apply popmin_none in E. subst l. exists []. cbn. repeat split; auto. intros x y [].
Qed.
Lemma nodup_app_r : forall {X} (a b : list X), NoDup (a ++ b) -> NoDup b.
Proof. induction a as [|x a IH]; intros b H; cbn in *; auto. inversion H; auto. Qed.
Lemma nodup_app_l : forall {X} (a b : list X), NoDup (a ++ b) -> NoDup a.
Proof. induction a as [|x a IH]; intros b H; [constructor|]. cbn in *. inversion H as [|? ? A B]; subst. constructor; [rewrite in_app_iff in A; tauto|eauto]. Qed.

Section Base.
Variables (forest : nat -> list edge) (sub : nat -> N) (height : nat -> nat).
Hypothesis OK : chart_ok forest sub height.
Notation candidate := (candidate sub).
Notation getcandidates := (getcandidates forest sub).
Notation getprob := (getprob sub).
Notation rankprob := (rankprob sub).

(** ---- the initial candidates ---- *)
Lemma candidate_re : forall v e, re (fst (candidate v e)) = e.
Proof. intros v e. unfold KbestModel.candidate. destruct (eno e); [destruct (eright e)|]; reflexivity. Qed.
Lemma candidate_req : forall v e e', In e (forest v) -> In e' (forest v) -> req (fst (candidate v e)) (fst (candidate v e')) = true -> e = e'.
Proof. intros v e e' H H' R. apply req_iff in R. rewrite !candidate_re in R. destruct R as (_ & _ & A & B). eapply ok_keys; eauto. Qed.
Lemma fold_addentry : forall v es acc, incl es (forest v) -> (exists fs, incl fs (forest v) /\ NoDup fs /\ acc = map (candidate v) fs) ->
  exists fs, incl fs (forest v) /\ NoDup fs /\ fold_left addentry (map (candidate v) es) acc = map (candidate v) fs /\ (forall e, In e fs <-> In e es \/ In (candidate v e) acc /\ In e (forest v)).
Proof using OK.
  intros v. induction es as [|e es IH]; intros acc HI (fs & I1 & N1 & ->).
  - exists fs. cbn. split; auto. split; auto. split; auto. intros e. split; [intros H; right; split; [now apply in_map|now apply I1]|]. intros [[]|[H He]]. apply in_map_iff in H. destruct H as (f & E & Hf). assert (X := f_equal (fun z => re (fst z)) E). cbn in X. rewrite !candidate_re in X. now subst.
  - cbn [map fold_left]. assert (He : In e (forest v)) by (apply HI; now left).
    assert (A : exists fs', incl fs' (forest v) /\ NoDup fs' /\ addentry (map (candidate v) fs) (candidate v e) = map (candidate v) fs' /\ (forall f, In f fs' <-> f = e \/ In f fs)).
    { clear IH. induction fs as [|f fs IHf]; cbn.
      - exists [e]. split; [intros x [<-|[]]; auto|]. split; [repeat constructor; auto|]. split; auto. intros f. cbn. intuition.
      - assert (Hf : In f (forest v)) by (apply I1; now left). destruct (req _ _) eqn:R.
        + apply candidate_req in R; auto. subst f. rewrite N.ltb_irrefl. exists (e :: fs). split; auto. split; auto. split; auto. intros x. cbn. intuition.
        + inversion N1 as [|? ? N2 N3]; subst. destruct IHf as (fs' & A & B & C & D); [intros x Hx; apply I1; now right|auto|]. exists (f :: fs'). split; [intros x [<-|Hx]; auto|]. split; [constructor; auto; rewrite D; intros [->|X]; [rewrite req_refl in R; discriminate|contradiction]|]. split; [cbn; now rewrite C|]. intros x. cbn. rewrite D. intuition. }
    destruct A as (fs' & A & B & C & D). destruct (IH (addentry (map (candidate v) fs) (candidate v e))) as (gs & G1 & G2 & G3 & G4); [intros x Hx; apply HI; now right|exists fs'; auto|]. exists gs. split; auto. split; auto. split; auto. intros x. rewrite G4, C. cbn. split.
    + intros [H|[H Hx]]; [auto|]. apply in_map_iff in H. destruct H as (y & E & Hy). assert (X := f_equal (fun z => re (fst z)) E). cbn in X. rewrite !candidate_re in X. subst y. apply D in Hy. destruct Hy as [->|Hy]; [auto|]. right. split; auto. now apply in_map.
    + intros [[<-|H]|[H Hx]]; [right; split; auto; apply in_map; apply D; auto|auto|]. right. split; auto. apply in_map_iff in H. destruct H as (y & E & Hy). apply in_map_iff. exists y. split; auto. apply D. auto.
Qed.
Lemma getcandidates_spec : forall v k, exists fs rest, incl fs (forest v) /\ NoDup (fs ++ rest) /\ getcandidates v k = map (candidate v) fs /\
  (forall e, In e (forest v) <-> In e fs \/ In e rest) /\ (forall e f, In e rest -> In f fs -> le_e (candidate v f) (candidate v e)) /\ (length fs = k \/ rest = []).
Proof using OK.
  intros v k. unfold KbestModel.getcandidates, kbest_entries. destruct (fold_addentry v (forest v) [] (incl_refl _)) as (fs & I1 & N1 & E & HE); [exists []; split; [intros x []|split; [constructor|reflexivity]]|]. rewrite E.
  destruct (popk_spec k (map (candidate v) fs)) as (rest & P & L & Q). symmetry in P. apply Permutation_map_inv in P. destruct P as (gs & EG & PG). symmetry in EG. apply map_eq_app in EG. destruct EG as (g1 & g2 & -> & E1 & E2). exists g1, g2. rewrite <- E1, <- E2 in *.
  assert (ME : forall e, In e (forest v) <-> In e g1 \/ In e g2). { intros e. rewrite <- in_app_iff. split; intros H; [apply (Permutation_in _ PG); apply HE; auto|]. apply (Permutation_in _ (Permutation_sym PG)) in H. apply HE in H. destruct H as [H|[[] _]]. auto. }
  split; [intros e He; apply ME; auto|]. split; [eapply Permutation_NoDup; [exact PG|auto]|]. split; auto. split; auto. split; [intros e f He Hf; apply L; now apply in_map|]. rewrite map_length in Q. destruct Q as [Q|Q]; auto. right. destruct g2; auto; discriminate.
Qed.
(** ---- valid entries ---- *)
Definition rank_ok (R : rankmap) (v i : nat) : Prop := i = 0 \/ i < length (R v).
Definition okx (R : rankmap) (v : nat) (x : entry) : Prop :=
  In (re (fst x)) (forest v) /\
  match eno (re (fst x)) with
  | None => rl (fst x) = None /\ rr (fst x) = None /\ snd x = sub v
  | Some _ => getprob R (fst x) = Some (snd x) /\ exists i, rl (fst x) = Some i /\ rank_ok R (eleft (re (fst x))) i /\
      match eright (re (fst x)) with None => rr (fst x) = None | Some r => exists j, rr (fst x) = Some j /\ rank_ok R r j end
  end.
Definition ext (R R' : rankmap) : Prop := forall u, exists l, R' u = R u ++ l.
Lemma ext_refl : forall R, ext R R.
Proof. intros R u. exists []. now rewrite app_nil_r. Qed.
Lemma ext_trans : forall R1 R2 R3, ext R1 R2 -> ext R2 R3 -> ext R1 R3.
Proof. intros R1 R2 R3 H1 H2 u. destruct (H1 u) as [l1 E1], (H2 u) as [l2 E2]. exists (l1 ++ l2). now rewrite E2, E1, app_assoc. Qed.
Lemma ext_put : forall R v l, ext R (put R v (R v ++ l)).
Proof. intros R v l u. unfold put. destruct (Nat.eqb_spec u v) as [->|]; [exists l|exists []; rewrite app_nil_r]; reflexivity. Qed.
Lemma ext_nth : forall R R' u i x, ext R R' -> nth_error (R u) i = Some x -> nth_error (R' u) i = Some x.
Proof. intros R R' u i x E H. destruct (E u) as [l ->]. rewrite nth_error_app1; auto. apply nth_error_Some. congruence. Qed.
Lemma ext_rankprob : forall R R' u i p, ext R R' -> rankprob R u i = Some p -> rankprob R' u i = Some p.
Proof.
  intros R R' u [|i] p E H; [exact H|]. unfold KbestModel.rankprob in *. destruct (nth_error (R u) (S i)) as [x|] eqn:X; [|discriminate]. now rewrite (ext_nth _ _ _ _ _ E X).
Qed.
Lemma ext_getprob : forall R R' x p, ext R R' -> getprob R x = Some p -> getprob R' x = Some p.
Proof.
  intros R R' x p E H. unfold KbestModel.getprob in *. destruct (rl x) as [i|]; [|discriminate]. destruct (rankprob R (eleft (re x)) i) as [a|] eqn:A; [|discriminate]. rewrite (ext_rankprob _ _ _ _ _ E A). destruct (rr x) as [j|]; auto. destruct (eright (re x)) as [r|]; auto. destruct (rankprob R r j) as [b|] eqn:B; [|discriminate]. now rewrite (ext_rankprob _ _ _ _ _ E B).
Qed.
Lemma ext_rank_ok : forall R R' u i, ext R R' -> rank_ok R u i -> rank_ok R' u i.
Proof. intros R R' u i E [->|H]; [now left|right]. destruct (E u) as [l ->]. rewrite app_length. lia. Qed.
Lemma ext_okx : forall R R' v x, ext R R' -> okx R v x -> okx R' v x.
Proof.
  intros R R' v x E (A & B). split; auto. destruct (eno (re (fst x))); auto. destruct B as (G & i & I1 & I2 & I3). split; [eapply ext_getprob; eauto|]. exists i. split; auto. split; [eapply ext_rank_ok; eauto|]. destruct (eright (re (fst x))); auto. destruct I3 as (j & J1 & J2). exists j. split; auto. eapply ext_rank_ok; eauto.
Qed.
Lemma candidate_okx : forall R v e, In e (forest v) -> okx R v (candidate v e).
Proof.
  intros R v e He. split; [now rewrite candidate_re|]. rewrite candidate_re. unfold KbestModel.candidate. destruct (eno e) as [n|] eqn:E; [|auto]. destruct (eright e) as [r|] eqn:ER; cbn; (split; [unfold KbestModel.getprob; cbn; rewrite ?ER; reflexivity|]); exists 0; (split; [auto|split; [now left|]]); rewrite ?ER; auto. exists 0. split; [auto|now left].
Qed.
Lemma between_left : forall v e n, In e (forest v) -> eno e = Some n -> edges_between forest v (eleft e).
Proof. intros v e n H E. exists e, n. auto. Qed.
Lemma between_right : forall v e n r, In e (forest v) -> eno e = Some n -> eright e = Some r -> edges_between forest v r.
Proof. intros v e n r H E ER. exists e, n. auto. Qed.
(** the best candidate has the Viterbi probability *)
Lemma candidate_lower : forall v e, In e (forest v) -> (sub v <= snd (candidate v e))%N.
Proof using OK.
  intros v e He. unfold KbestModel.candidate. destruct (eno e) as [n|] eqn:E; [|cbn; lia]. assert (FV : forest v <> []) by (intros X; rewrite X in He; destruct He). destruct (ok_viterbi _ _ _ OK v FV) as [_ LO].
  assert (BL := between_left v e n He E). destruct (ok_viterbi _ _ _ OK (eleft e) (ok_complete _ _ _ OK _ _ BL)) as [(t & Dt & Ct) _].
  destruct (eright e) as [r|] eqn:ER; cbn [snd].
  - assert (BR := between_right v e n r He E ER). destruct (ok_viterbi _ _ _ OK r (ok_complete _ _ _ OK _ _ BR)) as [(u & Du & Cu) _]. assert (X := LO (DBin e t u) (d_bin _ v e n r t u He E ER Dt Du)). cbn in X. lia.
  - assert (X := LO (DUn e t) (d_un _ v e n t He E ER Dt)). cbn in X. lia.
Qed.
Lemma candidate_best : forall v, forest v <> [] -> exists e, In e (forest v) /\ snd (candidate v e) = sub v.
Proof using OK.
  intros v FV. destruct (ok_viterbi _ _ _ OK v FV) as [(t & D & C) _]. destruct D as [v e He E|v e n t He E ER D|v e n r t u He E ER D1 D2]; exists e; (split; [auto|]); assert (LC := candidate_lower v e He); unfold KbestModel.candidate in *; rewrite E in *; cbn in C |- *; auto; rewrite ER in *; cbn in LC |- *.
  - assert (BL := between_left v e n He E). destruct (ok_viterbi _ _ _ OK (eleft e) (ok_complete _ _ _ OK _ _ BL)) as [_ LO]. specialize (LO t D). lia.
  - assert (BL := between_left v e n He E). destruct (ok_viterbi _ _ _ OK (eleft e) (ok_complete _ _ _ OK _ _ BL)) as [_ LO]. specialize (LO t D1). assert (BR := between_right v e n r He E ER). destruct (ok_viterbi _ _ _ OK r (ok_complete _ _ _ OK _ _ BR)) as [_ LO2]. specialize (LO2 u D2). lia.
Qed.
Lemma popmin_candidates : forall v k x c, 1 <= k -> popmin (getcandidates v k) = Some (x, c) -> snd x = sub v /\ okx (fun _ => []) v x /\ exists e, In e (forest v) /\ x = candidate v e.
Proof using OK.
  intros v k x c Hk H. destruct (getcandidates_spec v k) as (fs & rest & I1 & N1 & E & ME & L & Q). apply popmin_some in H. destruct H as [P F]. rewrite E in P.
  assert (X : In x (map (candidate v) fs)) by (eapply Permutation_in; [symmetry; exact P|now left]). apply in_map_iff in X. destruct X as (e & EX & He). assert (FV : forest v <> []) by (intros Z; specialize (I1 e He); rewrite Z in I1; destruct I1).
  split; [|split; [rewrite <- EX; apply candidate_okx; auto|exists e; auto]]. destruct (candidate_best v FV) as (b & Hb & Cb). assert (LX : (sub v <= snd x)%N) by (rewrite <- EX; apply candidate_lower; auto). assert (UX : (snd x <= sub v)%N); [|lia].
  apply ME in Hb. destruct Hb as [Hb|Hb].
  - assert (Y : In (candidate v b) (x :: c)) by (eapply Permutation_in; [exact P|now apply in_map]). destruct Y as [Y|Y]; [rewrite Y; lia|]. rewrite Forall_forall in F. specialize (F _ Y). unfold le_e in F. lia.
  - specialize (L b e Hb He). unfold le_e in L. rewrite EX in L. lia.
Qed.
Lemma getcandidates_nonempty : forall v k, 1 <= k -> forest v <> [] -> getcandidates v k <> [].
Proof using OK.
  intros v k Hk FV E. destruct (getcandidates_spec v k) as (fs & rest & I1 & N1 & EC & ME & L & Q). rewrite EC in E. apply map_eq_nil in E. subst fs. cbn in Q. destruct Q as [Q|Q]; [lia|]. subst rest. destruct (forest v) as [|e l] eqn:EV; [congruence|]. destruct (proj1 (ME e)) as [[]|[]]. now left.
Qed.

(** ---- the invariant ---- *)
Variable k1 : nat.
Hypothesis K1 : 1 <= k1.
Definition initial (x : redge) : Prop := (rl x = None \/ rl x = Some 0) /\ (rr x = None \/ rr x = Some 0).
Definition sorted_e := StronglySorted le_e.
Record rinv (R : rankmap) (v : nat) : Prop := {
  r_ok : Forall (okx R v) (R v);
  r_nodup : NoDup (map fst (R v));
  r_sorted : sorted_e (R v);
  r_head : forall x l, R v = x :: l -> snd x = sub v }.
Record vinv (s : st) (v : nat) (c : agenda) : Prop := {
  v_ok : Forall (okx (ranked s) v) c;
  v_nodup : NoDup (map fst (ranked s v ++ c));
  v_above : forall x y, In x (ranked s v) -> In y c -> le_e x y;
  v_explored : forall x, In x (map fst (ranked s v ++ c)) -> initial x \/ isexplored s x = true;
  v_start : ranked s v = [] -> c = getcandidates v k1 }.
Definition inv (s : st) : Prop :=
  (forall v, rinv (ranked s) v) /\ forall v, match cand s v with None => ranked s v = [] | Some c => vinv s v c end.
Lemma rinv_ext : forall R R' v, ext R R' -> R' v = R v -> rinv R v -> rinv R' v.
Proof.
  intros R R' v E EQ [A B C D]. constructor; rewrite ?EQ; auto. eapply Forall_impl; [|exact A]. intros x. now apply ext_okx.
Qed.
Definition expl_sub (s s' : st) : Prop := forall x, isexplored s x = true -> isexplored s' x = true.
Lemma vinv_ext : forall s s' v c, ext (ranked s) (ranked s') -> ranked s' v = ranked s v -> expl_sub s s' -> vinv s v c -> vinv s' v c.
Proof.
  intros s s' v c E EQ X [A B C D F]. constructor; rewrite ?EQ; auto.
  - eapply Forall_impl; [|exact A]. intros x. now apply ext_okx.
  - intros x Hx. destruct (D x Hx); auto.
Qed.
(** only v and items below it change *)
Definition frame (v : nat) (s s' : st) : Prop := forall u, u <> v -> height v <= height u -> ranked s' u = ranked s u /\ cand s' u = cand s u.
Definition frame_below (v : nat) (s s' : st) : Prop := forall u, height v <= height u -> ranked s' u = ranked s u /\ cand s' u = cand s u.
Lemma sorted_nth : forall l i x y, sorted_e l -> nth_error l i = Some x -> nth_error l (S i) = Some y -> le_e x y.
Proof.
  intros l i x y H. revert i. induction H as [|w l S0 IH F]; intros i A B; [destruct i; discriminate|]. destruct i as [|i].
  - injection A as <-. rewrite Forall_forall in F. apply F. apply (nth_error_In l 0). exact B.
  - exact (IH i A B).
Qed.
Lemma rankprob_le : forall R v i p q, rinv R v -> rankprob R v i = Some p -> rankprob R v (S i) = Some q -> (p <= q)%N.
Proof.
  intros R v i p q [_ _ SO HD] A B. unfold KbestModel.rankprob in B. destruct (nth_error (R v) (S i)) as [y|] eqn:Y; [|discriminate]. injection B as <-. assert (Z : exists z, nth_error (R v) i = Some z /\ snd z = p).
  { destruct i as [|i].
    - destruct (R v) as [|x l] eqn:E; [discriminate|]. exists x. split; auto. rewrite (HD x l eq_refl). cbn in A. congruence.
    - unfold KbestModel.rankprob in A. destruct (nth_error (R v) (S i)) as [z|]; [|discriminate]. exists z. split; auto. now injection A. }
  destruct Z as (z & Z & <-). exact (sorted_nth _ i z y SO Z Y).
Qed.
Lemma not_explored_new : forall s x l, (forall y, In y l -> initial y \/ isexplored s y = true) -> ~ initial x -> isexplored s x = false -> ~ In x l.
Proof. intros s x l H N E I0. destruct (H x I0); [contradiction|congruence]. Qed.

(** adding a neighbor x of ej, whose probability is not better *)
Lemma addneighbor_ok : forall s v c ei ji x p, inv s -> cand s v = Some c ->
  ~ initial x -> (forall pp, getprob (ranked s) x = Some pp -> forall y, In y (ranked s v) -> (snd y <= pp)%N) ->
  (ji < length (ranked s ei) -> getprob (ranked s) x = Some p /\ okx (ranked s) v (x, p)) -> ranked s v <> [] ->
  exists s', addneighbor sub s v ei ji x = Some s' /\ inv s' /\ ranked s' = ranked s /\ (forall u, u <> v -> cand s' u = cand s u) /\ expl_sub s s' /\
    (exists c', cand s' v = Some (c ++ c') /\ (ji < length (ranked s ei) -> isexplored s x = false -> c' = [(x, p)]) /\ (c' = [] \/ c' = [(x, p)] /\ ji < length (ranked s ei))) /\
    (explored s' = explored s \/ (explored s' = x :: explored s /\ exists c', cand s' v = Some (c' ++ [(x, p)]))).
Proof using OK K1.
  intros s v c ei ji x p (IR & IV) EC NI LE PR NE. unfold addneighbor. destruct (ji <? length (ranked s ei)) eqn:LJ; cbn [andb].
  2:{ exists s. apply Nat.ltb_ge in LJ. split; auto. split; [split; auto|]. split; auto. split; auto. split; [intros y; auto|]. split; [exists []; rewrite app_nil_r; split; auto; split; [lia|auto]|auto]. }
  apply Nat.ltb_lt in LJ. destruct (PR LJ) as [GP OX]. destruct (isexplored s x) eqn:EX; cbn [negb].
  { exists s. split; auto. split; [split; auto|]. split; auto. split; auto. split; [intros y; auto|]. split; [exists []; rewrite app_nil_r; split; auto; split; [discriminate|auto]|auto]. }
  rewrite GP, EC. eexists. split; [reflexivity|]. set (s' := St _ _ _). assert (VI := IV v). rewrite EC in VI. destruct VI as [V1 V2 V3 V4 V5].
  assert (XS : expl_sub s s') by (intros y Hy; unfold isexplored, s' in *; cbn; rewrite Hy; apply orb_true_r).
  split; [|split; [reflexivity|split; [intros u Hu; cbn; unfold put; now rewrite (proj2 (Nat.eqb_neq u v) Hu)|split; [exact XS|split]]]].
  - split; [exact IR|]. intros u. cbn [cand s']. unfold put. destruct (Nat.eqb_spec u v) as [->|NEu].
    + constructor; cbn [ranked s'].
      * apply Forall_app. split; auto.
      * rewrite app_assoc, map_app. cbn [map fst]. apply (Permutation_NoDup (Permutation_cons_append (map fst (ranked s v ++ c)) x)). constructor; [|exact V2]. eapply not_explored_new; eauto.
      * intros a b Ha Hb. apply in_app_iff in Hb. destruct Hb as [Hb|[<-|[]]]; [now apply V3|]. exact (LE p GP a Ha).
      * intros y Hy. rewrite app_assoc, map_app, in_app_iff in Hy. destruct Hy as [Hy|[<-|[]]]; [destruct (V4 y Hy); auto|]. right. unfold isexplored, s'. cbn. rewrite req_refl. reflexivity.
      * intros Z. contradiction.
    + specialize (IV u). destruct (cand s u) as [cu|]; auto. apply (vinv_ext s s' u cu); auto. apply ext_refl.
  - exists [(x, p)]. cbn. unfold put. rewrite Nat.eqb_refl. split; auto.
  - right. split; auto. exists c. cbn. unfold put. rewrite Nat.eqb_refl. auto.
Qed.
(** ---- completeness: all derivations are ranked by their costs ---- *)
Variable costs : nat -> list N.
Notation nthc := (fun u i => nth i (costs u) 0%N).
Definition inI (v : nat) (x : redge) : Prop :=
  In (re x) (forest v) /\
  match eno (re x) with
  | None => rl x = None /\ rr x = None
  | Some _ => exists i, rl x = Some i /\ i < length (costs (eleft (re x))) /\
      match eright (re x) with None => rr x = None | Some r => exists j, rr x = Some j /\ j < length (costs r) end
  end.
Definition icost (v : nat) (x : redge) : N :=
  match eno (re x), rl x with
  | Some _, Some i => (eprob (re x) + nthc (eleft (re x)) i + match rr x, eright (re x) with Some j, Some r => nthc r j | _, _ => 0 end)%N
  | _, _ => sub v
  end.
Hypothesis costs_sorted : forall v, StronglySorted N.le (costs v).
Hypothesis costs_head : forall v, forest v <> [] -> exists l, costs v = sub v :: l.
Hypothesis costs_all : forall v, exists I, NoDup I /\ (forall x, In x I <-> inI v x) /\ Permutation (costs v) (map (icost v) I).
Definition ranksum (x : redge) : nat := match rl x with Some i => i | None => 0 end + match rr x with Some j => j | None => 0 end.
Definition succ (x y : redge) : Prop :=
  re y = re x /\ ((exists i, rl x = Some i /\ rl y = Some (i + 1) /\ rr y = rr x) \/ (rl y = rl x /\ exists i j, rl x = Some i /\ rr x = Some j /\ rr y = Some (j + 1))).
Record cvinv (s : st) (v : nat) (c : agenda) : Prop := {
  c_init : incl (getcandidates v k1) (ranked s v ++ c);
  c_sum : forall n x, nth_error (ranked s v) n = Some x -> ranksum (fst x) <= n;
  c_sumc : forall x, In x c -> ranksum (fst x) <= length (ranked s v);
  c_succ : forall n x y, S n < length (ranked s v) -> nth_error (ranked s v) n = Some x -> succ (fst x) y -> inI v y -> In y (map fst (ranked s v ++ c)) }.
Record cinv (s : st) : Prop := {
  c_costs : forall v, map snd (ranked s v) = firstn (length (ranked s v)) (costs v);
  c_expl : forall v x n, In (re x) (forest v) -> eno (re x) = Some n -> isexplored s x = true -> exists c, cand s v = Some c /\ In x (map fst (ranked s v ++ c));
  c_all : forall v c, cand s v = Some c -> cvinv s v c }.
Definition recspec (rec : option (nat -> nat -> st -> option st)) (depth v : nat) : Prop :=
  match depth with
  | O => rec = None
  | S d => exists f, rec = Some f /\ forall u k s, height u < height v -> inv s ->
      exists s', f u k s = Some s' /\ inv s' /\ ext (ranked s) (ranked s') /\ frame u s s' /\ expl_sub s s' /\
        (unique_edges forest -> cinv s -> 2 <= k <= k1 -> height u <= d -> cinv s' /\ Nat.min k (length (costs u)) <= length (ranked s' u))
  end.
Lemma expl_refl : forall s, expl_sub s s.
Proof. intros s x H. exact H. Qed.
Lemma cons_expl : forall s x y R C, isexplored (St R C (x :: explored s)) y = req y x || isexplored s y.
Proof. reflexivity. Qed.

Lemma neighbor_ok : forall rec depth v s c ei ji x p0 n, recspec rec depth v -> inv s -> cand s v = Some c -> ranked s v <> [] ->
  height ei < height v -> In (re x) (forest v) -> eno (re x) = Some n -> ~ initial x ->
  (forall y, In y (ranked s v) -> (snd y <= p0)%N) ->
  (forall R', ext (ranked s) R' -> (forall u, rinv R' u) -> ji < length (R' ei) -> exists p, getprob R' x = Some p /\ okx R' v (x, p) /\ (p0 <= p)%N) ->
  exists s' c', neighbor sub rec s v ei ji x = Some s' /\ inv s' /\ ext (ranked s) (ranked s') /\ ranked s' v = ranked s v /\ cand s' v = Some (c ++ c') /\
    (forall u, u <> v -> height v <= height u -> ranked s' u = ranked s u /\ cand s' u = cand s u) /\ expl_sub s s' /\
    (unique_edges forest -> cinv s -> 1 <= ji -> ji + 1 <= k1 -> height v <= depth -> ranksum x <= length (ranked s v) ->
      cinv s' /\ (inI v x -> ji < length (costs ei) -> In x (map fst (ranked s v ++ c ++ c')))).
Proof using OK K1.
  intros rec depth v s c ei ji x p0 n RS IN EC NE HH HX EN NI LE PR. unfold neighbor. destruct depth as [|d]; cbn in RS.
  { subst rec. exists s, []. rewrite app_nil_r. split; auto. split; auto. split; [apply ext_refl|]. do 3 (split; auto). split; [apply expl_refl|]. intros _ _ _ _ Z _. lia. }
  destruct RS as (f & -> & RS). destruct (RS ei (ji + 1) s HH IN) as (s1 & E1 & IN1 & X1 & F1 & Y1 & C1). rewrite E1. destruct (F1 v) as [F1a F1b]; [intros ->; lia|lia|].
  assert (EC1 : cand s1 v = Some c) by congruence.
  assert (PX : exists p, ji < length (ranked s1 ei) -> getprob (ranked s1) x = Some p /\ okx (ranked s1) v (x, p) /\ (p0 <= p)%N).
  { destruct (lt_dec ji (length (ranked s1 ei))) as [L|L]; [|exists 0%N; lia]. destruct (PR (ranked s1) X1 (proj1 IN1) L) as (p & A & B & C). exists p. auto. }
  destruct PX as (p & PX).
  assert (LE1 : forall pp, getprob (ranked s1) x = Some pp -> ji < length (ranked s1 ei) -> forall y, In y (ranked s1 v) -> (snd y <= pp)%N).
  { intros pp GP L y Hy. destruct (PX L) as (A & _ & B). rewrite F1a in Hy. specialize (LE y Hy). rewrite A in GP. injection GP as <-. lia. }
  destruct (lt_dec ji (length (ranked s1 ei))) as [LJ|LJ].
  2:{ unfold addneighbor. rewrite (proj2 (Nat.ltb_ge _ _)) by lia. cbn [andb]. exists s1, []. rewrite app_nil_r. split; auto. split; auto. split; auto. split; auto. split; auto. split; [intros u Hu HL; apply F1; [intros ->; lia|lia]|]. split; auto.
      intros UE CI J1 J2 HD RSUM. destruct (C1 UE CI) as [CI1 K2]; [lia|lia|]. split; auto. intros _ LC. exfalso. lia. }
  destruct (addneighbor_ok s1 v c ei ji x p IN1 EC1 NI) as (s2 & E2 & IN2 & R2 & O2 & Y2 & (c' & EC2 & AD & CC) & XP).
  { intros pp GP. apply LE1; auto. } { intros _. destruct (PX LJ) as (A & B & _). auto. } { now rewrite F1a. }
  exists s2, c'. split; auto. split; auto. split; [rewrite R2; auto|]. split; [rewrite R2; auto|]. split; auto. split; [intros u Hu HL; rewrite R2, O2 by auto; apply F1; [intros ->; lia|lia]|]. split; [intros y Hy; apply Y2, Y1, Hy|].
  intros UE CI J1 J2 HD RSUM. destruct (C1 UE CI) as [CI1 K2]; [lia|lia|]. split.
  - constructor.
    + intros u. rewrite R2. apply CI1.
    + intros u y m Hy Em EX. destruct XP as [XP|[XP (c2 & Ec2)]].
      * assert (isexplored s1 y = true) by (unfold isexplored in *; rewrite <- XP; exact EX). destruct (c_expl s1 CI1 u y m Hy Em H) as (cu & A & B). destruct (Nat.eq_dec u v) as [->|NU]; [|exists cu; rewrite O2, R2 by auto; auto]. exists (c ++ c'). split; auto. rewrite R2. rewrite EC1 in A. injection A as <-. rewrite app_assoc, map_app, in_app_iff. auto.
      * unfold isexplored in EX. rewrite XP in EX. cbn [existsb] in EX. apply orb_true_iff in EX. destruct EX as [EX|EX].
        { apply req_iff in EX. destruct EX as (A1 & A2 & A3 & A4). assert (u = v) by (eapply (UE u v (re y) (re x) m); eauto; congruence). subst u. assert (re y = re x) by (eapply ok_keys; eauto). assert (y = x) by (destruct x, y; cbn in *; congruence). subst y. exists (c2 ++ [(x, p)]). split; auto. rewrite !map_app, !in_app_iff. right. right. now left. }
        { destruct (c_expl s1 CI1 u y m Hy Em EX) as (cu & A & B). destruct (Nat.eq_dec u v) as [->|NU]; [|exists cu; rewrite O2, R2 by auto; auto]. exists (c ++ c'). split; auto. rewrite R2. rewrite EC1 in A. injection A as <-. rewrite app_assoc, map_app, in_app_iff. auto. }
    + intros u cu Ecu. destruct (Nat.eq_dec u v) as [->|NU].
      * rewrite EC2 in Ecu. injection Ecu as <-. destruct (c_all s1 CI1 v c EC1) as [A B C D]. constructor; rewrite ?R2; auto.
        { intros z Hz. rewrite app_assoc, in_app_iff. auto. }
        { intros z Hz. apply in_app_iff in Hz. destruct Hz as [Hz|Hz]; [auto|]. destruct CC as [->|[-> _]]; [destruct Hz|]. destruct Hz as [<-|[]]. cbn. rewrite F1a. exact RSUM. }
        { intros m z y Hm Hz Sy Iy. rewrite app_assoc, map_app, in_app_iff. left. eapply D; eauto. }
      * rewrite O2 in Ecu by auto. destruct (c_all s1 CI1 u cu Ecu) as [A B C D]. constructor; rewrite ?R2; auto.
  - intros IX LC. rewrite <- F1a. destruct (isexplored s1 x) eqn:EX.
    + destruct (c_expl s1 CI1 v x n HX EN EX) as (cv & A & B). rewrite EC1 in A. injection A as <-. rewrite app_assoc, map_app, in_app_iff. auto.
    + rewrite (AD LJ eq_refl). rewrite !map_app, !in_app_iff. right. right. now left.
Qed.
Lemma rank_next : forall R u i, (forall w, rinv R w) -> rank_ok R u i -> i + 1 < length (R u) -> exists p q, rankprob R u i = Some p /\ rankprob R u (i + 1) = Some q /\ (p <= q)%N.
Proof.
  intros R u i RI RO L. assert (exists p, rankprob R u i = Some p) as [p P]. { destruct i as [|i]; [exists (sub u); reflexivity|]. unfold KbestModel.rankprob. destruct (nth_error (R u) (S i)) as [y|] eqn:Y; [exists (snd y); reflexivity|]. apply nth_error_None in Y. lia. }
  destruct (nth_error (R u) (S i)) as [y|] eqn:Y; [|apply nth_error_None in Y; lia]. assert (Q : rankprob R u (i + 1) = Some (snd y)) by (rewrite Nat.add_1_r; unfold KbestModel.rankprob; now rewrite Y). exists p, (snd y). split; auto. split; auto. eapply (rankprob_le R u i); eauto. rewrite <- Q. f_equal. lia.
Qed.
Lemma rank_defined : forall R u i, rank_ok R u i -> exists p, rankprob R u i = Some p.
Proof. intros R u [|i] [H|H]; try (exists (sub u); reflexivity); try discriminate. unfold KbestModel.rankprob. destruct (nth_error (R u) (S i)) as [y|] eqn:Y; [exists (snd y); reflexivity|]. apply nth_error_None in Y. lia. Qed.
(** after lazynext on the last entry, all successors of ranked entries are there *)
Definition closed (s : st) (v : nat) (c : agenda) : Prop :=
  forall n x y, nth_error (ranked s v) n = Some x -> succ (fst x) y -> inI v y -> In y (map fst (ranked s v ++ c)).
Lemma lazynext_ok : forall rec depth v s c l ej p0, recspec rec depth v -> inv s -> cand s v = Some c -> ranked s v = l ++ [(ej, p0)] ->
  exists s' c', lazynext sub rec s v ej = Some s' /\ inv s' /\ ext (ranked s) (ranked s') /\ ranked s' v = ranked s v /\ cand s' v = Some (c ++ c') /\
    (forall u, u <> v -> height v <= height u -> ranked s' u = ranked s u /\ cand s' u = cand s u) /\ expl_sub s s' /\
    (unique_edges forest -> cinv s -> length (ranked s v) + 1 <= k1 -> height v <= depth -> cinv s' /\ closed s' v (c ++ c')).
Proof using OK K1.
  intros rec depth v s c l ej p0 RS IN EC EL. assert (NE : ranked s v <> []) by (rewrite EL; destruct l; discriminate).
  assert (LEN : length (ranked s v) = length l + 1) by (rewrite EL, app_length; reflexivity).
  assert (LAST : nth_error (ranked s v) (length l) = Some (ej, p0)) by (rewrite EL, nth_error_app2, Nat.sub_diag by lia; reflexivity).
  assert (OX : okx (ranked s) v (ej, p0)). { assert (X := r_ok _ _ (proj1 IN v)). rewrite Forall_forall in X. apply X. rewrite EL, in_app_iff. right. now left. }
  assert (LE : forall y, In y (ranked s v) -> (snd y <= p0)%N). { intros y Hy. assert (SO := r_sorted _ _ (proj1 IN v)). rewrite EL in SO, Hy. clear - SO Hy. apply in_app_iff in Hy. destruct Hy as [Hy|[<-|[]]]; [|cbn; lia]. induction l as [|z l IH]; [destruct Hy|]. cbn in SO. inversion SO as [|? ? S1 F]; subst. destruct Hy as [->|Hy]; [|auto]. rewrite Forall_forall in F. apply (F (ej, p0)). apply in_app_iff. right. now left. }
  assert (CLS : forall s' cc, cinv s' -> ranked s' v = ranked s v -> cand s' v = Some cc -> (forall y, succ ej y -> inI v y -> In y (map fst (ranked s v ++ cc))) -> closed s' v cc).
  { intros s' cc CI ER EC' H n x y Hn Sy Iy. rewrite ER in *. destruct (lt_dec (S n) (length (ranked s v))) as [L|L].
    - rewrite <- ER in *. eapply (c_succ s' v cc (c_all s' CI v cc EC')); eauto.
    - assert (n < length (ranked s v)) by (apply nth_error_Some; congruence). assert (n = length l) by lia. subst n. rewrite LAST in Hn. injection Hn as <-. apply H; auto. }
  unfold lazynext. destruct OX as [IE OX]. cbn [fst snd] in IE, OX. destruct (eno (re ej)) as [m|] eqn:EM.
  2:{ destruct OX as (RL & RR & _). rewrite RL. exists s, []. rewrite app_nil_r. split; auto. split; auto. split; [apply ext_refl|]. do 3 (split; auto). split; [apply expl_refl|]. intros UE CI _ _. split; auto. apply CLS; auto. intros y (_ & [(i & X & _)|(_ & i & j & X & _)]) _; congruence. }
  destruct OX as (GP & i & RL & RO & OR). rewrite RL. assert (BL := between_left v (re ej) m IE EM). assert (HL := ok_acyclic _ _ _ OK _ _ BL).
  assert (PI : rl (RE (re ej) (Some (i + 1)) (rr ej)) = Some (i + 1)) by reflexivity.
  destruct (neighbor_ok rec depth v s c (eleft (re ej)) (i + 1) (RE (re ej) (Some (i + 1)) (rr ej)) p0 m RS IN EC NE HL IE EM) as (s1 & c1 & E1 & IN1 & X1 & RV1 & EC1 & F1 & Y1 & C1).
  { intros [[A|A] _]; cbn in A; [discriminate|injection A; lia]. }
  { exact LE. }
  { intros R' XR RI LJ. destruct (rank_next R' (eleft (re ej)) i RI (ext_rank_ok _ _ _ _ XR RO) LJ) as (pa & pb & A & B & AB). assert (GP' := ext_getprob _ _ _ _ XR GP). unfold KbestModel.getprob in GP'. rewrite RL, A in GP'.
    destruct (eright (re ej)) as [r|] eqn:ER.
    - destruct OR as (j & RR & RJ). rewrite RR in *. destruct (rankprob R' r j) as [q|] eqn:Q; [|discriminate]. injection GP' as <-. exists (eprob (re ej) + pb + q)%N.
      assert (GN : getprob R' (RE (re ej) (Some (i + 1)) (Some j)) = Some (eprob (re ej) + pb + q)%N). { unfold KbestModel.getprob. cbn [rl re rr]. rewrite B, ER, Q. reflexivity. }
      split; auto. split; [|lia]. split; [exact IE|]. cbn [fst snd re]. rewrite EM. split; auto. exists (i + 1). split; auto. split; [right; auto|]. rewrite ER. exists j. split; auto. eapply ext_rank_ok; eauto.
    - rewrite OR in *. injection GP' as <-. exists (eprob (re ej) + pb)%N. assert (GN : getprob R' (RE (re ej) (Some (i + 1)) None) = Some (eprob (re ej) + pb)%N). { unfold KbestModel.getprob. cbn [rl re rr]. rewrite B. reflexivity. }
      split; auto. split; [|lia]. split; [exact IE|]. cbn [fst snd re]. rewrite EM. split; auto. exists (i + 1). split; auto. split; [right; auto|]. rewrite ER. reflexivity. }
  rewrite E1. assert (RSM : cinv s -> ranksum ej <= length l) by (intros CI; exact (c_sum s v c (c_all s CI v c EC) _ _ LAST)).
  destruct (eright (re ej)) as [r|] eqn:ER.
  - destruct OR as (j & RR & RJ). rewrite RR in *. assert (BR := between_right v (re ej) m r IE EM ER). assert (HR := ok_acyclic _ _ _ OK _ _ BR).
    destruct (neighbor_ok rec depth v s1 (c ++ c1) r (j + 1) (RE (re ej) (rl ej) (Some (j + 1))) p0 m RS IN1 EC1) as (s2 & c2 & E2 & IN2 & X2 & RV2 & EC2 & F2 & Y2 & C2); auto.
    { now rewrite RV1. }
    { intros [_ [A|A]]; cbn in A; [discriminate|injection A; lia]. }
    { now rewrite RV1. }
    { intros R' XR RI LJ. assert (XR0 := ext_trans _ _ _ X1 XR). destruct (rank_next R' r j RI (ext_rank_ok _ _ _ _ XR0 RJ) LJ) as (pa & pb & A & B & AB). assert (GP' := ext_getprob _ _ _ _ XR0 GP). unfold KbestModel.getprob in GP'. rewrite RL, ER, RR in GP'. destruct (rankprob R' (eleft (re ej)) i) as [q|] eqn:Q; [|discriminate]. rewrite A in GP'. injection GP' as <-. exists (eprob (re ej) + q + pb)%N.
      assert (GN : getprob R' (RE (re ej) (rl ej) (Some (j + 1))) = Some (eprob (re ej) + q + pb)%N). { unfold KbestModel.getprob. cbn [rl re rr]. rewrite RL, ER, B, Q. reflexivity. }
      split; auto. split; [|lia]. split; [exact IE|]. cbn [fst snd re]. rewrite EM. split; auto. exists i. split; auto. split; [eapply ext_rank_ok; eauto|]. rewrite ER. exists (j + 1). split; auto. right. auto. }
    rewrite RL in E2. exists s2, (c1 ++ c2). rewrite app_assoc. split; [exact E2|]. split; auto. split; [eapply ext_trans; eauto|]. split; [congruence|]. split; auto. split; [intros u A B; destruct (F1 u A B), (F2 u A B); split; congruence|]. split; [intros y Hy; apply Y2, Y1, Hy|].
    intros UE CI LK HD. specialize (RSM CI). unfold ranksum in RSM. rewrite RL, RR in RSM. destruct (C1 UE CI) as [CI1 IN1']; [lia|lia|lia|unfold ranksum; cbn [rl rr]; lia|]. destruct (C2 UE CI1) as [CI2 IN2']; [lia|lia|lia|rewrite RV1; unfold ranksum; cbn [rl rr]; rewrite RL; lia|]. split; auto. apply CLS; auto; [congruence|].
    intros y (Ry & [(i' & A1 & A2 & A3)|(A1 & i' & j' & A2 & A3 & A4)]) Iy.
    + assert (i' = i) by congruence. subst i'. assert (y = RE (re ej) (Some (i + 1)) (Some j)) by (destruct y; cbn in *; congruence). subst y. rewrite app_assoc, map_app, in_app_iff. left. apply IN1'; auto. destruct Iy as [_ Iy]. cbn [re] in Iy. rewrite EM in Iy. destruct Iy as (i' & Z1 & Z2 & _). cbn in Z1. injection Z1 as <-. exact Z2.
    + assert (j' = j) by congruence. subst j'. assert (y = RE (re ej) (rl ej) (Some (j + 1))) by (destruct y; cbn in *; congruence). subst y. rewrite RV1 in IN2'. rewrite <- app_assoc in IN2' |- *. apply IN2'; auto. destruct Iy as [_ Iy]. cbn [re] in Iy. rewrite EM in Iy. destruct Iy as (i'' & _ & _ & Z). rewrite ER in Z. destruct Z as (j'' & Z1 & Z2). cbn in Z1. injection Z1 as <-. exact Z2.
  - rewrite OR in *. exists s1, c1. split; auto. split; auto. split; auto. split; auto. split; auto. split; auto. split; auto.
    intros UE CI LK HD. specialize (RSM CI). unfold ranksum in RSM. rewrite RL, OR in RSM. destruct (C1 UE CI) as [CI1 IN1']; [lia|lia|lia|unfold ranksum; cbn [rl rr]; lia|]. split; auto. apply CLS; auto.
    intros y (Ry & [(i' & A1 & A2 & A3)|(A1 & i' & j' & A2 & A3 & A4)]) Iy; [|congruence]. assert (i' = i) by congruence. subst i'. assert (y = RE (re ej) (Some (i + 1)) None) by (destruct y; cbn in *; congruence). subst y. apply IN1'; auto. destruct Iy as [_ Iy]. cbn [re] in Iy. rewrite EM in Iy. destruct Iy as (i' & Z1 & Z2 & _). cbn in Z1. injection Z1 as <-. exact Z2.
Qed.
(** ---- the frontier ---- *)
Lemma rank_cost : forall s u i, cinv s -> forest u <> [] -> rank_ok (ranked s) u i -> i < length (costs u) /\ rankprob (ranked s) u i = Some (nthc u i).
Proof using OK K1 costs_all costs_head costs_sorted.
  intros s u i CI FU RO. destruct (costs_head u FU) as [l EC]. assert (CC := c_costs s CI u). destruct i as [|i].
  - rewrite EC. cbn. split; [lia|auto].
  - destruct RO as [RO|RO]; [discriminate|]. assert (LL : length (ranked s u) <= length (costs u)). { assert (X := firstn_length (length (ranked s u)) (costs u)). rewrite <- CC, map_length in X. apply Nat.min_l_iff. symmetry. exact X. }
    split; [lia|]. unfold KbestModel.rankprob. destruct (nth_error (ranked s u) (S i)) as [y|] eqn:Y; [|apply nth_error_None in Y; lia]. cbn [option_map]. f_equal.
    assert (Z : nth_error (map snd (ranked s u)) (S i) = Some (snd y)) by (transitivity (option_map snd (nth_error (ranked s u) (S i))); [apply nth_error_map|rewrite Y; reflexivity]). rewrite CC in Z. symmetry. apply nth_error_nth. rewrite <- Z. rewrite <- (firstn_skipn (length (ranked s u)) (costs u)) at 1. rewrite nth_error_app1; auto. rewrite firstn_length. lia.
Qed.
Lemma okx_icost : forall s v x, cinv s -> okx (ranked s) v x -> inI v (fst x) /\ snd x = icost v (fst x).
Proof using OK K1 costs_all costs_head costs_sorted.
  intros s v [x p] CI (A & B). cbn [fst snd] in *. unfold inI, icost. destruct (eno (re x)) as [n|] eqn:EN.
  2:{ destruct B as (B1 & B2 & B3). split; auto. }
  destruct B as (GP & i & RL & RO & OR). assert (FL := ok_complete _ _ _ OK _ _ (between_left v (re x) n A EN)). destruct (rank_cost s (eleft (re x)) i CI FL RO) as [LI PI]. unfold KbestModel.getprob in GP. rewrite RL, PI in *.
  destruct (eright (re x)) as [r|] eqn:ER.
  - destruct OR as (j & RR & RJ). assert (FR := ok_complete _ _ _ OK _ _ (between_right v (re x) n r A EN ER)). destruct (rank_cost s r j CI FR RJ) as [LJ PJ]. rewrite RR, PJ in *. split; [split; auto; exists i; split; auto; split; auto; exists j; auto|]. injection GP as <-. reflexivity.
  - rewrite OR in *. split; [split; auto; exists i; auto|]. injection GP as <-. lia.
Qed.
Lemma redge_dec : forall a b : redge, {a = b} + {a <> b}.
Proof. repeat decide equality. Qed.
Lemma nthc_mono : forall u i, i + 1 < length (costs u) -> (nthc u i <= nthc u (i + 1)%nat)%N.
Proof using OK K1 costs_all costs_head costs_sorted.
  intros u i L. assert (SO := costs_sorted u). cbv beta. revert i L. induction SO as [|a l SO IH F]; intros i L; [cbn in L; lia|]. destruct i as [|i].
  - destruct l as [|b l]; [cbn in L; lia|]. inversion F; subst. assumption.
  - cbn [length] in L. assert (i + 1 < length l) by lia. exact (IH i H).
Qed.
Lemma candidate_icost : forall v e, In e (forest v) -> snd (candidate v e) = icost v (fst (candidate v e)).
Proof using OK K1 costs_all costs_head costs_sorted.
  intros v e He. unfold icost. rewrite candidate_re. unfold KbestModel.candidate. destruct (eno e) as [n|] eqn:EN; [|reflexivity].
  assert (FL := ok_complete _ _ _ OK _ _ (between_left v e n He EN)). destruct (costs_head _ FL) as [l El]. destruct (eright e) as [r|] eqn:ER; cbn [fst snd rl rr]; rewrite El; cbn [nth].
  - assert (FR := ok_complete _ _ _ OK _ _ (between_right v e n r He EN ER)). destruct (costs_head _ FR) as [l' El']. rewrite El'. reflexivity.
  - lia.
Qed.
Lemma initial_candidate : forall v y, inI v y -> ranksum y = 0 -> y = fst (candidate v (re y)).
Proof.
  intros v [e a b] (H & I1) RS. cbn [re] in *. unfold KbestModel.candidate, ranksum in *. cbn [rl rr] in *. destruct (eno e); [|destruct I1 as [-> ->]; reflexivity].
  destruct I1 as (i & -> & LI & X). destruct (eright e) as [r|]; [destruct X as (j & -> & LJ)|rewrite X in *]; cbn; f_equal; f_equal; lia.
Qed.
Lemma split_in : forall {X Y} (f : X -> Y) (fs : list X) (a b : list Y), (forall x, In x fs -> In (f x) (a ++ b)) -> (forall x, In x fs -> In (f x) a) \/ exists x, In x fs /\ In (f x) b.
Proof.
  intros X Y f fs a b. induction fs as [|x fs IH]; intros H; [left; intros x []|]. destruct IH as [A|(z & Z1 & Z2)]; [intros y Hy; apply H; now right| |right; exists z; split; auto; now right].
  assert (Q := H x (or_introl eq_refl)). apply in_app_iff in Q. destruct Q as [Q|Q]; [left; intros y [<-|Hy]; auto|right; exists x; split; auto; now left].
Qed.
Lemma frontier : forall s v c, inv s -> cinv s -> cand s v = Some c -> closed s v c -> length (ranked s v) < k1 ->
  forall y, inI v y -> ~ In y (map fst (ranked s v)) -> exists z, In z c /\ (snd z <= icost v y)%N.
Proof using OK K1 costs_all costs_head costs_sorted.
  intros s v c IN CI EC CL LK y. assert (VI := proj2 IN v). rewrite EC in VI. remember (ranksum y) as m eqn:EM. revert y EM. induction m as [|m IH]; intros y EM Iy NR.
  - assert (EY := initial_candidate v y Iy (eq_sym EM)). assert (HY := proj1 Iy). set (e := re y) in *. destruct (getcandidates_spec v k1) as (fs & rest & I1 & N1 & EG & ME & L & Q).
    assert (CI0 := c_init s v c (c_all s CI v c EC)). rewrite EG in CI0. assert (IC : icost v y = snd (candidate v e)) by (rewrite EY; symmetry; apply candidate_icost; auto). destruct (proj1 (ME e) HY) as [Hf|Hr].
    + assert (X := CI0 _ (in_map (candidate v) fs e Hf)). apply in_app_iff in X. destruct X as [X|X]; [exfalso; apply NR; rewrite EY; now apply in_map|]. exists (candidate v e). split; auto. lia.
    + destruct Q as [Q|Q]; [|subst rest; destruct Hr]. destruct (split_in (candidate v) fs (ranked s v) c) as [A|(f & Hf & A)]; [intros x Hx; apply CI0; now apply in_map| |].
      * exfalso. assert (NM : NoDup (map (candidate v) fs)). { apply nodup_app_l in N1. clear - N1. induction N1 as [|x l H N IH]; cbn; constructor; auto. rewrite in_map_iff. intros (z & E & Hz). apply (f_equal (fun w => re (fst w))) in E. rewrite !candidate_re in E. subst. contradiction. }
        assert (LL := NoDup_incl_length NM (l' := ranked s v)). rewrite map_length in LL. lapply LL; [lia|]. intros z Hz. apply in_map_iff in Hz. destruct Hz as (w & <- & Hw). auto.
      * exists (candidate v f). split; auto. rewrite IC. apply L; auto.
  - assert (P : exists y', inI v y' /\ succ y' y /\ ranksum y' = m /\ (icost v y' <= icost v y)%N).
    { destruct y as [e a b]. destruct Iy as [H Iy]. unfold inI, icost, succ, ranksum in *. cbn [re rl rr] in *. destruct (eno e) as [n|] eqn:EN; [|destruct Iy as [-> ->]; discriminate]. destruct Iy as (i & -> & LI & X). destruct i as [|i].
      - destruct (eright e) as [r|] eqn:ER; [|rewrite X in EM; discriminate]. destruct X as (j & -> & LJ). assert (j = m + 1) by lia. subst j. exists (RE e (Some 0) (Some m)). cbn [re rl rr]. rewrite EN, ER. split; [split; auto; exists 0; split; auto; split; auto; exists m; split; auto; lia|]. split; [split; auto; right; split; auto; exists 0, m; auto|]. split; [lia|]. assert (Z := nthc_mono r m LJ). lia.
      - exists (RE e (Some i) b). cbn [re rl rr]. rewrite EN. split; [split; auto; exists i; split; auto; split; [lia|auto]|]. split; [split; auto; left; exists i; rewrite Nat.add_1_r; auto|]. split; [lia|]. assert (Z := nthc_mono (eleft e) i). rewrite Nat.add_1_r in Z. specialize (Z LI). lia. }
    destruct P as (y' & Iy' & SU & RS & LE). destruct (in_dec redge_dec y' (map fst (ranked s v))) as [Hy|Hy].
    + apply in_map_iff in Hy. destruct Hy as (w & <- & Hw). apply In_nth_error in Hw. destruct Hw as [n Hn]. assert (X := CL n w y Hn SU Iy). rewrite map_app, in_app_iff in X. destruct X as [X|X]; [contradiction|]. apply in_map_iff in X. destruct X as (z & EZ & Hz). exists z. split; auto. assert (V1 := v_ok _ _ _ VI). rewrite Forall_forall in V1. destruct (okx_icost s v z CI (V1 z Hz)) as [_ E]. rewrite E, EZ. lia.
    + destruct (IH y' (eq_sym RS) Iy' Hy) as (z & Hz & LZ). exists z. split; auto. lia.
Qed.
Lemma sorted_firstn : forall P Q L, StronglySorted N.le L -> Permutation L (P ++ Q) -> StronglySorted N.le P -> (forall a b, In a P -> In b Q -> (a <= b)%N) -> P = firstn (length P) L.
Proof.
  induction P as [|a P IH]; intros Q L SL PM SP LE; [reflexivity|]. destruct L as [|b L]; [apply Permutation_nil in PM; discriminate|]. cbn [length firstn].
  inversion SL as [|? ? SL' FL]; subst. inversion SP as [|? ? SP' FP]; subst. rewrite Forall_forall in FL, FP.
  assert (a = b). { apply N.le_antisymm.
    - assert (X : In b ((a :: P) ++ Q)) by (eapply Permutation_in; [exact PM|now left]). apply in_app_iff in X. destruct X as [[<-|X]|X]; [lia|auto|apply LE; auto; now left].
    - assert (X : In a (b :: L)) by (eapply Permutation_in; [symmetry; exact PM|now left]). destruct X as [<-|X]; [lia|auto]. }
  subst b. f_equal. apply (IH Q); auto; [cbn in PM; now apply Permutation_cons_inv in PM|]. intros x y Hx Hy. apply LE; auto. now right.
Qed.
Lemma sorted_snd : forall l, sorted_e l -> StronglySorted N.le (map snd l).
Proof. intros l H. induction H as [|x l S0 IH F]; cbn; constructor; auto. apply Forall_forall. intros y Hy. apply in_map_iff in Hy. destruct Hy as (z & <- & Hz). rewrite Forall_forall in F. exact (F z Hz). Qed.
Lemma sorted_snoc : forall l x, sorted_e l -> (forall y, In y l -> le_e y x) -> sorted_e (l ++ [x]).
Proof. intros l x H. induction H as [|y l S0 IH F]; intros L; cbn; [repeat constructor|]. constructor; [apply IH; intros z Hz; apply L; now right|]. apply Forall_app. split; auto. constructor; auto. apply L. now left. Qed.
Definition pop_st (s : st) (v : nat) (x : entry) (c' : agenda) : st :=
  St (put (ranked s) v (ranked s v ++ [x])) (put (cand s) v (Some c')) (explored s).
Lemma put_same : forall {X} (f : nat -> X) v x, put f v x v = x.
Proof. intros. unfold put. now rewrite Nat.eqb_refl. Qed.
Lemma put_other : forall {X} (f : nat -> X) v x u, u <> v -> put f v x u = f u.
Proof. intros. unfold put. now rewrite (proj2 (Nat.eqb_neq u v)). Qed.
Lemma pop_perm : forall l c x c', popmin c = Some (x, c') -> Permutation (l ++ c) ((l ++ [x]) ++ c').
Proof. intros l c x c' H. apply popmin_some in H. destruct H as [P _]. rewrite <- app_assoc. apply Permutation_app_head. exact P. Qed.
Lemma pop_inv : forall s v c x c', inv s -> cand s v = Some c -> popmin c = Some (x, c') ->
  inv (pop_st s v x c') /\ ext (ranked s) (ranked (pop_st s v x c')) /\ frame v s (pop_st s v x c') /\ expl_sub s (pop_st s v x c').
Proof using OK K1 costs_all costs_head costs_sorted.
  intros s v c x c' IN EC PO. assert (VI := proj2 IN v). rewrite EC in VI. destruct VI as [V1 V2 V3 V4 V5]. destruct (popmin_some _ _ _ PO) as [PM FX]. assert (PP := pop_perm (ranked s v) c x c' PO).
  assert (EX : ext (ranked s) (ranked (pop_st s v x c'))) by apply ext_put. assert (XS : expl_sub s (pop_st s v x c')) by (intros y Hy; exact Hy).
  split; [|split; [exact EX|split; [intros u Hu _; cbn; now rewrite !put_other|exact XS]]]. assert (HX : In x c) by (eapply Permutation_in; [symmetry; exact PM|now left]). rewrite Forall_forall in V1.
  split.
  - intros u. destruct (Nat.eq_dec u v) as [->|NU].
    + destruct (proj1 IN v) as [R1 R2 R3 R4]. constructor; cbn [ranked pop_st] in *; rewrite ?put_same.
      * apply Forall_app. split; [eapply Forall_impl; [|exact R1]; intros z; now apply ext_okx|]. constructor; [|constructor]. eapply ext_okx; [exact EX|apply V1; auto].
      * apply (Permutation_map fst) in PP. apply (Permutation_NoDup PP) in V2. rewrite map_app in V2. now apply nodup_app_l in V2.
      * apply sorted_snoc; auto.
      * intros z l EQ. destruct (ranked s v) as [|w l'] eqn:ER; [|cbn in EQ; injection EQ as <- _; eapply R4; reflexivity]. injection EQ as <- <-. rewrite (V5 eq_refl) in PO. now apply popmin_candidates in PO.
    + apply (rinv_ext (ranked s)); auto; [cbn; now rewrite put_other|apply IN].
  - intros u. destruct (Nat.eq_dec u v) as [->|NU].
    + cbn [cand pop_st]. rewrite put_same. constructor; cbn [ranked pop_st]; rewrite ?put_same.
      * apply Forall_forall. intros z Hz. eapply ext_okx; [exact EX|]. apply V1. eapply Permutation_in; [symmetry; exact PM|now right].
      * apply (Permutation_map fst) in PP. eapply Permutation_NoDup; eauto.
      * intros a b Ha Hb. apply in_app_iff in Ha. destruct Ha as [Ha|[<-|[]]]; [apply V3; auto; eapply Permutation_in; [symmetry; exact PM|now right]|]. rewrite Forall_forall in FX. auto.
      * intros y Hy. apply (V4 y). eapply Permutation_in; [symmetry; apply (Permutation_map fst); exact PP|exact Hy].
      * destruct (ranked s v); discriminate.
    + assert (E : cand (pop_st s v x c') u = cand s u) by (cbn; now rewrite put_other). rewrite E. assert (IU := proj2 IN u). assert (ER : ranked (pop_st s v x c') u = ranked s u) by (cbn; now rewrite put_other). destruct (cand s u) as [cu|]; [|congruence]. apply (vinv_ext s); auto.
Qed.
Lemma nodup_split : forall (A L : list redge), NoDup A -> NoDup L -> incl A L -> exists B, Permutation L (A ++ B).
Proof.
  induction A as [|a A IH]; intros L NA NL HI; [exists L; auto|]. inversion NA as [|? ? N1 N2]; subst. destruct (in_split a L) as (l1 & l2 & ->); [apply HI; now left|]. destruct (IH (l1 ++ l2)) as [B PB]; auto; [now apply NoDup_remove in NL| |].
  - intros x Hx. assert (X := HI x (or_intror Hx)). rewrite in_app_iff in *. cbn in X. destruct X as [X|[X|X]]; auto. subst. contradiction.
  - exists B. cbn. rewrite <- PB. symmetry. apply Permutation_middle.
Qed.
Lemma pop_cinv : forall s v c x c', inv s -> cinv s -> cand s v = Some c -> closed s v c -> length (ranked s v) < k1 -> popmin c = Some (x, c') -> cinv (pop_st s v x c').
Proof using OK K1 costs_all costs_head costs_sorted.
  intros s v c x c' IN CI EC CL LK PO. destruct (pop_inv s v c x c' IN EC PO) as (IN' & EX & FR & XS). destruct (popmin_some _ _ _ PO) as [PM FX]. assert (PP := pop_perm (ranked s v) c x c' PO).
  assert (VI := proj2 IN v). rewrite EC in VI. destruct (c_all s CI v c EC) as [A B C D]. constructor.
  - intros u. destruct (Nat.eq_dec u v) as [->|NU]; [|cbn; rewrite put_other by auto; apply CI]. cbn [ranked pop_st]. rewrite put_same. destruct (costs_all v) as (L & NL & ML & PL).
    set (P := ranked s v ++ [x]) in *. assert (OKP : forall z, In z P -> inI v (fst z) /\ snd z = icost v (fst z)). { intros z Hz. apply okx_icost with (s := s); auto. apply in_app_iff in Hz. destruct Hz as [Hz|[<-|[]]]; [assert (X := r_ok _ _ (proj1 IN v))|assert (X := v_ok _ _ _ VI)]; rewrite Forall_forall in X; apply X; auto. eapply Permutation_in; [symmetry; exact PM|now left]. }
    assert (RV := proj1 IN' v). cbn [pop_st ranked] in RV. destruct RV as [_ ND SO _]. rewrite put_same in ND, SO. fold P in ND, SO.
    destruct (nodup_split (map fst P) L ND NL) as [Q PQ]. { intros y Hy. apply ML. apply in_map_iff in Hy. destruct Hy as (z & <- & Hz). now apply OKP. }
    assert (EL : length P = length (map snd P)) by (symmetry; apply map_length). rewrite EL. apply (sorted_firstn _ (map (icost v) Q)); auto.
    + rewrite PL. rewrite (Permutation_map (icost v) PQ), map_app. apply Permutation_app_tail. rewrite map_map. erewrite map_ext_in; [reflexivity|]. intros z Hz. cbn. symmetry. now apply OKP.
    + now apply sorted_snd.
    + intros a b Ha Hb. apply in_map_iff in Ha. destruct Ha as (z & <- & Hz). apply in_map_iff in Hb. destruct Hb as (y & <- & Hy).
      assert (NY : ~ In y (map fst P)). { apply (Permutation_NoDup PQ) in NL. intros Z. clear - NL Z Hy. induction (map fst P) as [|w l IH]; [destruct Z|]. cbn in NL. inversion NL as [|? ? N1 N2]; subst. destruct Z as [<-|Z]; [apply N1; apply in_app_iff; auto|auto]. }
      assert (IY : inI v y). { apply ML. eapply Permutation_in; [symmetry; exact PQ|]. apply in_app_iff. auto. }
      destruct (frontier s v c IN CI EC CL LK y IY) as (w & Hw & LW). { intros Z. apply NY. unfold P. rewrite map_app, in_app_iff. auto. }
      assert (XW : (snd x <= snd w)%N). { apply (Permutation_in _ PM) in Hw. destruct Hw as [<-|Hw]; [lia|]. rewrite Forall_forall in FX. apply FX; auto. }
      assert (ZX : (snd z <= snd x)%N). { apply in_app_iff in Hz. destruct Hz as [Hz|[<-|[]]]; [|lia]. apply (v_above _ _ _ VI); auto. eapply Permutation_in; [symmetry; exact PM|now left]. }
      lia.
  - intros u y n Hy En X. destruct (c_expl s CI u y n Hy En X) as (cu & E1 & E2). destruct (Nat.eq_dec u v) as [->|NU].
    + exists c'. cbn [cand pop_st ranked]. rewrite !put_same. split; auto. rewrite EC in E1. injection E1 as <-. eapply Permutation_in; [apply (Permutation_map fst); exact PP|exact E2].
    + exists cu. cbn [cand pop_st ranked]. rewrite !put_other by auto. auto.
  - intros u cu E. destruct (Nat.eq_dec u v) as [->|NU].
    + cbn [cand pop_st] in E. rewrite put_same in E. injection E as <-. constructor; cbn [ranked pop_st]; rewrite ?put_same.
      * intros z Hz. eapply Permutation_in; [exact PP|auto].
      * intros n z Hn. destruct (lt_dec n (length (ranked s v))) as [L|L]; [rewrite nth_error_app1 in Hn by auto; eauto|]. assert (n < length (ranked s v ++ [x])) by (apply nth_error_Some; congruence). rewrite app_length in H. cbn in H. assert (n = length (ranked s v)) by lia. subst n. rewrite nth_error_app2, Nat.sub_diag in Hn by lia. injection Hn as <-. apply C. eapply Permutation_in; [symmetry; exact PM|now left].
      * intros z Hz. rewrite app_length. assert (X := C z). lapply X; [lia|]. eapply Permutation_in; [symmetry; exact PM|now right].
      * intros n z y LN Hn SU IY. rewrite app_length in LN. cbn in LN. rewrite nth_error_app1 in Hn by lia. eapply Permutation_in; [apply (Permutation_map fst); exact PP|]. eapply CL; eauto.
    + cbn [cand pop_st] in E. rewrite put_other in E by auto. destruct (c_all s CI u cu E) as [A' B' C' D']. constructor; cbn [ranked pop_st]; rewrite ?put_other by auto; auto.
Qed.
Lemma empty_done : forall s v, inv s -> cinv s -> cand s v = Some [] -> closed s v [] -> length (ranked s v) < k1 -> length (costs v) <= length (ranked s v).
Proof using OK K1 costs_all costs_head costs_sorted.
  intros s v IN CI EC CL LK. destruct (costs_all v) as (L & NL & ML & PL). apply Permutation_length in PL. rewrite map_length in PL. rewrite PL. assert (EL : length (ranked s v) = length (map fst (ranked s v))) by (symmetry; apply map_length). rewrite EL. apply NoDup_incl_length; auto. intros y Hy. destruct (in_dec redge_dec y (map fst (ranked s v))) as [H|H]; auto. exfalso. apply ML in Hy. destruct (frontier s v [] IN CI EC CL LK y Hy H) as (z & [] & _).
Qed.
Lemma closed_empty : forall s v c, ranked s v = [] -> closed s v c.
Proof. intros s v c E n x y Hn. rewrite E in Hn. destruct n; discriminate. Qed.
Lemma kloop_ok : forall rec depth v k n inr s c, recspec rec depth v -> inv s -> cand s v = Some c -> (inr = false -> length (ranked s v) <= 1) -> (inr = true -> ranked s v <> []) ->
  exists s', kloop sub rec n inr v k s = Some s' /\ inv s' /\ ext (ranked s) (ranked s') /\ frame v s s' /\ expl_sub s s' /\
    (ranked s v = [] -> forest v <> [] -> 1 <= n -> ranked s' v <> []) /\
    (unique_edges forest -> cinv s -> 2 <= k <= k1 -> height v <= depth -> k + 2 <= n + length (ranked s v) -> cinv s' /\ Nat.min k (length (costs v)) <= length (ranked s' v)).
Proof using OK K1 costs_all costs_head costs_sorted.
  intros rec depth v k. induction n as [|n IH]; intros inr s c RS IN EC IF IT.
  { exists s. cbn. split; auto. split; auto. split; [apply ext_refl|]. split; [intros u _ _; auto|]. split; [apply expl_refl|]. split; [lia|]. intros _ CI _ _ L. split; auto. lia. }
  cbn [kloop]. destruct (negb inr || (length (ranked s v) <? k)) eqn:GO.
  2:{ apply orb_false_iff in GO. destruct GO as [G1 G2]. apply Nat.ltb_ge in G2. exists s. split; auto. split; auto. split; [apply ext_refl|]. split; [intros u _ _; auto|]. split; [apply expl_refl|]. split; [intros Z; exfalso; apply (IT (proj1 (negb_false_iff _) G1)); auto|]. intros _ CI _ _ L. split; auto. lia. }
  assert (GL : 2 <= k <= k1 -> length (ranked s v) < k1). { intros K2. apply orb_true_iff in GO. destruct GO as [G|G]; [apply negb_true_iff in G; specialize (IF G); lia|apply Nat.ltb_lt in G; lia]. }
  set (inr' := inr || negb (length (ranked s v) =? 0)) in *. 
  assert (ST : exists s1 c1, (if inr' then match rev (ranked s v) with [] => None | (ej, _) :: _ => lazynext sub rec s v ej end else Some s) = Some s1 /\ inv s1 /\ ext (ranked s) (ranked s1) /\ ranked s1 v = ranked s v /\ cand s1 v = Some c1 /\ frame v s s1 /\ expl_sub s s1 /\
    (unique_edges forest -> cinv s -> 2 <= k <= k1 -> height v <= depth -> cinv s1 /\ closed s1 v c1) /\ (inr' = false -> ranked s v = [])).
  { destruct inr' eqn:EI; unfold inr' in EI.
    - assert (NE : ranked s v <> []). { apply orb_true_iff in EI. destruct EI as [EI|EI]; [auto|]. intros Z. rewrite Z in EI. discriminate. }
      destruct (rev (ranked s v)) as [|[ej p0] l] eqn:ER; [exfalso; apply NE; rewrite <- (rev_involutive (ranked s v)), ER; reflexivity|]. assert (EL : ranked s v = rev l ++ [(ej, p0)]) by (rewrite <- (rev_involutive (ranked s v)), ER; reflexivity).
      destruct (lazynext_ok rec depth v s c (rev l) ej p0 RS IN EC EL) as (s1 & c' & E1 & IN1 & X1 & RV1 & EC1 & F1 & Y1 & C1). exists s1, (c ++ c'). split; auto. split; auto. split; auto. split; auto. split; auto. split; [exact F1|]. split; auto. split; [|discriminate]. intros UE CI K2 HD. apply C1; auto. specialize (GL K2). lia.
    - apply orb_false_iff in EI. destruct EI as [_ EI]. apply negb_false_iff, Nat.eqb_eq, length_zero_iff_nil in EI. exists s, c. split; auto. split; auto. split; [apply ext_refl|]. split; auto. split; auto. split; [intros u _ _; auto|]. split; [apply expl_refl|]. split; [|auto]. intros UE CI _ _. split; auto. now apply closed_empty. }
  destruct ST as (s1 & c1 & -> & IN1 & X1 & RV1 & EC1 & F1 & Y1 & C1 & IE). rewrite EC1. destruct (popmin c1) as [[x c2]|] eqn:PO.
  - destruct (pop_inv s1 v c1 x c2 IN1 EC1 PO) as (IN2 & X2 & F2 & Y2).
    assert (RV2 : ranked (pop_st s1 v x c2) v = ranked s v ++ [x]) by (cbn; rewrite put_same, RV1; reflexivity).
    destruct (IH inr' (pop_st s1 v x c2) c2 RS IN2) as (s' & E' & IN' & X' & F' & Y' & N' & C').
    { cbn. now rewrite put_same. } { intros EI. rewrite RV2, (IE EI). cbn. lia. } { intros _. rewrite RV2. destruct (ranked s v); discriminate. }
    exists s'. split; [exact E'|]. split; auto. split; [eapply ext_trans; [exact X1|eapply ext_trans; eauto]|]. split; [intros u A B; destruct (F1 u A B), (F2 u A B), (F' u A B); split; congruence|]. split; [intros y Hy; apply Y', Y2, Y1, Hy|]. split.
    + intros _ _ _ Z. destruct (X' v) as [l El]. rewrite Z, RV2 in El. destruct (ranked s v); discriminate.
    + intros UE CI K2 HD LN. destruct (C1 UE CI K2 HD) as [CI1 CL1]. apply C'; auto; [apply (pop_cinv s1 v c1 x c2); auto; rewrite RV1; auto|]. rewrite RV2, app_length. cbn. lia.
  - apply popmin_none in PO. subst c1. exists s1. split; auto. split; auto. split; auto. split; auto. split; auto. split.
    + intros Z FV _. exfalso. assert (VI := proj2 IN1 v). rewrite EC1 in VI. assert (G := v_start _ _ _ VI). rewrite RV1 in G. specialize (G Z). symmetry in G. revert G. now apply getcandidates_nonempty.
    + intros UE CI K2 HD LN. destruct (C1 UE CI K2 HD) as [CI1 CL1]. split; auto. assert (Z := empty_done s1 v IN1 CI1 EC1 CL1). rewrite RV1 in Z. specialize (Z (GL K2)). rewrite RV1. lia.
Qed.
Definition init_st (s : st) (v : nat) : st := match cand s v with None => St (ranked s) (put (cand s) v (Some (getcandidates v k1))) (explored s) | Some _ => s end.
Lemma init_ok : forall s v, inv s -> exists c, cand (init_st s v) v = Some c /\ inv (init_st s v) /\ ranked (init_st s v) = ranked s /\ explored (init_st s v) = explored s /\
  (forall u, u <> v -> cand (init_st s v) u = cand s u) /\ (cinv s -> cinv (init_st s v)).
Proof using OK K1 costs_all costs_head costs_sorted.
  intros s v IN. unfold init_st. destruct (cand s v) as [c|] eqn:EC; [exists c; repeat (split; auto)|]. exists (getcandidates v k1). assert (ER := proj2 IN v). rewrite EC in ER. destruct (getcandidates_spec v k1) as (fs & rest & I1 & N1 & EG & ME & L & Q).
  split; [cbn; apply put_same|]. split; [|split; [reflexivity|split; [reflexivity|split; [intros u Hu; cbn; now apply put_other|]]]].
  - split; [apply IN|]. intros u. cbn [cand ranked]. destruct (Nat.eq_dec u v) as [->|NU].
    + rewrite put_same. constructor; cbn [ranked]; rewrite ?ER; auto.
      * apply Forall_forall. intros z Hz. rewrite EG in Hz. apply in_map_iff in Hz. destruct Hz as (e & <- & He). apply candidate_okx; auto.
      * cbn [app]. rewrite EG. apply nodup_app_l in N1. clear - N1. induction N1 as [|x l H N IH]; cbn; constructor; auto. rewrite !in_map_iff. intros (z & E & Hz). apply in_map_iff in Hz. destruct Hz as (w & <- & Hw). apply (f_equal re) in E. rewrite !candidate_re in E. subst. contradiction.
      * intros x y [].
      * intros x Hx. left. cbn [app] in Hx. rewrite EG in Hx. apply in_map_iff in Hx. destruct Hx as (z & <- & Hz). apply in_map_iff in Hz. destruct Hz as (e & <- & He). unfold KbestModel.candidate, initial. destruct (eno e); [destruct (eright e)|]; cbn; auto.
    + rewrite put_other by auto. assert (X := proj2 IN u). destruct (cand s u) as [cu|]; auto. apply (vinv_ext s); auto; [apply ext_refl|intros y Hy; exact Hy].
  - intros CI. constructor; cbn [ranked cand].
    + apply CI.
    + intros u x n Hx En X. destruct (c_expl s CI u x n Hx En X) as (cu & E1 & E2). destruct (Nat.eq_dec u v) as [->|NU]; [congruence|]. exists cu. rewrite put_other; auto.
    + intros u cu E. destruct (Nat.eq_dec u v) as [->|NU].
      * rewrite put_same in E. injection E as <-. constructor; cbn [ranked]; rewrite ?ER; cbn; try (intros; lia); auto.
        { apply incl_refl. } { intros [|n] x Hn; discriminate. }
        { intros x Hx. rewrite EG in Hx. apply in_map_iff in Hx. destruct Hx as (e & <- & He). unfold KbestModel.candidate, ranksum. destruct (eno e); [destruct (eright e)|]; cbn; auto. }
      * rewrite put_other in E by auto. destruct (c_all s CI u cu E) as [A B C D]. constructor; auto.
Qed.
Lemma lazykthbest_ok : forall depth v k s, inv s ->
  exists s', lazykthbest forest sub depth k1 v k s = Some s' /\ inv s' /\ ext (ranked s) (ranked s') /\ frame v s s' /\ expl_sub s s' /\
    (ranked s v = [] -> forest v <> [] -> ranked s' v <> []) /\
    (unique_edges forest -> cinv s -> 2 <= k <= k1 -> height v <= depth -> cinv s' /\ Nat.min k (length (costs v)) <= length (ranked s' v)).
Proof using OK K1 costs_all costs_head costs_sorted.
  induction depth as [|d IH]; intros v k s IN; destruct (init_ok s v IN) as (c & EC & IN0 & ER & EE & EO & CI0).
  - destruct (kloop_ok None 0 v k (k + 2) (negb (length (ranked s v) =? 0)) (init_st s v) c) as (s' & E & IN' & X' & F' & Y' & N' & C'); auto; [reflexivity| | |].
    { rewrite ER. intros Z. apply negb_false_iff, Nat.eqb_eq in Z. lia. } { rewrite ER. intros Z W. rewrite W in Z. discriminate. }
    rewrite ER in *. exists s'. split; [exact E|]. split; auto. split; auto. split; [intros u A B; destruct (F' u A B) as [Z1 Z2]; rewrite ER in Z1; rewrite (EO u A) in Z2; auto|]. split; [intros y Hy; apply Y'; unfold isexplored in *; now rewrite EE|]. split; [intros A B; apply N'; auto; lia|]. intros UE CI K2 HD. apply C'; auto. lia.
  - destruct (kloop_ok (Some (fun ei k' s' => lazykthbest forest sub d k1 ei k' s')) (S d) v k (k + 2) (negb (length (ranked s v) =? 0)) (init_st s v) c) as (s' & E & IN' & X' & F' & Y' & N' & C'); auto.
    { cbn. eexists. split; [reflexivity|]. intros u k' s2 HU I2. destruct (IH u k' s2 I2) as (s3 & A1 & A2 & A3 & A4 & A5 & _ & A6). exists s3. repeat (split; [assumption|]). exact A6. }
    { rewrite ER. intros Z. apply negb_false_iff, Nat.eqb_eq in Z. lia. } { rewrite ER. intros Z W. rewrite W in Z. discriminate. }
    rewrite ER in *. exists s'. split; [exact E|]. split; auto. split; auto. split; [intros u A B; destruct (F' u A B) as [Z1 Z2]; rewrite ER in Z1; rewrite (EO u A) in Z2; auto|]. split; [intros y Hy; apply Y'; unfold isexplored in *; now rewrite EE|]. split; [intros A B; apply N'; auto; lia|]. intros UE CI K2 HD. apply C'; auto. lia.
Qed.
End Base.
