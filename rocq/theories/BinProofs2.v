(** The round trip through the binary cache. *)
From Coq Require Import List Bool Arith NArith QArith Qcanon Lia Permutation Sorted.
From Verif Require Import PyStr BitsModel BitsSpec BitsProofs ConcatModel ConcatSpec YfProofs GrammarModel GrammarProofs GrammarProps BinModel BinProofs.
Import ListNotations.
Open Scope list_scope.
Open Scope nat_scope.

Lemma lookup_nodup : forall K V (eqb : K -> K -> bool), (forall a b, eqb a b = true <-> a = b) -> forall (l : list (K * V)) k v,
  NoDup (map fst l) -> (lookup eqb k l = Some v <-> In (k, v) l).
Proof.
  intros K V eqb OK. induction l as [|[k' v'] l IH]; intros k v H; cbn [lookup In]; [split; [discriminate|tauto]|].
  cbn [map fst] in H. inversion H as [|? ? N1 N2]; subst. destruct (eqb k k') eqn:Q.
  - apply OK in Q. subst k'. split; [intros X; injection X as ->; now left|]. intros [X|X]; [injection X as ->; reflexivity|].
    exfalso. apply N1. exact (in_map fst _ _ X).
  - rewrite (IH k v N2). split; [now right|]. intros [X|X]; [|exact X]. injection X as -> ->. assert (eqb k k = true) by (now apply OK). congruence.
Qed.

(** sizes of an encoded yield function *)
Lemma part_bound : forall p m a M, (forall i, (m <= i)%N -> N.testbit a i = false) -> (m + N.of_nat (length p) <= M)%N -> (a < 2 ^ m)%N ->
  (snd (getyf_part p m a) < 2 ^ (m + N.of_nat (length p)))%N.
Proof.
  induction p as [|x p IH]; intros m a M H L B; cbn [getyf_part length snd]; [now rewrite N.add_0_r|].
  assert (E : (m + N.of_nat (S (length p)) = (m + 1) + N.of_nat (length p))%N) by lia. rewrite E.
  assert (P : (2 ^ (m + 1) = 2 * 2 ^ m)%N) by (rewrite N.add_1_r; apply N.pow_succ_r').
  apply (IH (m + 1)%N _ M); [|cbn [length] in L; lia|].
  - intros i Hi. destruct x; [|apply H; lia]. apply N.bits_above_log2. assert (a + 2 ^ m < 2 ^ i)%N by (apply N.lt_le_trans with (2 ^ (m + 1))%N; [lia|apply N.pow_le_mono_r; lia]).
    destruct (N.eq_dec (a + 2 ^ m) 0) as [Z|Z]; [pose proof (N.pow_nonzero 2 m); lia|]. apply N.log2_lt_pow2; lia.
  - destruct x; lia.
Qed.
Lemma below_bits : forall a m, (a < 2 ^ m)%N -> forall i, (m <= i)%N -> N.testbit a i = false.
Proof.
  intros a m H i Hi. destruct (N.eq_dec a 0) as [->|Z]; [apply N.bits_0|]. apply N.bits_above_log2. assert (2 ^ m <= 2 ^ i)%N by (apply N.pow_le_mono_r; lia). apply N.log2_lt_pow2; lia.
Qed.
Lemma lor_bound : forall a b m, (a < 2 ^ m)%N -> (b < 2 ^ m)%N -> (N.lor a b < 2 ^ m)%N.
Proof.
  intros a b m A B. destruct (N.eq_dec (N.lor a b) 0) as [->|Z]; [pose proof (N.pow_nonzero 2 m); lia|].
  apply N.log2_lt_pow2; [lia|]. destruct (N.lt_ge_cases (N.log2 (N.lor a b)) m) as [L|L]; [exact L|].
  pose proof (N.bit_log2 _ Z) as T. rewrite N.lor_spec, (below_bits a m A _ L), (below_bits b m B _ L) in T. discriminate.
Qed.
Lemma loop_bound : forall yf m e, Forall (fun p => p <> []) yf -> (args e < 2 ^ m)%N -> (lengths e < 2 ^ m)%N ->
  (args (getyf_loop yf m e) < 2 ^ (m + N.of_nat (length (concat yf))))%N /\ (lengths (getyf_loop yf m e) < 2 ^ (m + N.of_nat (length (concat yf))))%N.
Proof.
  induction yf as [|p yf IH]; intros m e F A B; cbn [getyf_loop concat length]; [rewrite N.add_0_r; auto|].
  inversion F as [|? ? P F']; subst. pose proof (getyf_part_m p m (args e)) as M.
  pose proof (part_bound p m (args e) _ (below_bits _ _ A) (N.le_refl _) A) as PB.
  destruct (getyf_part p m (args e)) as [m' a']. cbn [fst snd] in *. subst m'.
  rewrite app_length, Nat2N.inj_add, N.add_assoc. apply IH; [exact F'|exact PB|]. cbn [lengths].
  assert (L : (0 < N.of_nat (length p))%N) by (destruct p; [contradiction|cbn [length]; lia]).
  apply lor_bound.
  - eapply N.lt_le_trans; [exact B|]. apply N.pow_le_mono_r; lia.
  - apply N.pow_lt_mono_r; lia.
Qed.
Lemma goodyf_bound : forall l e, goodyf l -> rl_enc l = Some e -> (args e < 2 ^ 32)%N /\ (lengths e < 2 ^ 32)%N.
Proof.
  intros l e (yf & W & L & E) R. unfold rl_enc in R. rewrite E, (readyf_ok yf (proj1 W) L) in R. cbn in R. injection R as <-.
  destruct (loop_bound yf 0 (mkYf 0 0) (proj2 W)) as [A B]; [reflexivity|reflexivity|]. unfold getyf.
  assert (P : (2 ^ (0 + N.of_nat (length (concat yf))) <= 2 ^ 32)%N) by (apply N.pow_le_mono_r; lia). lia.
Qed.

(** what has to be true of the numbers and strings in a grammar to be stored *)
Record storable (encw : Qc -> list N) (decw : list N -> Qc) (g : gram) : Prop := mkStorable {
  s_labels : (N.of_nat (length (tolabel g)) < 2 ^ 32)%N;
  s_rules : (N.of_nat (length (bylhs g)) < 2 ^ 32)%N;
  s_lex : (N.of_nat (length (lexical g)) < 2 ^ 32)%N;
  s_nwords : (N.of_nat (length (lexbyword g)) < 2 ^ 64)%N;
  s_nul : forall l, In l (tolabel g) -> ~ In 0%N l;
  s_wnul : forall e, In e (lexbyword g) -> ~ In 0%N (fst e);
  s_weight : forall q, In q (freqmass g ++ rulecounts g ++ lexcounts g) -> length (encw q) = 8 /\ decw (encw q) = q }.

Lemma get_in : forall l n, n < length l -> In (get l n) l.
Proof. intros l n H. now apply nth_In. Qed.
Lemma numrules_len : forall g h lh, inv g h lh -> numrules g = length (bylhs g).
Proof.
  intros g h lh H. unfold numrules. rewrite (Permutation_length (i_un _ _ _ H)), (Permutation_length (i_lb _ _ _ H)).
  generalize (bylhs g) as l. induction l as [|r l IH]; [reflexivity|]. cbn. destruct (r_rhs2 r =? 0); cbn; lia.
Qed.
Lemma word_entry : forall g e, fanok g -> In e (lexbyword g) -> wordrules g (fst e) = snd e.
Proof.
  intros g [w ns] F I. unfold wordrules. cbn [fst snd]. apply (lookup_nodup _ _ eqs eqs_eq _ w ns (f_words _ F)) in I. now rewrite I.
Qed.

Section RT.
Variables (encw : Qc -> list N) (decw : list N -> Qc).
Variable sortr : (prule -> prule -> bool) -> list prule -> list prule.
Variables (g : gram) (h : list rline) (lh : list entry).
Hypothesis SR : sorts sortr.
Hypothesis H : inv g h lh.
Hypothesis AS : asorted g.
Hypothesis SE : seen g.
Hypothesis F : fanok g.
Hypothesis G : Forall goodyf h.
Hypothesis S : storable encw decw g.

Lemma rule_parts : forall r, In r (bylhs g) -> let '(l, r1, r2, a, ls) := r_key r in
  (N.of_nat l < 2 ^ 32 /\ N.of_nat r1 < 2 ^ 32 /\ N.of_nat r2 < 2 ^ 32 /\ a < 2 ^ 32 /\ ls < 2 ^ 32 /\ N.of_nat (r_no r) < 2 ^ 32)%N /\ r_no r < length (rulecounts g).
Proof using H G S.
  intros r I. pose proof (in_kns _ _ I) as K. pose proof (i_rng _ _ _ H _ _ K) as (R1 & R2 & R3 & _).
  pose proof (kns_lt _ _ _ _ _ H K) as L. destruct (i_has _ _ _ H _ _ K) as (ln & I2 & M). apply matches_spec in M. destruct M as [_ M].
  rewrite Forall_forall in G. pose proof (goodyf_bound _ _ (G _ I2) M) as B. pose proof (s_labels _ _ _ S). pose proof (s_rules _ _ _ S).
  rewrite (i_cnt _ _ _ H). destruct (r_key r) as [[[[l r1] r2] a] ls]. cbn [k_lhs k_rhs1 k_rhs2 kenc args lengths] in *. repeat split; lia.
Qed.
Definition stored (r : prule) : prule := mkRule (r_key r) (r_no r) (get (rulecounts g) (r_no r)).
Lemma rrule_app : forall r b, In r (bylhs g) -> rrule decw (encrule encw r (get (rulecounts g) (r_no r)) ++ b) = Some (stored r, b).
Proof using H G S.
  intros r b I. pose proof (rule_parts r I) as P. unfold encrule, rrule, stored. destruct (r_key r) as [[[[l r1] r2] a] ls] eqn:K.
  destruct P as ((P1 & P2 & P3 & P4 & P5 & P6) & P7).
  destruct (s_weight _ _ _ S (get (rulecounts g) (r_no r))) as [W1 W2].
  { apply in_or_app. right. apply in_or_app. left. now apply get_in. }
  rewrite <- !app_assoc. unfold rweight. rewrite take_app by exact W1. rewrite W2. rewrite !rint_app by (assumption || (change (256 ^ N.of_nat 4)%N with (2 ^ 32)%N; assumption)).
  now rewrite !Nat2N.id.
Qed.
Lemma rlex_app : forall p b, In p (combine (seq 0 (length (lexical g))) (lexical g)) -> rlex decw (enclex encw (fst (snd p)) (get (lexcounts g) (fst p)) ++ b) = Some ((fst (snd p), get (lexcounts g) (fst p)), b).
Proof using H F S.
  intros [n x] b I. cbn [fst snd]. pose proof (in_combine_r _ _ _ _ I) as I2. apply in_combine_l in I. apply in_seq in I.
  pose proof (f_rng _ F _ I2) as R. pose proof (s_labels _ _ _ S) as L. unfold enclex, rlex.
  destruct (s_weight _ _ _ S (get (lexcounts g) n)) as [W1 W2].
  { apply in_or_app. right. apply in_or_app. right. apply get_in. rewrite (i_lcnt _ _ _ H). lia. }
  rewrite <- !app_assoc. unfold rweight. rewrite take_app by exact W1. rewrite W2. rewrite rint_app by (change (256 ^ N.of_nat 4)%N with (2 ^ 32)%N; lia).
  rewrite take_app by reflexivity. now rewrite Nat2N.id.
Qed.
Lemma rwordrules_app : forall e b, In e (lexbyword g) ->
  rwordrules ((le 4 (N.of_nat (length (snd e))) ++ flat_map (fun n => le 4 (N.of_nat n)) (snd e)) ++ b) = Some (snd e, b).
Proof using H F S.
  intros e b I. pose proof (word_entry _ _ F I) as W. pose proof (s_lex _ _ _ S) as L.
  assert (B : forall n, In n (snd e) -> n < length (lexical g)) by (intros n Hn; rewrite <- W in Hn; now apply (i_lex _ _ _ H) in Hn).
  assert (LB : length (snd e) <= length (lexical g)).
  { rewrite <- (seq_length (length (lexical g)) 0). apply NoDup_incl_length; [rewrite <- W; apply (i_lexnd _ _ _ H)|]. intros n Hn. apply in_seq. specialize (B n Hn). lia. }
  unfold rwordrules. rewrite <- app_assoc, rint_app by (change (256 ^ N.of_nat 4)%N with (2 ^ 32)%N; lia). rewrite Nat2N.id.
  rewrite (many_app _ _ (rint 4) (fun n => le 4 (N.of_nat n)) N.of_nat (snd e)).
  - rewrite map_map. erewrite map_ext; [rewrite map_id; reflexivity|]. intros n. apply Nat2N.id.
  - intros n c Hn. apply rint_app. change (256 ^ N.of_nat 4)%N with (2 ^ 32)%N. specialize (B n Hn). lia.
Qed.

(** the grammar that is read *)
Definition reread : gram :=
  let rs := map (fun r => mkRule (r_key r) (r_no r) (get (rulecounts g) (r_no r) / get (freqmass g) (r_lhs r))%Qc) (bylhs g) in
  mkGram (map (fun p => (snd p, fst p)) (rev (combine (seq 0 (length (tolabel g))) (tolabel g)))) (tolabel g) (freqmass g) (fanouts g)
    (kns g) (rulecounts g) rs
    (sortr lt1 (filter (fun r => r_rhs2 r =? 0) rs)) (sortr lt1 (filter (fun r => negb (r_rhs2 r =? 0)) rs)) (sortr lt2 (filter (fun r => negb (r_rhs2 r =? 0)) rs))
    (map (fun p => (fst (snd p), (get (lexcounts g) (fst p) / get (freqmass g) (fst (snd p)))%Qc)) (combine (seq 0 (length (lexical g))) (lexical g)))
    (lexcounts g) (lexbyword g).

Lemma counts_back : fold_left (fun c r => upd c (r_no r) (fun _ => r_prob r)) (map stored (bylhs g)) (repeat 0%Qc (length (bylhs g))) = rulecounts g.
Proof using H.
  apply (nth_ext _ _ 0%Qc 0%Qc).
  - rewrite (fold_upd_length _ r_no _ r_prob), repeat_length. symmetry. apply (i_cnt _ _ _ H).
  - intros i Hi. rewrite (fold_upd_length _ r_no _ r_prob), repeat_length in Hi.
    assert (X : In i (map snd (kns g))). { eapply Permutation_in; [symmetry; apply (i_seq _ _ _ H)|]. apply in_seq. lia. }
    unfold kns in X. rewrite map_map in X. apply in_map_iff in X. destruct X as (r & E & I). cbn [snd] in E.
    rewrite (fold_upd_nth _ r_no _ r_prob 0%Qc i (nth i (rulecounts g) 0%Qc)).
    + assert (T : existsb (fun r0 => r_no r0 =? i) (map stored (bylhs g)) = true).
      { apply existsb_exists. exists (stored r). split; [now apply in_map|]. cbn [stored r_no]. now apply Nat.eqb_eq. }
      now rewrite T.
    + intros r' Hr. apply in_map_iff in Hr. destruct Hr as (r0 & <- & I0). cbn [stored r_no]. rewrite repeat_length. eapply kns_lt; [exact H|]. apply in_kns, I0.
    + intros r' Hr E'. apply in_map_iff in Hr. destruct Hr as (r0 & <- & I0). cbn [stored r_no r_prob] in *. now rewrite E'.
Qed.
Lemma fan_back : fold_left (fun f r => upd f (r_lhs r) (fun _ => popcount (keylengths (r_key r)))) (map stored (bylhs g)) (0%N :: repeat 1%N (length (tolabel g) - 1)) = fanouts g.
Proof using H SE F.
  pose proof (i_two _ _ _ H) as TW.
  assert (LEN : length (0%N :: repeat 1%N (length (tolabel g) - 1)) = length (tolabel g)) by (cbn [length]; rewrite repeat_length; lia).
  apply (nth_ext _ _ 0%N 0%N).
  - rewrite (fold_upd_length _ r_lhs _ (fun r => popcount (keylengths (r_key r)))), LEN. symmetry. apply (i_fan _ _ _ H).
  - intros i Hi. rewrite (fold_upd_length _ r_lhs _ (fun r => popcount (keylengths (r_key r)))), LEN in Hi.
    rewrite (fold_upd_nth _ r_lhs _ (fun r => popcount (keylengths (r_key r))) 0%N i (nth i (fanouts g) 0%N)).
    + destruct (existsb (fun r => r_lhs r =? i) (map stored (bylhs g))) eqn:X; [reflexivity|].
      destruct i as [|i]; [cbn [nth]; symmetry; apply (i_eps _ _ _ H)|].
      assert (O : nth (Datatypes.S i) (fanouts g) 0%N = 1%N).
      { destruct (SE (Datatypes.S i)) as [(r & I & E)|(x & I & E)]; [lia| |rewrite <- E; now apply (f_lex _ F)].
        exfalso. assert (T : existsb (fun r => r_lhs r =? Datatypes.S i) (map stored (bylhs g)) = true); [|congruence].
        apply existsb_exists. exists (stored r). split; [now apply in_map|]. now apply Nat.eqb_eq. }
      rewrite O. cbn [nth]. rewrite (nth_indep _ 0%N 1%N) by (rewrite repeat_length; lia). apply nth_repeat.
    + intros r' Hr. apply in_map_iff in Hr. destruct Hr as (r0 & <- & I0). rewrite LEN. apply (i_rng _ _ _ H (r_key r0) (r_no r0)). now apply in_kns.
    + intros r' Hr E'. apply in_map_iff in Hr. destruct Hr as (r0 & <- & I0). rewrite <- E'. symmetry. exact (f_rule _ F _ _ (in_kns _ _ I0)).
Qed.
Lemma toid_back : forall l i, lookup eqs l (toid reread) = Some i <-> nth_error (tolabel g) i = Some l.
Proof using H.
  intros l i. unfold reread. cbn [toid]. rewrite (lookup_nodup _ _ eqs eqs_eq).
  - rewrite in_map_iff. split.
    + intros ([j x] & E & I). cbn [fst snd] in E. injection E as -> ->. apply in_rev in I. apply In_nth_error in I. destruct I as [n I].
      assert (L : n < length (tolabel g)). { assert (X : n < length (combine (seq 0 (length (tolabel g))) (tolabel g))) by (apply nth_error_Some; congruence). rewrite combine_length, seq_length in X. lia. }
      apply nth_error_nth with (d := (0, [])) in I. rewrite combine_nth, seq_nth in I by (assumption || apply seq_length). injection I as <- <-. cbn [Nat.add]. apply nth_error_nth'. exact L.
    + intros E. assert (L : i < length (tolabel g)) by (apply nth_error_Some; congruence). exists (i, l). split; [reflexivity|]. apply -> in_rev.
      apply (combine_seq_in _ _ _ _ []); [exact L|]. apply nth_error_nth. exact E.
  - rewrite map_map. cbn [fst]. rewrite map_rev. apply NoDup_rev.
    assert (X : map (fun p : nat * pystr => snd p) (combine (seq 0 (length (tolabel g))) (tolabel g)) = tolabel g).
    { generalize 0. induction (tolabel g) as [|x t IH]; intros k; [reflexivity|]. cbn. now rewrite IH. }
    rewrite X. rewrite NoDup_nth_error. intros a b La E. destruct (nth_error (tolabel g) a) as [x|] eqn:Na; [|apply nth_error_None in Na; lia].
    symmetry in E. apply (i_ids _ _ _ H) in Na, E. congruence.
Qed.
Lemma rulenos_back : forall k n, lookup key_eqb k (rulenos reread) = Some n <-> In (k, n) (kns g).
Proof using H.
  intros k n. unfold reread. cbn [rulenos]. apply (lookup_nodup _ _ key_eqb key_eqb_eq).
  rewrite NoDup_nth_error. intros a b La E. rewrite map_length in La. rewrite !nth_error_map in E.
  destruct (nth_error (kns g) a) as [[k1 n1]|] eqn:Na; [|apply nth_error_None in Na; lia]. destruct (nth_error (kns g) b) as [[k2 n2]|] eqn:Nb; [|discriminate].
  cbn in E. injection E as ->. pose proof (proj2 (i_nos _ _ _ H _ _) (nth_error_In _ _ Na)) as A. pose proof (proj2 (i_nos _ _ _ H _ _) (nth_error_In _ _ Nb)) as B. rewrite A in B. injection B as ->.
  pose proof (kns_nodup _ _ _ H) as ND. rewrite NoDup_nth_error in ND. apply ND; [now rewrite map_length|]. now rewrite !nth_error_map, Na, Nb.
Qed.
Lemma inv_lookup : forall t rn, (forall l i, lookup eqs l t = Some i <-> nth_error (tolabel g) i = Some l) -> (forall k n, lookup key_eqb k rn = Some n <-> In (k, n) (kns g)) ->
  inv (mkGram t (tolabel g) (freqmass g) (fanouts g) rn (rulecounts g) (bylhs g) (unary g) (lbinary g) (rbinary g) (lexical g) (lexcounts g) (lexbyword g)) h lh.
Proof using H.
  intros t rn A B. destruct H as [H1 H2 H3 H3' H4 H5 H6 H7 H8 H9 H10 H11 H12 H13 H14 H15 H16 H17 H18 H19 H20 H21 H22 H23 H24 H25 H26 H27].
  constructor; assumption.
Qed.
Lemma reread_keys : kns reread = kns g.
Proof using. unfold kns, reread. cbn [bylhs]. apply kns_map. intros r. split; reflexivity. Qed.
Lemma reread_lex : map fst (lexical reread) = map fst (lexical g).
Proof using.
  unfold reread. cbn [lexical]. rewrite map_map. cbn [fst].
  assert (X : forall l k, map (fun p : nat * (nat * Qc) => fst (snd p)) (combine (seq k (length l)) l) = map fst l) by (induction l as [|x l IH]; intros k; [reflexivity|]; cbn; now rewrite IH).
  apply X.
Qed.
Lemma reread_inv : inv reread h lh.
Proof using H SR.
  pose proof (inv_lookup (toid reread) (rulenos reread) toid_back rulenos_back) as I.
  exact (reprob_inv _ _ _ (bylhs reread) (unary reread) (lbinary reread) (rbinary reread) (lexical reread) I reread_keys reread_lex
    (proj1 (SR lt1 _ lt1_sw)) (proj1 (SR lt1 _ lt1_sw)) (proj1 (SR lt2 _ lt2_sw))).
Qed.
Lemma reread_asorted : asorted reread.
Proof using AS SR.
  destruct AS as (A1 & _). unfold asorted, reread. cbn [bylhs unary lbinary rbinary]. split; [|split; [|split]].
  - apply fsorted_map; [reflexivity|exact A1].
  - set (l := filter _ _). pose proof (resort_fsorted sortr SR r_rhs1 (fun a b => r_lhs a <? r_lhs b) [] l lt1_sw) as X. unfold resort in X. cbn [app length firstn skipn] in X. rewrite imerge_nil_l in X. apply X. constructor.
  - set (l := filter _ _). pose proof (resort_fsorted sortr SR r_rhs1 (fun a b => r_lhs a <? r_lhs b) [] l lt1_sw) as X. unfold resort in X. cbn [app length firstn skipn] in X. rewrite imerge_nil_l in X. apply X. constructor.
  - set (l := filter _ _). pose proof (resort_fsorted sortr SR r_rhs2 (fun a b => Qc_ltb (r_prob a) (r_prob b)) [] l lt2_sw) as X. unfold resort in X. cbn [app length firstn skipn] in X. rewrite imerge_nil_l in X. apply X. constructor.
Qed.
Lemma reread_seen : seen reread.
Proof using SE.
  intros i Hi. unfold reread in Hi. cbn [tolabel] in Hi. destruct (SE i Hi) as [(r & A & B)|(x & A & B)].
  - left. eexists. split; [unfold reread; cbn [bylhs]; apply in_map, A|]. exact B.
  - right. apply (in_map fst) in A. rewrite <- reread_lex in A. apply in_map_iff in A. destruct A as (y & A1 & A2). exists y. split; [exact A2|congruence].
Qed.
Lemma reread_defprob : defprob reread.
Proof using.
  split.
  - intros r Hr. unfold reread in Hr. cbn [bylhs] in Hr. apply in_map_iff in Hr. destruct Hr as (x & <- & _). reflexivity.
  - exact (proj2 (switch_defprob g)).
Qed.
Lemma filter_un : forall rs : list prule, (forall r, In r rs -> r_rhs1 r <> 0) ->
  filter (fun r => negb (negb (r_rhs2 r =? 0)) && negb (r_rhs1 r =? 0)) rs = filter (fun r => r_rhs2 r =? 0) rs.
Proof using.
  intros rs A. apply filter_ext_in. intros r I. specialize (A r I). apply Nat.eqb_neq in A. rewrite A, negb_involutive, andb_true_r. reflexivity.
Qed.
Lemma filter_split : forall A (P : A -> bool) l, length (filter P l) + length (filter (fun x => negb (P x)) l) = length l.
Proof using. intros A P. induction l as [|x l IH]; cbn; [reflexivity|]. destruct (P x); cbn; lia. Qed.
Lemma combine_split' : forall (l : list (pystr * list nat)), combine (map fst l) (map snd l) = l.
Proof using. induction l as [|[a b] l IH]; cbn; [reflexivity|]. now rewrite IH. Qed.

Lemma combine_fst' : forall A B (f : nat -> B) (l : list A) k, map (fun x => f (fst x)) (combine (seq k (length l)) l) = map f (seq k (length l)).
Proof using. intros A B f. induction l as [|x l IH]; intros k; cbn [length seq combine map]; [reflexivity|]. rewrite IH. reflexivity. Qed.
Theorem frombin_tobin : forall pk, frombin decw sortr (tobin encw g pk) = Some (reread, pk).
Proof using H SE F G S SR.
  intros pk. unfold tobin. rewrite (numrules_len _ _ _ H). rewrite <- !app_assoc.
  pose proof (s_labels _ _ _ S) as S1. pose proof (s_rules _ _ _ S) as S2. pose proof (s_lex _ _ _ S) as S3. pose proof (s_nwords _ _ _ S) as S4.
  assert (P32 : (2 ^ 32 < 256 ^ N.of_nat 8)%N) by reflexivity. assert (P64 : (2 ^ 64 <= 256 ^ N.of_nat 8)%N) by (vm_compute; discriminate).
  unfold frombin. rewrite !rint_app by lia. rewrite !Nat2N.id.
  rewrite <- (i_freq _ _ _ H) at 1. rewrite (many_app _ _ (rweight decw) encw (fun q => q) (freqmass g)).
  2: { intros q b I. destruct (s_weight _ _ _ S q) as [W1 W2]; [apply in_or_app; now left|]. unfold rweight. rewrite take_app by exact W1. now rewrite W2. }
  rewrite (many_app _ _ (rrule decw) (fun r => encrule encw r (get (rulecounts g) (r_no r))) stored (bylhs g)) by (intros; now apply rrule_app).
  assert (LC : length (lexical g) = length (combine (seq 0 (length (lexical g))) (lexical g))) by (rewrite combine_length, seq_length; lia).
  rewrite LC at 1.
  rewrite (many_app _ _ (rlex decw) (fun p => enclex encw (fst (snd p)) (get (lexcounts g) (fst p))) (fun p => (fst (snd p), get (lexcounts g) (fst p)))) by (intros; now apply rlex_app).
  rewrite (many_app _ _ cstr (fun l => l ++ [0%N]) (fun l => l) (tolabel g)).
  2: { intros l b I. rewrite <- app_assoc. apply cstr_app. now apply (s_nul _ _ _ S). }
  rewrite (many_app _ _ cstr (fun e => fst e ++ [0%N]) fst (lexbyword g)).
  2: { intros e b I. rewrite <- app_assoc. apply cstr_app. now apply (s_wnul _ _ _ S). }
  rewrite (many_app _ _ rwordrules (fun e => le 4 (N.of_nat (length (snd e))) ++ flat_map (fun n => le 4 (N.of_nat n)) (snd e)) snd (lexbyword g)) by (intros; now apply rwordrules_app).
  rewrite !map_id. rewrite counts_back, fan_back.
  set (rs := map (fun r => mkRule (r_key r) (r_no r) (r_prob r / get (freqmass g) (r_lhs r))%Qc) (map stored (bylhs g))).
  assert (RS : rs = map (fun r => mkRule (r_key r) (r_no r) (get (rulecounts g) (r_no r) / get (freqmass g) (r_lhs r))%Qc) (bylhs g)).
  { unfold rs. rewrite map_map. apply map_ext. intros r. reflexivity. }
  assert (R1 : forall r, In r rs -> r_rhs1 r <> 0).
  { intros r I. rewrite RS in I. apply in_map_iff in I. destruct I as (r0 & <- & I0). apply in_kns in I0. apply (i_rng _ _ _ H) in I0. unfold r_rhs1. cbn [r_key]. lia. }
  rewrite (filter_un rs R1). cbv zeta.
  assert (LR : length (map stored (bylhs g)) = length rs) by (rewrite RS; now rewrite !map_length).
  rewrite LR, filter_split, Nat.eqb_refl. cbn [negb].
  unfold resort. rewrite firstn_all, skipn_all. cbn [firstn skipn]. rewrite !imerge_nil_l.
  assert (E0 : sortr lt0 [] = []) by (apply Permutation_nil; symmetry; apply (proj1 (SR lt0 [] lt0_sw))). rewrite E0, imerge_nil_r.
  rewrite combine_split', !map_map. cbn [fst snd]. do 2 f_equal. unfold reread. rewrite <- RS.
  f_equal; try (rewrite <- reread_keys; unfold kns, reread; cbn [bylhs]; now rewrite <- RS).
  - rewrite combine_fst'. rewrite <- (i_lcnt _ _ _ H). clear. apply (nth_ext _ _ (get (lexcounts g) 0) 0%Qc); rewrite ?map_length, ?seq_length; [reflexivity|].
    intros i Hi. rewrite (map_nth (fun n => get (lexcounts g) n)), seq_nth by exact Hi. reflexivity.
Qed.
End RT.

Lemma list_sum_add : forall A (f k : A -> nat) l, list_sum (map (fun x => f x + k x) l) = list_sum (map f l) + list_sum (map k l).
Proof. intros A f k. induction l as [|x l IH]; cbn; [reflexivity|]. unfold list_sum in *. cbn. rewrite IH. lia. Qed.
Lemma flat_length : forall A B (f : A -> list B) (k : A -> nat) l, (forall x, In x l -> length (f x) = k x) -> length (flat_map f l) = list_sum (map k l).
Proof. intros A B f k. induction l as [|x l IH]; intros E; cbn; [reflexivity|]. rewrite app_length, E by now left. rewrite IH by (intros; apply E; now right). reflexivity. Qed.
Lemma list_sum_const : forall A c (l : list A), list_sum (map (fun _ => c) l) = length l * c.
Proof. intros A c. induction l as [|x l IH]; cbn; [reflexivity|]. unfold list_sum in *. cbn. rewrite IH. reflexivity. Qed.
Theorem tobin_length : forall encw g h lh pk, inv g h lh -> (forall q, In q (freqmass g ++ rulecounts g ++ lexcounts g) -> length (encw q) = 8) ->
  length (tobin encw g pk) = buflen g + length pk.
Proof.
  intros encw g h lh pk H W. unfold tobin, buflen. rewrite (numrules_len _ _ _ H), !app_length, !le_length.
  rewrite (flat_length _ _ encw (fun _ => 8)) by (intros q I; apply W; apply in_or_app; now left).
  rewrite (flat_length _ _ (fun r => encrule encw r (get (rulecounts g) (r_no r))) (fun _ => 32)).
  2: { intros r I. assert (E : length (encw (get (rulecounts g) (r_no r))) = 8).
    { apply W. apply in_or_app. right. apply in_or_app. left. apply get_in. rewrite (i_cnt _ _ _ H). eapply kns_lt; [exact H|]. apply in_kns, I. }
    unfold encrule. destruct (r_key r) as [[[[l r1] r2] a] ls]. rewrite !app_length, !le_length, E. reflexivity. }
  rewrite (flat_length _ _ (fun p => enclex encw (fst (snd p)) (get (lexcounts g) (fst p))) (fun _ => 16)).
  2: { intros [n x] I. apply in_combine_l, in_seq in I. cbn [fst snd]. assert (E : length (encw (get (lexcounts g) n)) = 8).
    { apply W. apply in_or_app. right. apply in_or_app. right. apply get_in. rewrite (i_lcnt _ _ _ H). lia. }
    unfold enclex. rewrite !app_length, le_length, E. reflexivity. }
  rewrite (flat_length _ _ (fun l => l ++ [0%N]) (fun l => length l + 1)) by (intros; now rewrite app_length).
  rewrite (flat_length _ _ (fun e => fst e ++ [0%N]) (fun e => length (fst e) + 1)) by (intros; now rewrite app_length).
  rewrite (flat_length _ _ (fun e => le 4 (N.of_nat (length (snd e))) ++ flat_map (fun n => le 4 (N.of_nat n)) (snd e)) (fun e => (length (snd e) + 1) * 4)).
  2: { intros e _. rewrite app_length, le_length, (flat_length _ _ (fun n => le 4 (N.of_nat n)) (fun _ => 4)) by (intros; apply le_length). rewrite list_sum_const. lia. }
  rewrite !list_sum_const, combine_length, seq_length, Nat.min_id.
  rewrite (list_sum_add _ (fun e : pystr * list nat => length (fst e) + 1) (fun e => (length (snd e) + 1) * 4)). lia.
Qed.
