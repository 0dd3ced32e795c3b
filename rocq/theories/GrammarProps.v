(** C30: weights in a Grammar are relative frequencies; C48: the rule indexes;
    C49: numbering of labels and rules. *)
From Coq Require Import String.
From Coq Require Import List Bool Arith NArith QArith Qcanon Ascii Lia Permutation Sorted.
From Verif Require Import PyStr ConcatModel LcfrsModel GrammarModel GrammarProofs.
Import ListNotations.
Open Scope list_scope.
Open Scope nat_scope.

(** the lines read so far *)
Definition all_rules (rules : list rline) (calls : list (list rline * list lline)) : list rline := rules ++ flat_map fst calls.
Definition all_entries (lexicon : list lline) (calls : list (list rline * list lline)) : list entry := entries lexicon ++ flat_map (fun c => entries (snd c)) calls.

Lemma history_inv : forall sortr sortn, sorts sortr -> sorts sortn -> forall calls g h lh g', inv g h lh -> asorted g -> seen g -> history sortr sortn g calls = Some g' ->
  inv g' (h ++ flat_map fst calls) (lh ++ flat_map (fun c => entries (snd c)) calls) /\ asorted g' /\ seen g' /\ (calls <> [] \/ defprob g -> defprob g') /\ (exists m, tolabel g' = tolabel g ++ m).
Proof.
  intros sortr sortn SR SN. induction calls as [|[rules lexicon] calls IH]; intros g h lh g' H SO SE E; cbn [history] in E.
  - injection E as <-. cbn. rewrite !app_nil_r. split; [assumption|]. split; [assumption|]. split; [assumption|]. split; [tauto|]. exists []. now rewrite app_nil_r.
  - destruct (addrules sortr sortn false g rules lexicon) as [g1|] eqn:A; [|discriminate]. destruct (addrules_inv _ _ SR SN _ _ _ _ _ _ _ H SO A) as (B1 & B2 & B3 & B4 & m1 & B5).
    destruct (IH _ _ _ _ B1 B2 B3 E) as (C1 & C2 & C3 & C4 & m2 & C5). cbn [flat_map fst snd]. rewrite <- !app_assoc in C1. split; [assumption|]. split; [assumption|]. split; [assumption|]. split; [auto|].
    exists (m1 ++ m2). rewrite C5, B5. now rewrite app_assoc.
Qed.
Lemma empty_asorted : forall start, asorted (empty start).
Proof. intros. repeat split; constructor. Qed.
Lemma grammar_inv : forall sortr sortn, sorts sortr -> sorts sortn -> forall start rules lexicon calls g, start <> Epsilon -> grammar sortr sortn start rules lexicon calls = Some g ->
  inv g (all_rules rules calls) (all_entries lexicon calls) /\ asorted g /\ seen g /\ (calls <> [] -> defprob g) /\ (exists m, tolabel g = Epsilon :: start :: m).
Proof.
  intros sortr sortn SR SN start rules lexicon calls g NE E. unfold grammar in E. destruct (addrules sortr sortn true (empty start) rules lexicon) as [g1|] eqn:A; [|discriminate].
  destruct (addrules_inv _ _ SR SN _ _ _ _ _ _ _ (empty_inv start NE) (empty_asorted start) A) as (B1 & B2 & B3 & _ & m1 & B5).
  destruct (history_inv _ _ SR SN _ _ _ _ _ B1 B2 B3 E) as (C1 & C2 & C3 & C4 & m2 & C5). cbn [app] in C1.
  split; [exact C1|]. split; [assumption|]. split; [assumption|]. split; [auto|]. exists (m1 ++ m2). rewrite C5, B5. reflexivity.
Qed.

(** ** The first call normalizes the weights as they are stored *)
(** no two lines for the same rule *)
Definition distinct_rules (rules : list rline) : Prop := forall i j a b, nth_error rules i = Some a -> nth_error rules j = Some b ->
  rl_labels a = rl_labels b -> rl_enc a = rl_enc b -> i = j.
Definition distinct_entries (es : list entry) : Prop := forall i j a b, nth_error es i = Some a -> nth_error es j = Some b -> en_word a = en_word b -> en_tag a = en_tag b -> i = j.
Lemma total_single : forall A (w : A -> Qc) P l x, In x l -> P x = true -> (forall i j a b, nth_error l i = Some a -> nth_error l j = Some b -> P a = true -> P b = true -> i = j) -> total w P l = w x.
Proof.
  induction l as [|y l IH]; intros x I E U; [contradiction|]. simpl. destruct (P y) eqn:Ey.
  - rewrite total_none.
    + destruct I as [->|I]; [ring|]. apply In_nth_error in I. destruct I as [n I]. specialize (U 0 (S n) y x eq_refl I Ey E). discriminate.
    + intros z Hz. destruct (P z) eqn:Ez; [|reflexivity]. apply In_nth_error in Hz. destruct Hz as [n Hz]. specialize (U 0 (S n) y z eq_refl Hz Ey Ez). discriminate.
  - destruct I as [->|I]; [congruence|]. apply IH; auto. intros i j a b Ha Hb Pa Pb. specialize (U (S i) (S j) a b Ha Hb Pa Pb). lia.
Qed.
Lemma init_defprob : forall sortr sortn, sorts sortr -> sorts sortn -> forall start rules lexicon g, start <> Epsilon -> distinct_rules rules -> distinct_entries (entries lexicon) ->
  addrules sortr sortn true (empty start) rules lexicon = Some g -> defprob g.
Proof.
  intros sortr sortn SR SN start rules lexicon g NE DR DE E. destruct (addrules_inv _ _ SR SN _ _ _ _ _ _ _ (empty_inv start NE) (empty_asorted start) E) as (IG & _). cbn [app] in IG.
  unfold addrules in E. destruct (convertrules (empty start) rules) as [g1|] eqn:C1; [|discriminate]. destruct (convertlexicon sortn true g1 lexicon) as [g2|] eqn:C2; [|discriminate].
  assert (C1' : fold_opt convertrule (empty start) rules = Some g1). { unfold convertrules in C1. destruct (fold_opt convertrule (empty start) rules) as [x|]; [|discriminate]. destruct (numrules x =? 0); [discriminate|assumption]. }
  assert (C2' : fold_opt (convertword sortn true) g1 lexicon = Some g2). { unfold convertlexicon in C2. destruct (fold_opt _ g1 lexicon) as [x|]; [|discriminate]. destruct (lexical x); [discriminate|assumption]. }
  assert (P0 : pinv (empty start) [] []) by (constructor; intros; contradiction).
  destruct (convertrules_inv _ _ _ _ _ (empty_inv start NE) C1') as (I1 & P1 & _). destruct (convertlexicon_inv _ SN _ _ _ _ _ _ I1 C2') as (I2 & P2 & _). destruct (P2 (P1 P0)) as [Q1 Q2]. cbn [app] in *.
  destruct (negb (allseen _)); [discriminate|]. injection E as <-. split.
  - intros r Hr. cbn [bylhs] in Hr. eapply Permutation_in in Hr; [|apply resort_perm; [exact SR|apply lt0_sw]]. unfold normalize in Hr. cbn [bylhs] in Hr. apply in_map_iff in Hr. destruct Hr as (x & <- & Hx).
    cbn [r_prob r_no r_key r_lhs rulecounts freqmass]. unfold normalize. cbn [rulecounts freqmass]. unfold r_lhs. cbn [r_key]. f_equal.
    destruct (Q1 x Hx) as (ln & A & B & <-). rewrite (i_sum _ _ _ I2 _ _ (in_kns _ _ Hx)). symmetry. apply total_single; auto.
    intros i j a b Ha Hb Ma Mb. apply matches_spec in Ma. apply matches_spec in Mb. destruct Ma, Mb. eapply DR; eauto; congruence.
  - unfold lexlhs. cbn [lexical lexcounts freqmass]. unfold normalize. cbn [lexical lexcounts freqmass]. intros n Hn. rewrite map_length in Hn.
    set (f := fun x : nat * Qc => (fst x, (snd x / get (freqmass g2) (fst x))%Qc)). assert (X : nth n (map f (lexical g2)) (0, 0%Qc) = f (nth n (lexical g2) (0, 0%Qc))).
    { rewrite (nth_indep _ _ (f (0, 0%Qc))) by (now rewrite map_length). apply map_nth. }
    rewrite X. cbn [f fst snd]. f_equal. destruct (i_lexall _ _ _ I2 n Hn) as [w Hw]. destruct (Q2 w n Hw) as (e & A & B & C & <-). destruct (i_lex _ _ _ I2 w n Hw) as [_ ->].
    symmetry. apply total_single; [assumption|rewrite B, C, !eqs_refl; reflexivity|]. intros i j a b Ha Hb Ma Mb. apply andb_true_iff in Ma. apply andb_true_iff in Mb. destruct Ma as [Ma1 Ma2], Mb as [Mb1 Mb2].
    apply eqs_eq in Ma1, Ma2, Mb1, Mb2. eapply DE; eauto; congruence.
Qed.

(** ** C30 *)
(** The probabilities of a grammar that are in use are the normalized counts if
    the weights were added up by a later addrules call, or if the files the
    grammar was created with list no rule twice. *)
Definition normalized (rules : list rline) (lexicon : list lline) (calls : list (list rline * list lline)) : Prop :=
  calls <> [] \/ (distinct_rules rules /\ distinct_entries (entries lexicon)).
Lemma grammar_defprob : forall sortr sortn, sorts sortr -> sorts sortn -> forall start rules lexicon calls g, start <> Epsilon -> grammar sortr sortn start rules lexicon calls = Some g ->
  normalized rules lexicon calls -> defprob g.
Proof.
  intros sortr sortn SR SN start rules lexicon calls g NE E N. destruct calls as [|c calls].
  - destruct N as [N|[D1 D2]]; [congruence|]. unfold grammar in E. destruct (addrules sortr sortn true (empty start) rules lexicon) as [g1|] eqn:A; [|discriminate]. cbn in E. injection E as <-. eapply init_defprob; eauto.
  - eapply (grammar_inv _ _ SR SN); eauto. discriminate.
Qed.

(** the total weight of the lines with left-hand side [l] *)
Definition lhs_weight (rules : list rline) (es : list entry) (l : pystr) : Qc :=
  (total rl_weight (fun ln => eqs (rl_lhs ln) l) rules + total en_weight (fun e => eqs (en_tag e) l) es)%Qc.

(** The probability of each rule is the weight of its lines (those with the same
    labels and yield function) over the weight of all lines with its left-hand
    side; each line that was read has its rule. *)
Theorem C30_rule_probability : forall sortr sortn, sorts sortr -> sorts sortn -> forall start rules lexicon calls g, start <> Epsilon ->
  grammar sortr sortn start rules lexicon calls = Some g -> normalized rules lexicon calls ->
  (forall r, In r (bylhs g) -> r_prob r =
    (total rl_weight (matches (tolabel g) (r_key r)) (all_rules rules calls) / lhs_weight (all_rules rules calls) (all_entries lexicon calls) (name g (r_lhs r)))%Qc) /\
  (forall ln, In ln (all_rules rules calls) -> exists r, In r (bylhs g) /\ matches (tolabel g) (r_key r) ln = true).
Proof.
  intros sortr sortn SR SN start rules lexicon calls g NE E N. destruct (grammar_inv _ _ SR SN _ _ _ _ _ NE E) as (I & _). destruct (grammar_defprob _ _ SR SN _ _ _ _ _ NE E N) as [D _]. split.
  - intros r Hr. rewrite (D r Hr). rewrite (i_sum _ _ _ I _ _ (in_kns _ _ Hr)). unfold lhs_weight. rewrite <- (i_mass _ _ _ I); [reflexivity|]. apply (i_rng _ _ _ I _ _ (in_kns _ _ Hr)).
  - intros ln Hln. destruct (i_all _ _ _ I ln Hln) as (k & n & A & B). unfold kns in A. apply in_map_iff in A. destruct A as (r & X & Hr). apply pair_equal_spec in X. destruct X as [<- _]. eauto.
Qed.
(** The same for the rules for words; [wordrules] are the rules found for a word. *)
Theorem C30_lexical_probability : forall sortr sortn, sorts sortr -> sorts sortn -> forall start rules lexicon calls g, start <> Epsilon ->
  grammar sortr sortn start rules lexicon calls = Some g -> normalized rules lexicon calls ->
  (forall w n, In n (wordrules g w) -> exists lhs p, nth_error (lexical g) n = Some (lhs, p) /\ p =
    (total en_weight (fun e => eqs (en_word e) w && eqs (en_tag e) (name g lhs)) (all_entries lexicon calls) / lhs_weight (all_rules rules calls) (all_entries lexicon calls) (name g lhs))%Qc) /\
  (forall e, In e (all_entries lexicon calls) -> exists n lhs p, In n (wordrules g (en_word e)) /\ nth_error (lexical g) n = Some (lhs, p) /\ name g lhs = en_tag e).
Proof.
  intros sortr sortn SR SN start rules lexicon calls g NE E N. destruct (grammar_inv _ _ SR SN _ _ _ _ _ NE E) as (I & _). destruct (grammar_defprob _ _ SR SN _ _ _ _ _ NE E N) as [_ D]. split.
  - intros w n Hn. destruct (i_lex _ _ _ I w n Hn) as [L X]. specialize (D n L). exists (lexlhs g n), (snd (nth n (lexical g) (0, 0%Qc))). split.
    + rewrite (nth_error_nth' _ (0, 0%Qc) L). unfold lexlhs. now destruct (nth n (lexical g) (0, 0%Qc)).
    + rewrite D, X. unfold lhs_weight. rewrite <- (i_mass _ _ _ I); [reflexivity|]. now apply (i_lrng _ _ _ I).
  - intros e He. destruct (i_lexocc _ _ _ I e He) as (n & A & B). destruct (i_lex _ _ _ I _ n A) as [L _]. exists n, (lexlhs g n), (snd (nth n (lexical g) (0, 0%Qc))). split; [assumption|]. split; [|assumption].
    rewrite (nth_error_nth' _ (0, 0%Qc) L). unfold lexlhs. now destruct (nth n (lexical g) (0, 0%Qc)).
Qed.
Lemma freqmass_pos : forall g h lh i, inv g h lh -> seen g -> 1 <= i < length (tolabel g) -> (0 < get (freqmass g) i)%Qc.
Proof.
  intros g h lh i I SE Hi. rewrite (i_mass _ _ _ I) by lia.
  assert (N1 : (0 <= total rl_weight (fun l => eqs (rl_lhs l) (name g i)) h)%Qc) by (apply total_nonneg; intros; apply Qclt_le_weak; now apply (i_pos _ _ _ I)).
  assert (N2 : (0 <= total en_weight (fun e => eqs (en_tag e) (name g i)) lh)%Qc) by (apply total_nonneg; intros; apply Qclt_le_weak; now apply (i_lpos _ _ _ I)).
  destruct (SE i Hi) as [(r & A & B)|(x & A & B)].
  - destruct (i_has _ _ _ I _ _ (in_kns _ _ A)) as (ln & X & Y). apply Qclt_sum; [|assumption]. eapply total_pos; [|exact X|].
    + intros y Hy _. now apply (i_pos _ _ _ I).
    + cbn. apply eqs_eq. apply matches_spec in Y. destruct Y as [Y _]. unfold rl_lhs. rewrite Y. cbn. now rewrite <- B.
  - apply In_nth with (d := (0, 0%Qc)) in A. destruct A as (n & A & D). destruct (i_lexall _ _ _ I n A) as [w Hw]. destruct (i_lhas _ _ _ I w n Hw) as (e & X & _ & Y).
    rewrite Qcplus_comm. apply Qclt_sum; [|assumption]. eapply total_pos; [|exact X|].
    + intros y Hy _. now apply (i_lpos _ _ _ I).
    + cbn. apply eqs_eq. rewrite Y. unfold lexlhs. now rewrite D, B.
Qed.
Lemma defprob_sum : forall g h lh i, inv g h lh -> seen g -> defprob g -> 1 <= i < length (tolabel g) ->
  (total r_prob (fun r => r_lhs r =? i) (bylhs g) + total snd (fun x => fst x =? i) (lexical g) = 1)%Qc.
Proof.
  intros g h lh i I SE [D1 D2] Hi. pose proof (freqmass_pos _ _ _ _ I SE Hi) as P. pose proof (i_mass' _ _ _ I i ltac:(lia)) as M.
  assert (S1 : total r_prob (fun r => r_lhs r =? i) (bylhs g) = (total (fun p => get (rulecounts g) (snd p)) (fun p => k_lhs (fst p) =? i) (kns g) / get (freqmass g) i)%Qc).
  { rewrite <- total_scale. unfold kns. rewrite total_map. cbn [fst snd]. apply total_ext; [reflexivity|]. intros r Hr X. rewrite (D1 r Hr). apply Nat.eqb_eq in X. unfold r_lhs in *. now rewrite X. }
  assert (S2 : total snd (fun x => fst x =? i) (lexical g) = (total (fun p => get (lexcounts g) (fst p)) (fun p => snd p =? i) (lxs g) / get (freqmass g) i)%Qc).
  { rewrite <- total_scale. unfold lxs.
    assert (G : forall l k, (forall n, n < length l -> nth_error (lexical g) (k + n) = nth_error l n) -> total snd (fun x : nat * Qc => fst x =? i) l = total (fun x => (get (lexcounts g) (fst x) / get (freqmass g) i)%Qc) (fun p => snd p =? i) (enumerate k (map fst l))).
    { induction l as [|x l IH]; intros k G; [reflexivity|]. cbn [map enumerate total fold_right fst snd]. fold (total snd (fun x : nat * Qc => fst x =? i) l). rewrite (IH (S k)).
      - destruct (fst x =? i) eqn:X; [|reflexivity]. f_equal. specialize (G 0 ltac:(cbn; lia)). rewrite Nat.add_0_r in G. cbn in G. assert (L : k < length (lexical g)) by (apply nth_error_Some; congruence).
        specialize (D2 k L). unfold lexlhs in D2. rewrite (nth_error_nth _ _ (0, 0%Qc) G) in D2. rewrite D2. apply Nat.eqb_eq in X. now rewrite X.
      - intros n Hn. specialize (G (S n) ltac:(cbn; lia)). rewrite <- Nat.add_succ_comm in G. exact G. }
    apply G. reflexivity. }
  rewrite S1, S2. replace 1%Qc with (get (freqmass g) i / get (freqmass g) i)%Qc; [rewrite M at 3; unfold Qcdiv; ring|]. field. intros X. rewrite X in P. now apply Qclt_not_eq in P.
Qed.
(** For each nonterminal the probabilities of its rules sum to exactly one. *)
Theorem C30_sum_to_one : forall sortr sortn, sorts sortr -> sorts sortn -> forall start rules lexicon calls g, start <> Epsilon ->
  grammar sortr sortn start rules lexicon calls = Some g -> normalized rules lexicon calls ->
  forall i, 1 <= i < length (tolabel g) -> (total r_prob (fun r => r_lhs r =? i) (bylhs g) + total snd (fun x => fst x =? i) (lexical g) = 1)%Qc.
Proof.
  intros sortr sortn SR SN start rules lexicon calls g NE E N i Hi. destruct (grammar_inv _ _ SR SN _ _ _ _ _ NE E) as (I & _ & SE & _). eapply defprob_sum; eauto. eapply (grammar_defprob _ _ SR SN); eauto.
Qed.
(** The arrays used to look up rules by daughter hold the same rules with the same
    probabilities. *)
Theorem C30_same_in_all_arrays : forall sortr sortn, sorts sortr -> sorts sortn -> forall start rules lexicon calls g, start <> Epsilon ->
  grammar sortr sortn start rules lexicon calls = Some g ->
  Permutation (unary g ++ lbinary g) (bylhs g) /\ Permutation (rbinary g) (lbinary g) /\
  (forall r, In r (unary g) <-> In r (bylhs g) /\ r_rhs2 r = 0) /\ (forall r, In r (lbinary g) <-> In r (bylhs g) /\ r_rhs2 r <> 0).
Proof.
  intros sortr sortn SR SN start rules lexicon calls g NE E. destruct (grammar_inv _ _ SR SN _ _ _ _ _ NE E) as (I & _). pose proof (i_un _ _ _ I) as U. pose proof (i_lb _ _ _ I) as L. pose proof (i_rb _ _ _ I) as R. split; [|split; [|split]].
  - rewrite U, L. generalize (bylhs g) as l. induction l as [|r l IH]; [reflexivity|]. cbn. destruct (r_rhs2 r =? 0); cbn; [now apply perm_skip|]. rewrite <- Permutation_middle. now apply perm_skip.
  - now rewrite R, L.
  - intros r. rewrite (Permutation_in' eq_refl U), filter_In, Nat.eqb_eq. reflexivity.
  - intros r. rewrite (Permutation_in' eq_refl L), filter_In, negb_true_iff, Nat.eqb_neq. reflexivity.
Qed.

(** incrementrulecount(n, w) has the effect of reading one more line for the rule
    with number n; after switch('default') the probabilities sum to one again. *)
Theorem C30_incrementrulecount : forall sortr sortn, sorts sortr -> sorts sortn -> forall start rules lexicon calls g, start <> Epsilon ->
  grammar sortr sortn start rules lexicon calls = Some g -> forall r w, In r (bylhs g) -> (0 < w)%Qc ->
  exists g', incrementrulecount g (r_no r) w = Some g' /\ forall i, 1 <= i < length (tolabel g) ->
    (total r_prob (fun r => r_lhs r =? i) (bylhs (switch g')) + total snd (fun x => fst x =? i) (lexical (switch g')) = 1)%Qc /\
    (forall r', In r' (bylhs (switch g')) -> r_no r' = r_no r -> r_prob r' =
      ((total rl_weight (matches (tolabel g) (r_key r)) (all_rules rules calls) + w) / (lhs_weight (all_rules rules calls) (all_entries lexicon calls) (name g (r_lhs r)) + w))%Qc).
Proof.
  intros sortr sortn SR SN start rules lexicon calls g NE E r w Hr W. destruct (grammar_inv _ _ SR SN _ _ _ _ _ NE E) as (I & _ & SE & _).
  pose proof (byno_in _ _ (nodup_nos _ _ _ I) Hr) as B. unfold incrementrulecount. rewrite B. eexists. split; [reflexivity|].
  destruct (i_has _ _ _ I _ _ (in_kns _ _ Hr)) as (ln & X & Y).
  set (ln' := (fst ln, w) : rline). assert (Y' : matches (tolabel g) (r_key r) ln' = true) by exact Y.
  destruct (addrule_inv _ _ _ (r_key r) w ln' I (i_rng _ _ _ I _ _ (in_kns _ _ Hr)) W Y' eq_refl) as (I' & T & _).
  assert (L : lookup key_eqb (r_key r) (rulenos g) = Some (r_no r)) by (apply (i_nos _ _ _ I); now apply in_kns).
  unfold addrule in I', T. rewrite L in I', T. change (k_lhs (r_key r)) with (r_lhs r) in *. set (g' := mkGram _ _ _ _ _ _ _ _ _ _ _ _ _) in *. intros i Hi.
  assert (SE' : seen (switch g')).
  { intros j Hj. destruct (SE j Hj) as [(x & A & D)|(x & A & D)].
    - left. eexists. split; [unfold switch; cbn [bylhs]; apply in_map, A|]. exact D.
    - right. unfold switch. cbn [lexical]. apply In_nth with (d := (0, 0%Qc)) in A. destruct A as (n & A & F). set (k := fun p : nat * (nat * Qc) => _). exists (k (n, x)). split; [|exact D]. apply in_map. eapply combine_seq_in; eauto. }
  split.
  - eapply defprob_sum; [apply switch_inv, I'|exact SE'|apply switch_defprob|exact Hi].
  - intros r' Hr' EQ. destruct (switch_defprob g') as [D _]. rewrite (D r' Hr'). rewrite EQ.
    assert (K : r_key r' = r_key r).
    { unfold switch in Hr'. cbn [bylhs] in Hr'. apply in_map_iff in Hr'. destruct Hr' as (x & <- & Hx). cbn [r_no r_key] in *. change (bylhs g') with (bylhs g) in Hx. f_equal.
      pose proof (byno_in _ _ (nodup_nos _ _ _ I) Hx) as Bx. rewrite EQ, B in Bx. congruence. }
    unfold r_lhs at 1. rewrite K. cbn [switch rulecounts freqmass]. change (k_lhs (r_key r)) with (r_lhs r).
    assert (Hr2 : In (r_key r, r_no r) (kns g')) by (apply in_kns; exact Hr). rewrite (i_sum _ _ _ I' _ _ Hr2). rewrite (i_mass _ _ _ I') by apply (i_rng _ _ _ I' _ _ Hr2).
    assert (SNOC : forall P, total rl_weight P (all_rules rules calls ++ [ln']) = (total rl_weight P (all_rules rules calls) + (if P ln' then w else 0))%Qc).
    { intros P. rewrite total_app. simpl. destruct (P ln'); unfold ln', rl_weight; cbn [snd]; ring. }
    rewrite !SNOC. unfold lhs_weight. change (tolabel g') with (tolabel g). change (name g' (r_lhs r)) with (name g (r_lhs r)). rewrite Y'.
    assert (EL : eqs (rl_lhs ln') (name g (r_lhs r)) = true). { apply eqs_eq. apply matches_spec in Y'. destruct Y' as [Y' _]. unfold rl_lhs. rewrite Y'. reflexivity. }
    rewrite EL. f_equal; ring.
Qed.

(** A rule listed twice in the files a Grammar is created from keeps the weight of
    its first line, over the total of both: the probabilities do not sum to one. *)
Definition q (z : Z) : Qc := Q2Qc (z # 1).
Fixpoint isort {A} (lt : A -> A -> bool) (l : list A) : list A :=
  match l with [] => [] | x :: r => (fix ins (l : list A) := match l with [] => [x] | y :: r => if lt y x then y :: ins r else x :: l end) (isort lt r) end.
Definition dup_rules : list rline := [([str "S"; str "A"], list_ascii_of_string "0", q 1); ([str "S"; str "A"], list_ascii_of_string "0", q 1)].
Definition dup_lexicon : list lline := [(str "a", [(str "A", q 1)])].
Lemma isort_sorts : forall A, sorts (@isort A).
Proof.
  intros A lt l (I & T & N). 
  set (ins := fun x => fix ins (l : list A) := match l with [] => [x] | y :: r => if lt y x then y :: ins r else x :: l end).
  assert (P : forall x l, Permutation (ins x l) (x :: l)). { intros x m. induction m as [|y m IH]; cbn; [reflexivity|]. destruct (lt y x); [|reflexivity]. fold (ins x m). rewrite IH. apply perm_swap. }
  assert (AS : forall a b, lt a b = true -> lt b a = false). { intros a b H. destruct (lt b a) eqn:E; [|reflexivity]. specialize (T a b a H E). rewrite I in T. discriminate. }
  assert (Q : forall x l, StronglySorted (fun a b => lt b a = false) l -> StronglySorted (fun a b => lt b a = false) (ins x l)).
  { intros x m. induction 1 as [|y m S IH F]; cbn; [repeat constructor|]. destruct (lt y x) eqn:E.
    - fold (ins x m). constructor; [exact IH|]. rewrite P. constructor; [now apply AS|assumption].
    - constructor; [now constructor|]. constructor; [assumption|]. eapply Forall_impl; [|exact F]. cbn. intros z Hz. eapply N; eauto. }
  split; induction l as [|x l IH]; cbn; try constructor.
  - fold (ins x (isort lt l)). now rewrite P, IH.
  - fold (ins x (isort lt l)). apply Q, IH.
Qed.
Theorem C30_duplicate_lines_refuted : exists g, grammar isort isort (str "S") dup_rules dup_lexicon [] = Some g /\ nth_error (tolabel g) 1 = Some (str "S") /\
  (total r_prob (fun r => r_lhs r =? 1) (bylhs g) + total snd (fun x => fst x =? 1) (lexical g) = Q2Qc (1 # 2))%Qc.
Proof. eexists. split; [vm_compute; reflexivity|]. split; [reflexivity|]. apply Qc_is_canon. reflexivity. Qed.

(** ** C48: looking up rules by label *)
Lemma index_loop_skip : forall field l n prev dest lab, (forall r, In r l -> field r <> lab) -> nth lab (index_loop field l n prev dest) 0 = nth lab dest 0.
Proof.
  induction l as [|r l IH]; intros n prev dest lab H; cbn; [reflexivity|]. rewrite IH by (intros; apply H; now right). destruct (field r =? prev); [reflexivity|].
  assert (X : field r <> lab) by (apply H; now left). clear - X. revert dest. generalize dependent lab. generalize (field r) as i. induction i as [|i IH]; intros lab X [|d dest]; cbn; auto; destruct lab; try congruence; auto.
Qed.
Lemma index_loop_app : forall field a b n prev dest, index_loop field (a ++ b) n prev dest = index_loop field b (n + length a) (last (map field a) prev) (index_loop field a n prev dest).
Proof.
  induction a as [|r a IH]; intros b n prev dest; [cbn; now rewrite Nat.add_0_r|]. cbn [app index_loop length map]. rewrite IH. rewrite <- Nat.add_succ_comm. f_equal.
  clear. destruct a as [|r' a]; [reflexivity|]. cbn [map last]. revert r'. induction a as [|x a IH]; intros r'; [reflexivity|]. cbn [map]. cbn. destruct (map field a); [reflexivity|]. specialize (IH x). cbn in IH. exact IH.
Qed.
Lemma index_loop_same : forall field l n prev dest, (forall r, In r l -> field r = prev) -> index_loop field l n prev dest = dest.
Proof. induction l as [|r l IH]; intros n prev dest H; cbn; [reflexivity|]. rewrite (H r (or_introl eq_refl)), Nat.eqb_refl. apply IH. intros. apply H. now right. Qed.
Lemma index_loop_length : forall field l n prev dest, length (index_loop field l n prev dest) = length dest.
Proof. induction l as [|r l IH]; intros; cbn; [reflexivity|]. rewrite IH. destruct (field r =? prev); [reflexivity|apply upd_length]. Qed.
(** a sorted array is what is below, at, and above a label *)
Lemma split3 : forall (field : prule -> nat) lab l, fsorted field l -> exists a c, l = a ++ filter (fun r => field r =? lab) l ++ c /\ (forall r, In r a -> field r < lab) /\ (forall r, In r c -> lab < field r).
Proof.
  intros field lab l. unfold fsorted. induction 1 as [|r l S IH F]; [exists [], []; split; [reflexivity|split; intros ? []]|]. destruct IH as (a & c & E & A & C). rewrite Forall_forall in F. cbn [filter].
  destruct (lt_eq_lt_dec (field r) lab) as [[L|L]|L].
  - exists (r :: a), c. rewrite (proj2 (Nat.eqb_neq _ _)) by lia. cbn. rewrite <- E. split; [reflexivity|]. split; [|assumption]. intros x [<-|Hx]; auto.
  - exists [], c. rewrite (proj2 (Nat.eqb_eq _ _)) by lia. destruct a as [|x a]; [cbn in *; rewrite <- E; repeat split; auto; intros ? []|]. exfalso. assert (field x < lab) by (apply A; now left).
    assert (field r <= field x) by (apply F; rewrite E; now left). lia.
  - exists [], (r :: l). rewrite (proj2 (Nat.eqb_neq _ _)) by lia. assert (X : filter (fun r => field r =? lab) l = []).
    { destruct (filter (fun r => field r =? lab) l) as [|x fl] eqn:EF; [reflexivity|]. exfalso. assert (X : In x (filter (fun r => field r =? lab) l)) by (rewrite EF; now left). apply filter_In in X. destruct X as [X1 X2]. apply Nat.eqb_eq in X2. apply F in X1. lia. }
    rewrite X. cbn. split; [reflexivity|]. split; [intros ? []|]. intros x [<-|Hx]; [assumption|]. specialize (F x Hx). lia.
Qed.
Lemma scan_run : forall lab b a c fuel, (forall x, In x b -> x = lab) -> c <> [] -> hd lab c <> lab -> length b < fuel -> scan (a ++ b ++ c) lab (length a) fuel = Some (seq (length a) (length b)).
Proof.
  induction b as [|x b IH]; intros a c fuel H NE HD L; (destruct fuel as [|fuel]; [lia|]); cbn [scan].
  - rewrite nth_error_app2, Nat.sub_diag by lia. destruct c as [|y c]; [congruence|]. cbn in *. rewrite (proj2 (Nat.eqb_neq _ _)) by assumption. reflexivity.
  - rewrite nth_error_app2, Nat.sub_diag by lia. cbn. rewrite (H x (or_introl eq_refl)), Nat.eqb_refl. specialize (IH (a ++ [x]) c fuel). rewrite app_length, <- app_assoc in IH. cbn in IH. rewrite Nat.add_1_r in IH.
    rewrite (H x (or_introl eq_refl)) in IH. rewrite IH; [reflexivity|intros; apply H; now right|assumption|assumption|cbn in L; lia].
Qed.
(** For every label, going through the rules from the position given by the index
    until the label differs visits exactly the rules with that label, in order,
    without reading past the end of the array -- including labels without rules. *)
Theorem C48_lookup : forall (field : prule -> nat) nonterminals rs lab fuel, fsorted field rs -> (forall r, In r rs -> field r < nonterminals) -> lab < nonterminals -> length rs < fuel ->
  exists ps, scan (fields field nonterminals rs) lab (nth lab (index field nonterminals rs) 0) fuel = Some ps /\
    map (nth_error rs) ps = map Some (filter (fun r => field r =? lab) rs).
Proof.
  intros field nt rs lab fuel S R L FU. destruct (split3 field lab rs S) as (a & c & E & A & C). set (b := filter (fun r => field r =? lab) rs) in *.
  assert (B : forall r, In r b -> field r = lab). { intros r Hr. apply filter_In in Hr. destruct Hr as [_ Hr]. now apply Nat.eqb_eq. } clearbody b.
  destruct b as [|b0 b].
  - cbn [app] in E. assert (Z : nth lab (index field nt rs) 0 = 0).
    { unfold index. rewrite index_loop_skip; [|intros r Hr; rewrite E in Hr; apply in_app_or in Hr; destruct Hr as [Hr|Hr]; [apply A in Hr|apply C in Hr]; lia]. now rewrite nth_repeat. }
    rewrite Z. exists []. split; [|reflexivity]. destruct fuel; [lia|]. cbn [scan]. unfold fields. destruct rs as [|r rs]; cbn.
    + rewrite (proj2 (Nat.eqb_neq _ _)) by lia. reflexivity.
    + assert (X : field r <> lab). { assert (X : In r (a ++ c)) by (rewrite <- E; now left). apply in_app_or in X. destruct X as [X|X]; [apply A in X|apply C in X]; lia. } rewrite (proj2 (Nat.eqb_neq _ _)) by assumption. reflexivity.
  - assert (P : nth lab (index field nt rs) 0 = length a).
    { unfold index. rewrite E. rewrite index_loop_app. cbn [app index_loop]. rewrite Nat.add_0_l. rewrite (B b0 (or_introl eq_refl)).
      assert (NP : last (map field a) nt <> lab).
      { destruct a as [|a0 a] using rev_ind; [cbn; lia|]. rewrite map_app. cbn [map]. rewrite last_last. assert (field a0 < lab) by (apply A; apply in_or_app; right; now left). lia. }
      rewrite (proj2 (Nat.eqb_neq lab _)) by congruence. rewrite index_loop_app. rewrite index_loop_skip by (intros r Hr; apply C in Hr; lia).
      rewrite index_loop_same by (intros r Hr; apply B; now right). rewrite upd_nth by (rewrite index_loop_length, repeat_length; assumption). now rewrite Nat.eqb_refl. }
    rewrite P. exists (seq (length a) (length (b0 :: b))). unfold fields. rewrite E at 1. rewrite !map_app, <- !app_assoc. split.
    + rewrite <- (map_length field a), <- (map_length field (b0 :: b)). apply scan_run.
      * intros x Hx. apply in_map_iff in Hx. destruct Hx as (r & <- & Hr). now apply B.
      * destruct (map field c); discriminate.
      * destruct c as [|c0 c]; cbn; [lia|]. assert (lab < field c0) by (apply C; now left). lia.
      * rewrite map_length. rewrite E in FU. rewrite !app_length in FU. lia.
    + rewrite E. clear. generalize (b0 :: b) as bb. intros bb. revert a. induction bb as [|x bb IH]; intros a; [reflexivity|]. cbn [length seq map]. f_equal.
      * rewrite nth_error_app2, Nat.sub_diag by lia. reflexivity.
      * specialize (IH (a ++ [x])). rewrite app_length, <- app_assoc in IH. cbn in IH. rewrite Nat.add_1_r in IH. exact IH.
Qed.
(** The arrays of a grammar are in the order this requires, after any history of
    addrules calls: rules by left-hand side, unary rules by daughter, binary rules by
    left and by right daughter. *)
Theorem C48_arrays_indexed : forall sortr sortn, sorts sortr -> sorts sortn -> forall start rules lexicon calls g, start <> Epsilon ->
  grammar sortr sortn start rules lexicon calls = Some g -> forall lab fuel, lab < length (tolabel g) -> length (bylhs g) < fuel ->
  forall field arr, In (field, arr) [(r_lhs, bylhs g); (r_rhs1, unary g); (r_rhs1, lbinary g); (r_rhs2, rbinary g)] ->
  exists ps, scan (fields field (length (tolabel g)) arr) lab (nth lab (index field (length (tolabel g)) arr) 0) fuel = Some ps /\
    map (nth_error arr) ps = map Some (filter (fun r => field r =? lab) arr).
Proof.
  intros sortr sortn SR SN start rules lexicon calls g NE E lab fuel HL FU field arr H. destruct (grammar_inv _ _ SR SN _ _ _ _ _ NE E) as (I & (S1 & S2 & S3 & S4) & _).
  assert (RG : forall r, In r (bylhs g) -> r_lhs r < length (tolabel g) /\ r_rhs1 r < length (tolabel g) /\ r_rhs2 r < length (tolabel g)).
  { intros r Hr. destruct (i_rng _ _ _ I _ _ (in_kns _ _ Hr)) as (? & ? & ? & _). unfold r_lhs, r_rhs1, r_rhs2. lia. }
  assert (IN : forall r, In r (unary g) \/ In r (lbinary g) \/ In r (rbinary g) -> In r (bylhs g)).
  { intros r [X|[X|X]]; (eapply Permutation_in in X; [|apply (i_un _ _ _ I) || apply (i_lb _ _ _ I) || apply (i_rb _ _ _ I)]); now apply filter_In in X. }
  assert (LN : length (unary g) <= length (bylhs g) /\ length (lbinary g) <= length (bylhs g) /\ length (rbinary g) <= length (bylhs g)).
  { rewrite (Permutation_length (i_un _ _ _ I)), (Permutation_length (i_lb _ _ _ I)), (Permutation_length (i_rb _ _ _ I)). assert (X : forall P (l : list prule), length (filter P l) <= length l) by (intros P l; induction l as [|x l IH]; cbn; [lia|destruct (P x); cbn; lia]). auto. }
  cbn [In] in H. destruct H as [H|[H|[H|[H|[]]]]]; apply pair_equal_spec in H; destruct H as [<- <-]; apply C48_lookup; auto; try lia; intros r Hr; apply RG; auto.
Qed.

(** ** C49: labels and numbers *)
Theorem C49_labels : forall sortr sortn, sorts sortr -> sorts sortn -> forall start rules lexicon calls g, start <> Epsilon ->
  grammar sortr sortn start rules lexicon calls = Some g ->
  (forall l i, lookup eqs l (toid g) = Some i <-> nth_error (tolabel g) i = Some l) /\ lookup eqs Epsilon (toid g) = Some 0 /\ lookup eqs start (toid g) = Some 1.
Proof.
  intros sortr sortn SR SN start rules lexicon calls g NE E. destruct (grammar_inv _ _ SR SN _ _ _ _ _ NE E) as (I & _ & _ & _ & m & T). split; [apply (i_ids _ _ _ I)|].
  split; apply (i_ids _ _ _ I); rewrite T; reflexivity.
Qed.
(** Labels keep their numbers when rules are added. *)
Theorem C49_stable : forall sortr sortn, sorts sortr -> sorts sortn -> forall start rules lexicon calls g more lex g', start <> Epsilon ->
  grammar sortr sortn start rules lexicon calls = Some g -> addrules sortr sortn false g more lex = Some g' ->
  forall l i, lookup eqs l (toid g) = Some i -> lookup eqs l (toid g') = Some i.
Proof.
  intros sortr sortn SR SN start rules lexicon calls g more lex g' NE E A l i H. destruct (grammar_inv _ _ SR SN _ _ _ _ _ NE E) as (I & SO & _). destruct (addrules_inv _ _ SR SN _ _ _ _ _ _ _ I SO A) as (I' & _ & _ & _ & m & T).
  apply (i_ids _ _ _ I) in H. apply (i_ids _ _ _ I'). rewrite T, nth_error_app1; [assumption|]. apply nth_error_Some. congruence.
Qed.
(** Rules are numbered from 0 without gaps; a rule is found under its number and its
    number under its labels and yield function; no two rules share labels and yield function. *)
Theorem C49_rule_numbers : forall sortr sortn, sorts sortr -> sorts sortn -> forall start rules lexicon calls g, start <> Epsilon ->
  grammar sortr sortn start rules lexicon calls = Some g ->
  Permutation (map r_no (bylhs g)) (seq 0 (length (bylhs g))) /\
  (forall r, In r (bylhs g) -> getruleno g (klabels (tolabel g) (r_key r)) (kenc (r_key r)) = Some (r_no r) /\ byno (bylhs g) (r_no r) = Some r) /\
  (forall labels e n, ~ In Epsilon labels -> getruleno g labels e = Some n -> exists r, In r (bylhs g) /\ r_no r = n /\ labels = klabels (tolabel g) (r_key r) /\ e = kenc (r_key r)).
Proof.
  intros sortr sortn SR SN start rules lexicon calls g NE E. destruct (grammar_inv _ _ SR SN _ _ _ _ _ NE E) as (I & _ & _ & _ & m & T). split; [|split].
  - pose proof (i_seq _ _ _ I) as X. unfold kns in X. rewrite map_map in X. exact X.
  - intros r Hr. split; [|eapply byno_in; eauto; eapply nodup_nos; eauto].
    assert (IDS : forall i, i < length (tolabel g) -> lookup eqs (nth i (tolabel g) []) (toid g) = Some i) by (intros i Hi; apply (i_ids _ _ _ I); now apply nth_error_nth').
    pose proof (proj2 (i_nos _ _ _ I (r_key r) (r_no r)) (in_kns _ _ Hr)) as X. destruct (i_rng _ _ _ I _ _ (in_kns _ _ Hr)) as (R1 & R2 & R3 & R4).
    destruct (r_key r) as [[[[l a] b] x] y]. unfold klabels. cbn [k_lhs k_rhs1 k_rhs2 kenc] in *. destruct (Nat.eqb_spec b 0) as [->|NB]; cbn [getruleno]; rewrite !IDS by lia; exact X.
  - intros labels e n NEP H. assert (NM : forall l i, lookup eqs l (toid g) = Some i -> nth i (tolabel g) [] = l) by (intros l i Hl; apply (i_ids _ _ _ I) in Hl; now apply nth_error_nth).
    assert (Z : forall l, lookup eqs l (toid g) = Some 0 -> l = Epsilon) by (intros l Hl; apply NM in Hl; rewrite T in Hl; now symmetry).
    assert (G : forall k, lookup key_eqb k (rulenos g) = Some n -> exists r, In r (bylhs g) /\ r_no r = n /\ r_key r = k).
    { intros k Hk. apply (i_nos _ _ _ I) in Hk. unfold kns in Hk. apply in_map_iff in Hk. destruct Hk as (r & X & Hr). apply pair_equal_spec in X. destruct X as [X Y]. eauto. }
    destruct labels as [|l [|a [|b [|z labels]]]]; try discriminate; cbn [getruleno] in H.
    + destruct (lookup eqs l (toid g)) as [i|] eqn:L1; [|discriminate]. destruct (lookup eqs a (toid g)) as [j|] eqn:L2; [|discriminate]. destruct (G _ H) as (r & A & B & C). exists r. repeat split; auto; rewrite C; cbn.
      * unfold klabels. cbn. now rewrite (NM _ _ L1), (NM _ _ L2).
      * now destruct e.
    + destruct (lookup eqs l (toid g)) as [i|] eqn:L1; [|discriminate]. destruct (lookup eqs a (toid g)) as [j|] eqn:L2; [|discriminate]. destruct (lookup eqs b (toid g)) as [m0|] eqn:L3; [|discriminate].
      destruct (G _ H) as (r & A & B & C). exists r. repeat split; auto; rewrite C; cbn; [|now destruct e]. unfold klabels. cbn. rewrite (NM _ _ L1), (NM _ _ L2), (NM _ _ L3).
      destruct m0; [|reflexivity]. exfalso. apply NEP. apply Z in L3. subst b. right. right. now left.
Qed.

(** ** A concrete grammar
    S -> A B, with discontinuous A and a unary rule; files without duplicate lines,
    and a later call that adds to an existing rule and adds a new one. *)
Definition ex_rules : list rline := [([str "S"; str "A"; str "B"], list_ascii_of_string "010", q 3); ([str "S"; str "B"], list_ascii_of_string "0", q 1);
  ([str "A"; str "C"; str "C"], list_ascii_of_string "0,1", q 2)].
Definition ex_lex : list lline := [(str "b", [(str "B", q 2); (str "C", q 1)]); (str "c", [(str "C", q 3)])].
Definition ex_calls : list (list rline * list lline) := [([([str "S"; str "B"], list_ascii_of_string "0", q 4); ([str "B"; str "C"], list_ascii_of_string "0", q 2)], [(str "c", [(str "B", q 1); (str "C", q 1)])])].
Lemma distinct_rules_dec : forall l, (let ks := map (fun a => (rl_labels a, rl_enc a)) l in NoDup ks) -> distinct_rules l.
Proof.
  cbn. intros l ND i j a b Ha Hb E1 E2. apply (proj1 (NoDup_nth_error _) ND).
  - rewrite map_length. apply nth_error_Some. congruence.
  - rewrite (map_nth_error _ _ _ Ha), (map_nth_error _ _ _ Hb). now rewrite E1, E2.
Qed.
Example ex_distinct : distinct_rules ex_rules /\ distinct_entries (entries ex_lex).
Proof.
  split.
  - apply distinct_rules_dec. cbn. repeat constructor; cbn; intros H; decompose [or] H; try discriminate; contradiction.
  - intros i j a b Ha Hb E1 E2. destruct i as [|[|[|[|i]]]], j as [|[|[|[|j]]]]; cbn in Ha, Hb; try discriminate; try reflexivity; injection Ha as <-; injection Hb as <-; cbn in E1, E2; discriminate.
Qed.
(** the hypotheses of the theorems are met, before and after the second call *)
Example ex_grammar : sorts (@isort prule) /\ sorts (@isort nat) /\ str "S" <> Epsilon /\ normalized ex_rules ex_lex [] /\ normalized ex_rules ex_lex ex_calls /\
  exists g, grammar isort isort (str "S") ex_rules ex_lex [] = Some g /\ map (fun r => (r_key r, this (r_prob r))) (bylhs g) =
    [((1, 2, 3, 2%N, 4%N), (3 # 4)%Q); ((1, 3, 0, 0%N, 1%N), (1 # 4)%Q); ((2, 4, 4, 2%N, 3%N), (1 # 1)%Q)].
Proof.
  split; [apply isort_sorts|]. split; [apply isort_sorts|]. split; [discriminate|]. split; [right; apply ex_distinct|]. split; [left; discriminate|].
  eexists. split; [vm_compute; reflexivity|]. vm_compute. reflexivity.
Qed.
Example ex_grammar_added : exists g, grammar isort isort (str "S") ex_rules ex_lex ex_calls = Some g /\ map (fun r => (r_key r, this (r_prob r))) (bylhs g) =
    [((1, 2, 3, 2%N, 4%N), (3 # 8)%Q); ((1, 3, 0, 0%N, 1%N), (5 # 8)%Q); ((2, 4, 4, 2%N, 3%N), (1 # 1)%Q); ((3, 4, 0, 0%N, 1%N), (2 # 5)%Q)] /\
  map (fun x => (fst x, this (snd x))) (lexical g) = [(3, (2 # 5)%Q); (4, (1 # 5)%Q); (4, (4 # 5)%Q); (3, (1 # 5)%Q)].
Proof. eexists. split; [vm_compute; reflexivity|]. split; vm_compute; reflexivity. Qed.

Print Assumptions C30_rule_probability.
Print Assumptions C30_lexical_probability.
Print Assumptions C30_sum_to_one.
Print Assumptions C30_same_in_all_arrays.
Print Assumptions C30_incrementrulecount.
Print Assumptions C30_duplicate_lines_refuted.
Print Assumptions C48_lookup.
Print Assumptions C48_arrays_indexed.
Print Assumptions C49_labels.
Print Assumptions C49_stable.
Print Assumptions C49_rule_numbers.
