(** C54: the chart of the LCFRS parser. *)
From Coq Require Import List Bool Arith NArith ZArith Lia.
From Verif Require Import BitsModel BitsSpec BitsProofs FanoutProofs ConcatModel ConcatSpec ConcatProps.
From Verif Require Import PlcfrsModel PlcfrsSpec PlcfrsProofs PlcfrsProofs2.
Import ListNotations.
Open Scope list_scope.
Open Scope nat_scope.

Definition word_bit (i : nat) : N := (2 ^ N.of_nat i)%N.
Definition on_list (wl : item N -> bool) (x : nat) (v : N) : Prop := wl (x, v) = true.
(** No label is both a possible tag of a word and the left hand side of a unary rule. *)
Definition tags_apart (wl : item N -> bool) (rules : list prule) (mask : nat -> bool) (sent : list word) : Prop :=
  forall i x c r, tagged N word_bit (on_list wl) sent i x c -> usable rules mask r -> prhs2 r = 0 -> plhs r <> x.

Section Small.
Variables (wl : item N -> bool) (maxlog : N) (rules : list prule) (mask : nat -> bool) (start : nat) (sent : list word) (fan : nat -> nat).
Hypothesis LEN : length sent < 64.
Hypothesis WG : wf_grammar fan rules.
Hypothesis WL : wf_lexicon fan sent.
Hypothesis ND : NoDup rules.
Hypothesis TA : tags_apart wl rules mask sent.
Notation goal := (small_root start (length sent)).
Notation Deriv := (derives N word_bit set_join (on_list wl) rules mask (not_goal goal) sent).
Notation Best := (best N word_bit set_join (on_list wl) rules mask (not_goal goal) sent).
Notation parse := (parse_small wl maxlog rules mask start).

Let G := sgood (length sent).
Notation bit := (fun i => 2 ^ N.of_nat i)%N.
Lemma goldnd : Forall (fun w => NoDup (goldlabels w)) sent.
Proof using WL. unfold wf_lexicon in WL. eapply Forall_impl; [|exact WL]. intros w H. apply H. Qed.
Lemma eqN : forall a b : N, N.eqb a b = true <-> a = b.
Proof using. intros a b. apply N.eqb_eq. Qed.
Notation inv := (Inv N concat_small combine_small bitcount bit wl maxlog rules mask goal sent).
Lemma s_start : exists b ch, populatepos N N.eqb bit N.ltb wl (emptychart N) 0 sent = Some (b, ch) /\
  (b = true <-> forall i, i < length sent -> exists x c, tagged N bit (callowed N wl) sent i x c) /\ (b = true -> inv ch).
Proof using WL.
  apply (parse_starts N N.eqb concat_small combine_small bitcount bit N.ltb wl maxlog rules mask goal sent).
  - exact eqN.
  - intros i j _ _ H. now apply s_single_inj.
  - exact goldnd.
Qed.
Lemma s_loop_exh : forall ch ch', loop N N.eqb concat_small combine_small bitcount N.ltb wl maxlog rules mask goal true ch ch' -> inv ch ->
  inv ch' /\ agenda N ch' = [].
Proof using ND TA LEN.
  intros ch ch' L I0. eapply (loop_exhaustive N N.eqb concat_small combine_small bitcount bit N.ltb wl maxlog rules mask goal sent G); eauto.
  - exact eqN.
  - intros i H. now apply s_single_good.
  - intros e l r A B C. destruct (s_combine_good _ e l r A B C) as (X1 & X2 & X3 & X4). auto.
  - intros e v H. eapply s_no_self; eauto.
  - intros e e' l r r' _ _ _ _ _ H. eapply s_combine_inj; eauto.
  - intros e v H. now apply s_goal_alone.
Qed.
Lemma s_loop_brk : forall ch ch', loop N N.eqb concat_small combine_small bitcount N.ltb wl maxlog rules mask goal false ch ch' -> inv ch ->
  inv ch' /\ (agenda N ch' = [] \/ probs N ch' goal <> None).
Proof using ND TA LEN.
  intros ch ch' L I0. eapply (loop_break_ok N N.eqb concat_small combine_small bitcount bit N.ltb wl maxlog rules mask goal sent G); eauto.
  - exact eqN.
  - intros i H. now apply s_single_good.
  - intros e l r A B C. destruct (s_combine_good _ e l r A B C) as (X1 & X2 & X3 & X4). auto.
  - intros e v H. eapply s_no_self; eauto.
  - intros e e' l r r' _ _ _ _ _ H. eapply s_combine_inj; eauto.
  - intros e v H. now apply s_goal_alone.
Qed.
Lemma parse_inv : forall exh ch, parse exh sent true ch -> inv ch /\
  (agenda N ch = [] \/ (exh = false /\ probs N ch goal <> None)).
Proof using ND TA LEN WL.
  intros exh ch P. inversion P as [|ch0 ch' E L]; subst. destruct s_start as (b & ch1 & E1 & _ & I1). rewrite E in E1. inversion E1; subst b ch1.
  specialize (I1 eq_refl). destruct exh.
  - destruct (s_loop_exh _ _ L I1). auto.
  - destruct (s_loop_brk _ _ L I1) as [A [B|B]]; auto.
Qed.
Notation best_c := (best N bit (cjoin N concat_small combine_small) (callowed N wl) rules mask (not_goal goal) sent).
Lemma best_same : forall x v p, best_c x v p <-> Best x v p.
Proof using WG WL LEN.
  apply (join_best N bit _ _ (callowed N wl) rules mask (not_goal goal) sent (SP fan)).
  - intros i x c T. eapply SP_word; eauto.
  - intros r v. now apply SP_unary with (rules := rules).
  - intros r l u v. now apply SP_binary with (rules := rules).
  - intros r l u v. now apply small_same with (rules := rules) (fan := fan).
Qed.
End Small.

(** Exhaustive parsing: an item has a probability in the chart exactly if it can
    be derived, and then it is that of its best derivation. *)
Theorem C54_viterbi : forall wl maxlog rules mask start sent fan,
  length sent < 64 -> wf_grammar fan rules -> wf_lexicon fan sent -> NoDup rules -> tags_apart wl rules mask sent ->
  forall ch, parse_small wl maxlog rules mask start true sent true ch -> forall x v p,
  probs N ch (x, v) = Some p <->
  best N word_bit set_join (on_list wl) rules mask (not_goal (small_root start (length sent))) sent x v p.
Proof.
  intros wl maxlog rules mask start sent fan LEN WG WL ND TA ch P x v p.
  destruct (parse_inv wl maxlog rules mask start sent fan LEN WL ND TA true ch P) as [IV [AE|[E _]]]; [|discriminate].
  rewrite <- (best_same wl rules mask start sent fan LEN WG WL x v p).
  apply (final_best N concat_small combine_small bitcount (fun i => 2 ^ N.of_nat i)%N wl maxlog rules mask (small_root start (length sent)) sent (sgood (length sent))); auto.
  - intros i H. now apply s_single_good.
  - intros e l r A B C. destruct (s_combine_good _ e l r A B C) as (X1 & X2 & X3 & X4). auto.
Qed.
(** ... and the chart has exactly the edges whose daughters can be derived, once each. *)
Theorem C54_edges : forall wl maxlog rules mask start sent fan,
  length sent < 64 -> wf_grammar fan rules -> wf_lexicon fan sent -> NoDup rules -> tags_apart wl rules mask sent ->
  forall ch, parse_small wl maxlog rules mask start true sent true ch -> forall x v,
  NoDup (forest N ch (x, v)) /\ forall e, In e (forest N ch (x, v)) <->
  valid_edge N word_bit set_join (on_list wl) rules mask (not_goal (small_root start (length sent))) sent x v e.
Proof.
  intros wl maxlog rules mask start sent fan LEN WG WL ND TA ch P x v.
  destruct (parse_inv wl maxlog rules mask start sent fan LEN WL ND TA true ch P) as [IV [AE|[E _]]]; [|discriminate].
  split; [apply (m_once _ _ _ _ _ _ _ _ _ _ _ _ (proj1 IV))|]. intros e.
  rewrite <- (join_edges N (fun i => 2 ^ N.of_nat i)%N (cjoin N concat_small combine_small) set_join (callowed N wl) rules mask (not_goal (small_root start (length sent))) sent (SP fan)).
  - apply (final_edges N concat_small combine_small bitcount (fun i => 2 ^ N.of_nat i)%N wl maxlog rules mask (small_root start (length sent)) sent (sgood (length sent))); auto.
    + intros i H. now apply s_single_good.
    + intros e' l r A B C. destruct (s_combine_good _ e' l r A B C) as (X1 & X2 & X3 & X4). auto.
  - intros i y c T. eapply SP_word; eauto.
  - intros r w. now apply SP_unary with (rules := rules).
  - intros r l u w. now apply SP_binary with (rules := rules).
  - intros r l u w. now apply small_same with (rules := rules) (fan := fan).
Qed.
(** The root item has the probability of the best of all derivations, whether or
    not parsing is exhaustive. *)
Theorem C54_root : forall exh wl maxlog rules mask start sent fan,
  length sent < 64 -> wf_grammar fan rules -> wf_lexicon fan sent -> NoDup rules -> tags_apart wl rules mask sent ->
  forall ch, parse_small wl maxlog rules mask start exh sent true ch -> forall p,
  probs N ch (small_root start (length sent)) = Some p <->
  best N word_bit set_join (on_list wl) rules mask anywhere sent start (2 ^ N.of_nat (length sent) - 1)%N p.
Proof.
  intros exh wl maxlog rules mask start sent fan LEN WG WL ND TA ch P p.
  destruct (parse_inv wl maxlog rules mask start sent fan LEN WL ND TA exh ch P) as [IV OR].
  rewrite <- (best_goal N word_bit set_join (on_list wl) rules mask sent (small_root start (length sent)) (item_dec N N.eqb eqN)).
  cbn [fst snd small_root]. rewrite <- (best_same wl rules mask start sent fan LEN WG WL start _ p).
  destruct OR as [AE|[_ PN]].
  - apply (final_best N concat_small combine_small bitcount (fun i => 2 ^ N.of_nat i)%N wl maxlog rules mask (small_root start (length sent)) sent (sgood (length sent))); auto.
    + intros i H. now apply s_single_good.
    + intros e l r A B C. destruct (s_combine_good _ e l r A B C) as (X1 & X2 & X3 & X4). auto.
  - assert (SO := m_sound _ _ _ _ _ _ _ _ _ _ _ _ (proj1 IV)). split; [intros Q; exact (SO _ _ _ Q)|].
    intros [D O]. destruct (probs N ch (small_root start (length sent))) as [q|] eqn:Q; [|contradiction].
    destruct (SO _ _ _ Q) as [D' O']. f_equal. specialize (O _ D'). specialize (O' _ D). lia.
Qed.
(** Every probability in the chart is that of a best derivation, also when parsing
    stops at the first complete derivation. *)
Theorem C54_every_item : forall exh wl maxlog rules mask start sent fan,
  length sent < 64 -> wf_grammar fan rules -> wf_lexicon fan sent -> NoDup rules -> tags_apart wl rules mask sent ->
  forall ch, parse_small wl maxlog rules mask start exh sent true ch -> forall x v p,
  probs N ch (x, v) = Some p ->
  best N word_bit set_join (on_list wl) rules mask (not_goal (small_root start (length sent))) sent x v p.
Proof.
  intros exh wl maxlog rules mask start sent fan LEN WG WL ND TA ch P x v p Q.
  destruct (parse_inv wl maxlog rules mask start sent fan LEN WL ND TA exh ch P) as [IV _].
  apply (best_same wl rules mask start sent fan LEN WG WL x v p).
  exact (m_sound _ _ _ _ _ _ _ _ _ _ _ _ (proj1 IV) x v p Q).
Qed.
(** Parsing always ends, without an exception; it gives up before the main loop
    exactly if a word has no possible tag. *)
Theorem C54_total : forall exh wl maxlog rules mask start sent fan,
  length sent < 64 -> wf_lexicon fan sent -> NoDup rules -> tags_apart wl rules mask sent ->
  exists b ch, parse_small wl maxlog rules mask start exh sent b ch /\
  (b = true <-> forall i, i < length sent -> exists x c, tagged N word_bit (on_list wl) sent i x c) /\
  populatepos N N.eqb word_bit N.ltb wl (emptychart N) 0 sent <> None.
Proof.
  intros exh wl maxlog rules mask start sent fan LEN WL ND TA.
  destruct (s_start wl maxlog rules mask start sent fan WL) as (b & ch & E & B & IV).
  assert (NN : populatepos N N.eqb word_bit N.ltb wl (emptychart N) 0 sent <> None) by (unfold word_bit; rewrite E; discriminate).
  destruct b.
  - destruct (loop_exists N N.eqb concat_small combine_small bitcount (fun i => 2 ^ N.of_nat i)%N N.ltb wl maxlog rules mask
      (small_root start (length sent)) sent (sgood (length sent)) eqN) with (allvecs := s_allvecs (length sent)) (b := exh) (ch := ch) as [ch' L]; auto.
    + intros i H. now apply s_single_good.
    + intros e l r A B' C. destruct (s_combine_good _ e l r A B' C) as (X1 & X2 & X3 & X4). auto.
    + intros e v H. eapply s_no_self; eauto.
    + intros e e' l r r' _ _ _ _ _ H. eapply s_combine_inj; eauto.
    + intros e v H. now apply s_goal_alone.
    + apply s_allvecs_ok.
    + exists true, ch'. split; [|split; auto]. econstructor; eauto.
  - exists false, ch. split; [|split; auto]. constructor. exact E.
Qed.
(** However ties in the agenda are broken, the main loop makes at most as many
    iterations as there are pairs of a label and a set of positions. *)
Theorem C54_terminates : forall wl maxlog rules mask start sent fan,
  length sent < 64 -> wf_lexicon fan sent -> NoDup rules -> tags_apart wl rules mask sent ->
  forall n ch ch', populatepos N N.eqb word_bit N.ltb wl (emptychart N) 0 sent = Some (true, ch) ->
  iterates N N.eqb concat_small combine_small bitcount N.ltb wl maxlog rules mask (small_root start (length sent)) n ch ch' ->
  n <= length (labels rules sent) * N.to_nat (2 ^ N.of_nat (length sent)).
Proof.
  intros wl maxlog rules mask start sent fan LEN WL ND TA n ch ch' E IT.
  destruct (s_start wl maxlog rules mask start sent fan WL) as (b & ch0 & E0 & _ & IV). unfold word_bit in E. rewrite E in E0. inversion E0; subst b ch0.
  replace (N.to_nat (2 ^ N.of_nat (length sent))) with (length (s_allvecs (length sent))) by (unfold s_allvecs; now rewrite map_length, seq_length).
  eapply (iterates_bound N N.eqb concat_small combine_small bitcount (fun i => 2 ^ N.of_nat i)%N N.ltb wl maxlog rules mask
      (small_root start (length sent)) sent (sgood (length sent)) eqN) with (ch := ch); eauto.
  - intros i H. now apply s_single_good.
  - intros e l r A B' C. destruct (s_combine_good _ e l r A B' C) as (X1 & X2 & X3 & X4). auto.
  - intros e v H. eapply s_no_self; eauto.
  - intros e e' l r r' _ _ _ _ _ H. eapply s_combine_inj; eauto.
  - intros e v H. now apply s_goal_alone.
  - apply s_allvecs_ok.
Qed.
(** If a label is a tag of a word and also the left hand side of a unary rule, the
    chart may not have the best derivation: the score of tags does not include
    the length of the span. *)
Definition tag_rules : list prule := [PRule 1 2 0 1 0 [[false]]].
Definition tag_sent : list word := [Word [(1, 50%N); (2, 0%N)] []].
Definition nomask (_ : nat) : bool := false.
Definition nolist (_ : item N) : bool := true.
Theorem C54_tag_also_phrase_refuted : exists ch,
  parse_small nolist 300 tag_rules nomask 1 true tag_sent true ch /\
  probs N ch (1, 1%N) = Some 50%N /\
  derives N word_bit set_join (on_list nolist) tag_rules nomask (not_goal (small_root 1 1)) tag_sent 1 1%N 1%N.
Proof.
  eexists. split; [|split].
  - eapply pm_covered; [reflexivity|].
    eapply loop_step.
    { eapply (pops_intro _ _ [((1, 1%N), (50%N, 50%N))] (2, 1%N) 0%N 0%N []); [reflexivity|].
      repeat constructor. }
    { discriminate. }
    eapply loop_step.
    { eapply (pops_intro _ _ [] (1, 1%N) 50%N 50%N []); [reflexivity|]. repeat constructor. }
    { discriminate. }
    apply loop_empty. reflexivity.
  - reflexivity.
  - change 1%N with (pprob (PRule 1 2 0 1 0 [[false]]) + 0)%N at 2.
    apply (d_unary _ _ _ _ _ _ _ _ (PRule 1 2 0 1 0 [[false]]) 1%N 0%N).
    + split; [now left|reflexivity].
    + reflexivity.
    + change 1%N with (word_bit 0). apply (d_word _ _ _ _ _ _ _ _ 0 2 0%N). apply (t_lexicon _ _ _ _ _ _ _ (Word [(1, 50%N); (2, 0%N)] [])); [reflexivity| |reflexivity].
      exists [(1, 50%N)], []. split; [reflexivity|]. intros d [H|[]]. discriminate.
    + intros H. discriminate H.
    + reflexivity.
Qed.

(** A discontinuous example: S(xzy) -> A(x,y) B(z), A(x,y) -> C(x) D(y). *)
Definition ex_rules : list prule :=
  [PRule 1 2 3 1 0 [[false; true; false]]; PRule 2 4 5 2 1 [[false]; [true]]; PRule 1 6 0 3 2 [[false]];
   PRule 6 4 7 1 3 [[false; true]]; PRule 7 3 5 9 4 [[false; true]]].
Definition ex_sent : list word := [Word [(4, 1%N)] []; Word [(3, 1%N); (8, 2%N)] []; Word [] [5]].
Definition ex_fan (x : nat) : nat := if x =? 2 then 2 else 1.
Example C54_ex : length ex_sent < 64 /\ wf_grammar ex_fan ex_rules /\ wf_lexicon ex_fan ex_sent /\ NoDup ex_rules /\
  tags_apart nolist ex_rules nomask ex_sent /\
  option_map (fun r => probs N (runloop N N.eqb concat_small combine_small bitcount N.ltb nolist 300 ex_rules nomask
     (small_root 1 3) 100 true (snd r)) (1, 7%N)) (populatepos N N.eqb word_bit N.ltb nolist (emptychart N) 0 ex_sent) = Some (Some 5%N).
Proof.
  assert (R : forall r, In r ex_rules -> prhs2 r = 0 -> plhs r = 1).
  { intros r [<-|[<-|[<-|[<-|[<-|[]]]]]]; cbn; intros; congruence. }
  assert (LX : forall w x, In w ex_sent -> (exists c, In (x, c) (entries w)) \/ In x (goldlabels w) -> x = 4 \/ x = 3 \/ x = 8 \/ x = 5).
  { intros w x [<-|[<-|[<-|[]]]] [[c H]|H]; cbn in H; repeat (destruct H as [H|H]; [inversion H; auto|]); try destruct H; auto. }
  split; [cbn; lia|]. split.
  { repeat constructor; cbn; try lia; try discriminate; repeat constructor; discriminate. }
  split.
  { apply Forall_forall. intros w H. split; [|split].
    - intros x c Hx. destruct (LX w x H (or_introl (ex_intro _ c Hx))) as [->|[->|[->| ->]]]; reflexivity.
    - intros x Hx. destruct (LX w x H (or_intror Hx)) as [->|[->|[->| ->]]]; reflexivity.
    - destruct H as [<-|[<-|[<-|[]]]]; cbn; repeat constructor; auto. }
  split; [repeat constructor; cbn; intuition discriminate|]. split; [|vm_compute; reflexivity].
  intros i x c r T [U _] E. rewrite (R r U E). intros <-.
  assert (X : 1 = 4 \/ 1 = 3 \/ 1 = 8 \/ 1 = 5); [|lia].
  destruct T as [w EW F _|w EW _ H _]; apply nth_error_In in EW; apply (LX w 1 EW); auto.
  left. exists c. now apply first_entry_in.
Qed.
