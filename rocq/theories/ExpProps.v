(** C63: parsing the test set with several processes, and reading the input of
    the command-line parser. *)
From Coq Require Import NArith ZArith QArith Qcanon List Bool Arith Lia Permutation.
From Verif Require Import PyStr EvalModel EvalProps ExpModel ExpSpec ExpProofs.
Import ListNotations.

Section Results.
Variables Tree Sent Float : Type.
Variable log : Qc -> Float.
Variables nan c300 : Float.
Notation stageresult := (stageresult Tree Float).
Notation test := (test Tree Sent).
Notation stage := (stage Tree Sent Float).
Variable parse : Sent -> Tree -> list stageresult.
Variable evalpair : nat -> Tree -> Sent -> Tree -> Sent -> pair.
Variable disconly : bool.
Variable cutoff : option nat.
Notation doparsing := (doparsing Tree Sent Float log nan c300 evalpair disconly cutoff).
Notation worker := (worker Tree Sent Float parse).
Notation t_sent := (t_sent Tree Sent). Notation t_gold := (t_gold Tree Sent). Notation t_goldsent := (t_goldsent Tree Sent).
Notation results_of := (results_of Tree Sent Float parse).

Lemma doparsing_holds : forall numstages testset arrivals, NoDup (map fst testset) ->
  (forall it, In it testset -> length (parse (t_sent (snd it)) (t_gold (snd it))) = numstages) -> Permutation arrivals (map worker testset) ->
  exists ss items, Permutation items testset /\ doparsing numstages testset arrivals = Some ss /\ length ss = numstages /\
    forall k s, nth_error ss k = Some s -> Holds Tree Sent Float log nan c300 evalpair disconly cutoff testset (results_of items k) s.
Proof.
  intros numstages testset arrivals ND HL P. destruct (Permutation_map_inv worker _ P) as (items & E & P').
  assert (PI : Permutation items testset) by (now apply Permutation_sym).
  destruct (mainloop_ok Tree Sent Float log nan c300 parse evalpair disconly cutoff testset ND numstages items [] (repeat (stage0 Tree Sent Float nan cutoff (map fst testset)) numstages))
    as (ss & E' & L & H).
  - exact HL.
  - intros it Hi. exact (Permutation_in _ PI Hi).
  - cbn [app]. exact (Permutation_NoDup (Permutation_map fst (Permutation_sym PI)) ND).
  - apply repeat_length.
  - intros k s Hk. apply nth_error_In, repeat_spec in Hk. subst s. cbn [ExpProofs.results_of flat_map]. apply holds_start.
  - exists ss, items. unfold ExpModel.doparsing. rewrite E. auto.
Qed.
Lemma results_of_In : forall items k it r, In it items -> nth_error (parse (t_sent (snd it)) (t_gold (snd it))) k = Some r -> In (fst it, snd it, r) (results_of items k).
Proof. intros items k it r Hi E. unfold ExpProofs.results_of. apply in_flat_map. exists it. split; auto. rewrite E. now left. Qed.
Lemma valfor_it : forall V testset items k it r (f : nat * test * stageresult -> V) v, NoDup (map fst testset) -> Permutation items testset -> In it testset ->
  nth_error (parse (t_sent (snd it)) (t_gold (snd it))) k = Some r -> valfor Tree Sent Float (results_of items k) f v (fst it) = f (fst it, snd it, r).
Proof.
  intros V testset items k it r f v ND P Hi E. unfold valfor.
  pose proof (results_of_In items k it r (Permutation_in _ (Permutation_sym P) Hi) E) as H.
  destruct (find _ _) as [x|] eqn:F.
  - apply find_some in F. destruct F as [F1 F2]. apply Nat.eqb_eq in F2. unfold ExpProofs.results_of in F1. apply in_flat_map in F1. destruct F1 as (it' & Hi' & Hx).
    destruct (nth_error (parse (t_sent (snd it')) (t_gold (snd it'))) k) as [r'|] eqn:E'; [|destruct Hx]. destruct Hx as [<-|[]]. cbn [fst] in F2.
    assert (X : it' = it).
    { destruct it as [i t], it' as [i' t']. cbn in F2. subst i'. f_equal. pose proof (lookup_In _ i t ND Hi) as Q1. pose proof (lookup_In _ i t' ND (Permutation_in _ P Hi')) as Q2. congruence. }
    subst it'. congruence.
  - exfalso. pose proof (find_none _ _ F _ H) as Q. cbn [fst] in Q. now rewrite Nat.eqb_refl in Q.
Qed.
Lemma results_perm : forall a b k, Permutation a b -> Permutation (results_of a k) (results_of b k).
Proof. intros a b k P. unfold ExpProofs.results_of. now apply flat_map_perm. Qed.

(** the pairs of trees that are evaluated for stage [k] *)
Definition pairs (testset : list (nat * test)) (k : nat) : list pair :=
  flat_map (fun it => match nth_error (parse (t_sent (snd it)) (t_gold (snd it))) k with
    | Some r => [evalpair (fst it) (t_gold (snd it)) (t_goldsent (snd it)) (r_tree _ _ r) (t_sent (snd it))]
    | None => [] end) testset.
(** the sentences without a parse in stage [k] *)
Definition unparsed (testset : list (nat * test)) (k : nat) : list (nat * test) :=
  filter (fun it => match nth_error (parse (t_sent (snd it)) (t_gold (snd it))) k with Some r => r_noparse _ _ r | None => false end) testset.
Lemma pairs_results : forall items k, map (pairof Tree Sent Float evalpair) (results_of items k) = pairs items k.
Proof.
  intros items k. unfold ExpProofs.results_of, pairs. induction items as [|[i t] items IH]; auto. cbn [flat_map fst snd]. rewrite map_app, IH. f_equal.
  destruct (nth_error _ k); reflexivity.
Qed.
Lemma unparsed_results : forall items k, length (filter (fun x => r_noparse _ _ (snd x)) (results_of items k)) = length (unparsed items k).
Proof.
  intros items k. unfold ExpProofs.results_of, unparsed. induction items as [|[i t] items IH]; auto. cbn [flat_map fst snd filter]. rewrite filter_app, app_length, IH.
  destruct (nth_error (parse (t_sent t) (t_gold t)) k) as [r|]; cbn [filter snd length app]; [|reflexivity]. destruct (r_noparse _ _ r); reflexivity.
Qed.

(** C63.  Every sentence of the test set is parsed with some number of
    processes, and the results arrive in any order.  Then for every stage the
    tree, sentence, log probability, etc. recorded under a sentence's id are
    the result of that stage for that very sentence, and the number of
    sentences without a parse is right. *)
Theorem C63_results : forall numstages testset arrivals, NoDup (map fst testset) ->
  (forall it, In it testset -> length (parse (t_sent (snd it)) (t_gold (snd it))) = numstages) -> Permutation arrivals (map worker testset) ->
  exists ss, doparsing numstages testset arrivals = Some ss /\ length ss = numstages /\
    forall k s, nth_error ss k = Some s ->
      s_noparse _ _ _ s = length (unparsed testset k) /\
      forall i t r, In (i, t) testset -> nth_error (parse (t_sent t) (t_gold t)) k = Some r ->
        lookup i (s_trees _ _ _ s) = Some (Some (r_tree _ _ r)) /\ lookup i (s_sents _ _ _ s) = Some (Some (t_sent t)) /\
        lookup i (s_logprob _ _ _ s) = Some (fst (scoreof Tree Float log c300 r nan (Some 0%Z))) /\ lookup i (s_frags _ _ _ s) = Some (snd (scoreof Tree Float log c300 r nan (Some 0%Z))) /\
        lookup i (s_numitems _ _ _ s) = Some (r_numitems _ _ r) /\ lookup i (s_golditems _ _ _ s) = Some (r_golditems _ _ r) /\
        lookup i (s_totalgolditems _ _ _ s) = Some (r_totalgolditems _ _ r) /\ lookup i (s_elapsed _ _ _ s) = Some (Some (r_elapsed _ _ r)).
Proof.
  intros numstages testset arrivals ND HL P. destruct (doparsing_holds _ _ _ ND HL P) as (ss & items & PI & E & L & H). exists ss. split; [exact E|]. split; [exact L|].
  intros k s Hk. specialize (H k s Hk). split.
  - rewrite (h_noparse _ _ _ _ _ _ _ _ _ _ _ _ H), unparsed_results. unfold unparsed. now rewrite (Permutation_length (filter_perm _ _ _ _ PI)).
  - intros i t r Hi Hr. assert (Ki : In i (map fst testset)) by (apply in_map_iff; exists (i, t); auto).
    rewrite (h_trees _ _ _ _ _ _ _ _ _ _ _ _ H i Ki), (h_sents _ _ _ _ _ _ _ _ _ _ _ _ H i Ki), (h_logprob _ _ _ _ _ _ _ _ _ _ _ _ H i Ki), (h_frags _ _ _ _ _ _ _ _ _ _ _ _ H i Ki),
      (h_numitems _ _ _ _ _ _ _ _ _ _ _ _ H i Ki), (h_golditems _ _ _ _ _ _ _ _ _ _ _ _ H i Ki), (h_totalgolditems _ _ _ _ _ _ _ _ _ _ _ _ H i Ki), (h_elapsed _ _ _ _ _ _ _ _ _ _ _ _ H i Ki).
    pose proof (fun V f v => valfor_it V testset items k (i, t) r f v ND PI Hi Hr) as Q. cbn [fst snd] in Q. rewrite !Q. cbn [fst snd]. auto 10.
Qed.

(** The evaluation is that of all the pairs of gold tree and parse, each once. *)
Theorem C63_eval : forall numstages testset arrivals ss, NoDup (map fst testset) ->
  (forall it, In it testset -> length (parse (t_sent (snd it)) (t_gold (snd it))) = numstages) -> Permutation arrivals (map worker testset) ->
  doparsing numstages testset arrivals = Some ss ->
  forall k s, nth_error ss k = Some s -> exists ps, Permutation ps (pairs testset k) /\ e_acc (s_eval _ _ _ s) = accumulate disconly ps /\
    e_acc40 (s_eval _ _ _ s) = match cutoff with Some c => Some (accumulate disconly (filter (fun p => p_lengpos p <=? c) ps)) | None => None end.
Proof.
  intros numstages testset arrivals ss ND HL P E k s Hk. destruct (doparsing_holds _ _ _ ND HL P) as (ss' & items & PI & E' & L & H).
  rewrite E in E'. injection E' as <-. specialize (H k s Hk). exists (pairs items k). split; [unfold pairs; now apply flat_map_perm|].
  rewrite (h_eval _ _ _ _ _ _ _ _ _ _ _ _ H), pairs_results. split; reflexivity.
Qed.

(** Two runs with a different number of processes, or a different order of
    arrival, write the same trees and the same statistics, and report the same
    scores, provided a parse has as many tags as the gold tree. *)
Theorem C63_schedule : forall numstages testset arrivals arrivals', NoDup (map fst testset) ->
  (forall it, In it testset -> length (parse (t_sent (snd it)) (t_gold (snd it))) = numstages) ->
  (forall k p, In p (pairs testset k) -> length (p_gpos p) = length (p_cpos p)) ->
  Permutation arrivals (map worker testset) -> Permutation arrivals' (map worker testset) ->
  exists ss ss', doparsing numstages testset arrivals = Some ss /\ doparsing numstages testset arrivals' = Some ss' /\
    map (treesfile Tree Sent Float testset) ss = map (treesfile Tree Sent Float testset) ss' /\
    stats Tree Sent Float nan testset ss = stats Tree Sent Float nan testset ss' /\
    map (s_noparse _ _ _) ss = map (s_noparse _ _ _) ss' /\
    map (fun s => scores (e_acc (s_eval _ _ _ s))) ss = map (fun s => scores (e_acc (s_eval _ _ _ s))) ss' /\
    map (fun s => option_map scores (e_acc40 (s_eval _ _ _ s))) ss = map (fun s => option_map scores (e_acc40 (s_eval _ _ _ s))) ss'.
Proof.
  intros numstages testset arrivals arrivals' ND HL HT P P'.
  destruct (C63_results numstages testset arrivals ND HL P) as (ss & E & L & H). destruct (C63_results numstages testset arrivals' ND HL P') as (ss' & E' & L' & H').
  exists ss, ss'. split; [exact E|]. split; [exact E'|].
  assert (EXT : forall X (f : stage -> X), (forall k s s', nth_error ss k = Some s -> nth_error ss' k = Some s' -> f s = f s') -> map f ss = map f ss').
  { clear - L L'. rewrite <- L' in L. clear L'. revert ss' L. induction ss as [|s ss IH]; intros [|s' ss'] L X f Q; try discriminate; auto. cbn [map]. f_equal; [exact (Q 0 s s' eq_refl eq_refl)|].
    apply IH; [cbn in L; lia|]. intros k. exact (Q (S k)). }
  assert (RES : forall k s it, nth_error ss k = Some s -> In it testset -> exists r, nth_error (parse (t_sent (snd it)) (t_gold (snd it))) k = Some r).
  { intros k s it Hk Hi. destruct (nth_error (parse (t_sent (snd it)) (t_gold (snd it))) k) as [r|] eqn:Er; [eauto|]. exfalso. apply nth_error_None in Er. rewrite (HL it Hi) in Er.
    assert (k < length ss) by (apply nth_error_Some; congruence). lia. }
  split; [|split; [|split; [|split]]].
  - apply EXT. intros k s s' Hs Hs'. unfold treesfile. apply map_ext_in. intros [i t] Hi. cbn [fst]. destruct (RES k s (i, t) Hs Hi) as [r Hr]. cbn [snd] in Hr.
    destruct (proj2 (H k s Hs) i t r Hi Hr) as (Q1 & Q2 & _). destruct (proj2 (H' k s' Hs') i t r Hi Hr) as (Q1' & Q2' & _). unfold get. now rewrite Q1, Q2, Q1', Q2'.
  - unfold stats. rewrite !flat_map_concat_map. f_equal. apply map_ext_in. intros [i t] Hi. rewrite L, L'.
    assert (EXT2 : forall n, map (fun ks => statsrow Tree Sent Float nan (i, t) (fst ks) (snd ks)) (combine (seq n numstages) ss) =
        map (fun ks => statsrow Tree Sent Float nan (i, t) (fst ks) (snd ks)) (combine (seq n numstages) ss')); [|apply EXT2].
    assert (Q : forall k s s' c, nth_error ss k = Some s -> nth_error ss' k = Some s' -> statsrow Tree Sent Float nan (i, t) c s = statsrow Tree Sent Float nan (i, t) c s').
    { intros k s s' c Hs Hs'. destruct (RES k s (i, t) Hs Hi) as [r Hr]. cbn [snd] in Hr. destruct (proj2 (H k s Hs) i t r Hi Hr) as (_ & _ & Q3 & Q4 & Q5 & Q6 & Q7 & Q8).
      destruct (proj2 (H' k s' Hs') i t r Hi Hr) as (_ & _ & Q3' & Q4' & Q5' & Q6' & Q7' & Q8'). unfold statsrow, get. cbn [fst snd].
      now rewrite Q3, Q4, Q5, Q6, Q7, Q8, Q3', Q4', Q5', Q6', Q7', Q8'. }
    clear - L L' Q. intros n. revert n ss ss' L L' Q. induction numstages as [|m IH]; intros n [|s ss] [|s' ss'] L L' Q; try discriminate; auto.
    cbn [seq combine map fst snd]. f_equal; [exact (Q 0 s s' n eq_refl eq_refl)|]. apply IH; [cbn in L; lia|cbn in L'; lia|]. intros k. exact (Q (S k)).
  - apply EXT. intros k s s' Hs Hs'. now rewrite (proj1 (H k s Hs)), (proj1 (H' k s' Hs')).
  - apply EXT. intros k s s' Hs Hs'. destruct (C63_eval _ _ _ _ ND HL P E k s Hs) as (ps & PP & -> & _). destruct (C63_eval _ _ _ _ ND HL P' E' k s' Hs') as (ps' & PP' & -> & _).
    apply scores_perm; [exact (Permutation_trans PP (Permutation_sym PP'))|]. intros p Hp. exact (HT k p (Permutation_in _ PP Hp)).
  - apply EXT. intros k s s' Hs Hs'. destruct (C63_eval _ _ _ _ ND HL P E k s Hs) as (ps & PP & _ & ->). destruct (C63_eval _ _ _ _ ND HL P' E' k s' Hs') as (ps' & PP' & _ & ->).
    destruct cutoff as [c|]; auto. cbn [option_map]. f_equal. apply scores_perm; [apply filter_perm; exact (Permutation_trans PP (Permutation_sym PP'))|].
    intros p Hp. apply filter_In in Hp. exact (HT k p (Permutation_in _ PP (proj1 Hp))).
Qed.

(** The log probability and number of fragments of a result: of a tuple, the first
    float that is a probability and the first integer; of a float, its logarithm;
    and the number of fragments listed takes precedence. *)
Definition isprob (q : Qc) : Prop := (0 < q /\ q <= 1)%Qc.
Definition scorespec (r : stageresult) (l : Float) (f : option Z) : Prop :=
  (forall pre q post, r_prob _ _ r = ProbTuple (pre ++ PFloat q :: post) -> isprob q ->
     (forall q', In (PFloat q') pre -> ~ isprob q') -> l = log q) /\
  (forall q, r_prob _ _ r = ProbFloat q -> (0 < q)%Qc -> l = log q) /\
  (forall n, r_fragments _ _ r = Some n -> f = Some (Z.of_nat n)) /\
  (forall pre z post, r_fragments _ _ r = None -> r_prob _ _ r = ProbTuple (pre ++ PInt z :: post) ->
     (forall z', ~ In (PInt z') pre) -> f = Some (Z.abs z)).
Lemma isprob_test : forall q, (match Qccompare 0 q with Lt => true | _ => false end && match Qccompare q 1 with Gt => false | _ => true end)%bool = true <-> isprob q.
Proof.
  clear. intros q. unfold isprob. rewrite andb_true_iff. split.
  - intros [A B]. split.
    + apply Qclt_alt. destruct (Qccompare 0 q); congruence.
    + apply Qcle_alt. destruct (Qccompare q 1); congruence.
  - intros [A B]. pose proof (proj1 (Qclt_alt 0 q) A) as A'. pose proof (proj1 (Qcle_alt q 1) B) as B'. rewrite A'. split; auto. destruct (Qccompare q 1) eqn:C; try reflexivity. exfalso. apply B'. reflexivity.
Qed.
Lemma scoreof_spec : forall r, scorespec r (fst (scoreof Tree Float log c300 r nan (Some 0%Z))) (snd (scoreof Tree Float log c300 r nan (Some 0%Z))).
Proof.
  clear. intros r. unfold scorespec, scoreof. split; [|split; [|split]].
  - intros pre q post E PQ N. rewrite E. cbn [fst]. clear E. induction pre as [|x pre IH]; cbn [app firstfloat].
    + now rewrite (proj2 (isprob_test q) PQ).
    + destruct x as [z|q']; [apply IH; intros q' I; apply N; now right|].
      destruct (match Qccompare 0 q' with Lt => true | _ => false end && match Qccompare q' 1 with Gt => false | _ => true end)%bool eqn:T.
      * exfalso. apply isprob_test in T. exact (N q' (or_introl eq_refl) T).
      * apply IH. intros q2 I. apply N. now right.
  - intros q E P. rewrite E. cbn [fst]. pose proof (proj1 (Qclt_alt 0 q) P) as P'. now rewrite P'.
  - intros n E. rewrite E. destruct (r_prob _ _ r); reflexivity.
  - intros pre z post E1 E N. rewrite E, E1. cbn [snd]. clear E. induction pre as [|x pre IH]; cbn [app firstint]; [reflexivity|].
    destruct x as [z'|q']; [exfalso; exact (N z' (or_introl eq_refl))|]. apply IH. intros z2 I. apply (N z2). now right.
Qed.
Lemma nth_flat_map : forall A B (f : A -> list B) m l j k x, (forall x, In x l -> length (f x) = m) -> nth_error l j = Some x -> k < m ->
  nth_error (flat_map f l) (j * m + k) = nth_error (f x) k.
Proof.
  clear. induction l as [|a l IH]; intros j k x HM E K; [destruct j; discriminate|]. cbn [flat_map]. destruct j as [|j].
  - injection E as ->. cbn. apply nth_error_app1. rewrite HM by now left. exact K.
  - cbn [nth_error] in E. assert (LA : length (f a) = m) by (apply HM; now left). rewrite nth_error_app2; [|rewrite LA; cbn; lia]. rewrite LA.
    replace (S j * m + k - m) with (j * m + k) by (cbn; lia). apply (IH j k x); auto. intros y I. apply HM. now right.
Qed.
(** The statistics: a row for each sentence and stage, with the sentence's id and
    length and the values of the result of that stage for that sentence. *)
Theorem C63_stats : forall numstages testset arrivals ss, NoDup (map fst testset) ->
  (forall it, In it testset -> length (parse (t_sent (snd it)) (t_gold (snd it))) = numstages) -> Permutation arrivals (map worker testset) ->
  doparsing numstages testset arrivals = Some ss ->
  length (stats Tree Sent Float nan testset ss) = length testset * numstages /\
  forall j k i t r, nth_error testset j = Some (i, t) -> nth_error (parse (t_sent t) (t_gold t)) k = Some r ->
    exists l f, scorespec r l f /\
      nth_error (stats Tree Sent Float nan testset ss) (j * numstages + k) =
        Some (i, t_len _ _ t, k, Some (r_elapsed _ _ r), l, f, r_numitems _ _ r, r_golditems _ _ r, r_totalgolditems _ _ r).
Proof.
  intros numstages testset arrivals ss ND HL P E. destruct (C63_results numstages testset arrivals ND HL P) as (ss' & E' & L & H).
  rewrite E in E'. injection E' as <-.
  set (g := fun it => map (fun ks => statsrow Tree Sent Float nan it (fst ks) (snd ks)) (combine (seq 0 (length ss)) ss)).
  assert (LG : forall it, In it testset -> length (g it) = numstages).
  { intros it _. unfold g. rewrite map_length, combine_length, seq_length, L. apply Nat.min_id. }
  split.
  - change (stats Tree Sent Float nan testset ss) with (flat_map g testset). clear - LG. induction testset as [|a l IH]; auto.
    cbn [flat_map length]. rewrite app_length, (LG a) by now left. cbn. rewrite IH; [lia|]. intros it I. apply LG. now right.
  - intros j k i t r Hj Hr. pose proof (nth_error_In _ _ Hj) as Hi.
    assert (K : k < numstages). { rewrite <- (HL _ Hi). cbn [snd]. apply nth_error_Some. congruence. }
    destruct (nth_error ss k) as [s|] eqn:Es; [|apply nth_error_None in Es; lia].
    exists (fst (scoreof Tree Float log c300 r nan (Some 0%Z))), (snd (scoreof Tree Float log c300 r nan (Some 0%Z))). split; [apply scoreof_spec|].
    change (stats Tree Sent Float nan testset ss) with (flat_map g testset). rewrite (nth_flat_map _ _ g numstages testset j k (i, t) LG Hj K).
    assert (C : nth_error (combine (seq 0 (length ss)) ss) k = Some (k, s)).
    { clear - Es. assert (Q : forall n, nth_error (combine (seq n (length ss)) ss) k = Some (n + k, s)); [|exact (Q 0)].
      revert k Es. induction ss as [|a ss IH]; intros [|k] Es n; try discriminate; cbn [length seq combine nth_error] in *.
      - injection Es as ->. do 2 f_equal. lia.
      - rewrite (IH k Es (S n)). do 2 f_equal. lia. }
    unfold g. rewrite (map_nth_error _ _ _ C). cbn [fst snd].
    destruct (proj2 (H k s Es) i t r Hi Hr) as (_ & _ & Q3 & Q4 & Q5 & Q6 & Q7 & Q8). unfold statsrow, get. cbn [fst snd].
    now rewrite Q3, Q4, Q5, Q6, Q7, Q8.
Qed.

Notation mainloop := (mainloop Tree Sent Float log nan c300 evalpair disconly cutoff).
Notation addresults := (addresults Tree Sent Float log nan c300 evalpair disconly cutoff).
Definition filled (i : nat) (ss : list stage) : Prop := match ss with [] => False | s :: _ => exists t, lookup i (s_trees _ _ _ s) = Some (Some t) end.
Lemma addresults_filled : forall i t ss rs ss', addresults i t ss rs = Some ss' -> rs <> [] -> filled i ss'.
Proof.
  intros i t [|s ss] [|r rs] ss' E N; try congruence; cbn [ExpModel.addresults] in E; try discriminate.
  destruct (addresult _ _ _ _ _ _ _ _ _ i t s r) as [s'|] eqn:E1; [|discriminate]. destruct (ExpModel.addresults _ _ _ _ _ _ _ _ _ i t ss rs) as [ss2|]; [|discriminate].
  injection E as <-. cbn [filled]. unfold addresult in E1. destruct (lookup i (s_trees _ _ _ s)) as [[|]|]; try discriminate. destruct (lookup i (s_elapsed _ _ _ s)) as [[|]|]; try discriminate.
  destruct (scoreof _ _ _ _ _ _ _). injection E1 as <-. cbn [s_trees]. exists (r_tree _ _ r). rewrite lookup_assign, Nat.eqb_refl. reflexivity.
Qed.
Lemma addresults_keep : forall i j t ss rs ss', addresults j t ss rs = Some ss' -> filled i ss -> filled i ss'.
Proof.
  intros i j t ss rs ss' E H. destruct ss as [|s ss], rs as [|r rs]; cbn [ExpModel.addresults] in E; try (injection E as <-; exact H); [destruct H|].
  destruct (addresult _ _ _ _ _ _ _ _ _ j t s r) as [s'|] eqn:E1; [|discriminate]. destruct (ExpModel.addresults _ _ _ _ _ _ _ _ _ j t ss rs) as [ss2|]; [|discriminate].
  injection E as <-. cbn [filled] in *. destruct H as [u H]. unfold addresult in E1. destruct (lookup j (s_trees _ _ _ s)) as [[|]|] eqn:Ej; try discriminate. destruct (lookup j (s_elapsed _ _ _ s)) as [[|]|]; try discriminate.
  destruct (scoreof _ _ _ _ _ _ _). injection E1 as <-. cbn [s_trees]. rewrite lookup_assign. destruct (j =? i); eauto.
Qed.
Lemma mainloop_filled : forall testset i a ss, filled i ss -> forall rs c, rs <> [] -> mainloop testset ss (a ++ (i, rs) :: c) = None.
Proof.
  intros testset i a. induction a as [|[j rj] a IH]; intros ss H rs c N; cbn [app ExpModel.mainloop].
  - destruct (lookup i testset) as [t|]; auto. destruct ss as [|s ss]; [destruct H|]. destruct H as [u H]. destruct rs as [|r rs]; [congruence|]. cbn [ExpModel.addresults].
    unfold addresult. rewrite H. reflexivity.
  - destruct (lookup j testset) as [t|]; auto. destruct (ExpModel.addresults _ _ _ _ _ _ _ _ _ j t ss rj) as [ss'|] eqn:E; auto. apply IH; auto. exact (addresults_keep _ _ _ _ _ _ E H).
Qed.
(** A sentence of which the results arrive twice stops the experiment. *)
Theorem C63_duplicate : forall numstages testset a i rs b rs' c, rs <> [] -> rs' <> [] ->
  doparsing numstages testset (a ++ (i, rs) :: b ++ (i, rs') :: c) = None.
Proof.
  intros numstages testset a i rs b rs' c N N'. unfold ExpModel.doparsing. generalize (repeat (stage0 Tree Sent Float nan cutoff (map fst testset)) numstages).
  induction a as [|[j rj] a IH]; intros ss; cbn [app ExpModel.mainloop].
  - destruct (lookup i testset) as [t|]; auto. destruct (ExpModel.addresults _ _ _ _ _ _ _ _ _ i t ss rs) as [ss'|] eqn:E; auto. apply mainloop_filled; auto. exact (addresults_filled _ _ _ _ _ E N).
  - destruct (lookup j testset) as [t|]; auto. destruct (ExpModel.addresults _ _ _ _ _ _ _ _ _ j t ss rj) as [ss'|]; auto.
Qed.
End Results.

(** * input separated by blank lines *)
Lemma space_spec : forall c, space c = true <-> whitespace c.
Proof.
  intros c. unfold space, whitespace. rewrite existsb_exists. split.
  - intros (x & H & E). apply N.eqb_eq in E. now subst.
  - intros H. exists c. split; auto. apply N.eqb_refl.
Qed.
Definition nohead (s : pystr) : Prop := match s with [] => True | c :: _ => space c = false end.
Definition trimmed (s : pystr) : Prop := nohead s /\ nohead (rev s).
Lemma lstrip_nohead : forall s, nohead (lstrip s).
Proof. induction s as [|c s IH]; cbn [lstrip]; [exact Logic.I|]. destruct (space c) eqn:E; auto. Qed.
Lemma nohead_lstrip : forall s, nohead s -> lstrip s = s.
Proof. intros [|c s] H; auto. cbn in *. now rewrite H. Qed.
Lemma lstrip_split : forall s, exists a, s = a ++ lstrip s /\ blank a.
Proof.
  induction s as [|c s (a & IH & B)]; [exists []; split; [auto|intros c []]|]. cbn [lstrip]. destruct (space c) eqn:E.
  - exists (c :: a). split; [cbn; now rewrite <- IH|]. intros x [<-|Hx]; [now apply space_spec|auto].
  - exists []. split; auto. intros x [].
Qed.
Lemma trimmed_strip : forall s, trimmed s -> strip s = s.
Proof. intros s [H1 H2]. unfold strip. rewrite (nohead_lstrip s H1), (nohead_lstrip _ H2). apply rev_involutive. Qed.
Lemma lstrip_blank : forall s, blank s -> lstrip s = [].
Proof. induction s as [|c s IH]; intros B; auto. cbn [lstrip]. rewrite (proj2 (space_spec c)) by (apply B; now left). apply IH. intros x Hx. apply B. now right. Qed.
Lemma lstrip_app : forall a t, blank a -> lstrip (a ++ t) = lstrip t.
Proof. induction a as [|c a IH]; intros t B; auto. cbn [app lstrip]. rewrite (proj2 (space_spec c)) by (apply B; now left). apply IH. intros x Hx. apply B. now right. Qed.
Lemma blank_rev : forall s, blank s -> blank (rev s).
Proof. intros s B c H. apply B. now apply in_rev. Qed.
Lemma strip_trim_eq : forall s t, Trim s t -> strip s = t.
Proof.
  intros s t (a & b & -> & A & B & H1 & H2). unfold strip. rewrite (lstrip_app a _ A).
  assert (N1 : nohead t) by (destruct t as [|c t]; [exact Logic.I|cbn; destruct (space c) eqn:E; auto; exfalso; apply H1; now apply space_spec]).
  assert (N2 : nohead (rev t)) by (destruct (rev t) as [|c r]; [exact Logic.I|cbn; destruct (space c) eqn:E; auto; exfalso; apply H2; now apply space_spec]).
  destruct t as [|c t].
  - cbn [app]. rewrite (lstrip_blank b B). reflexivity.
  - rewrite (nohead_lstrip ((c :: t) ++ b)) by exact N1. rewrite rev_app_distr, lstrip_app by (now apply blank_rev). rewrite (nohead_lstrip _ N2). apply rev_involutive.
Qed.
(** str.strip *)
Lemma strip_Trim : forall s, Trim s (strip s).
Proof.
  intros s. unfold strip. destruct (lstrip_split s) as (a & E & A). destruct (lstrip_split (rev (lstrip s))) as (b & E' & B).
  exists a, (rev b). split; [|split; [exact A|split; [now apply blank_rev|]]].
  - rewrite <- rev_app_distr, <- E', rev_involutive. exact E.
  - assert (N : nohead (rev (lstrip (rev (lstrip s)))) /\ nohead (lstrip (rev (lstrip s)))).
    { split; [|apply lstrip_nohead]. pose proof (lstrip_nohead s) as N. assert (X : lstrip s = rev (lstrip (rev (lstrip s))) ++ rev b) by (rewrite <- rev_app_distr, <- E'; now rewrite rev_involutive).
      rewrite X in N. destruct (rev (lstrip (rev (lstrip s)))); [exact Logic.I|exact N]. }
    destruct N as [N1 N2]. rewrite rev_involutive. split.
    + destruct (rev (lstrip (rev (lstrip s)))) as [|c ?]; auto. intros W. apply space_spec in W. unfold nohead in N1; congruence.
    + destruct (lstrip (rev (lstrip s))) as [|c ?]; auto. intros W. apply space_spec in W. unfold nohead in N2; congruence.
Qed.
Lemma strip_trimmed : forall s, trimmed (strip s).
Proof.
  intros s. destruct (strip_Trim s) as (a & b & _ & _ & _ & H1 & H2). split.
  - destruct (strip s) as [|c r]; [exact Logic.I|]. cbn. destruct (space c) eqn:E; auto. exfalso. apply H1. now apply space_spec.
  - destruct (rev (strip s)) as [|c r]; [exact Logic.I|]. cbn. destruct (space c) eqn:E; auto. exfalso. apply H2. now apply space_spec.
Qed.
Lemma strip_nil : forall s, strip s = [] <-> blank s.
Proof.
  intros s. split.
  - intros E. destruct (strip_Trim s) as (a & b & E' & A & B & _). rewrite E in E'. rewrite E'. cbn [app]. intros c H. apply in_app_or in H. destruct H; auto.
  - intros B. apply strip_trim_eq. exists s, []. rewrite !app_nil_r. repeat split; auto. intros c [].
Qed.
Lemma joinspace_trimmed : forall b, b <> [] -> (forall l, In l b -> l <> [] /\ trimmed l) -> joinspace b <> [] /\ trimmed (joinspace b).
Proof.
  intros b. induction b as [|x b IH]; intros N H; [congruence|]. destruct (H x (or_introl eq_refl)) as [X1 [X2 X3]]. destruct b as [|y b].
  - cbn [joinspace]. repeat split; auto.
  - destruct IH as [Y1 [Y2 Y3]]; [discriminate|intros l Hl; apply H; now right|].
    change (joinspace (x :: y :: b)) with (x ++ 32%N :: joinspace (y :: b)). split; [destruct x; discriminate|]. split.
    + destruct x; [congruence|exact X2].
    + rewrite rev_app_distr. change (32%N :: joinspace (y :: b)) with ([32%N] ++ joinspace (y :: b)). rewrite rev_app_distr. destruct (rev (joinspace (y :: b))) as [|c r] eqn:E; [|exact Y3].
      exfalso. apply Y1. rewrite <- (rev_involutive (joinspace (y :: b))), E. reflexivity.
Qed.
Definition nonempty (line : pystr) : bool := match strip line with [] => false | _ => true end.
Definition clean (l : list pystr) : list pystr := map strip (filter nonempty l).
Lemma clean_cons : forall x l, clean (x :: l) = match strip x with [] => clean l | y => y :: clean l end.
Proof. intros x l. unfold clean. cbn [filter]. unfold nonempty at 1. destruct (strip x) eqn:E; auto. cbn [map]. now rewrite E. Qed.
Lemma joinspace_empty : forall b, b <> [] -> joinspace ([] :: b) = 32%N :: joinspace b.
Proof. intros [|x b] H; [congruence|]. reflexivity. Qed.
Lemma strip_space : forall s, strip (32%N :: s) = strip s.
Proof. intros s. unfold strip. reflexivity. Qed.
(** what is in [sent] before the lines of a block: nothing, or an empty line *)
Definition start (sent : list pystr) : Prop := sent = [] \/ sent = [[]].
Lemma strip_joined : forall sent b, start sent -> b <> [] -> (forall l, In l b -> l <> [] /\ trimmed l) -> strip (joinspace (sent ++ b)) = joinspace b /\ joinspace b <> [].
Proof.
  intros sent b [->| ->] N H; destruct (joinspace_trimmed b N H) as [J1 J2]; split; auto; cbn [app].
  - now apply trimmed_strip.
  - rewrite joinspace_empty, strip_space by exact N. now apply trimmed_strip.
Qed.
Lemma bitparloop_block : forall b rest sent, (forall l, In l b -> ~ blank l) -> bitparloop (b ++ rest) sent = bitparloop rest (sent ++ map strip b).
Proof.
  induction b as [|l b IH]; intros rest sent H; cbn [app map bitparloop]; [now rewrite app_nil_r|].
  destruct (strip l) as [|c s] eqn:E; [exfalso; apply (H l (or_introl eq_refl)); now apply strip_nil|].
  rewrite IH by (intros; apply H; now right). now rewrite <- app_assoc.
Qed.
Lemma bitparloop_blocks : forall lines bs, Blocks lines bs -> forall sent, start sent -> clean (bitparloop lines sent) = map (fun b => joinspace (map strip b)) bs.
Proof.
  intros lines bs H. induction H as [|l ls bs B H IH|b rest bs N NB R H IH]; intros sent Hs.
  - destruct Hs as [-> | ->]; reflexivity.
  - cbn [bitparloop]. rewrite (proj2 (strip_nil l) B), clean_cons. assert (E : strip (joinspace sent) = []) by (destruct Hs as [-> | ->]; reflexivity). rewrite E. apply IH. now right.
  - rewrite bitparloop_block by exact NB.
    assert (Q : forall l, In l (map strip b) -> l <> [] /\ trimmed l).
    { intros l Hl. apply in_map_iff in Hl. destruct Hl as (x & <- & Hx). split; [|apply strip_trimmed]. intros E. apply (NB x Hx). now apply strip_nil. }
    destruct (strip_joined sent (map strip b) Hs) as [J1 J2]; [destruct b; [congruence|discriminate]|exact Q|].
    cbn [map]. destruct rest as [|l rest].
    + cbn [bitparloop]. destruct (sent ++ map strip b) as [|x y] eqn:E; [exfalso; destruct sent, b; try discriminate; congruence|]. rewrite clean_cons, J1.
      destruct (joinspace (map strip b)) eqn:EJ; [congruence|]. f_equal. specialize (IH [] (or_introl eq_refl)). exact IH.
    + cbn [bitparloop]. rewrite (proj2 (strip_nil l) R), clean_cons, J1. destruct (joinspace (map strip b)) eqn:EJ; [congruence|]. f_equal.
      specialize (IH [] (or_introl eq_refl)). cbn [bitparloop] in IH. rewrite (proj2 (strip_nil l) R), clean_cons in IH. exact IH.
Qed.
Lemma map_combine_seq : forall (l : list pystr) n, map (fun x => (fst x, workerline (snd x))) (combine (seq n (length l)) l) = combine (seq n (length (map strip l))) (map strip l).
Proof. induction l as [|x l IH]; intros n; auto. cbn [length seq combine map fst snd]. unfold workerline at 1. f_equal. apply IH. Qed.

(** every input consists of blocks of lines separated by blank lines *)
Theorem C63_blocks : forall lines, exists bs, Blocks lines bs.
Proof.
  intros lines. induction lines as [|l lines IH]; [exists []; constructor|]. destruct IH as [bs IH].
  destruct (strip l) eqn:E.
  - exists bs. constructor; [now apply strip_nil|exact IH].
  - assert (NB : ~ blank l) by (intros B; apply strip_nil in B; congruence). inversion IH as [|l' ls bs' B H|b rest bs' N NB' R H]; subst.
    + exists [[l]]. apply (b_block [l] [] []); [discriminate| |exact Logic.I|constructor]. intros x [<-|[]]; auto.
    + exists ([l] :: bs). apply (b_block [l] (l' :: ls) bs); [discriminate| |exact B|exact IH]. intros x [<-|[]]; auto.
    + exists ((l :: b) :: bs'). apply (b_block (l :: b) rest bs'); [discriminate| |exact R|exact H]. intros x [<-|Hx]; auto.
Qed.
(** the sentences that are parsed when the words are given one per line: the
    blocks, with the words separated by one space, numbered from 1 *)
Theorem C63_bitpar : forall lines bs words, Blocks lines bs -> Forall2 (Forall2 Trim) bs words ->
  map (fun x => (fst x, workerline (snd x))) (numbered (readinputbitparstyle lines)) = combine (seq 1 (length words)) (map joinspace words).
Proof.
  intros lines bs words H HW. unfold numbered, readinputbitparstyle.
  pose proof (bitparloop_blocks lines bs H [] (or_introl eq_refl)) as E. unfold clean, nonempty in E. cbv zeta. rewrite map_combine_seq, E.
  assert (W : map (fun b => joinspace (map strip b)) bs = map joinspace words).
  { clear - HW. induction HW as [|b w bs words HB HW IH]; auto. cbn [map]. f_equal; [|exact IH]. f_equal. clear - HB. induction HB as [|l w b ws T HB IH]; auto. cbn [map]. f_equal; [|exact IH]. now apply strip_trim_eq. }
  rewrite W, map_length. reflexivity.
Qed.
(** The same reader with sentence ids: after a blank line the key of a
    sentence gets a space in front of it. *)
Definition keyof (line : pystr) : pystr := (fix f (s : pystr) := match s with [] => [] | c :: s => if N.eqb c 124 then [] else c :: f s end) line.
Theorem C63_sentid_refuted : exists lines : list pystr, lines = [[65;124;120]; []; [66;124;121]]%N /\
  map keyof (readinputbitparstyle lines) = [[65]; [32; 66]]%N.
Proof. eexists. split; [reflexivity|]. reflexivity. Qed.

(** the text written is that of the sentences in the order of the input *)
Theorem C63_output : forall output noparse infile, writeparses output noparse infile =
  (concat (map output infile), length (filter (fun a => match output a with [] => false | _ => noparse a end) infile)).
Proof.
  intros output noparse infile. unfold writeparses.
  assert (G : forall l o n, fold_left (fun acc a => match output a with [] => acc | o => (fst acc ++ o, if noparse a then S (snd acc) else snd acc) end) l (o, n) =
    (o ++ concat (map output l), n + length (filter (fun a => match output a with [] => false | _ => noparse a end) l))).
  { induction l as [|a l IH]; intros o n; cbn [fold_left map concat filter]; [now rewrite app_nil_r, Nat.add_0_r|].
    destruct (output a) as [|c r] eqn:E; rewrite ?E.
    - rewrite IH. reflexivity.
    - cbn [fst snd]. rewrite IH, <- app_assoc. f_equal. destruct (noparse a); cbn [length]; lia. }
  now rewrite G.
Qed.

(** ** an experiment with three sentences and two stages; trees, sentences and
    floats are numbers *)
Definition ex_parse (s t : nat) : list (stageresult nat nat) :=
  [mkRes nat nat (s + 10) (ProbFloat (Q2Qc (1 # 2))) (Some 1) s 1 2 5 false; mkRes nat nat (s + t) (ProbTuple [PInt (-3)%Z; PFloat (Q2Qc (1 # 4))]) None s 2 2 6 (s =? 2)].
Definition ex_pair (n : nat) (g gs c cs : nat) : pair :=
  mkPair n [(([78%N], N.of_nat g), 1%nat)] [(([78%N], N.of_nat c), 1%nat)] [[80%N]] [[81%N]] (n * 20) (Some (nq c)) (Some (nq 1)) (Some (nq 4)).
Definition ex_testset : list (nat * test nat nat) := [(1, mkTest nat nat 4 7 4 2); (2, mkTest nat nat 2 9 2 3); (3, mkTest nat nat 5 1 5 1)].
Definition ex_run (arrivals : list (arrival nat nat)) := doparsing nat nat nat (fun _ => 77) 0 300 ex_pair false (Some 40) 2 ex_testset arrivals.
Definition ex_a := map (worker nat nat nat ex_parse) ex_testset.
Definition ex_b := [worker nat nat nat ex_parse (nth 2 ex_testset (0, mkTest nat nat 0 0 0 0)); worker nat nat nat ex_parse (nth 0 ex_testset (0, mkTest nat nat 0 0 0 0));
  worker nat nat nat ex_parse (nth 1 ex_testset (0, mkTest nat nat 0 0 0 0))].
Example ex_hyps : NoDup (map fst ex_testset) /\ (forall it, In it ex_testset -> length (ex_parse (t_sent _ _ (snd it)) (t_gold _ _ (snd it))) = 2) /\
  (forall k p, In p (pairs nat nat nat ex_parse ex_pair ex_testset k) -> length (p_gpos p) = length (p_cpos p)) /\
  Permutation ex_a (map (worker nat nat nat ex_parse) ex_testset) /\ Permutation ex_b (map (worker nat nat nat ex_parse) ex_testset).
Proof.
  split; [repeat constructor; cbn; intuition lia|]. split; [intros; reflexivity|]. split; [|split; [apply Permutation_refl|]].
  - intros k p H. unfold pairs in H. apply in_flat_map in H. destruct H as (it & _ & H). destruct (nth_error _ k); [|destruct H]. destruct H as [<-|[]]. reflexivity.
  - unfold ex_b, ex_testset. cbn [map nth]. apply Permutation_sym. eapply Permutation_trans; [apply perm_skip, perm_swap|]. apply perm_swap.
Qed.
Example ex_run_a : option_map (fun ss => (map (treesfile nat nat nat ex_testset) ss, map (s_noparse _ _ _) ss)) (ex_run ex_b) =
  Some ([[(1, Some 14, Some 4); (2, Some 12, Some 2); (3, Some 15, Some 5)]; [(1, Some 11, Some 4); (2, Some 11, Some 2); (3, Some 6, Some 5)]], [0; 1]).
Proof. vm_compute. reflexivity. Qed.
Example ex_differ : option_map (map (fun s => map fst (goldb (e_acc (s_eval nat nat nat s))))) (ex_run ex_a) <> option_map (map (fun s => map fst (goldb (e_acc (s_eval nat nat nat s))))) (ex_run ex_b).
Proof. vm_compute. discriminate. Qed.
Example ex_bitpar : Blocks [[65]; [32; 66; 10]; [32]; []; [67; 68]]%N [[[65]; [32; 66; 10]]; [[67; 68]]]%N /\
  numbered (readinputbitparstyle [[65]; [32; 66; 10]; [32]; []; [67; 68]]%N) = [(1, [65; 32; 66]%N); (2, [32; 67; 68]%N)].
Proof.
  split; [|reflexivity]. assert (W : forall c, In c [32%N] -> whitespace c) by (intros c [<-|[]]; now left).
  apply (b_block [[65]; [32; 66; 10]]%N [[32]; []; [67; 68]]%N); [discriminate| |exact W|].
  - intros l [<-|[<-|[]]] B; [specialize (B 65%N (or_introl eq_refl))|specialize (B 66%N (or_intror (or_introl eq_refl)))]; cbn in B; intuition discriminate.
  - apply b_blank; [exact W|]. apply b_blank; [intros c []|]. apply (b_block [[67; 68]]%N [] []); [discriminate| |exact Logic.I|constructor].
    intros l [<-|[]] B. specialize (B 67%N (or_introl eq_refl)). cbn in B. intuition discriminate.
Qed.
