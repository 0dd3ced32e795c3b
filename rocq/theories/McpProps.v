(** C66: the Max Constituents Parse. *)
From Coq Require Import String.
From Coq Require Import List Bool Arith NArith ZArith QArith Lia Lqa Permutation.
From Verif Require Import PyStr BitsModel BitsSpec BitsProofs McpModel McpSpec McpProofs McpProofs2 McpProofs3 McpProofs4.
Import ListNotations.
Local Open Scope list_scope.

(** The label masses collected from the derivations, divided by the total, are the
    probabilities of the constituents: a span and label is in the table exactly if
    some derivation has it, and its mass counts every derivation that has it once. *)
Theorem C66_marginals : forall labels n ds s ws l,
  derivations_of n ds ->
  (forall i, N.testbit s i = true <-> In i ws) ->
  ((exists tc p, In (s, tc) (marginals labels ds) /\ In (l, p) tc)
     <-> exists d w s', In (d, w) ds /\ In (l, s') (constituents d) /\ sameset ws s')
  /\ forall tc p, In (s, tc) (marginals labels ds) -> In (l, p) tc ->
       p / sentprob ds == cprob (counted labels) ds l ws.
Proof.
  intros labels n ds s ws l WF S.
  assert (E : s = mask ws).
  { apply N.bits_inj. intros i. apply eq_true_iff_eq. rewrite mask_in. apply S. }
  subst s. destruct (tb_ok labels ds) as (_ & K & C). split.
  - split.
    + intros (tc & p & I & J). destruct (C _ _ I) as (_ & _ & K2 & _).
      assert (X : In l (map fst tc)) by (change l with (fst (l, p)); now apply in_map).
      apply K2 in X. destruct X as [w X]. apply entry_inv in X. destruct X as (t & ws' & A & B & D).
      exists t, w, ws'. split; [exact A|]. split; [exact B|]. now apply mask_sameset.
    + intros (d & w & s' & A & B & D).
      assert (X : In ((l, mask ws), w) (entries ds)).
      { apply entry_inv. exists d, s'. split; [exact A|]. split; [exact B|]. now apply mask_sameset. }
      assert (Y : In (mask ws) (map fst (marginals labels ds))) by (apply K; eauto).
      apply in_map_iff in Y. destruct Y as ([s2 tc] & Q & Y). cbn in Q. subst s2.
      destruct (C _ _ Y) as (_ & _ & K2 & _).
      assert (Z : In l (map fst tc)) by (apply K2; eauto).
      apply in_map_iff in Z. destruct Z as ([l2 p] & Q & Z). cbn in Q. subst l2. eauto.
  - intros tc p I J. destruct (C _ _ I) as (_ & _ & _ & V). specialize (V _ _ J). rewrite V.
    unfold val, cprob. destruct (counted labels l); [|unfold Qdiv; lra].
    rewrite (emass_derivations ds l ws (ds_proper n ds WF)), sentprob_ok. reflexivity.
Qed.

(** the hypothesis of the following theorems: for every word there is a tag that is
    worth including (more probable than not, for lambda 1) *)
Definition worthy_tags (labda : Q) (labels : option (list pystr)) (n : nat) (ds : list (bt * Q)) : Prop :=
  forall i, (i < N.of_nat n)%N -> exists l, 0 < gain labda (counted labels) ds (l, [i]).

Lemma mcp_result : forall labda labels n ds, derivations_of n ds -> 0 <= labda ->
  worthy_tags labda labels n ds ->
  exists t, mcp labda labels n ds = Some [t]
    /\ Permutation (owords t) (sentence n)
    /\ (forall l ws, In (l, ws) (oconstituents t) ->
          exists d w s, In (d, w) ds /\ In (l, s) (constituents d) /\ sameset ws s)
    /\ forall T, proper T -> sameset (words_of T) (sentence n) ->
         (forall l s, In (l, s) (constituents T) -> observed ds s) ->
         qsum (map (gain labda (counted labels) ds) (constituents T))
         <= qsum (map (gain labda (counted labels) ds) (oconstituents t)).
Proof.
  intros labda labels n ds WF LA TG.
  destruct (cells_ok labda labels n ds WF) as (cs & F & INV & KEYS).
  unfold mcp. cbv zeta. rewrite F.
  destruct (rev ds) as [|[t0 w0] r] eqn:R.
  { exfalso. destruct WF as [NE _]. apply NE. rewrite <- (rev_involutive ds), R. reflexivity. }
  assert (I0 : In (t0, w0) ds) by (apply in_rev; rewrite R; now left).
  destruct WF as [NE H]. destruct (H _ _ I0) as (_ & P0 & S0 & _).
  assert (WF : derivations_of n ds) by (split; assumption).
  assert (EB : bitset t0 = mask (sentence n)) by (rewrite bitset_mask; now apply mask_sameset).
  assert (IT : In (bitset t0) (map fst (marginals labels ds))).
  { rewrite bitset_mask. apply tb_observed. destruct (subtrees_root t0) as [l J].
    rewrite subtrees_constituents in J. apply in_map_iff in J. destruct J as ([l' ws] & E & J).
    cbn [fst snd] in E. injection E as -> E. exists t0, w0, l, ws. split; [exact I0|]. split; [exact J|].
    apply mask_sameset. now rewrite E, bitset_mask. }
  assert (TAGS : forall i, (i < N.of_nat n)%N -> exists l, 0 < worth labda labels ds l (mask [i])).
  { intros i Hi. destruct (TG i Hi) as [l G]. exists l. rewrite (worth_gain labda labels n ds WF) in G. exact G. }
  assert (WG : forall l, qsum (map (gain labda (counted labels) ds) l)
             == qsum (map (fun x => worth labda labels ds (fst x) (mask (snd x))) l)).
  { intros l. apply qsum_comp. intros [a b] _. apply (worth_gain labda labels n ds WF). }
  destruct (gettree_ok labda labels n ds WF LA cs INV KEYS TAGS (S n) (bitset t0) IT) as (ts & c & G & D & M & W & CO & ONE).
  { rewrite EB, lenof_sentence. lia. }
  destruct ONE as [t ->]; [right; now rewrite EB, lenof_sentence|].
  exists t. split; [exact G|]. cbn [flat_map] in *. rewrite app_nil_r in *. split; [|split].
  - apply NoDup_Permutation; [apply M|apply sentence_nodup|]. intros i. destruct M as [_ M]. rewrite M, EB.
    unfold member. apply mask_in.
  - intros l ws J. destruct (CO _ _ J) as [w X]. apply entry_inv in X. destruct X as (d & s & A & B & E).
    exists d, w, s. split; [exact A|]. split; [exact B|]. now apply mask_sameset.
  - intros T PT ST OT. destruct (upper labda labels n ds WF LA cs INV KEYS T PT OT) as (c' & G' & U).
    assert (E' : bitset T = bitset t0).
    { rewrite EB, bitset_mask. now apply mask_sameset. }
    rewrite E', D in G'. injection G' as <-. rewrite !WG. unfold total_worth in W.
    cbn [flat_map] in W. rewrite app_nil_r in W. lra.
Qed.

(** Of all binary trees over the sentence with spans found in the derivations,
    none has a larger expected number of correct minus lambda times incorrect
    constituents (not counting those worth nothing) than the tree returned. *)
Theorem C66_optimal : forall labda labels n ds t,
  derivations_of n ds -> 0 <= labda -> worthy_tags labda labels n ds ->
  mcp labda labels n ds = Some [t] ->
  forall T, proper T -> sameset (words_of T) (sentence n) ->
    (forall l s, In (l, s) (constituents T) -> observed ds s) ->
    qsum (map (gain labda (counted labels) ds) (constituents T))
    <= qsum (map (gain labda (counted labels) ds) (oconstituents t)).
Proof.
  intros labda labels n ds t WF LA TG E. destruct (mcp_result labda labels n ds WF LA TG) as (t' & E' & _ & _ & O).
  rewrite E in E'. injection E' as <-. exact O.
Qed.
(** In particular it is at least as good as each of the derivations. *)
Theorem C66_better_than_derivations : forall labda labels n ds t d w,
  derivations_of n ds -> 0 <= labda -> worthy_tags labda labels n ds ->
  mcp labda labels n ds = Some [t] -> In (d, w) ds ->
  qsum (map (gain labda (counted labels) ds) (constituents d))
  <= qsum (map (gain labda (counted labels) ds) (oconstituents t)).
Proof.
  intros labda labels n ds t d w WF LA TG E I. pose proof WF as [_ H]. destruct (H _ _ I) as (_ & P & S0 & _).
  apply (C66_optimal labda labels n ds t WF LA TG E d P S0).
  intros l s J. exists d, w, l, s. split; [exact I|]. split; [exact J|]. intros i. reflexivity.
Qed.
(** A single tree comes out, it has every word of the sentence exactly once, and
    every one of its constituents occurs in some derivation. *)
Theorem C66_covers : forall labda labels n ds,
  derivations_of n ds -> 0 <= labda -> worthy_tags labda labels n ds ->
  exists t, mcp labda labels n ds = Some [t]
    /\ Permutation (owords t) (sentence n)
    /\ forall l ws, In (l, ws) (oconstituents t) ->
         exists d w s, In (d, w) ds /\ In (l, s) (constituents d) /\ sameset ws s.
Proof.
  intros labda labels n ds WF LA TG. destruct (mcp_result labda labels n ds WF LA TG) as (t & E & P & C & _).
  exists t. auto.
Qed.

(** *** worthy tags are needed *)
Definition lf (l : string) (i : N) := BLeaf (str l) i.
Definition nd (l : string) (a b : bt) := BNode (str l) a b.
Definition ds1 : list (bt * Q) :=
  [ (nd "NP" (lf "A" 0) (lf "B" 1), 1 # 4);
    (nd "VP" (lf "C" 0) (lf "D" 1), 1 # 4);
    (nd "PP" (lf "E" 0) (lf "F" 1), 1 # 4) ].
Ltac deriv_ok :=
  split; [discriminate|]; intros d w I; cbn in I;
  destruct I as [I|[I|[I|[]]]]; injection I as <- <-;
  (split; [reflexivity|split; [|split]];
  [ cbn; repeat split; auto;
    try (intros i H; intros H'; cbn in H, H'; intuition lia);
    try (exists 0%N; split; [now left|]; intros j H; repeat (destruct H as [<-|H]; [reflexivity|]); contradiction);
    try (exists 1%N; split; [now left|]; intros j H; repeat (destruct H as [<-|H]; [reflexivity|]); contradiction)
  | intros i; cbn; tauto
  | intros l s H; cbn in H; repeat (destruct H as [H|H]; [injection H as <- <-; split; discriminate|]); contradiction ]).
Lemma ds1_ok : derivations_of 2 ds1.
Proof. deriv_ok. Qed.
(** three equally likely derivations of two words, with nothing in common: no
    label is more likely right than wrong, every score is 0, "score >
    maxcombscore" never holds, and the result is a single leaf; the second word
    is lost. *)
Theorem C66_lost_words_refuted : ~ forall labda labels n ds t,
  derivations_of n ds -> 0 <= labda ->
  mcp labda labels n ds = Some [t] -> Permutation (owords t) (sentence n).
Proof.
  intros H.
  assert (E : mcp 1 None 2 ds1 = Some [OLeaf (str "NP") 0]) by (vm_compute; reflexivity).
  specialize (H 1 None 2%nat ds1 _ ds1_ok ltac:(discriminate) E).
  apply Permutation_length in H. discriminate.
Qed.

(** *** non-vacuity: a discontinuous sentence; the result combines two derivations *)
Definition ds2 : list (bt * Q) :=
  [ (nd "S" (nd "VP" (lf "V" 0) (lf "P" 2)) (lf "N" 1), 1 # 2);
    (nd "S" (nd "VP" (lf "V" 0) (lf "R" 2)) (lf "N" 1), 1 # 8);
    (nd "X" (lf "V" 0) (nd "NP" (lf "N" 1) (lf "P" 2)), 1 # 4) ].
Example ds2_ok : derivations_of 3 ds2.
Proof. deriv_ok. Qed.
Example ds2_tags : worthy_tags 1 None 3 ds2.
Proof.
  intros i Hi. assert (C : i = 0%N \/ i = 1%N \/ i = 2%N) by lia. destruct C as [->|[->| ->]];
    [exists (str "V")|exists (str "N")|exists (str "P")]; vm_compute; reflexivity.
Qed.
Example ds2_mcp : mcp 1 None 3 ds2
  = Some [ONode (str "S") [ONode (str "VP") [OLeaf (str "V") 0; OLeaf (str "P") 2]; OLeaf (str "N") 1]].
Proof. vm_compute. reflexivity. Qed.
(** with a larger lambda the VP is not worth including *)
Example ds2_flat : mcp 3 None 3 ds2
  = Some [ONode (str "S") [OLeaf (str "V") 0; OLeaf (str "N") 1; OLeaf (str "P") 2]].
Proof. vm_compute. reflexivity. Qed.
Example ds2_marginal : cprob (counted None) ds2 (str "P") [2%N] == 6 # 7.
Proof. vm_compute. reflexivity. Qed.
