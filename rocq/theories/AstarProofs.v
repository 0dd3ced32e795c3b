(** Proofs about A* parsing (C68). *)
From Coq Require Import List Bool Arith NArith Lia.
From Verif Require Import BitsModel ConcatModel PlcfrsModel PlcfrsSpec PlcfrsProofs AstarModel AstarSpec.
Import ListNotations.
Open Scope list_scope.
Open Scope nat_scope.

Section Proofs.
Variable vec : Type.
Variable veqb : vec -> vec -> bool.
Variable vconcat : yfenc -> vec -> vec -> bool.
Variable vcombine : vec -> vec -> vec.
Variable vsingle : nat -> vec.
Variable vltb : vec -> vec -> bool.
Variable wl : item vec -> bool.
Variable maxlog : N.
Variable estlex : nat -> nat -> option N.
Variables estun estbin : nat -> vec -> option N.
Variable rules : list prule.
Variable mask : nat -> bool.
Variable goal : item vec.
Variable sent : list word.
Variable P : nat -> vec -> Prop.
Variable est : nat -> vec -> option N.

Hypothesis veqb_ok : forall a b, veqb a b = true <-> a = b.
Notation item := (item vec).
Notation chart := (chart vec).
Notation ieqb := (ieqb vec veqb).
Notation amem := (amem vec veqb).
Notation aget := (aget vec veqb).
Notation probs := (probs vec).
Notation forest := (forest vec).
Notation agenda := (agenda vec).
Notation index := (index vec).
Notation cjoin := (cjoin vec vconcat vcombine).
Notation callowed := (callowed vec wl).
Notation tagged := (tagged vec vsingle callowed sent).
Notation derives := (derives vec vsingle cjoin callowed rules mask (not_goal goal) sent).
Notation within := (within vec vsingle cjoin callowed rules mask (not_goal goal) sent).
Notation usable := (usable rules mask).

Hypothesis P_word : forall i x c, tagged i x c -> P x (vsingle i).
Hypothesis P_unary : forall r v, In r rules -> prhs2 r = 0 -> P (prhs1 r) v -> P (plhs r) v.
Hypothesis P_binary : forall r l u v, In r rules -> prhs2 r <> 0 -> P (prhs1 r) l -> P (prhs2 r) u -> cjoin (ryf r) l u v -> P (plhs r) v.
Hypothesis est_lex : forall i x, i < length sent -> estlex i x = est x (vsingle i).
Hypothesis est_un : forall x v, P x v -> estun x v = est x v.
Hypothesis est_bin : forall x v, P x v -> estbin x v = est x v.
Hypothesis goal_alone : forall e x v, P x v -> vconcat e (snd goal) v = false /\ vconcat e v (snd goal) = false.
Hypothesis single_inj : forall i j, i < length sent -> j < length sent -> vsingle i = vsingle j -> i = j.
Hypothesis no_gold : forall w, In w sent -> goldlabels w = [].
Hypothesis entries_nodup : forall w, In w sent -> NoDup (map fst (entries w)).
Hypothesis adm : admissible vec vsingle cjoin callowed rules mask (not_goal goal) sent goal est.

Lemma derives_P : forall x v c, derives x v c -> P x v.
Proof.
  intros x v c D. induction D as [i x c T|r v c U E D IH NG A|r v1 v2 v a b U E D1 IH1 N1 D2 IH2 N2 J A].
  - eauto.
  - destruct U. eauto.
  - destruct U. eauto.
Qed.
Lemma derives_allowed : forall x v c, derives x v c -> wl (x, v) = true.
Proof.
  intros x v c D. inversion D; subst; auto. destruct H; auto.
  rewrite (no_gold w) in H1; [destruct H1|]. eapply nth_error_In; eauto.
Qed.

(** the estimate allows the cost *)
Definition pass (k : item) (c : N) : Prop := exists e, est (fst k) (snd k) = Some e /\ (c + e <= maxlog)%N.
Lemma pass_le : forall k c d, (c <= d)%N -> pass k d -> pass k c.
Proof. intros k c d L (e & E & H). exists e. split; [exact E|lia]. Qed.
Definition known (ch : chart) (k : item) (c : N) : Prop :=
  (exists p, probs ch k = Some p /\ (p <= c)%N) \/ (exists s p, aget (agenda ch) k = Some (s, p) /\ (p <= c)%N).

Record Mid (ch : chart) : Prop := MkMid {
  m_nd : NoDup (map fst (agenda ch));
  m_pr : forall x v p, probs ch (x, v) = Some p -> derives x v p /\ pass (x, v) p;
  m_ag : forall x v s p, aget (agenda ch) (x, v) = Some (s, p) -> derives x v p /\ ltp p (probs ch (x, v)) = true
           /\ exists e, est x v = Some e /\ s = (p + e)%N /\ (s <= maxlog)%N;
  m_fo : forall k, forest ch k <> [] <-> probs ch k <> None \/ amem (agenda ch) k = true;
  m_ix : forall k, probs ch k <> None \/ amem (agenda ch) k = true -> In k (index ch) }.
Definition grows (ch ch' : chart) : Prop :=
  probs ch' = probs ch /\ (forall k c, known ch k c -> known ch' k c) /\ forall k, In k (index ch) -> In k (index ch').
Lemma grows_refl : forall ch, grows ch ch.
Proof. intros ch. repeat split; auto. Qed.
Lemma grows_trans : forall a b c, grows a b -> grows b c -> grows a c.
Proof. intros a b c (A1 & A2 & A3) (B1 & B2 & B3). repeat split; [congruence|auto|auto]. Qed.

Notation aput := (aput vec veqb).
Notation process_edge := (process_edge vec veqb vltb wl).
Lemma amem_aput : forall a k v u, amem (aput a k v) u = ieqb u k || amem a u.
Proof. intros a k v u. unfold PlcfrsModel.amem. rewrite (aget_aput vec veqb veqb_ok). destruct (ieqb u k); auto. Qed.
Lemma iput_cases : forall X (f : item -> X) k x u, iput vec veqb f k x u = if ieqb u k then x else f u.
Proof. reflexivity. Qed.
Lemma app1 : forall X (l : list X) x, l ++ [x] <> [].
Proof. intros X l x E. destruct l; discriminate. Qed.

(** replacing the entry of k, with an edge added *)
Lemma put_mid : forall ch x v c s e idx frst, Mid ch -> derives x v c -> ltp c (probs ch (x, v)) = true ->
  est x v = Some e -> s = (c + e)%N -> (s <= maxlog)%N ->
  (forall s0 p0, aget (agenda ch) (x, v) = Some (s0, p0) -> (c <= p0)%N) ->
  (forall u, In u (index ch) -> In u idx) -> In (x, v) idx -> frst <> [] ->
  let ch' := Chart vec idx (probs ch) (iput vec veqb (forest ch) (x, v) frst) (aput (agenda ch) (x, v) (s, c)) in
  Mid ch' /\ grows ch ch' /\ known ch' (x, v) c.
Proof.
  intros ch x v c s e idx frst [M1 M2 M3 M4 M5] D LT E S LE OLD INC HI FR ch'. split; [|split].
  - constructor; cbn [PlcfrsModel.index PlcfrsModel.probs PlcfrsModel.forest PlcfrsModel.agenda ch'].
    + now apply aput_nodup.
    + exact M2.
    + intros y u s' p'. rewrite (aget_aput vec veqb veqb_ok). destruct (ieqb (y, u) (x, v)) eqn:Q; [|apply M3].
      apply (ieqb_ok vec veqb veqb_ok) in Q. injection Q as -> ->. intros G. injection G as <- <-.
      split; [exact D|]. split; [exact LT|]. exists e. auto.
    + intros k. rewrite iput_cases, amem_aput. destruct (ieqb k (x, v)) eqn:Q; [|apply M4]. cbn [orb]. tauto.
    + intros k. rewrite amem_aput. destruct (ieqb k (x, v)) eqn:Q.
      * apply (ieqb_ok vec veqb veqb_ok) in Q. now subst k.
      * intros H. apply INC, M5. exact H.
  - split; [reflexivity|]. split; [|exact INC]. intros k d [(p & A & B)|(s0 & p0 & A & B)]; [left; eauto|].
    right. cbn [PlcfrsModel.agenda ch']. rewrite (aget_aput vec veqb veqb_ok). destruct (ieqb k (x, v)) eqn:Q; [|eauto].
    apply (ieqb_ok vec veqb veqb_ok) in Q. subst k. exists s, c. split; [reflexivity|]. specialize (OLD _ _ A). lia.
  - right. exists s, c. cbn [PlcfrsModel.agenda ch']. rewrite (aget_aput vec veqb veqb_ok), (ieqb_refl vec veqb veqb_ok). split; [reflexivity|lia].
Qed.
(** adding an edge only *)
Lemma edge_mid : forall ch k frst, Mid ch -> forest ch k <> [] -> frst <> [] ->
  let ch' := Chart vec (index ch) (probs ch) (iput vec veqb (forest ch) k frst) (agenda ch) in
  Mid ch' /\ grows ch ch'.
Proof.
  intros ch k frst [M1 M2 M3 M4 M5] F FR ch'. split; [|repeat split; auto].
  constructor; cbn [PlcfrsModel.index PlcfrsModel.probs PlcfrsModel.forest PlcfrsModel.agenda ch']; auto.
  intros u. rewrite iput_cases. destruct (ieqb u k) eqn:Q; [|apply M4]. apply (ieqb_ok vec veqb veqb_ok) in Q. subst u.
  rewrite <- M4. tauto.
Qed.
Lemma process_edge_mid : forall ch x v c e r l, Mid ch -> (wl (x, v) = true -> derives x v c) ->
  est x v = Some e -> (c + e <= maxlog)%N ->
  let ch' := process_edge ch (x, v) c (c + e)%N r l in
  Mid ch' /\ grows ch ch' /\ (wl (x, v) = true -> known ch' (x, v) c).
Proof.
  intros ch x v c e r l M D E LE. pose proof M as [M1 M2 M3 M4 M5]. unfold PlcfrsModel.process_edge.
  assert (KN : forall s p, aget (agenda ch) (x, v) = Some (s, p) -> derives x v p) by (intros s p H; now apply M3 in H).
  destruct (amem (agenda ch) (x, v)) eqn:IA.
  - (* in agenda *)
    cbn [negb andb]. unfold PlcfrsModel.setifbetter. unfold PlcfrsModel.amem in IA.
    destruct (aget (agenda ch) (x, v)) as [[s0 p0]|] eqn:G; [|discriminate].
    destruct (M3 _ _ _ _ G) as (D0 & L0 & e0 & E0 & S0 & X0). rewrite E in E0. injection E0 as <-.
    assert (WL : wl (x, v) = true) by (eapply derives_allowed; eauto).
    destruct (lt2 (c + e, c)%N (s0, p0)) eqn:LT.
    + apply lt2_spec in LT. cbn [fst snd] in LT.
      destruct (put_mid ch x v c (c + e)%N e (index ch) (forest ch (x, v) ++ [edge_of vec r l]) M (D WL)) as (A & B & C); auto.
      * unfold ltp in *. destruct (probs ch (x, v)) as [q|]; [|reflexivity]. apply N.ltb_lt. apply N.ltb_lt in L0. lia.
      * intros s1 p1 G1. rewrite G in G1. injection G1 as <- <-. lia.
      * apply M5. right. unfold PlcfrsModel.amem. now rewrite G.
      * apply app1.
    + apply lt2_false in LT. cbn [fst snd] in LT.
      destruct (edge_mid ch (x, v) (forest ch (x, v) ++ [edge_of vec r l]) M) as [A B].
      * apply M4. right. unfold PlcfrsModel.amem. now rewrite G.
      * apply app1.
      * split; [exact A|]. split; [exact B|]. intros _. right. exists s0, p0. split; [exact G|lia].
  - destruct (forest ch (x, v)) as [|f0 fs] eqn:F; cbn [negb andb].
    + destruct (wl (x, v)) eqn:WL; cbn [negb]; [|split; [exact M|split; [apply grows_refl|discriminate]]].
      destruct (addindex_same vec veqb vltb ch (x, v)) as (P1 & P2 & P3).
      pose proof (addindex_in vec veqb vltb veqb_ok ch (x, v)) as P4.
      unfold PlcfrsModel.addedge, PlcfrsModel.setitem.
      cbn [PlcfrsModel.index PlcfrsModel.probs PlcfrsModel.forest PlcfrsModel.agenda]. rewrite P1, P2, P3.
      assert (NP : probs ch (x, v) = None).
      { destruct (probs ch (x, v)) eqn:Q; [|reflexivity]. exfalso. apply (proj2 (M4 (x, v))); [left; congruence|exact F]. }
      destruct (put_mid ch x v c (c + e)%N e (index (addindex vec veqb vltb ch (x, v))) (forest ch (x, v) ++ [edge_of vec r l]) M (D eq_refl)) as (A & B & C); auto.
      * now rewrite NP.
      * intros s0 p0 G. unfold PlcfrsModel.amem in IA. now rewrite G in IA.
      * intros u I. apply P4. now right.
      * apply P4. now left.
      * apply app1.
    + assert (FN : forest ch (x, v) <> []) by now rewrite F.
      assert (WL : wl (x, v) = true).
      { apply M4 in FN. destruct FN as [H|H]; [|congruence]. destruct (probs ch (x, v)) as [q|] eqn:Q; [|congruence].
        destruct (M2 _ _ _ Q) as [D0 _]. eapply derives_allowed; eauto. }
      destruct (ltp c (probs ch (x, v))) eqn:LT.
      * destruct (put_mid ch x v c (c + e)%N e (index ch) (forest ch (x, v) ++ [edge_of vec r l]) M (D WL)) as (A & B & C); auto.
        -- intros s0 p0 G. unfold PlcfrsModel.amem in IA. now rewrite G in IA.
        -- apply M5. apply M4 in FN. destruct FN; [now left|congruence].
        -- apply app1.
      * destruct (edge_mid ch (x, v) (forest ch (x, v) ++ [edge_of vec r l]) M FN) as [A B]; [apply app1|].
        split; [exact A|]. split; [exact B|]. intros _. left. cbn [PlcfrsModel.probs PlcfrsModel.addedge].
        unfold ltp in LT. destruct (probs ch (x, v)) as [q|]; [|discriminate]. exists q. split; [reflexivity|].
        apply N.ltb_ge in LT. exact LT.
Qed.
Notation offer := (offer vec veqb vltb wl maxlog).
Lemma offer_mid : forall ch x v c r l, Mid ch -> (wl (x, v) = true -> derives x v c) ->
  let ch' := offer ch (est x v) (x, v) c r l in
  Mid ch' /\ grows ch ch' /\ (wl (x, v) = true -> pass (x, v) c -> known ch' (x, v) c).
Proof.
  intros ch x v c r l M D. unfold AstarModel.offer, AstarModel.scored. destruct (est x v) as [e|] eqn:E.
  - destruct (maxlog <? c + e)%N eqn:L.
    + split; [exact M|]. split; [apply grows_refl|]. intros _ (e' & E' & L'). cbn [fst snd] in E'. rewrite E in E'. injection E' as <-.
      apply N.ltb_lt in L. lia.
    + apply N.ltb_ge in L. destruct (process_edge_mid ch x v c e r l M D E L) as (A & B & C). auto.
  - split; [exact M|]. split; [apply grows_refl|]. intros _ (e' & E' & _). cbn [fst snd] in E'. congruence.
Qed.

(** ** folding over rules and siblings *)
Section Fold.
Variable pi : item -> option N.
Definition Midp (ch : chart) : Prop := Mid ch /\ probs ch = pi.
Definition okstep (f : chart -> chart) : Prop := forall ch, Midp ch -> Midp (f ch) /\ grows ch (f ch).
Lemma fold_ok : forall A (body : chart -> A -> chart) l, (forall a, In a l -> okstep (fun ch => body ch a)) -> okstep (fold_left body l).
Proof.
  induction l as [|a l IH]; intros H ch M; cbn [fold_left]; [split; [exact M|apply grows_refl]|].
  destruct (H a (or_introl eq_refl) ch M) as [A1 A2]. destruct (IH (fun b I => H b (or_intror I)) _ A1) as [B1 B2].
  split; [exact B1|eapply grows_trans; eauto].
Qed.
Lemma fold_reaches : forall A (body : chart -> A -> chart) l a k c, (forall a, In a l -> okstep (fun ch => body ch a)) -> In a l ->
  (forall ch, Midp ch -> known (body ch a) k c) -> forall ch, Midp ch -> known (fold_left body l ch) k c.
Proof.
  induction l as [|b l IH]; intros a k c H I R ch M; [destruct I|]. cbn [fold_left].
  destruct (H b (or_introl eq_refl) ch M) as [A1 A2]. destruct I as [->|I].
  - destruct (fold_ok _ body l (fun b I => H b (or_intror I)) _ A1) as [_ (_ & K & _)]. apply K, R, M.
  - eapply IH; eauto. intros b' I'. apply H. now right.
Qed.
End Fold.

Section Expand.
Variable it : item.
Variable p : N.
Variable pi : item -> option N.
Hypothesis it_prob : pi it = Some p.
Hypothesis it_goal : it <> goal.
Notation unarystep := (a_unarystep vec veqb vltb wl maxlog estun mask it p).
Notation rightsib := (a_rightsib vec veqb vconcat vcombine vltb wl maxlog estbin it p).
Notation leftsib := (a_leftsib vec veqb vconcat vcombine vltb wl maxlog estbin it p).
Notation rightstep := (a_rightstep vec veqb vconcat vcombine vltb wl maxlog estbin mask it p).
Notation leftstep := (a_leftstep vec veqb vconcat vcombine vltb wl maxlog estbin mask it p).
Notation Midp := (Midp pi).

Lemma it_derives : forall ch, Midp ch -> derives (fst it) (snd it) p.
Proof. intros ch [M E]. destruct (m_pr ch M (fst it) (snd it) p) as [D _]; [rewrite E; now destruct it|exact D]. Qed.
Lemma sib_derives : forall ch sib q, Midp ch -> pi sib = Some q -> derives (fst sib) (snd sib) q.
Proof. intros ch sib q [M E] Q. destruct (m_pr ch M (fst sib) (snd sib) q) as [D _]; [rewrite E; now destruct sib|exact D]. Qed.
Lemma in_unary : forall r x, In r (unary rules x) <-> In r rules /\ prhs1 r = x /\ prhs2 r = 0.
Proof. intros r x. unfold unary. now rewrite filter_In, andb_true_iff, !Nat.eqb_eq. Qed.
Lemma in_lbinary : forall r x, In r (lbinary rules x) <-> In r rules /\ prhs1 r = x /\ prhs2 r <> 0.
Proof. intros r x. unfold lbinary. now rewrite filter_In, andb_true_iff, negb_true_iff, Nat.eqb_eq, Nat.eqb_neq. Qed.
Lemma in_rbinary : forall r x, In r (rbinary rules x) <-> In r rules /\ prhs2 r = x /\ prhs2 r <> 0.
Proof. intros r x. unfold rbinary. now rewrite filter_In, andb_true_iff, negb_true_iff, Nat.eqb_eq, Nat.eqb_neq. Qed.

Lemma unary_ok : forall r, In r (unary rules (fst it)) -> okstep pi (fun ch => unarystep ch r)
  /\ (mask (pno r) = false -> wl (plhs r, snd it) = true -> pass (plhs r, snd it) (p + pprob r) ->
      forall ch, Midp ch -> known (unarystep ch r) (plhs r, snd it) (p + pprob r)).
Proof.
  intros r I. apply in_unary in I. destruct I as (I & E1 & E2). unfold a_unarystep.
  destruct (mask (pno r)) eqn:K; [split; [intros ch M; split; [exact M|apply grows_refl]|discriminate]|].
  assert (X : forall ch, Midp ch -> let ch' := offer ch (estun (plhs r) (snd it)) (plhs r, snd it) (p + pprob r) r (snd it) in
     Mid ch' /\ grows ch ch' /\ (wl (plhs r, snd it) = true -> pass (plhs r, snd it) (p + pprob r) -> known ch' (plhs r, snd it) (p + pprob r))).
  { intros ch M. pose proof (it_derives ch M) as D.
    assert (PP : P (plhs r) (snd it)) by (apply P_unary; [exact I|exact E2|rewrite E1; eapply derives_P; eauto]).
    rewrite (est_un _ _ PP). apply offer_mid; [apply M|]. intros W. rewrite N.add_comm. apply d_unary; auto.
    - split; auto.
    - now rewrite E1.
    - rewrite E1. unfold not_goal. now destruct it. }
  split.
  - intros ch M. destruct (X ch M) as (A & B & _). split; [|exact B]. split; [exact A|]. destruct B as [B _]. rewrite B. apply M.
  - intros _ W PS ch M. destruct (X ch M) as (_ & _ & C). now apply C.
Qed.
Lemma bin_goal : forall ch e y v, P y v -> pi goal <> None -> Midp ch ->
  vconcat e (snd goal) v = false /\ vconcat e v (snd goal) = false.
Proof. intros. eapply goal_alone; eauto. Qed.
Lemma right_ok : forall r sib, In r (rbinary rules (fst it)) -> mask (pno r) = false -> fst sib = prhs1 r ->
  okstep pi (fun ch => rightsib r ch sib)
  /\ (forall q, pi sib = Some q -> vconcat (getyf (ryf r)) (snd sib) (snd it) = true -> 
      wl (plhs r, vcombine (snd sib) (snd it)) = true -> pass (plhs r, vcombine (snd sib) (snd it)) (p + q + pprob r) ->
      forall ch, Midp ch -> known (rightsib r ch sib) (plhs r, vcombine (snd sib) (snd it)) (p + q + pprob r)).
Proof.
  intros r sib I K F. apply in_rbinary in I. destruct I as (I & E1 & E2). unfold a_rightsib.
  destruct (vconcat (getyf (ryf r)) (snd sib) (snd it)) eqn:VC; [|split; [intros ch M; split; [exact M|apply grows_refl]|discriminate]].
  set (v := vcombine (snd sib) (snd it)).
  assert (X : forall ch q, Midp ch -> pi sib = Some q -> let ch' := offer ch (estbin (plhs r) v) (plhs r, v) (p + q + pprob r) r (snd sib) in
     Mid ch' /\ grows ch ch' /\ (wl (plhs r, v) = true -> pass (plhs r, v) (p + q + pprob r) -> known ch' (plhs r, v) (p + q + pprob r))).
  { intros ch q M Q. pose proof (it_derives ch M) as D. pose proof (sib_derives ch sib q M Q) as Ds. rewrite F in Ds. rewrite <- E1 in D.
    assert (J : cjoin (ryf r) (snd sib) (snd it) v) by (split; [exact VC|reflexivity]).
    assert (PP : P (plhs r) v).
    { apply (P_binary r (snd sib) (snd it)); auto; eapply derives_P; eauto. }
    rewrite (est_bin _ _ PP). apply offer_mid; [apply M|]. intros W. 
    replace (p + q + pprob r)%N with (pprob r + q + p)%N by lia. apply (d_binary _ _ _ _ _ _ _ _ r (snd sib) (snd it)); auto.
    - split; auto.
    - rewrite <- F. unfold not_goal. intros EQ. destruct (goal_alone (getyf (ryf r)) (prhs2 r) (snd it)) as [G1 _]; [eapply derives_P; eauto|].
      rewrite <- EQ in G1. cbn [snd] in G1. congruence.
    - rewrite E1. unfold not_goal. now destruct it. }
  split.
  - intros ch M. destruct M as [M EP]. rewrite EP. destruct (pi sib) as [q|] eqn:Q; [|split; [split; auto|apply grows_refl]].
    destruct (X ch q (conj M EP) eq_refl) as (A & B & _). split; [|exact B]. split; [exact A|]. destruct B as [B _]. now rewrite B.
  - intros q Q _ W PS ch M. destruct M as [M EP]. rewrite EP, Q. destruct (X ch q (conj M EP) Q) as (_ & _ & C). now apply C.
Qed.
Lemma left_ok : forall r sib, In r (lbinary rules (fst it)) -> mask (pno r) = false -> fst sib = prhs2 r ->
  okstep pi (fun ch => leftsib r ch sib)
  /\ (forall q, pi sib = Some q -> vconcat (getyf (ryf r)) (snd it) (snd sib) = true -> 
      wl (plhs r, vcombine (snd it) (snd sib)) = true -> pass (plhs r, vcombine (snd it) (snd sib)) (p + q + pprob r) ->
      forall ch, Midp ch -> known (leftsib r ch sib) (plhs r, vcombine (snd it) (snd sib)) (p + q + pprob r)).
Proof.
  intros r sib I K F. apply in_lbinary in I. destruct I as (I & E1 & E2). unfold a_leftsib.
  destruct (vconcat (getyf (ryf r)) (snd it) (snd sib)) eqn:VC; [|split; [intros ch M; split; [exact M|apply grows_refl]|discriminate]].
  set (v := vcombine (snd it) (snd sib)).
  assert (X : forall ch q, Midp ch -> pi sib = Some q -> let ch' := offer ch (estbin (plhs r) v) (plhs r, v) (p + q + pprob r) r (snd it) in
     Mid ch' /\ grows ch ch' /\ (wl (plhs r, v) = true -> pass (plhs r, v) (p + q + pprob r) -> known ch' (plhs r, v) (p + q + pprob r))).
  { intros ch q M Q. pose proof (it_derives ch M) as D. pose proof (sib_derives ch sib q M Q) as Ds. rewrite F in Ds. rewrite <- E1 in D.
    assert (J : cjoin (ryf r) (snd it) (snd sib) v) by (split; [exact VC|reflexivity]).
    assert (PP : P (plhs r) v).
    { apply (P_binary r (snd it) (snd sib)); auto; eapply derives_P; eauto. }
    rewrite (est_bin _ _ PP). apply offer_mid; [apply M|]. intros W. 
    replace (p + q + pprob r)%N with (pprob r + p + q)%N by lia. apply (d_binary _ _ _ _ _ _ _ _ r (snd it) (snd sib)); auto.
    - split; auto.
    - rewrite E1. unfold not_goal. now destruct it.
    - rewrite <- F. unfold not_goal. intros EQ. destruct (goal_alone (getyf (ryf r)) (prhs1 r) (snd it)) as [_ G1]; [eapply derives_P; eauto|].
      rewrite <- EQ in G1. cbn [snd] in G1. congruence. }
  split.
  - intros ch M. destruct M as [M EP]. rewrite EP. destruct (pi sib) as [q|] eqn:Q; [|split; [split; auto|apply grows_refl]].
    destruct (X ch q (conj M EP) eq_refl) as (A & B & _). split; [|exact B]. split; [exact A|]. destruct B as [B _]. now rewrite B.
  - intros q Q _ W PS ch M. destruct M as [M EP]. rewrite EP, Q. destruct (X ch q (conj M EP) Q) as (_ & _ & C). now apply C.
Qed.
Lemma in_siblings : forall ch x u q, Midp ch -> fst u = x -> pi u = Some q -> In u (siblings vec ch x).
Proof.
  intros ch x u q [M E] F Q. apply siblings_in. split; [exact F|]. apply (m_ix ch M). left. rewrite E. congruence.
Qed.
Lemma rightstep_ok : forall r, In r (rbinary rules (fst it)) -> okstep pi (fun ch => rightstep ch r).
Proof.
  intros r I ch M. unfold a_rightstep. destruct (mask (pno r)) eqn:K; [split; [exact M|apply grows_refl]|].
  apply (fold_ok pi); [|exact M]. intros sib S. apply siblings_in in S. destruct S as [S _]. now apply right_ok.
Qed.
Lemma leftstep_ok : forall r, In r (lbinary rules (fst it)) -> okstep pi (fun ch => leftstep ch r).
Proof.
  intros r I ch M. unfold a_leftstep. destruct (mask (pno r)) eqn:K; [split; [exact M|apply grows_refl]|].
  apply (fold_ok pi); [|exact M]. intros sib S. apply siblings_in in S. destruct S as [S _]. now apply left_ok.
Qed.
Notation expand := (a_expand vec veqb vconcat vcombine vltb wl maxlog estun estbin rules mask it p).
Lemma expand_ok : forall ch, Midp ch -> Midp (expand ch) /\ grows ch (expand ch)
  /\ (forall r, usable r -> prhs2 r = 0 -> prhs1 r = fst it -> wl (plhs r, snd it) = true ->
       pass (plhs r, snd it) (p + pprob r) -> known (expand ch) (plhs r, snd it) (p + pprob r))
  /\ (forall r u q, usable r -> prhs2 r <> 0 -> prhs2 r = fst it -> pi (prhs1 r, u) = Some q ->
       vconcat (getyf (ryf r)) u (snd it) = true -> wl (plhs r, vcombine u (snd it)) = true ->
       pass (plhs r, vcombine u (snd it)) (p + q + pprob r) -> known (expand ch) (plhs r, vcombine u (snd it)) (p + q + pprob r))
  /\ (forall r u q, usable r -> prhs2 r <> 0 -> prhs1 r = fst it -> pi (prhs2 r, u) = Some q ->
       vconcat (getyf (ryf r)) (snd it) u = true -> wl (plhs r, vcombine (snd it) u) = true ->
       pass (plhs r, vcombine (snd it) u) (p + q + pprob r) -> known (expand ch) (plhs r, vcombine (snd it) u) (p + q + pprob r)).
Proof.
  intros ch M. unfold a_expand. set (ch1 := fold_left unarystep _ ch). set (ch2 := fold_left rightstep _ ch1).
  assert (U : forall r, In r (unary rules (fst it)) -> okstep pi (fun ch => unarystep ch r)) by (intros r I; now apply unary_ok).
  destruct (fold_ok pi _ unarystep _ U ch M) as [M1 G1]. fold ch1 in M1, G1.
  destruct (fold_ok pi _ rightstep _ rightstep_ok ch1 M1) as [M2 G2]. fold ch2 in M2, G2.
  destruct (fold_ok pi _ leftstep _ leftstep_ok ch2 M2) as [M3 G3].
  split; [exact M3|]. split; [exact (grows_trans _ _ _ G1 (grows_trans _ _ _ G2 G3))|]. split; [|split].
  - intros r [I K] E2 E1 W PS. destruct G2 as (_ & K2 & _). destruct G3 as (_ & K3 & _). apply K3, K2. unfold ch1.
    assert (IU : In r (unary rules (fst it))) by (apply in_unary; auto).
    eapply (fold_reaches pi _ unarystep); [exact U|exact IU| |exact M]. intros ch' M'.
    apply (proj2 (unary_ok r IU)); auto.
  - intros r u q [I K] E2 E1 Q VC W PS. destruct G3 as (_ & K3 & _). apply K3. unfold ch2.
    assert (IU : In r (rbinary rules (fst it))) by (apply in_rbinary; auto).
    eapply (fold_reaches pi _ rightstep); [exact rightstep_ok|exact IU| |exact M1]. intros ch' M'. unfold a_rightstep. rewrite K.
    eapply (fold_reaches pi _ (rightsib r)) with (a := (prhs1 r, u)); [|eapply in_siblings; eauto| |exact M'].
    + intros sib S. apply siblings_in in S. destruct S as [S _]. now apply right_ok.
    + intros ch'' M''. apply (proj2 (right_ok r (prhs1 r, u) IU K eq_refl) q); auto.
  - intros r u q [I K] E2 E1 Q VC W PS.
    assert (IU : In r (lbinary rules (fst it))) by (apply in_lbinary; auto).
    eapply (fold_reaches pi _ leftstep); [exact leftstep_ok|exact IU| |exact M2]. intros ch' M'. unfold a_leftstep. rewrite K.
    eapply (fold_reaches pi _ (leftsib r)) with (a := (prhs2 r, u)); [|eapply in_siblings; eauto| |exact M'].
    + intros sib S. apply siblings_in in S. destruct S as [S _]. now apply left_ok.
    + intros ch'' M''. apply (proj2 (left_ok r (prhs2 r, u) IU K eq_refl) q); auto.
Qed.
End Expand.

(** ** the main loop *)
Record Inv (ch : chart) : Prop := MkInv {
  i_mid : Mid ch;
  i_lex : forall i x c, tagged i x c -> pass (x, vsingle i) c -> known ch (x, vsingle i) c;
  i_un : forall r v a, usable r -> prhs2 r = 0 -> probs ch (prhs1 r, v) = Some a -> (prhs1 r, v) <> goal ->
    wl (plhs r, v) = true -> pass (plhs r, v) (a + pprob r) -> known ch (plhs r, v) (a + pprob r);
  i_bin : forall r l u a b, usable r -> prhs2 r <> 0 -> probs ch (prhs1 r, l) = Some a -> probs ch (prhs2 r, u) = Some b ->
    (prhs1 r, l) <> goal -> (prhs2 r, u) <> goal -> vconcat (getyf (ryf r)) l u = true ->
    wl (plhs r, vcombine l u) = true -> pass (plhs r, vcombine l u) (a + b + pprob r) ->
    known ch (plhs r, vcombine l u) (a + b + pprob r) }.

Notation explore := (a_explore vec veqb vconcat vcombine vltb wl maxlog estun estbin rules mask goal).
Notation updateprob := (updateprob vec veqb).
(** taking an entry from the agenda and storing its probability *)
Lemma pop_mid : forall ch it p ch1, Mid ch -> pops vec ch it p ch1 ->
  let ch2 := updateprob ch1 it p in
  Mid ch2 /\ (forall k c, known ch k c -> known ch2 k c)
  /\ probs ch2 = iput vec veqb (probs ch) it (Some p)
  /\ ltp p (probs ch it) = true
  /\ (exists s, aget (agenda ch) it = Some (s, p) /\ forall k s' p', aget (agenda ch) k = Some (s', p') -> (s <= s')%N).
Proof.
  intros ch it p ch1 M PO. pose proof M as [M1 M2 M3 M4 M5]. destruct PO as [a k s p b AG MIN].
  assert (G : aget (agenda ch) k = Some (s, p)).
  { apply (aget_in vec veqb veqb_ok); [exact M1|]. rewrite AG. apply in_or_app. right. now left. }
  assert (G2 : forall u, aget (a ++ b) u = if ieqb u k then None else aget (agenda ch) u).
  { rewrite AG in M1. rewrite map_app in M1. cbn [map fst] in M1.
    assert (NK : ~ In k (map fst a ++ map fst b)) by (apply NoDup_remove_2 in M1; exact M1).
    rewrite AG. intros u. clear -NK veqb_ok. revert NK. induction a as [|[k' v'] a IH]; intros NK; cbn [app PlcfrsModel.aget].
    - destruct (ieqb u k) eqn:Q; [|reflexivity]. apply (ieqb_ok vec veqb veqb_ok) in Q. subst u.
      apply (aget_none vec veqb veqb_ok). exact NK.
    - destruct (ieqb u k') eqn:Q.
      + destruct (ieqb u k) eqn:Q'; [|reflexivity]. apply (ieqb_ok vec veqb veqb_ok) in Q, Q'. subst. exfalso. apply NK. now left.
      + apply IH. intros X. apply NK. now right. }
  assert (A2 : forall u, amem (a ++ b) u = if ieqb u k then false else amem (agenda ch) u).
  { intros u. unfold PlcfrsModel.amem. rewrite G2. destruct (ieqb u k); reflexivity. }
  destruct k as [x v]. destruct (M3 _ _ _ _ G) as (D & LT & e & E & S & LE).
  unfold PlcfrsModel.updateprob. cbn [PlcfrsModel.index PlcfrsModel.probs PlcfrsModel.forest PlcfrsModel.agenda]. rewrite LT.
  cbn [PlcfrsModel.index PlcfrsModel.probs PlcfrsModel.forest PlcfrsModel.agenda].
  assert (PU : forall u q, iput vec veqb (probs ch) (x, v) (Some p) u = Some q -> (u = (x, v) /\ q = p) \/ (u <> (x, v) /\ probs ch u = Some q)).
  { intros u q. rewrite iput_cases. destruct (ieqb u (x, v)) eqn:Q.
    - apply (ieqb_ok vec veqb veqb_ok) in Q. intros H. injection H as <-. auto.
    - intros H. right. split; [|exact H]. intros ->. rewrite (ieqb_refl vec veqb veqb_ok) in Q. discriminate. }
  split; [|split; [|split; [reflexivity|split; [reflexivity|]]]].
  - constructor; cbn [PlcfrsModel.index PlcfrsModel.probs PlcfrsModel.forest PlcfrsModel.agenda].
    + rewrite AG in M1. rewrite map_app in *. cbn [map fst] in M1. now apply NoDup_remove_1 in M1.
    + intros y u q H. apply PU in H. destruct H as [[H ->]|[_ H]]; [|now apply M2].
      injection H as -> ->. split; [exact D|]. exists e. split; [exact E|]. cbn [fst snd]. lia.
    + intros y u s' p' H. rewrite G2 in H. destruct (ieqb (y, u) (x, v)) eqn:Q; [discriminate|].
      rewrite iput_cases, Q. now apply M3.
    + intros u. rewrite iput_cases, A2. rewrite M4. destruct (ieqb u (x, v)) eqn:Q; [|reflexivity].
      apply (ieqb_ok vec veqb veqb_ok) in Q. subst u. split; [left; discriminate|]. intros _. right.
      unfold PlcfrsModel.amem. now rewrite G.
    + intros u. rewrite iput_cases, A2. destruct (ieqb u (x, v)) eqn:Q; [|apply M5].
      apply (ieqb_ok vec veqb veqb_ok) in Q. subst u. intros _. apply M5. right. unfold PlcfrsModel.amem. now rewrite G.
  - intros u c K. unfold known. cbn [PlcfrsModel.probs PlcfrsModel.agenda]. rewrite iput_cases, G2. destruct (ieqb u (x, v)) eqn:Q; [|exact K].
    apply (ieqb_ok vec veqb veqb_ok) in Q. subst u. left. exists p. split; [reflexivity|].
    destruct K as [(q & H & L)|(s' & q & H & L)].
    + unfold ltp in LT. rewrite H in LT. apply N.ltb_lt in LT. lia.
    + rewrite G in H. injection H as <- <-. exact L.
  - exists s. split; [exact G|]. intros u s' p' H. apply (aget_in vec veqb veqb_ok) in H; [|exact M1].
    rewrite Forall_forall in MIN. specialize (MIN _ H). apply lt2_false in MIN. cbn [fst snd] in MIN. lia.
Qed.
Lemma explore_inv : forall ch it p ch1, Inv ch -> pops vec ch it p ch1 ->
  Inv (explore it p ch1) /\ probs (explore it p ch1) = iput vec veqb (probs ch) it (Some p).
Proof.
  intros ch it p ch1 [M CL CU CB] PO. destruct (pop_mid ch it p ch1 M PO) as (M2 & K2 & P2 & _).
  unfold a_explore. set (ch2 := updateprob ch1 it p) in *.
  set (pi := iput vec veqb (probs ch) it (Some p)) in *.
  assert (PN : forall u, u <> it -> pi u = probs ch u).
  { intros u N. unfold pi. now rewrite (iput_other vec veqb veqb_ok). }
  assert (PI : pi it = Some p) by (unfold pi; now rewrite (iput_same vec veqb veqb_ok)).
  destruct (ieqb it goal) eqn:GO.
  - apply (ieqb_ok vec veqb veqb_ok) in GO. subst it. split; [|exact P2]. constructor; [exact M2| | |].
    + intros i x c T PS. apply K2. now apply CL.
    + intros r v a U E Q NG W PS. apply K2. rewrite P2, PN in Q by exact NG. now apply CU.
    + intros r l u a b U E Q1 Q2 N1 N2 V W PS. apply K2. rewrite P2, PN in Q1, Q2 by assumption. now apply CB.
  - assert (NG : it <> goal) by (intros ->; rewrite (ieqb_refl vec veqb veqb_ok) in GO; discriminate).
    destruct (expand_ok it p pi PI NG ch2 (conj M2 P2)) as ((M3 & P3) & (_ & K3 & _) & XU & XR & XL).
    split; [|exact P3]. constructor; [exact M3| | |].
    + intros i x c T PS. apply K3, K2. now apply CL.
    + intros r v a U E Q NGd W PS. rewrite P3 in Q. destruct (item_dec vec veqb veqb_ok (prhs1 r, v) it) as [EQ|NE].
      * rewrite EQ, PI in Q. injection Q as <-. assert (EV : v = snd it) by (now rewrite <- EQ). rewrite EV in *. apply XU; auto. now rewrite <- EQ.
      * apply K3, K2. rewrite PN in Q by exact NE. now apply CU.
    + intros r l u a b U E Q1 Q2 N1 N2 V W PS. rewrite P3 in Q1, Q2.
      destruct (item_dec vec veqb veqb_ok (prhs2 r, u) it) as [EQ|NE2].
      * rewrite EQ, PI in Q2. injection Q2 as <-. assert (EV : u = snd it) by (now rewrite <- EQ). rewrite EV in *.
        rewrite (N.add_comm a p) in *. apply XR; auto. now rewrite <- EQ.
      * destruct (item_dec vec veqb veqb_ok (prhs1 r, l) it) as [EQ|NE1].
        -- rewrite EQ, PI in Q1. injection Q1 as <-. assert (EV : l = snd it) by (now rewrite <- EQ). rewrite EV in *.
           apply XL; auto. now rewrite <- EQ.
        -- apply K3, K2. rewrite PN in Q1, Q2 by assumption. now apply CB.
Qed.

(** ** constituents of complete derivations are in the chart or have an ancestor
    or descendant on the agenda *)
Lemma within_derives : forall x v c y u d, within x v c y u d -> derives x v c /\ derives y u d.
Proof.
  intros x v c y u d W. induction W as [x v c D|r v c y u d U E W [IH1 IH2] NG A
    |r v1 v2 v a b y u d U E W [IH1 IH2] N1 D2 N2 J A|r v1 v2 v a b y u d U E D1 N1 W [IH1 IH2] N2 J A]; auto.
  - split; auto. now apply d_unary.
  - split; auto. eapply d_binary; eauto.
  - split; auto. eapply d_binary; eauto.
Qed.
Lemma within_trans : forall x v c y u d, within x v c y u d -> forall z w e, within y u d z w e -> within x v c z w e.
Proof.
  intros x v c y u d W. induction W as [x v c D|r v c y u d U E W IH NG A
    |r v1 v2 v a b y u d U E W IH N1 D2 N2 J A|r v1 v2 v a b y u d U E D1 N1 W IH N2 J A]; intros z w e' W2; auto.
  - now apply w_unary; auto.
  - eapply w_left; eauto.
  - eapply w_right; eauto.
Qed.
Notation goal_within := (within (fst goal) (snd goal)).
Lemma within_pass : forall C x v d, (C <= maxlog)%N -> goal_within C x v d -> pass (x, v) d.
Proof. intros C x v d L W. destruct (adm C x v d W) as (e & E & H). exists e. split; [exact E|lia]. Qed.
Lemma frontier : forall ch, Inv ch -> forall x v d, derives x v d -> forall C, (C <= maxlog)%N -> goal_within C x v d ->
  (exists p, probs ch (x, v) = Some p /\ (p <= d)%N)
  \/ exists y u d' s p, goal_within C y u d' /\ aget (agenda ch) (y, u) = Some (s, p) /\ (p <= d')%N.
Proof.
  intros ch [M CL CU CB] x v d D. induction D as [i x c T|r v c U E D IH NG A|r v1 v2 v a b U E D1 IH1 N1 D2 IH2 N2 J A]; intros C L W.
  - destruct (CL i x c T (within_pass C _ _ _ L W)) as [K|(s & p & G & K)]; [left; exact K|].
    right. exists x, (vsingle i), c, s, p. auto.
  - assert (W1 : goal_within C (prhs1 r) v c).
    { eapply within_trans; [exact W|]. apply w_unary; auto. now apply w_here. }
    destruct (IH C L W1) as [(p & Q & K)|X]; [|right; exact X].
    assert (PS : pass (plhs r, v) (p + pprob r)) by (eapply pass_le; [|eapply within_pass; eauto]; lia).
    destruct (CU r v p U E Q NG A PS) as [(p' & Q' & K')|(s & p' & G & K')].
    + left. exists p'. split; [exact Q'|lia].
    + right. exists (plhs r), v, (pprob r + c)%N, s, p'. split; [exact W|]. split; [exact G|lia].
  - destruct J as [V ->].
    assert (J : cjoin (ryf r) v1 v2 (vcombine v1 v2)) by (split; auto).
    assert (W1 : goal_within C (prhs1 r) v1 a).
    { eapply within_trans; [exact W|]. eapply w_left; eauto. now apply w_here. }
    assert (W2 : goal_within C (prhs2 r) v2 b).
    { eapply within_trans; [exact W|]. eapply w_right; eauto. now apply w_here. }
    destruct (IH1 C L W1) as [(p & Q & K)|X]; [|right; exact X].
    destruct (IH2 C L W2) as [(q & Q2 & K2)|X]; [|right; exact X].
    assert (PS : pass (plhs r, vcombine v1 v2) (p + q + pprob r)) by (eapply pass_le; [|eapply within_pass; eauto]; lia).
    destruct (CB r v1 v2 p q U E Q Q2 N1 N2 V A PS) as [(p' & Q' & K')|(s & p' & G & K')].
    + left. exists p'. split; [exact Q'|lia].
    + right. exists (plhs r), (vcombine v1 v2), (pprob r + a + b)%N, s, p'. split; [exact W|]. split; [exact G|lia].
Qed.

Notation best := (best vec vsingle cjoin callowed rules mask (not_goal goal) sent).
Notation a_loop := (a_loop vec veqb vconcat vcombine vltb wl maxlog estun estbin rules mask goal).
Definition final (ch : chart) : Prop :=
  (forall x v p, probs ch (x, v) = Some p -> derives x v p /\ pass (x, v) p)
  /\ forall C, derives (fst goal) (snd goal) C -> (C <= maxlog)%N -> exists p, probs ch goal = Some p /\ (p <= C)%N.
Lemma loop_final : forall exh n ch ch', a_loop exh n ch ch' -> Inv ch -> final ch'.
Proof.
  intros exh n ch ch' LO. induction LO as [ch AE|ch it p ch1 EX PO GO|n ch it p ch1 ch2 PO _ LO IH]; intros IV.
  - split; [apply (m_pr ch (i_mid ch IV))|]. intros C D L.
    destruct (frontier ch IV _ _ _ D C L (w_here _ _ _ _ _ _ _ _ _ _ _ D)) as [X|(y & u & d & s & p & _ & G & _)].
    + destruct X as (p & Q & K). exists p. split; [|exact K]. now destruct goal.
    + rewrite AE in G. discriminate.
  - apply (ieqb_ok vec veqb veqb_ok) in GO. subst it.
    destruct (pop_mid ch goal p ch1 (i_mid ch IV) PO) as (M2 & K2 & P2 & LT & s & G & MIN).
    split; [apply (m_pr _ M2)|]. intros C D L. rewrite P2. rewrite (iput_same vec veqb veqb_ok).
    exists p. split; [reflexivity|].
    destruct (frontier ch IV _ _ _ D C L (w_here _ _ _ _ _ _ _ _ _ _ _ D)) as [(q & Q & K)|(y & u & d & s' & p' & W & G' & K)].
    + assert (EG : (fst goal, snd goal) = goal) by now destruct goal. rewrite EG in Q. rewrite Q in LT. apply N.ltb_lt in LT. lia.
    + specialize (MIN _ _ _ G'). destruct (adm C y u d W) as (e & E & H).
      destruct (m_ag ch (i_mid ch IV) _ _ _ _ G') as (_ & _ & e' & E' & S' & _). rewrite E in E'. injection E' as <-.
      assert (EG : (fst goal, snd goal) = goal) by now destruct goal. rewrite <- EG in G.
      destruct (m_ag ch (i_mid ch IV) _ _ _ _ G) as (_ & _ & e2 & E2 & S2 & _). lia.
  - apply IH. now apply (explore_inv ch it p ch1 IV PO).
Qed.
(** the probability of the root *)
Lemma final_best : forall ch p, final ch -> (probs ch goal = Some p <-> best (fst goal) (snd goal) p /\ (p <= maxlog)%N).
Proof.
  intros ch p [S F]. assert (EG : (fst goal, snd goal) = goal) by now destruct goal. split.
  - intros Q. rewrite <- EG in Q. destruct (S _ _ _ Q) as [D (e & _ & L)].
    assert (LM : (p <= maxlog)%N) by lia. split; [|exact LM]. split; [exact D|]. intros c Dc.
    destruct (N.le_gt_cases c maxlog) as [L2|L2]; [|lia].
    destruct (F c Dc L2) as (q & Q' & K). rewrite <- EG in Q'. rewrite Q in Q'. injection Q' as <-. exact K.
  - intros [[D B] L]. destruct (F p D L) as (q & Q & K). rewrite Q. f_equal.
    rewrite <- EG in Q. destruct (S _ _ _ Q) as [D' _]. specialize (B _ D'). lia.
Qed.

(** ** the tags *)
Record PosI (ch : chart) (Q : nat -> nat -> N -> Prop) : Prop := MkPos {
  p_none : forall k, probs ch k = None;
  p_nd : NoDup (map fst (agenda ch));
  p_ag : forall x v s p, aget (agenda ch) (x, v) = Some (s, p) ->
     exists i e, v = vsingle i /\ Q i x p /\ est x v = Some e /\ s = (p + e)%N /\ (s <= maxlog)%N;
  p_q : forall i x c, Q i x c -> exists s, aget (agenda ch) (x, vsingle i) = Some (s, c);
  p_fo : forall k, forest ch k <> [] <-> amem (agenda ch) k = true;
  p_ix : forall k, amem (agenda ch) k = true -> In k (index ch) }.
Lemma PosI_iff : forall ch Q Q', (forall i x c, Q i x c <-> Q' i x c) -> PosI ch Q -> PosI ch Q'.
Proof.
  intros ch Q Q' H [A B C D E F]. constructor; auto.
  - intros x v s p G. destruct (C _ _ _ _ G) as (i & e & H1 & H2 & H3). exists i, e. split; [exact H1|]. split; [now apply H|exact H3].
  - intros i x c G. apply D. now apply H.
Qed.
Notation process_lexedge := (a_process_lexedge vec veqb vltb wl).
Lemma lexedge_new : forall ch Q i x p e, PosI ch Q -> i < length sent -> (forall j y c, Q j y c -> j < length sent) ->
  (forall c, ~ Q i x c) -> est x (vsingle i) = Some e -> (p + e <= maxlog)%N ->
  exists ch', process_lexedge ch (x, vsingle i) p (p + e)%N i true = Some (wl (x, vsingle i), ch')
  /\ PosI ch' (fun j y c => Q j y c \/ (j = i /\ y = x /\ c = p /\ wl (x, vsingle i) = true)).
Proof.
  intros ch Q i x p e [A B C D F G] LI RQ NQ E LE. unfold a_process_lexedge.
  destruct (addindex_same vec veqb vltb ch (x, vsingle i)) as (P1 & P2 & P3).
  pose proof (addindex_in vec veqb vltb veqb_ok ch (x, vsingle i)) as P4.
  rewrite P2, P3.
  destruct (amem (agenda ch) (x, vsingle i)) eqn:AM.
  { exfalso. unfold PlcfrsModel.amem in AM. destruct (aget (agenda ch) (x, vsingle i)) as [[s0 p0]|] eqn:G0; [|discriminate].
    destruct (C _ _ _ _ G0) as (j & e0 & SJ & HQ & _). apply single_inj in SJ; [|exact LI|eapply RQ; eauto]. subst j. exact (NQ _ HQ). }
  assert (FE : forest ch (x, vsingle i) = []).
  { destruct (forest ch (x, vsingle i)) eqn:X; [reflexivity|]. exfalso. assert (Y : forest ch (x, vsingle i) <> []) by congruence.
    apply F in Y. congruence. }
  rewrite FE. cbn [andb]. destruct (wl (x, vsingle i)) eqn:W; cbn [negb].
  - eexists. split; [reflexivity|]. unfold PlcfrsModel.addedge, PlcfrsModel.setitem.
    constructor; cbn [PlcfrsModel.index PlcfrsModel.probs PlcfrsModel.forest PlcfrsModel.agenda]; rewrite ?P1, ?P2, ?P3.
    + exact A.
    + now apply aput_nodup.
    + intros y v s q. rewrite (aget_aput vec veqb veqb_ok). destruct (ieqb (y, v) (x, vsingle i)) eqn:K.
      * apply (ieqb_ok vec veqb veqb_ok) in K. injection K as -> ->. intros H. injection H as <- <-.
        exists i, e. repeat split; auto.
      * intros H. destruct (C _ _ _ _ H) as (j & e0 & X1 & X2 & X3). exists j, e0. auto.
    + intros j y c [H|(-> & -> & -> & _)]; rewrite (aget_aput vec veqb veqb_ok).
      * destruct (ieqb (y, vsingle j) (x, vsingle i)) eqn:K; [|now apply D].
        apply (ieqb_ok vec veqb veqb_ok) in K. injection K as -> SJ. apply single_inj in SJ; [|eapply RQ; eauto|exact LI]. subst j.
        exfalso. exact (NQ _ H).
      * rewrite (ieqb_refl vec veqb veqb_ok). eauto.
    + intros k. rewrite iput_cases, amem_aput. destruct (ieqb k (x, vsingle i)) eqn:K; cbn [orb].
      * split; [reflexivity|]. intros _. apply app1.
      * apply F.
    + intros k. rewrite amem_aput. intros H. apply P4. destruct (ieqb k (x, vsingle i)) eqn:K; cbn [orb] in H.
      * left. now apply (ieqb_ok vec veqb veqb_ok) in K.
      * right. now apply G.
  - eexists. split; [reflexivity|]. apply (PosI_iff _ Q).
    { intros j y c. split; [auto|]. intros [H|(_ & _ & _ & H)]; [exact H|discriminate]. }
    constructor; rewrite ?P1, ?P2, ?P3; auto. intros k H. apply P4. right. now apply G.
Qed.
Definition taggable (i x : nat) (c : N) : Prop := wl (x, vsingle i) = true /\ pass (x, vsingle i) c.
Definition lexQ (i : nat) (es : list (nat * N)) (j y : nat) (c : N) : Prop := j = i /\ In (y, c) es /\ taggable i y c.
Notation lexloop := (a_lexloop vec veqb vsingle vltb wl maxlog estlex).
Lemma lexloop_ok : forall (Q0 : nat -> nat -> N -> Prop) i, i < length sent -> (forall j y c, Q0 j y c -> j < i) -> forall es es1 ch b,
  NoDup (map fst (es1 ++ es)) -> PosI ch (fun j y c => Q0 j y c \/ lexQ i es1 j y c) ->
  exists b' ch', lexloop ch i es b = Some (b', ch') /\ PosI ch' (fun j y c => Q0 j y c \/ lexQ i (es1 ++ es) j y c)
  /\ (b' = true <-> b = true \/ exists y c, In (y, c) es /\ taggable i y c).
Proof.
  intros Q0 i LI R0. induction es as [|[x p] es IH]; intros es1 ch b ND PI.
  - exists b, ch. split; [reflexivity|]. rewrite app_nil_r. split; [exact PI|]. split; [auto|]. intros [H|(y & c & [] & _)]; exact H.
  - cbn [a_lexloop]. rewrite (est_lex i x LI).
    assert (AS : es1 ++ (x, p) :: es = (es1 ++ [(x, p)]) ++ es) by (now rewrite <- app_assoc).
    rewrite AS in *.
    destruct (scored maxlog (est x (vsingle i)) p) as [sc|] eqn:SC.
    + unfold scored in SC. destruct (est x (vsingle i)) as [e|] eqn:E; [|discriminate].
      destruct (maxlog <? p + e)%N eqn:L; [discriminate|]. injection SC as <-. apply N.ltb_ge in L.
      assert (PS : pass (x, vsingle i) p) by (exists e; auto).
      destruct (lexedge_new ch _ i x p e PI LI) as (ch' & EQ & PI'); auto.
      { intros j y c [H|(-> & _)]; [|exact LI]. specialize (R0 _ _ _ H). lia. }
      { intros c [H|(_ & H & _)]; [specialize (R0 _ _ _ H); lia|].
        rewrite !map_app in ND. cbn [map fst] in ND. rewrite <- app_assoc in ND. cbn [app] in ND. apply NoDup_remove_2 in ND.
        apply ND. apply in_or_app. left. apply in_map_iff. exists (x, c). auto. }
      rewrite EQ. destruct (IH (es1 ++ [(x, p)]) ch' (b || wl (x, vsingle i)) ND) as (b' & ch'' & EQ2 & PI2 & B).
      * apply (PosI_iff _ _ _) with (2 := PI'). intros j y c. unfold lexQ. split.
        -- intros [[H|(-> & H1 & H2)]|(-> & -> & -> & W)]; [auto| |].
           ++ right. split; [reflexivity|]. split; [apply in_or_app; now left|exact H2].
           ++ right. split; [reflexivity|]. split; [apply in_or_app; right; now left|]. split; [exact W|exact PS].
        -- intros [H|(-> & H1 & H2)]; [auto|]. apply in_app_or in H1. destruct H1 as [H1|[H1|[]]]; [auto|].
           injection H1 as -> ->. right. destruct H2. auto.
      * exists b', ch''. split; [exact EQ2|]. split; [exact PI2|]. rewrite B, orb_true_iff. split.
        -- intros [[H|H]|(y & c & H1 & H2)]; [auto| |].
           ++ right. exists x, p. split; [now left|]. split; [exact H|exact PS].
           ++ right. exists y, c. split; [now right|exact H2].
        -- intros [H|(y & c & [H1|H1] & H2)]; [auto| |].
           ++ injection H1 as -> ->. left. right. apply H2.
           ++ right. exists y, c. auto.
    + assert (NP : ~ pass (x, vsingle i) p).
      { intros (e & E & L). cbn [fst snd] in E. unfold scored in SC. rewrite E in SC. destruct (maxlog <? p + e)%N eqn:L2; [|discriminate].
        apply N.ltb_lt in L2. lia. }
      destruct (IH (es1 ++ [(x, p)]) ch b ND) as (b' & ch'' & EQ2 & PI2 & B).
      * apply (PosI_iff _ _ _) with (2 := PI). intros j y c. unfold lexQ. split.
        -- intros [H|(-> & H1 & H2)]; [auto|]. right. split; [reflexivity|]. split; [apply in_or_app; now left|exact H2].
        -- intros [H|(-> & H1 & H2)]; [auto|]. apply in_app_or in H1. destruct H1 as [H1|[H1|[]]]; [auto|].
           injection H1 as -> ->. destruct H2. contradiction.
      * exists b', ch''. split; [exact EQ2|]. split; [exact PI2|]. rewrite B. split.
        -- intros [H|(y & c & H1 & H2)]; [auto|]. right. exists y, c. split; [now right|exact H2].
        -- intros [H|(y & c & [H1|H1] & H2)]; [auto| |].
           ++ injection H1 as -> ->. destruct H2. contradiction.
           ++ right. exists y, c. auto.
Qed.
Lemma tagged_iff : forall i x c, tagged i x c <-> exists w, nth_error sent i = Some w /\ In (x, c) (entries w) /\ wl (x, vsingle i) = true.
Proof.
  intros i x c. split.
  - intros [w E F A|w E _ G _].
    + exists w. split; [exact E|]. split; [now apply first_entry_in|exact A].
    + rewrite (no_gold w) in G; [destruct G|]. eapply nth_error_In; eauto.
  - intros (w & E & I & A). apply (t_lexicon _ _ _ _ _ _ _ w); auto.
    apply nth_error_In in E. specialize (entries_nodup w E). apply in_split in I. destruct I as (l1 & l2 & EQ).
    exists l1, l2. split; [exact EQ|]. intros d H. rewrite EQ, map_app in entries_nodup. cbn [map fst] in entries_nodup.
    apply NoDup_remove_2 in entries_nodup. apply entries_nodup. apply in_or_app. left. apply in_map_iff. exists (x, d). auto.
Qed.
Notation populatepos := (a_populatepos vec veqb vsingle vltb wl maxlog estlex).
Definition doneQ (n : nat) (j y : nat) (c : N) : Prop := j < n /\ tagged j y c /\ pass (y, vsingle j) c.
Lemma populate_ok : forall ws pre ch, sent = pre ++ ws -> PosI ch (doneQ (length pre)) ->
  exists b ch', populatepos ch (length pre) ws = Some (b, ch')
  /\ (b = true -> PosI ch' (doneQ (length sent)))
  /\ (b = false -> (forall k, probs ch' k = None) /\ exists i, i < length sent /\ forall y c, tagged i y c -> ~ pass (y, vsingle i) c).
Proof.
  induction ws as [|w ws IH]; intros pre ch ES PI.
  - exists true, ch. split; [reflexivity|]. rewrite app_nil_r in ES. split; [|discriminate]. intros _. now rewrite ES.
  - assert (LI : length pre < length sent) by (rewrite ES, app_length; cbn [length]; lia).
    assert (NW : nth_error sent (length pre) = Some w) by (rewrite ES, nth_error_app2, Nat.sub_diag by lia; reflexivity).
    assert (IW : In w sent) by (eapply nth_error_In; eauto).
    cbn [a_populatepos]. unfold a_populate_word.
    destruct (lexloop_ok (doneQ (length pre)) (length pre) LI) with (es := entries w) (es1 := @nil (nat * N)) (ch := ch) (b := false)
      as (b & ch' & EQ & PI' & B).
    + intros j y c H. apply H.
    + cbn [app]. now apply entries_nodup.
    + apply (PosI_iff _ _ _) with (2 := PI). intros j y c. split; [auto|]. intros [H|(_ & [] & _)]. exact H.
    + rewrite EQ. cbn [app] in PI'. rewrite (no_gold w IW). cbn [a_goldloop].
      assert (TG : forall y c, tagged (length pre) y c <-> In (y, c) (entries w) /\ wl (y, vsingle (length pre)) = true).
      { intros y c. rewrite tagged_iff. split.
        - intros (w' & E & H). rewrite NW in E. injection E as <-. exact H.
        - intros H. exists w. auto. }
      destruct b.
      * destruct (IH (pre ++ [w]) ch') as (b' & ch'' & EQ2 & X).
        -- now rewrite <- app_assoc.
        -- apply (PosI_iff _ _ _) with (2 := PI'). intros j y c. unfold doneQ, lexQ, taggable. rewrite app_length. cbn [length]. split.
           ++ intros [(H1 & H2)|(-> & H1 & H2 & H3)]; [split; [lia|exact H2]|]. split; [lia|]. split; [|exact H3]. now apply TG.
           ++ intros (H1 & H2 & H3). destruct (Nat.eq_dec j (length pre)) as [->|NE]; [|left; repeat split; auto; lia].
              right. apply TG in H2. destruct H2. auto.
        -- exists b', ch''. split; [|exact X]. rewrite app_length in EQ2. cbn [length] in EQ2. rewrite Nat.add_1_r in EQ2. exact EQ2.
      * exists false, ch'. split; [reflexivity|]. split; [discriminate|]. intros _. split; [apply (p_none _ _ PI')|].
        exists (length pre). split; [exact LI|]. intros y c T PS. apply TG in T. destruct T as [T1 T2].
        assert (X : false = true) by (apply B; right; exists y, c; split; [exact T1|split; [exact T2|exact PS]]). discriminate.
Qed.
Lemma empty_pos : PosI (emptychart vec) (doneQ 0).
Proof.
  constructor; cbn; auto; try (intros; discriminate).
  - constructor.
  - intros i x c [H _]. lia.
  - intros k. split; [congruence|discriminate].
Qed.
Lemma pos_inv : forall ch, PosI ch (doneQ (length sent)) -> Inv ch.
Proof.
  intros ch [A B C D E F]. constructor.
  - constructor; auto.
    + intros x v p H. now rewrite A in H.
    + intros x v s p G. destruct (C _ _ _ _ G) as (i & e & -> & (H1 & H2 & H3) & H4). split; [now apply d_word|]. split; [now rewrite A|].
      exists e. exact H4.
    + intros k. rewrite E, A. split; [auto|]. intros [H|H]; [congruence|exact H].
    + intros k [H|H]; [now rewrite A in H|now apply F].
  - intros i x c T PS. right. destruct (D i x c) as [s G].
    + split; [eapply tagged_range; exact T|auto].
    + exists s, c. split; [exact G|lia].
  - intros r v a _ _ H. now rewrite A in H.
  - intros r l u a b _ _ H. now rewrite A in H.
Qed.

(** every word is in every complete derivation *)
Variable mem : vec -> nat -> Prop.
Hypothesis mem_single : forall i j, mem (vsingle i) j -> i = j.
Hypothesis mem_combine : forall yf l u v j, cjoin yf l u v -> mem v j -> mem l j \/ mem u j.
Hypothesis goal_mem : forall j, j < length sent -> mem (snd goal) j.
Lemma word_within : forall x v c, derives x v c -> forall j, mem v j -> exists y d, tagged j y d /\ within x v c y (vsingle j) d.
Proof.
  intros x v c D. induction D as [i x c T|r v c U E D IH NG A|r v1 v2 v a b U E D1 IH1 N1 D2 IH2 N2 J A]; intros j MJ.
  - apply mem_single in MJ. subst j. exists x, c. split; [exact T|]. apply w_here. now apply d_word.
  - destruct (IH j MJ) as (y & d & T & W). exists y, d. split; [exact T|]. now apply w_unary.
  - destruct (mem_combine _ _ _ _ _ J MJ) as [MJ'|MJ'].
    + destruct (IH1 j MJ') as (y & d & T & W). exists y, d. split; [exact T|]. eapply w_left; eauto.
    + destruct (IH2 j MJ') as (y & d & T & W). exists y, d. split; [exact T|]. eapply w_right; eauto.
Qed.
Notation parse_main := (a_parse_main vec veqb vconcat vcombine vsingle vltb wl maxlog estlex estun estbin rules mask goal).
Lemma parse_final : forall exh b ch, parse_main exh sent b ch -> final ch.
Proof.
  intros exh b ch PM. destruct (populate_ok sent [] (emptychart vec) eq_refl empty_pos) as (b0 & ch0 & EQ & CT & CF). cbn [length] in EQ.
  destruct PM as [ch E|n ch ch' E LO]; rewrite EQ in E; injection E as -> ->.
  - destruct (CF eq_refl) as (PN & i & LI & NT). split.
    + intros x v p H. now rewrite PN in H.
    + intros C D L. exfalso. destruct (word_within _ _ _ D i (goal_mem i LI)) as (y & d & T & W).
      apply (NT y d T). eapply within_pass; eauto.
  - eapply loop_final; [exact LO|]. apply pos_inv. now apply CT.
Qed.

(** ** termination *)
Variable U : list item.
Hypothesis U_ok : forall x v c, derives x v c -> In (x, v) U.
Definition weight (o : option N) : nat := match o with None => S (N.to_nat maxlog) | Some p => N.to_nat p end.
Definition measure (pi : item -> option N) : nat := fold_right (fun k a => weight (pi k) + a) 0 U.
Lemma measure_le : forall (pi pi' : item -> option N) l, (forall k, weight (pi' k) <= weight (pi k)) ->
  fold_right (fun k a => weight (pi' k) + a) 0 l <= fold_right (fun k a => weight (pi k) + a) 0 l.
Proof. intros pi pi' l H. induction l as [|k l IH]; cbn [fold_right]; [lia|]. specialize (H k). lia. Qed.
Lemma measure_lt : forall (pi pi' : item -> option N) it l, In it l -> (forall k, weight (pi' k) <= weight (pi k)) ->
  weight (pi' it) < weight (pi it) ->
  fold_right (fun k a => weight (pi' k) + a) 0 l < fold_right (fun k a => weight (pi k) + a) 0 l.
Proof.
  intros pi pi' it l I H L. induction l as [|k l IH]; [destruct I|]. cbn [fold_right]. destruct I as [->|I].
  - pose proof (measure_le pi pi' l H). lia.
  - specialize (IH I). specialize (H k). lia.
Qed.
Lemma pop_measure : forall ch it p ch1, Inv ch -> pops vec ch it p ch1 ->
  measure (iput vec veqb (probs ch) it (Some p)) < measure (probs ch).
Proof.
  intros ch it p ch1 IV PO. destruct (pop_mid ch it p ch1 (i_mid ch IV) PO) as (_ & _ & _ & LT & s & G & _).
  destruct it as [x v]. destruct (m_ag ch (i_mid ch IV) _ _ _ _ G) as (D & _ & e & E & S & LE).
  assert (WL : weight (Some p) < weight (probs ch (x, v))).
  { unfold ltp in LT. destruct (probs ch (x, v)) as [q|]; cbn [weight]; [apply N.ltb_lt in LT; lia|lia]. }
  apply measure_lt with (it := (x, v)).
  - eapply U_ok; eauto.
  - intros k. rewrite iput_cases. destruct (ieqb k (x, v)) eqn:Q; [|lia]. apply (ieqb_ok vec veqb veqb_ok) in Q. subst k. lia.
  - rewrite (iput_same vec veqb veqb_ok). exact WL.
Qed.
Lemma loop_bound : forall exh n ch ch', a_loop exh n ch ch' -> Inv ch -> n <= measure (probs ch).
Proof.
  intros exh n ch ch' LO. induction LO as [ch AE|ch it p ch1 EX PO GO|n ch it p ch1 ch2 PO _ LO IH]; intros IV; [lia| |].
  - pose proof (pop_measure ch it p ch1 IV PO). lia.
  - destruct (explore_inv ch it p ch1 IV PO) as [IV2 P2]. specialize (IH IV2). rewrite P2 in IH.
    pose proof (pop_measure ch it p ch1 IV PO). lia.
Qed.
Lemma loop_total : forall exh m ch, Inv ch -> measure (probs ch) <= m -> exists n ch', a_loop exh n ch ch'.
Proof.
  induction m as [|m IH]; intros ch IV L; (destruct (agenda ch) as [|a0 ag] eqn:AG; [exists 0, ch; now apply al_empty|]);
    (destruct (pops_exists vec ch) as (it & p & ch1 & PO); [rewrite AG; discriminate|]); pose proof (pop_measure ch it p ch1 IV PO) as ME; [lia|].
  destruct (ieqb it goal && negb exh) eqn:GO.
  - apply andb_true_iff in GO. destruct GO as [GO EX]. apply negb_true_iff in EX. exists 1, (updateprob ch1 it p). now apply al_break.
  - destruct (explore_inv ch it p ch1 IV PO) as [IV2 P2]. destruct (IH _ IV2) as (n & ch' & LO); [rewrite P2; lia|].
    exists (S n), ch'. eapply al_step; eauto. intros ->. cbn [negb] in GO. now rewrite andb_true_r in GO.
Qed.
Lemma measure_max : forall pi, (forall k, weight (pi k) <= S (N.to_nat maxlog)) -> measure pi <= length U * S (N.to_nat maxlog).
Proof.
  intros pi H. unfold measure. clear U_ok. induction U as [|k l IH]; cbn [fold_right length]; [lia|]. specialize (H k). rewrite Nat.mul_succ_l. lia.
Qed.
Lemma parse_total : forall exh, exists b ch, parse_main exh sent b ch.
Proof.
  intros exh. destruct (populate_ok sent [] (emptychart vec) eq_refl empty_pos) as (b0 & ch0 & EQ & CT & CF). cbn [length] in EQ.
  destruct b0.
  - destruct (loop_total exh _ ch0 (pos_inv _ (CT eq_refl)) (le_n _)) as (n & ch' & LO). exists true, ch'. econstructor; eauto.
  - exists false, ch0. now constructor.
Qed.
Lemma parse_bound : forall exh n ch ch', populatepos (emptychart vec) 0 sent = Some (true, ch) -> a_loop exh n ch ch' ->
  n <= length U * S (N.to_nat maxlog).
Proof.
  intros exh n ch ch' EQ LO. destruct (populate_ok sent [] (emptychart vec) eq_refl empty_pos) as (b0 & ch0 & EQ' & CT & _). cbn [length] in EQ'.
  rewrite EQ in EQ'. injection EQ' as <- <-. specialize (CT eq_refl). etransitivity; [eapply loop_bound; [exact LO|now apply pos_inv]|].
  apply measure_max. intros k. rewrite (p_none _ _ CT). cbn [weight]. lia.
Qed.
End Proofs.
