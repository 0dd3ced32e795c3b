(** C53: bit sets as positions and intervals; aligning sentences *)
From Coq Require Import String.
From Coq Require Import List Bool Arith NArith Lia Sorted.
From Verif Require Import PyStr EvalModel.
Import ListNotations.
Open Scope list_scope.
Open Scope nat_scope.

Lemma size_shift : forall b, b <> 0%N -> N.size_nat (N.shiftr b 1) < N.size_nat b.
Proof. intros [|p] H; [contradiction|]. destruct p; cbn; lia. Qed.
Lemma getbits_loop_spec : forall fuel b n, N.size_nat b <= fuel -> Sorted.StronglySorted lt (getbits_loop fuel b n) /\ forall i, In i (getbits_loop fuel b n) <-> n <= i /\ N.testbit b (N.of_nat (i - n)) = true.
Proof.
  induction fuel as [|f IH]; intros b n H.
  - destruct b as [|p]; [|destruct p; cbn in H; lia]. split; [constructor|]. intros i. split; [intros []|intros [_ E]; rewrite N.bits_0 in E; discriminate].
  - cbn [getbits_loop]. destruct (N.eqb_spec b 0) as [->|NZ]; [split; [constructor|]; intros i; split; [intros []|intros [_ E]; rewrite N.bits_0 in E; discriminate]|].
    destruct (IH (N.shiftr b 1) (S n)) as [S1 I1]; [assert (X := size_shift b NZ); lia|]. assert (OUT : forall i, In i (getbits_loop f (N.shiftr b 1) (S n)) <-> S n <= i /\ N.testbit b (N.of_nat (i - n)) = true).
    { intros i. rewrite I1. split; intros [L E]; split; auto; rewrite N.shiftr_spec' in *; replace (N.of_nat (i - S n) + 1)%N with (N.of_nat (i - n)) in * by lia; auto. }
    split.
    + destruct (N.odd b); [|exact S1]. cbn [app]. constructor; auto. apply Forall_forall. intros i Hi. apply OUT in Hi. lia.
    + intros i. rewrite in_app_iff, OUT. rewrite <- N.bit0_odd. split.
      * intros [Hi|[L E]]; [|split; [lia|auto]]. destruct (N.testbit b 0) eqn:E0; [|destruct Hi]. destruct Hi as [<-|[]]. rewrite Nat.sub_diag. auto.
      * intros [L E]. destruct (Nat.eq_dec n i) as [<-|NE]; [left; rewrite Nat.sub_diag in E; cbn in E; rewrite E; now left|right; split; [lia|auto]].
Qed.
(** the positions of the set bits, in ascending order *)
Theorem C53_getbits : forall b, Sorted.StronglySorted lt (getbits b) /\ forall i, In i (getbits b) <-> N.testbit b (N.of_nat i) = true.
Proof.
  intros b. destruct (getbits_loop_spec (N.size_nat b) b 0 (le_n _)) as [A B]. split; auto. intros i. unfold getbits. rewrite B, Nat.sub_0_r. split; [intros [_ H]; exact H|intros H; split; [lia|exact H]].
Qed.
(** the intervals: inclusive bounds, in ascending order, never adjacent *)
Definition apart (x y : nat * nat) : Prop := snd x + 1 < fst y.
Lemma intervals_loop_spec : forall l start prev, start <= prev -> Sorted.StronglySorted lt (prev :: l) ->
  Sorted.StronglySorted apart (intervals_loop l start prev) /\ Forall (fun x => fst x <= snd x) (intervals_loop l start prev) /\ Forall (fun x => start <= fst x) (intervals_loop l start prev) /\
  forall i, (exists x, In x (intervals_loop l start prev) /\ fst x <= i <= snd x) <-> start <= i <= prev \/ In i l.
Proof.
  induction l as [|a r IH]; intros start prev L SS; cbn [intervals_loop].
  - repeat split; try (repeat constructor; cbn; auto; fail).
    + intros (x & [<-|[]] & H). left. exact H.
    + intros [H|[]]. exists (start, prev). split; [now left|exact H].
  - inversion SS as [|? ? SS' F]; subst. inversion F as [|? ? La F']; subst. destruct (Nat.eqb_spec a (prev + 1)) as [->|NE].
    + destruct (IH start (prev + 1) ltac:(lia) SS') as (A & B & C & D). split; auto. split; auto. split; auto. intros i. rewrite D. cbn [In]. split; [intros [H|H]; [|auto]|intros [H|[H|H]]; auto; left; lia]. assert (X : i <= prev \/ i = prev + 1) by lia. destruct X; [left; lia|right; left; lia].
    + destruct (IH a a ltac:(lia) SS') as (A & B & C & D). split; [|split; [|split]].
      * constructor; auto. rewrite Forall_forall in *. intros x X. specialize (C x X). unfold apart. cbn [snd]. lia.
      * constructor; auto.
      * constructor; auto. eapply Forall_impl; [|exact C]. cbn. intros. lia.
      * intros i. cbn [In]. specialize (D i). split.
        -- intros (x & [<-|X] & H); [left; exact H|]. right. destruct (proj1 D (ex_intro _ x (conj X H))) as [Y|Y]; [left; lia|auto].
        -- intros [H|H]; [exists (start, prev); split; [now left|exact H]|]. assert (Y : a <= i <= a \/ In i r) by (destruct H as [H|H]; [left; lia|auto]). destruct (proj2 D Y) as (x & X1 & X2). exists x. split; [now right|exact X2].
Qed.
Theorem C53_intervals : forall b, Sorted.StronglySorted apart (intervals b) /\ Forall (fun x => fst x <= snd x) (intervals b) /\
  forall i, (exists x, In x (intervals b) /\ fst x <= i <= snd x) <-> N.testbit b (N.of_nat i) = true.
Proof.
  intros b. destruct (C53_getbits b) as [SS BI]. unfold intervals. destruct (getbits b) as [|a r] eqn:E.
  - split; [constructor|]. split; [constructor|]. intros i. rewrite <- BI. split; [intros (x & [] & _)|intros []].
  - destruct (intervals_loop_spec r a a (le_n _) SS) as (A & B & _ & D). split; auto. split; auto. intros i. rewrite D, <- BI. cbn [In]. split; intros [H|H]; auto; left; lia.
Qed.
Example ex_intervals : intervals 0xF70%N = [(4, 6); (8, 11)].
Proof. reflexivity. Qed.
(** ---- aligning ---- *)
Inductive subseq {A} : list A -> list A -> Prop :=
  | sub_nil : forall l, subseq [] l
  | sub_take : forall x k l, subseq k l -> subseq (x :: k) (x :: l)
  | sub_skip : forall x k l, subseq k l -> subseq k (x :: l).
Lemma subseq_tail : forall A (x : A) k l, subseq (x :: k) l -> subseq k l.
Proof. intros A x k l H. remember (x :: k) as j eqn:E. induction H; try discriminate; [injection E as -> ->; now constructor|subst; constructor; auto]. Qed.
Lemma align_spec : forall gsent gpos csent n, length gpos = length gsent -> subseq csent gsent ->
  exists js, length js = length csent /\ Sorted.StronglySorted lt js /\ (forall j, In j js -> j < length gsent) /\ map (fun j => nth j gsent []) js = csent /\ alignsent csent gsent gpos n = combine (seq n (length csent)) (map (fun j => nth j gpos []) js).
Proof.
  induction gsent as [|g gs IH]; intros gpos csent n L H.
  - inversion H; subst. exists []. destruct gpos; repeat split; auto; try constructor; intros ? [].
  - destruct gpos as [|t ts]; [discriminate|]. destruct csent as [|c cs]; [exists []; repeat split; auto; [constructor|intros ? []]|]. cbn [alignsent].
    assert (SH : forall csent' js, length js = length csent' -> Sorted.StronglySorted lt js -> (forall j, In j js -> j < length gs) -> map (fun j => nth j gs []) js = csent' ->
      length (map S js) = length csent' /\ Sorted.StronglySorted lt (map S js) /\ (forall j, In j (map S js) -> 0 < j /\ j < S (length gs)) /\ map (fun j => nth j (g :: gs) []) (map S js) = csent' /\ map (fun j => nth j (t :: ts) []) (map S js) = map (fun j => nth j ts []) js).
    { clear. intros csent' js A B C D. rewrite map_length. split; auto. split; [|split; [|split; [now rewrite map_map|now rewrite map_map]]].
      - clear - B. induction B as [|j js B IHB F]; [constructor|]. cbn. constructor; auto. rewrite Forall_map. eapply Forall_impl; [|exact F]. cbn. intros. lia.
      - intros j Hj. apply in_map_iff in Hj. destruct Hj as (k & <- & K). apply C in K. cbn. lia. }
    destruct (eqs c g) eqn:E.
    + apply eqs_eq in E. subst g. destruct (IH ts cs (S n)) as (js & A & B & C & D & F); [now injection L|inversion H; subst; auto; eapply subseq_tail; eauto|]. destruct (SH cs js A B C D) as (A' & B' & C' & D' & F'). exists (0 :: map S js). cbn [length map combine seq]. split; [now rewrite A'|]. split; [constructor; auto; apply Forall_forall; intros j J; apply C' in J; lia|]. split; [intros j [<-|J]; [lia|apply C' in J; apply J]|]. split; [exact (f_equal (cons c) D')|]. rewrite F. exact (f_equal (fun z => (n, t) :: combine (seq (S n) (length cs)) z) (eq_sym F')).
    + destruct (IH ts (c :: cs) n) as (js & A & B & C & D & F); [now injection L|inversion H; subst; auto; rewrite eqs_refl in E; discriminate|]. destruct (SH (c :: cs) js A B C D) as (A' & B' & C' & D' & F'). exists (map S js). split; auto. split; auto. split; [intros j J; apply C' in J; apply J|]. split; auto. rewrite F, F'. reflexivity.
Qed.
(** when the words of [csent] occur in this order in [gsent], every word gets
    the tag of an occurrence of the same word, in order *)
Theorem C53_alignsent : forall csent gsent gpos, length gpos = length gsent -> subseq csent gsent ->
  exists js, length js = length csent /\ Sorted.StronglySorted lt js /\ (forall j, In j js -> j < length gsent) /\ map (fun j => nth j gsent []) js = csent /\
  alignsent csent gsent gpos 0 = combine (seq 0 (length csent)) (map (fun j => nth j gpos []) js).
Proof. intros csent gsent gpos L H. exact (align_spec gsent gpos csent 0 L H). Qed.
Example ex_align : subseq [str "No"] [str "``"; str "No"; str "."] /\ alignsent [str "No"] [str "``"; str "No"; str "."] [str "``"; str "RB"; str "."] 0 = [(0, str "RB")].
Proof. split; [apply sub_skip, sub_take, sub_nil|reflexivity]. Qed.
