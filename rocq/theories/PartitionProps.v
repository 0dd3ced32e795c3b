(** C42: the partition of an incomplete chart *)
From Coq Require Import List Arith Lia.
From Verif Require Import PartitionModel.
Import ListNotations.

(** ---- specification ---- *)
(** the segments are adjacent, not empty, and lead from a to b *)
Fixpoint leads {L} (a : nat) (l : list (option L * nat * nat)) (b : nat) : Prop :=
  match l with
  | [] => a = b
  | (_, x, y) :: r => x = a /\ x < y /\ leads y r b
  end.
(** a segment is the best item of the chart with that span, or a single word
    that no item covers on its own *)
Definition segment_ok {L} (best : nat -> nat -> option L) (s : option L * nat * nat) : Prop :=
  match s with (Some x, a, b) => best a b = Some x | (None, a, b) => b = a + 1 /\ best a b = None end.

Section Proofs.
Context {L : Type}.
Variable best : nat -> nat -> option L.

Lemma in_spans : forall s e a b, In (a, b) (spans s e) <-> s <= a /\ a < b /\ b <= e.
Proof.
  intros s e a b. unfold spans. rewrite in_flat_map. split.
  - intros (len & Hl & H). apply in_rev in Hl. apply in_seq in Hl. apply in_map_iff in H. destruct H as (x & E & Hx). injection E as <- <-. apply in_seq in Hx. lia.
  - intros (A & B & C). exists (b - a). rewrite <- in_rev. split; [apply in_seq; lia|]. apply in_map_iff. exists a. split; [f_equal; lia|]. apply in_seq. lia.
Qed.
Lemma firstparse_some : forall l x a b, firstparse best l = Some (x, a, b) -> In (a, b) l /\ best a b = Some x.
Proof.
  induction l as [|[a' b'] l IH]; intros x a b H; [discriminate|]. cbn in H. destruct (best a' b') eqn:E; [injection H as <- <- <-; split; [now left|auto]|]. destruct (IH _ _ _ H). split; [now right|auto].
Qed.
Lemma firstparse_none : forall l, firstparse best l = None -> forall a b, In (a, b) l -> best a b = None.
Proof.
  induction l as [|[a' b'] l IH]; intros H a b I0; [destruct I0|]. cbn in H. destruct (best a' b') eqn:E; [discriminate|]. destruct I0 as [I0|I0]; [congruence|eauto].
Qed.
(** the spans in front of a span are longer, or as long and further to the left *)
Lemma firstparse_first : forall l x a b, firstparse best l = Some (x, a, b) -> exists pre post, l = pre ++ (a, b) :: post /\ forall c d, In (c, d) pre -> best c d = None.
Proof.
  induction l as [|[a' b'] l IH]; intros x a b H; [discriminate|]. cbn in H. destruct (best a' b') eqn:E.
  - injection H as <- <- <-. exists [], l. split; auto. intros c d [].
  - destruct (IH _ _ _ H) as (pre & post & -> & N). exists ((a', b') :: pre), post. split; auto. intros c d [X|X]; [congruence|auto].
Qed.
Definition before (p q : nat * nat) : Prop := snd p - fst p > snd q - fst q \/ (snd p - fst p = snd q - fst q /\ fst p < fst q).
Inductive sorted : list (nat * nat) -> Prop :=
| s_nil : sorted []
| s_cons : forall p l, (forall q, In q l -> before p q) -> sorted l -> sorted (p :: l).
Lemma sorted_app : forall l r, sorted l -> sorted r -> (forall p q, In p l -> In q r -> before p q) -> sorted (l ++ r).
Proof.
  induction l as [|p l IH]; intros r Sl Sr H; [auto|]. inversion Sl as [|? ? A B]; subst. cbn. constructor.
  - intros q Hq. apply in_app_iff in Hq. destruct Hq; [auto|]. apply H; auto. now left.
  - apply IH; auto. intros p' q' Hp. apply H. now right.
Qed.
Lemma spans_sorted : forall s e, sorted (spans s e).
Proof.
  intros s e. unfold spans. generalize (e - s) as m. induction m as [|m IH]; [constructor|]. replace (S m) with (m + 1) by lia. rewrite seq_app, rev_app_distr. cbn [seq rev app flat_map]. apply sorted_app.
  - generalize (e - (1 + m) + 1 - s) as k. intros k. revert s IH. induction k as [|k IHk]; intros s _; [constructor|]. cbn. constructor.
    + intros q Hq. apply in_map_iff in Hq. destruct Hq as (x & <- & Hx). apply in_seq in Hx. right. cbn. lia.
    + clear IHk. generalize (S s). clear. intros s. revert s. induction k as [|k IH]; intros s; [constructor|]. cbn. constructor; [|apply IH]. intros q Hq. apply in_map_iff in Hq. destruct Hq as (x & <- & Hx). apply in_seq in Hx. right. cbn. lia.
  - exact IH.
  - intros p q Hp Hq. apply in_map_iff in Hp. destruct Hp as (x & <- & Hx). apply in_flat_map in Hq. destruct Hq as (len & Hl & Hq). apply in_rev in Hl. apply in_seq in Hl. apply in_map_iff in Hq. destruct Hq as (y & <- & Hy). left. cbn. lia.
Qed.
Lemma sorted_split : forall pre p post q, sorted (pre ++ p :: post) -> In q (pre ++ p :: post) -> before q p -> In q pre.
Proof.
  induction pre as [|x pre IH]; intros p post q H Hq B; cbn in *; inversion H as [|? ? A C]; subst.
  - destruct Hq as [->|Hq]; [exfalso; unfold before in B; lia|]. specialize (A _ Hq). unfold before in A, B. lia.
  - destruct Hq as [->|Hq]; [now left|right]. eapply IH; eauto.
Qed.
Lemma leads_app : forall (l r : list (option L * nat * nat)) a b c, leads a l b -> leads b r c -> leads a (l ++ r) c.
Proof. induction l as [|[[x a'] b'] l IH]; intros r a b c H1 H2; cbn in *; [now subst|]. destruct H1 as (A & B & C). repeat split; auto. eapply IH; eauto. Qed.

(** the recursion ends *)
Theorem C42_terminates : forall s e, s < e -> forall fuel, e - s <= fuel -> partition best fuel s e <> None.
Proof.
  intros s e H fuel. revert s e H. induction fuel as [|f IH]; intros s e H Hf; [lia|]. cbn [partition]. destruct (firstparse best (spans s e)) as [[[x a] b]|] eqn:E.
  - apply firstparse_some in E. destruct E as [E _]. apply in_spans in E. destruct (s <? a) eqn:E1, (b <? e) eqn:E2; try apply Nat.ltb_lt in E1; try apply Nat.ltb_lt in E2.
    + assert (A := IH s a E1 ltac:(lia)). assert (B := IH b e E2 ltac:(lia)). destruct (partition best f s a), (partition best f b e); congruence.
    + assert (A := IH s a E1 ltac:(lia)). destruct (partition best f s a); congruence.
    + assert (B := IH b e E2 ltac:(lia)). destruct (partition best f b e); congruence.
    + congruence.
  - destruct (s + 1 <? e) eqn:E2; [apply Nat.ltb_lt in E2|congruence]. assert (B := IH (s + 1) e E2 ltac:(lia)). destruct (partition best f (s + 1) e); congruence.
Qed.
(** The segments cover the words from start to end, from left to right, without
    overlaps; each is an item of the chart, or a single word without item. *)
Theorem C42_partition : forall s e, s < e -> forall fuel l, partition best fuel s e = Some l -> leads s l e /\ Forall (segment_ok best) l.
Proof.
  intros s e H fuel. revert s e H. induction fuel as [|f IH]; intros s e H l E; [discriminate|]. cbn [partition] in E. destruct (firstparse best (spans s e)) as [[[x a] b]|] eqn:F.
  - apply firstparse_some in F. destruct F as [F BX]. apply in_spans in F.
    destruct (if s <? a then partition best f s a else Some []) as [l1|] eqn:E1; [|discriminate]. destruct (if b <? e then partition best f b e else Some []) as [l2|] eqn:E2; [|discriminate]. injection E as <-.
    assert (A1 : leads s l1 a /\ Forall (segment_ok best) l1) by (destruct (s <? a) eqn:T; [apply Nat.ltb_lt in T; apply (IH s a T _ E1)|apply Nat.ltb_ge in T; injection E1 as <-; split; [cbn; lia|constructor]]).
    assert (A2 : leads b l2 e /\ Forall (segment_ok best) l2) by (destruct (b <? e) eqn:T; [apply Nat.ltb_lt in T; apply (IH b e T _ E2)|apply Nat.ltb_ge in T; injection E2 as <-; split; [cbn; lia|constructor]]).
    destruct A1 as [P1 Q1], A2 as [P2 Q2]. split; [eapply leads_app; [exact P1|cbn; repeat split; auto; lia]|]. apply Forall_app. split; auto.
  - assert (N := firstparse_none _ F). destruct (if s + 1 <? e then partition best f (s + 1) e else Some []) as [r|] eqn:E2; [|discriminate]. injection E as <-.
    assert (A2 : leads (s + 1) r e /\ Forall (segment_ok best) r) by (destruct (s + 1 <? e) eqn:T; [apply Nat.ltb_lt in T; apply (IH _ _ T _ E2)|apply Nat.ltb_ge in T; injection E2 as <-; split; [cbn; lia|constructor]]).
    destruct A2 as [P2 Q2]. split; [cbn; repeat split; auto; lia|]. constructor; auto. cbn. split; auto. apply N. apply in_spans. lia.
Qed.
(** the longest item (the leftmost one among equally long ones) is used: if the
    chart has any item in start..end, there is a segment [a, b) such that every
    item within start..end is shorter, or as long and not further to the left *)
Theorem C42_longest : forall s e, s < e -> forall fuel l, partition best fuel s e = Some l -> (exists c d, s <= c /\ c < d /\ d <= e /\ best c d <> None) ->
  exists x a b, In (Some x, a, b) l /\ forall c d, s <= c -> c < d -> d <= e -> best c d <> None -> d - c < b - a \/ (d - c = b - a /\ a <= c).
Proof.
  intros s e H fuel l E (c0 & d0 & A0 & B0 & C0 & N0). destruct fuel as [|f]; [discriminate|]. cbn [partition] in E. destruct (firstparse best (spans s e)) as [[[x a] b]|] eqn:F.
  - destruct (firstparse_first _ _ _ _ F) as (pre & post & EL & NP). apply firstparse_some in F. destruct F as [F BX]. exists x, a, b. split.
    + destruct (if s <? a then partition best f s a else Some []) as [l1|]; [|discriminate]. destruct (if b <? e then partition best f b e else Some []) as [l2|]; [|discriminate]. injection E as <-. apply in_app_iff. right. now left.
    + intros c d A B C N. destruct (lt_dec (b - a) (d - c)) as [X|X]; [exfalso|destruct (Nat.eq_dec (d - c) (b - a)) as [Y|Y]; [|lia]; destruct (lt_dec c a) as [Z|Z]; [exfalso|lia]].
      * apply N. apply NP. apply (sorted_split pre (a, b) post (c, d)); [rewrite <- EL; apply spans_sorted|rewrite <- EL; apply in_spans; lia|left; cbn; lia].
      * apply N. apply NP. apply (sorted_split pre (a, b) post (c, d)); [rewrite <- EL; apply spans_sorted|rewrite <- EL; apply in_spans; lia|right; cbn; lia].
  - exfalso. apply N0. apply (firstparse_none _ F). apply in_spans. lia.
Qed.
End Proofs.
(** in particular an item over the whole sentence is the only segment *)
Corollary C42_complete : forall {L} (best : nat -> nat -> option L) n x, 0 < n -> best 0 n = Some x -> partition best n 0 n = Some [(Some x, 0, n)].
Proof.
  intros L best n x H E. destruct n as [|n]; [lia|]. cbn [partition]. assert (F : firstparse best (spans 0 (S n)) = Some (x, 0, S n)).
  { unfold spans. rewrite Nat.sub_0_r. rewrite (seq_S n 1). rewrite rev_app_distr. cbn [rev app flat_map]. change (1 + n) with (S n). replace (S n - S n + 1 - 0) with 1 by lia. cbn [seq map app firstparse Nat.add]. now rewrite E. }
  rewrite F. rewrite (Nat.ltb_irrefl (S n)), (Nat.ltb_irrefl 0). reflexivity.
Qed.
(** an empty stretch gives a segment that does not exist *)
Theorem C42_empty_refuted : partition (fun _ _ => @None nat) 1 3 3 = Some [(None, 3, 4)].
Proof. reflexivity. Qed.
(** words 1-2 form an NP, word 3 a V; word 0 has no item *)
Example partition_example : partition (fun a b => match a, b with 1, 3 => Some 7 | 3, 4 => Some 8 | 1, 2 => Some 9 | _, _ => None end) 4 0 4
  = Some [(None, 0, 1); (Some 7, 1, 3); (Some 8, 3, 4)].
Proof. reflexivity. Qed.
Print Assumptions C42_partition. Print Assumptions C42_longest.
