(** C99: the fan-out of a treebank. *)
From Coq Require Import String.
From Coq Require Import List Bool Arith NArith Lia.
From Verif Require Import PyStr GetyfModel GetyfProps TbfanModel.
Import ListNotations.
Open Scope nat_scope.

(** ** Specification *)
(** fan-out: the number of maximal runs of consecutive words *)
Definition fan (b : N) : nat := length (setruns b).
(** nodes have children *)
Inductive proper : tr -> Prop :=
| p_leaf : forall n, proper (Leaf n)
| p_node : forall ts, ts <> [] -> Forall proper ts -> proper (Node ts).

(** ** Proofs *)
Lemma bit_single : forall n m, bit (N.shiftl 1 (N.of_nat n)) m = (m =? n).
Proof.
  intros n m. unfold bit. rewrite N.shiftl_1_l. destruct (Nat.eqb_spec m n) as [->|H].
  - apply N.pow2_bits_true.
  - apply N.pow2_bits_false. lia.
Qed.
Lemma runs_single : forall p n, (forall m, p m = (m =? n)) -> forall k s, s + k = n -> runs p s (S k) = [[n]].
Proof.
  intros p n H. induction k as [|k IH]; intros s E; rewrite runs_step, H.
  - replace (s =? n) with true by (symmetry; apply Nat.eqb_eq; lia). cbn. now replace s with n by lia.
  - replace (s =? n) with false by (symmetry; apply Nat.eqb_neq; lia). apply IH. lia.
Qed.
Lemma fan_single : forall n, fan (N.shiftl 1 (N.of_nat n)) = 1.
Proof.
  intros n. unfold fan, setruns. set (b := N.shiftl 1 (N.of_nat n)).
  assert (L : bitlength b = S n).
  { unfold b, bitlength. rewrite N.shiftl_1_l. pose proof (N.pow_nonzero 2 (N.of_nat n) ltac:(lia)) as NZ.
    destruct (2 ^ N.of_nat n)%N eqn:E; [contradiction|]. rewrite <- E, N.log2_pow2 by lia. now rewrite Nat2N.id. }
  rewrite L, (runs_single (bit b) n (bit_single n)) by lia. reflexivity.
Qed.
Lemma runs_pos : forall p k s m, s <= m -> m < s + k -> p m = true -> runs p s k <> [].
Proof.
  intros p. induction k as [|k IH]; intros s m H1 H2 H; [lia|]. rewrite runs_step. destruct (p s) eqn:E; [discriminate|].
  apply (IH (S s) m); try lia. destruct (Nat.eq_dec s m) as [->|]; [congruence|lia]. exact H.
Qed.
Lemma fan_pos : forall b, b <> 0%N -> 1 <= fan b.
Proof.
  intros b H. unfold fan, setruns. pose proof (bitlength_0 b) as Z.
  assert (R : runs (bit b) 0 (bitlength b) <> []).
  { apply (runs_pos _ _ _ (bitlength b - 1)); [lia| |now apply bit_top]. destruct (bitlength b); [now destruct (H (proj1 Z eq_refl))|lia]. }
  destruct (runs (bit b) 0 (bitlength b)); [contradiction|cbn; lia].
Qed.
Fixpoint tr_ind' (P : tr -> Prop) (HL : forall n, P (Leaf n)) (HN : forall ts, Forall P ts -> P (Node ts)) (t : tr) : P t :=
  match t with
  | Leaf n => HL n
  | Node ts => HN ts ((fix go l := match l return Forall P l with [] => Forall_nil _ | x :: l' => Forall_cons x (tr_ind' P HL HN x) (go l') end) ts)
  end.
(** a node has the fan-out of a branching node below it, or 1 *)
Lemma branching : forall t, proper t -> forall a, In a (subtrees t) ->
  fan (bits a) = 1 \/ exists a', In a' (subtrees t) /\ 1 < arity a' /\ fan (bits a') = fan (bits a).
Proof.
  assert (Q : forall t, proper t -> fan (bits t) = 1 \/ exists a', In a' (subtrees t) /\ 1 < arity a' /\ fan (bits a') = fan (bits t)).
  { induction t as [n|ts IH] using tr_ind'; intros P.
    - left. apply fan_single.
    - inversion P as [|? NE F]; subst. destruct ts as [|c [|c' ts]]; [contradiction| |].
      + cbn [bits fold_right]. rewrite N.lor_0_r. apply Forall_inv in IH. apply Forall_inv in F.
        destruct (IH F) as [H|(a & I & A & E)]; [now left|]. right. exists a. split; [|auto]. cbn [subtrees flat_map]. right.
        apply in_or_app. left. exact I.
      + right. exists (Node (c :: c' :: ts)). split; [now left|]. split; [cbn; lia|reflexivity]. }
  assert (S : forall t, proper t -> forall a, In a (subtrees t) -> proper a /\ incl (subtrees a) (subtrees t)).
  { induction t as [n|ts IH] using tr_ind'; intros P a I; [destruct I|]. cbn [subtrees] in I. destruct I as [<-|I].
    - split; [exact P|apply incl_refl].
    - inversion P as [|? NE F]; subst. apply in_flat_map in I. destruct I as (c & Ic & I).
      rewrite Forall_forall in IH, F. destruct (IH c Ic (F c Ic) a I) as [A B]. split; [exact A|].
      intros x Hx. cbn [subtrees]. right. apply in_flat_map. exists c. split; [exact Ic|now apply B]. }
  intros t P a I. destruct (S t P a I) as [A B]. destruct (Q a A) as [H|(a' & I' & H)]; [now left|right; exists a'; split; [now apply B|exact H]].
Qed.
Lemma lexlt_iff : forall a b, lexlt a b = true <-> fst a < fst b \/ (fst a = fst b /\ snd a < snd b).
Proof. intros a b. unfold lexlt. now rewrite orb_true_iff, andb_true_iff, Nat.eqb_eq, !Nat.ltb_lt. Qed.
Lemma lexlt_niff : forall a b, lexlt a b = false <-> ~ (fst a < fst b \/ (fst a = fst b /\ snd a < snd b)).
Proof. intros a b. rewrite <- lexlt_iff. destruct (lexlt a b); split; intros H; try reflexivity; try discriminate; now destruct H. Qed.
Lemma pymax_spec : forall l x, (pymax x l = x \/ In (pymax x l) l) /\ forall y, y = x \/ In y l -> lexlt (pymax x l) y = false.
Proof.
  assert (T : forall a b c, lexlt a b = false -> lexlt b c = false -> lexlt a c = false).
  { intros a b c. rewrite !lexlt_niff. lia. }
  assert (R : forall a, lexlt a a = false).
  { intros a. rewrite lexlt_niff. lia. }
  assert (As : forall a b, lexlt a b = true -> lexlt b a = false).
  { intros a b. rewrite lexlt_niff, lexlt_iff. lia. }
  induction l as [|y l IH]; intros x; cbn [pymax].
  - split; [now left|]. intros y [->|[]]. apply R.
  - destruct (IH (if lexlt x y then y else x)) as [A B]. split.
    + destruct A as [A|A]; [|right; now right]. rewrite A. destruct (lexlt x y); [right; now left|now left].
    + pose proof (B _ (or_introl eq_refl)) as B0. intros z [->|[<-|I]].
      * destruct (lexlt x y) eqn:E; [|exact B0]. eapply T; [exact B0|]. now apply As.
      * destruct (lexlt x y) eqn:E; [exact B0|]. eapply T; [exact B0|exact E].
      * apply B. now right.
Qed.
Lemma in_pairs : forall trees n f m, In (f, m) (pairs fan n trees) <->
  exists i t a, nth_error trees i = Some t /\ m = n + i /\ In a (subtrees t) /\ 1 < arity a /\ f = fan (bits a).
Proof.
  induction trees as [|t trees IH]; intros n f m; cbn [pairs].
  - split; [intros []|]. intros ([|i] & t & a & H & _); discriminate.
  - rewrite in_app_iff, IH, in_map_iff. split.
    + intros [(a & E & I)|(i & t' & a & H & -> & R)].
      * apply filter_In in I. destruct I as [I A]. apply Nat.ltb_lt in A. injection E as <- <-. exists 0, t, a. repeat split; auto.
      * exists (S i), t', a. split; [exact H|]. split; [lia|exact R].
    + intros ([|i] & t' & a & H & -> & I & A & ->); cbn in H.
      * injection H as <-. left. exists a. split; [now rewrite Nat.add_0_r|]. apply filter_In. split; [exact I|now apply Nat.ltb_lt].
      * right. exists i, t', a. split; [exact H|]. split; [lia|auto].
Qed.
Lemma bits_nz : forall t, proper t -> bits t <> 0%N.
Proof.
  induction t as [n|ts IH] using tr_ind'; intros P.
  - cbn [bits]. rewrite N.shiftl_1_l. apply N.pow_nonzero. discriminate.
  - inversion P as [|? NE F]; subst. destruct ts as [|c ts]; [contradiction|]. cbn [bits fold_right]. intros E.
    apply N.lor_eq_0_iff in E. destruct E as [E _]. exact (Forall_inv IH (Forall_inv F) E).
Qed.
Lemma sub_proper : forall t, proper t -> forall a, In a (subtrees t) -> proper a.
Proof.
  induction t as [n|ts IH] using tr_ind'; intros P a I; [destruct I|]. destruct I as [<-|I]; [exact P|].
  inversion P as [|? NE F]; subst. apply in_flat_map in I. destruct I as (c & Ic & I).
  rewrite Forall_forall in IH, F. exact (IH c Ic (F c Ic) a I).
Qed.
(** The result is the maximal fan-out of all nodes, although only branching nodes
    are looked at, with a tree that has it, the last one with a branching node of that fan-out. *)
Theorem C99_treebankfanout : forall trees f n, Forall proper trees -> trees <> [] -> (forall t, In t trees -> subtrees t <> []) ->
  treebankfanout fan trees = (f, n) ->
  (forall t a, In t trees -> In a (subtrees t) -> fan (bits a) <= f)
  /\ (exists t a, nth_error trees n = Some t /\ In a (subtrees t) /\ fan (bits a) = f)
  /\ (forall m t a, n < m -> nth_error trees m = Some t -> In a (subtrees t) -> 1 < arity a -> fan (bits a) < f).
Proof.
  intros trees f n P N0 H0 E. enough (G : (forall t a, In t trees -> In a (subtrees t) -> fan (bits a) <= f \/ fan (bits a) = 1)
  /\ (exists t a, nth_error trees n = Some t /\ In a (subtrees t) /\ fan (bits a) = f)
  /\ (forall m t a, n < m -> nth_error trees m = Some t -> In a (subtrees t) -> 1 < arity a -> fan (bits a) < f)).
  { destruct G as (G1 & G2 & G3). split; [|split; assumption]. intros t a I J. destruct (G1 t a I J) as [G|G]; [exact G|].
    destruct G2 as (t' & a' & I' & J' & <-). rewrite G. apply fan_pos, bits_nz, (sub_proper t'); [|exact J'].
    rewrite Forall_forall in P. apply P. eapply nth_error_In, I'. }
  unfold treebankfanout in E. rewrite Forall_forall in P.
  assert (NP : forall t a i, nth_error trees i = Some t -> In a (subtrees t) -> 1 < arity a -> In (fan (bits a), i) (pairs fan 0 trees)).
  { intros t a i H I A. apply in_pairs. exists i, t, a. auto. }
  destruct (pairs fan 0 trees) as [|x l] eqn:Q.
  - injection E as <- <-. split; [|split].
    + intros t a It Ia. right. destruct (branching t (P t It) a Ia) as [H|(a' & I' & A & _)]; [exact H|].
      apply In_nth_error in It. destruct It as [i It]. destruct (NP t a' i It I' A).
    + destruct trees as [|t trees]; [contradiction|]. specialize (H0 t (or_introl eq_refl)). destruct (subtrees t) as [|a s] eqn:S; [contradiction|].
      exists t, a. split; [reflexivity|]. rewrite S. split; [now left|].
      destruct (branching t (P t (or_introl eq_refl)) a) as [H|(a' & I' & A & _)]; [rewrite S; now left|exact H|].
      destruct (NP t a' 0 eq_refl I' A).
    + intros m t a _ H Ia A. destruct (NP t a m H Ia A).
  - destruct (pymax_spec l x) as [A B]. rewrite E in A, B. split; [|split].
    + intros t a It Ia. destruct (branching t (P t It) a Ia) as [H|(a' & I' & A' & F)]; [now right|left].
      apply In_nth_error in It. destruct It as [i It]. pose proof (NP t a' i It I' A') as X. cbn [In] in X.
      assert (Y : lexlt (f, n) (fan (bits a'), i) = false) by (apply B; destruct X as [X|X]; [left; now symmetry|now right]).
      apply lexlt_niff in Y. cbn [fst snd] in Y. lia.
    + assert (X : In (f, n) (x :: l)) by (destruct A as [A|A]; [left; now symmetry|now right]). rewrite <- Q in X.
      apply in_pairs in X. destruct X as (i & t & a & H & -> & I & _ & ->). exists t, a. auto.
    + intros m t a L H Ia A'. pose proof (NP t a m H Ia A') as X. cbn [In] in X.
      assert (Y : lexlt (f, n) (fan (bits a), m) = false) by (apply B; destruct X as [X|X]; [left; now symmetry|now right]).
      apply lexlt_niff in Y. cbn [fst snd] in Y. lia.
Qed.

(** An empty treebank, or one with a tree that is a word, gives (1, 0); the
    number says nothing then. *)
Example ex_empty : treebankfanout fan [] = (1, 0).
Proof. reflexivity. Qed.
(** the reported tree need not be the only, nor the first, tree of that fan-out;
    a unary node is not looked at, but its fan-out is that of a branching node below *)
Example ex_fan : let t1 := Node [Node [Leaf 0; Leaf 2]; Leaf 1] in let t2 := Node [Node [Leaf 0; Leaf 1]; Leaf 2] in
  let t3 := Node [Node [Node [Leaf 0; Leaf 2; Leaf 4]]; Leaf 1; Leaf 3] in
  Forall proper [t1; t3; t1; t2] /\ (forall t, In t [t1; t3; t1; t2] -> subtrees t <> [])
  /\ treebankfanout fan [t1; t3; t1; t2] = (3, 1) /\ treebankfanout fan [t1; t1; t2] = (2, 1) /\ treebankfanout fan [t2; Node [Leaf 0]] = (1, 0).
Proof.
  cbn zeta. split; [repeat constructor; discriminate|]. split; [|repeat split; vm_compute; reflexivity].
  intros t [<-|[<-|[<-|[<-|[]]]]]; discriminate.
Qed.
