(** C100: which pairs of trees are compared for fragments with two words. *)
From Coq Require Import List Bool Arith Lia.
From Verif Require Import TwotermModel.
Import ListNotations.
Open Scope nat_scope.

(** ** Specification *)
(** tree t has production p *)
Definition has (t : list node) (p : nat) : Prop := exists nd, In nd t /\ prod nd = p.
(** two different words of tree a, the first one a content word *)
Definition twowords (cw lex : nat -> bool) (a : list node) (p q : nat) : Prop :=
  exists i j x y, i <> j /\ nth_error a i = Some x /\ nth_error a j = Some y
    /\ leaf x = true /\ leaf y = true /\ prod x = p /\ prod y = q /\ cw p = true /\ lex q = true.

(** ** Proofs *)
Lemma mem_iff : forall x l, mem x l = true <-> In x l.
Proof.
  intros x l. unfold mem. rewrite existsb_exists. split; [|intros H; exists x; split; [exact H|apply Nat.eqb_refl]].
  intros (y & I & E). apply Nat.eqb_eq in E. now subst.
Qed.
Lemma in_add : forall n l x, In x (add n l) <-> x = n \/ In x l.
Proof.
  intros n l x. unfold add. destruct (mem n l) eqn:E.
  - apply mem_iff in E. split; [auto|intros [->|H]; auto].
  - rewrite in_app_iff. cbn. split; [intros [H|[H|[]]]; auto|intros [H|H]; auto].
Qed.
Lemma in_inter : forall a b x, In x (inter a b) <-> In x a /\ In x b.
Proof. intros a b x. unfold inter. now rewrite filter_In, mem_iff. Qed.
Lemma in_union : forall a b x, In x (union a b) <-> In x a \/ In x b.
Proof.
  intros a b x. unfold union. rewrite in_app_iff, filter_In. destruct (mem x a) eqn:E.
  - apply mem_iff in E. cbn. split; [intros [H|[H _]]; auto|auto].
  - cbn. split; [intros [H|[H _]]; auto|intros [H|H]; auto].
Qed.
Lemma upd_length : forall i f l, length (upd i f l) = length l.
Proof. intros i f l. revert i. induction l as [|x l IH]; intros [|i]; cbn; auto. Qed.
Lemma upd_lookup : forall i f l p, i < length l -> lookup (upd i f l) p = if p =? i then f (lookup l p) else lookup l p.
Proof.
  intros i f l. revert i. induction l as [|x l IH]; intros [|i] [|p] H; cbn in H; try lia; try reflexivity.
  unfold lookup in *. cbn [upd nth Nat.eqb]. apply IH. lia.
Qed.
Lemma indextree_spec : forall n t idx, Forall (fun nd => prod nd < length idx) t ->
  length (indextree n t idx) = length idx /\
  forall p x, In x (lookup (indextree n t idx) p) <-> In x (lookup idx p) \/ (x = n /\ has t p).
Proof.
  intros n. unfold indextree, has. induction t as [|nd t IH]; intros idx H; cbn [fold_left].
  - split; [reflexivity|]. intros p x. split; [auto|]. intros [A|(_ & nd & [] & _)]. exact A.
  - inversion H as [|? ? H1 H2]; subst.
    destruct (IH (upd (prod nd) (add n) idx)) as [A B]; [rewrite upd_length; exact H2|].
    rewrite upd_length in A. split; [exact A|]. intros p x. rewrite B, upd_lookup by exact H1.
    destruct (Nat.eqb_spec p (prod nd)) as [->|N].
    + rewrite in_add. split.
      * intros [[->|I]|[-> (nd' & I & E)]]; [right; split; [reflexivity|exists nd; split; [now left|reflexivity]]|now left|].
        right. split; [reflexivity|exists nd'; split; [now right|exact E]].
      * intros [I|[-> _]]; auto.
    + split.
      * intros [I|[-> (nd' & I & E)]]; [now left|]. right. split; [reflexivity|exists nd'; split; [now right|exact E]].
      * intros [I|[-> (nd' & [<-|I] & E)]]; [now left|now destruct N|]. right. split; [reflexivity|exists nd'; auto].
Qed.
Lemma indexfrom_spec : forall ts n idx, Forall (Forall (fun nd => prod nd < length idx)) ts ->
  length (indexfrom n ts idx) = length idx /\
  forall p x, In x (lookup (indexfrom n ts idx) p) <-> In x (lookup idx p) \/ (n <= x /\ exists t, nth_error ts (x - n) = Some t /\ has t p).
Proof.
  induction ts as [|t ts IH]; intros n idx H; cbn [indexfrom].
  - split; [reflexivity|]. intros p x. split; [auto|]. intros [A|(_ & t & E & _)]; [exact A|]. destruct (x - n); discriminate.
  - inversion H as [|? ? H1 H2]; subst. destruct (indextree_spec n t idx H1) as [A B].
    destruct (IH (S n) (indextree n t idx)) as [C D]; [rewrite A; exact H2|]. rewrite C, A. split; [reflexivity|].
    intros p x. rewrite D, B. split.
    + intros [[I|[-> I]]|(L & t' & E & I)]; [now left| |].
      * right. split; [lia|]. exists t. rewrite Nat.sub_diag. auto.
      * right. split; [lia|]. exists t'. replace (x - n) with (S (x - S n)) by lia. auto.
    + intros [I|(L & t' & E & I)]; [now left; left|]. destruct (Nat.eq_dec x n) as [->|N].
      * rewrite Nat.sub_diag in E. injection E as <-. left. right. auto.
      * right. split; [lia|]. exists t'. replace (x - n) with (S (x - S n)) in E by lia. auto.
Qed.
Lemma lookup_pad : forall idx k p, lookup (idx ++ repeat [] k) p = lookup idx p.
Proof.
  intros idx k p. unfold lookup. destruct (Nat.lt_ge_cases p (length idx)) as [H|H]; [now rewrite app_nth1|].
  rewrite app_nth2 by exact H. rewrite (nth_overflow idx) by exact H.
  destruct (nth_in_or_default (p - length idx) (repeat [] k) ([] : list nat)) as [I|E]; [|exact E]. now apply repeat_spec in I.
Qed.
(** index idx is right for the given trees *)
Definition indexes (idx : list (list nat)) (trees : list (list node)) : Prop :=
  forall p m, In m (lookup idx p) <-> exists t, nth_error trees m = Some t /\ has t p.
(** The index of a treebank gives, for each production, the trees with it;
    also if trees, with new productions, were added since the last indexing. *)
Theorem C100_indextrees : forall nprods trees start idx,
  Forall (Forall (fun nd => prod nd < nprods)) trees -> start <= length trees ->
  indexes idx (firstn start trees) -> indexes (indextrees nprods trees start idx) trees.
Proof.
  intros nprods trees start idx H L I p m. unfold indextrees.
  destruct (indexfrom_spec (skipn start trees) start (idx ++ repeat [] (nprods - length idx))) as [_ B].
  { rewrite app_length, repeat_length. rewrite <- (firstn_skipn start trees), Forall_app in H. destruct H as [_ H].
    eapply Forall_impl; [|exact H]. intros t Ht. eapply Forall_impl; [|exact Ht]. cbn. intros nd Hn. lia. }
  rewrite B, lookup_pad, (I p m). clear B. split.
  - intros [(t & E & P)|(Lm & t & E & P)]; exists t; split; try exact P.
    + rewrite <- (firstn_skipn start trees). rewrite nth_error_app1; [exact E|]. apply nth_error_Some. congruence.
    + rewrite <- (firstn_skipn start trees). rewrite nth_error_app2; rewrite firstn_length_le by exact L; [exact E|exact Lm].
  - intros (t & E & P). rewrite <- (firstn_skipn start trees) in E. destruct (Nat.lt_ge_cases m start) as [Q|Q].
    + rewrite nth_error_app1 in E by (rewrite firstn_length_le by exact L; exact Q). left. eauto.
    + rewrite nth_error_app2 in E by (rewrite firstn_length_le by exact L; exact Q). rewrite firstn_length_le in E by exact L. right. eauto.
Qed.
Section Two.
  Variables cw lex : nat -> bool.
  Variable idx : list (list nat).
  Lemma inner_spec : forall i tmp nodes j cand m, In m (inner lex idx i tmp j nodes cand) <->
    In m cand \/ exists k y, nth_error nodes k = Some y /\ i <> j + k /\ leaf y = true /\ lex (prod y) = true /\ In m tmp /\ In m (lookup idx (prod y)).
  Proof.
    intros i tmp. induction nodes as [|b nodes IH]; intros j cand m; cbn [inner].
    - split; [auto|]. intros [H|(k & y & E & _)]; [exact H|]. destruct k; discriminate.
    - rewrite IH. clear IH. split.
      + intros [H|(k & y & E & N & R)].
        * destruct (negb (i =? j) && leaf b && lex (prod b)) eqn:C; [|now left]. apply in_union in H. destruct H as [H|H]; [now left|].
          apply in_inter in H. apply andb_true_iff in C. destruct C as [C C3]. apply andb_true_iff in C. destruct C as [C1 C2].
          apply negb_true_iff, Nat.eqb_neq in C1. right. exists 0, b. cbn. rewrite Nat.add_0_r. tauto.
        * right. exists (S k), y. split; [exact E|]. split; [lia|exact R].
      + intros [H|([|k] & y & E & N & R)].
        * left. destruct (negb (i =? j) && leaf b && lex (prod b)); [apply in_union; now left|exact H].
        * injection E as ->. destruct R as (R1 & R2 & R3 & R4). rewrite R1, R2. replace (i =? j) with false by (symmetry; apply Nat.eqb_neq; lia).
          cbn. left. apply in_union. right. now apply in_inter.
        * right. exists k, y. split; [exact E|]. split; [lia|exact R].
  Qed.
  Lemma outer_spec : forall a nodes i cand m, In m (outer cw lex idx a i nodes cand) <->
    In m cand \/ exists k x k' y, nth_error nodes k = Some x /\ nth_error a k' = Some y /\ i + k <> k' /\ leaf x = true /\ leaf y = true
      /\ cw (prod x) = true /\ lex (prod y) = true /\ In m (lookup idx (prod x)) /\ In m (lookup idx (prod y)).
  Proof.
    intros a. induction nodes as [|b nodes IH]; intros i cand m; cbn [outer].
    - split; [auto|]. intros [H|(k & x & k' & y & E & _)]; [exact H|]. destruct k; discriminate.
    - rewrite IH. clear IH. split.
      + intros [H|(k & x & k' & y & E & E' & N & R)].
        * destruct (leaf b) eqn:C1; cbn in H; [|now left]. destruct (cw (prod b)) eqn:C2; cbn in H; [|now left].
          apply inner_spec in H. destruct H as [H|(k & y & E & N & R)]; [now left|]. right. exists 0, b, k, y. cbn in *. rewrite Nat.add_0_r. tauto.
        * right. exists (S k), x, k', y. split; [exact E|]. split; [exact E'|]. split; [lia|exact R].
      + intros [H|([|k] & x & k' & y & E & E' & N & R)].
        * left. destruct (negb (leaf b) || negb (cw (prod b))); [exact H|]. apply inner_spec. now left.
        * injection E as ->. destruct R as (R1 & R2 & R3 & R4 & R5 & R6). rewrite R1, R3. cbn. left. apply inner_spec. right. exists k', y. cbn. repeat split; auto. lia.
        * right. exists k, x, k', y. split; [exact E|]. split; [exact E'|]. split; [lia|exact R].
  Qed.
End Two.
(** The trees compared with tree a are those which share the productions of two
    different words of a, one of them a content word. *)
Theorem C100_twoterminals : forall cw lex idx trees a m, indexes idx trees ->
  (In m (twoterminals cw lex idx a) <->
   exists t p q, nth_error trees m = Some t /\ twowords cw lex a p q /\ has t p /\ has t q).
Proof.
  intros cw lex idx trees a m I. unfold twoterminals, twowords. rewrite outer_spec. split.
  - intros [[]|(k & x & k' & y & E & E' & N & R1 & R2 & R3 & R4 & R5 & R6)]. apply I in R5, R6. destruct R5 as (t & T & P), R6 as (t' & T' & P').
    rewrite T in T'. injection T' as <-. exists t, (prod x), (prod y). split; [exact T|]. split; [|auto]. exists k, k', x, y. cbn in N. repeat split; auto.
  - intros (t & p & q & T & (i & j & x & y & N & E & E' & R1 & R2 & <- & <- & R3 & R4) & P & Q). right. exists i, x, j, y.
    repeat split; auto; apply I; exists t; auto.
Qed.
(** With the loop: every pair with two shared words in the slice is compared,
    in a single treebank only the pairs n < m. *)
Theorem C100_partners : forall cw lex idx trees singletb start2 end2 n a m, indexes idx trees ->
  (In m (partners cw lex idx singletb start2 end2 n a) <->
   (exists t p q, nth_error trees m = Some t /\ twowords cw lex a p q /\ has t p /\ has t q)
   /\ (singletb = true -> n < m) /\ start2 <= m <= end2).
Proof.
  intros cw lex idx trees s s2 e2 n a m I. unfold partners. rewrite filter_In, (C100_twoterminals cw lex idx trees a m I).
  rewrite andb_true_iff, !negb_true_iff, orb_false_iff, !Nat.ltb_ge. split; intros [A [B C]]; (split; [exact A|]); (split; [|lia]).
  - intros ->. cbn in B. apply Nat.leb_gt in B. exact B.
  - destruct s; [|reflexivity]. cbn. apply Nat.leb_gt. now apply B.
Qed.
(** Two things the English says and the code does not do: the tree at the end of
    the slice, which is exclusive in the other modes, is compared; and a word
    that tree a has twice counts as two shared words if tree m has it once. *)
Theorem C100_slice_refuted : exists cw lex idx trees a m e2, indexes idx trees /\ In m (partners cw lex idx false 0 e2 0 a) /\ ~ (m < e2).
Proof.
  exists (fun _ => true), (fun _ => true), (indextrees 2 [[]; [Nd true 0; Nd true 1]] 0 []), [[]; [Nd true 0; Nd true 1]], [Nd true 0; Nd true 1], 1, 1.
  split; [|split; [vm_compute; auto|lia]]. apply C100_indextrees; [repeat constructor; cbn; lia|cbn; lia|].
  intros p m. split; [destruct p; intros []|]. intros (t & E & _). destruct m; discriminate.
Qed.
Theorem C100_two_words_refuted : exists cw lex idx trees a m t, indexes idx trees /\ In m (twoterminals cw lex idx a)
  /\ nth_error trees m = Some t /\ length (filter leaf t) = 1.
Proof.
  exists (fun _ => true), (fun _ => true), (indextrees 2 [[Nd false 1; Nd true 0]] 0 []), [[Nd false 1; Nd true 0]], [Nd true 0; Nd true 0], 0, [Nd false 1; Nd true 0].
  split; [|vm_compute; auto]. apply C100_indextrees; [repeat constructor; cbn; lia|cbn; lia|].
  intros p m. split; [destruct p; intros []|]. intros (t & E & _). destruct m; discriminate.
Qed.

(** Concrete cases: an index made in two steps; the word pairs *)
Example ex_index : let trees := [[Nd false 0; Nd true 1; Nd true 2]; [Nd false 0; Nd true 1; Nd true 3]; [Nd false 0; Nd true 2; Nd true 1]] in
  indextrees 4 trees 2 (indextrees 3 (firstn 2 [[Nd false 0; Nd true 1; Nd true 2]; [Nd false 0; Nd true 1]]) 0 []) = [[0; 1; 2]; [0; 1; 2]; [0; 2]; []]
  /\ twoterminals (fun p => p =? 2) (fun p => 0 <? p) (indextrees 4 trees 0 []) [Nd false 0; Nd true 1; Nd true 2] = [0; 2]
  /\ partners (fun p => p =? 2) (fun p => 0 <? p) (indextrees 4 trees 0 []) true 0 3 0 [Nd false 0; Nd true 1; Nd true 2] = [2].
Proof. vm_compute. auto. Qed.
