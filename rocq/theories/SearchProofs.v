(** Proofs about searching plain text files. *)
From Coq Require Import String.
From Coq Require Import List Bool Arith NArith Lia Permutation Sorted.
From Verif Require Import PyStr SearchModel.
Import ListNotations.
Open Scope list_scope.
Open Scope nat_scope.

(** ---- lines ---- *)
Lemma lines_concat : forall s, concat (lines s) = s.
Proof.
  induction s as [|c s IH]; [reflexivity|]. cbn [lines]. destruct (N.eqb c NL) eqn:E.
  - cbn. now rewrite IH.
  - destruct (lines s) as [|l ls]; cbn in *; now rewrite <- IH.
Qed.
Lemma lines_nonempty : forall s, Forall (fun l => l <> []) (lines s).
Proof.
  induction s as [|c s IH]; [constructor|]. cbn [lines]. destruct (N.eqb c NL); [constructor; [discriminate|exact IH]|].
  destruct (lines s) as [|l ls]; constructor; try discriminate; [constructor|now inversion IH].
Qed.
(** a newline is the end of a line *)
Lemma lines_newline : forall s, Forall (fun l => forall a b, l = a ++ NL :: b -> b = []) (lines s).
Proof.
  induction s as [|c s IH]; [constructor|]. cbn [lines]. destruct (N.eqb c NL) eqn:E.
  - constructor; [|exact IH]. intros [|x a] b Q; cbn in Q; injection Q as _ Q; [now rewrite <- Q|]. destruct a; discriminate.
  - assert (H : forall l, (forall a b, l = a ++ NL :: b -> b = []) -> forall a b, c :: l = a ++ NL :: b -> b = []).
    { intros l H [|x a] b Q; cbn in Q; injection Q as Q1 Q2; [subst c; rewrite N.eqb_refl in E; discriminate|eauto]. }
    destruct (lines s) as [|l ls]; [constructor; [|constructor]|inversion IH; subst; constructor; [|assumption]]; apply H.
    + intros a b Q. destruct a; discriminate.
    + assumption.
Qed.

(** ---- the index ---- *)
Definition nonblank (l : list N) : bool := negb (isspace l).
Fixpoint poss (off : nat) (ls : list (list N)) : list nat :=
  match ls with [] => [] | l :: r => if isspace l then poss (off + length l) r else off :: poss (off + length l) r end.
Lemma index_poss : forall ls off, index off ls = poss off ls ++ [off + length (concat ls)].
Proof.
  induction ls as [|l ls IH]; intros off; cbn [index poss concat]; [now rewrite Nat.add_0_r|].
  rewrite app_length, Nat.add_assoc. destruct (isspace l); rewrite IH; reflexivity.
Qed.
Lemma poss_app : forall a b off, poss off (a ++ b) = poss off a ++ poss (off + length (concat a)) b.
Proof.
  induction a as [|l a IH]; intros b off; cbn [app poss concat]; [now rewrite Nat.add_0_r|]. rewrite app_length, Nat.add_assoc. destruct (isspace l); rewrite IH; reflexivity.
Qed.
Lemma poss_length : forall ls off, length (poss off ls) = length (filter nonblank ls).
Proof. induction ls as [|l ls IH]; intros off; cbn [poss filter]; [reflexivity|]. unfold nonblank at 1. destruct (isspace l); cbn [negb length]; now rewrite IH. Qed.
Lemma poss_blank : forall ls off, Forall (fun l => isspace l = true) ls -> poss off ls = [].
Proof. induction ls as [|l ls IH]; intros off F; [reflexivity|]. inversion F; subst. cbn [poss]. rewrite H1. auto. Qed.
Lemma poss_range : forall ls off x, Forall (fun l => l <> []) ls -> In x (poss off ls) -> off <= x < off + length (concat ls).
Proof.
  induction ls as [|l ls IH]; intros off x F I; [contradiction|]. inversion F as [|? ? NE F']; subst. cbn [poss concat] in *. rewrite app_length. assert (0 < length l) by (destruct l; [congruence|cbn; lia]).
  destruct (isspace l); [specialize (IH _ _ F' I); lia|]. destruct I as [<-|I]; [lia|specialize (IH _ _ F' I); lia].
Qed.
(** the part of the file of one line: the line and the blank lines after it *)
Definition at_line (file : list N) (k : nat) (pre : list (list N)) (l : list N) (blanks post : list (list N)) : Prop :=
  lines file = pre ++ l :: blanks ++ post /\ isspace l = false /\ Forall (fun b => isspace b = true) blanks /\
  (post = [] \/ exists l' r, post = l' :: r /\ isspace l' = false) /\ k = S (length (filter nonblank pre)).
Lemma idx_split : forall file k pre l blanks post, at_line file k pre l blanks post ->
  exists B, indexfile file = poss 0 pre ++ length (concat pre) :: (length (concat pre) + length (l ++ concat blanks)) :: B /\ length (poss 0 pre) = k - 1 /\
    (forall x, In x (poss 0 pre) -> x < length (concat pre)) /\ (forall x, In x B -> length (concat pre) + length (l ++ concat blanks) <= x).
Proof.
  intros file k pre l blanks post (E & NL1 & FB & P & ->). unfold indexfile. rewrite index_poss, E, poss_app. cbn [poss]. rewrite NL1, poss_app, (poss_blank _ _ FB). cbn [app plus].
  pose proof (lines_nonempty file) as NE. rewrite E in NE. apply Forall_app in NE. destruct NE as [NE1 NE2]. inversion NE2 as [|? ? N1 N2]; subst. apply Forall_app in N2. destruct N2 as [N2 N3].
  assert (TOT : length (concat (pre ++ l :: blanks ++ post)) = length (concat pre) + length (l ++ concat blanks) + length (concat post)) by (rewrite concat_app; cbn [concat]; rewrite concat_app, !app_length; lia).
  assert (RNG : forall x, In x (poss 0 pre) -> x < length (concat pre)) by (intros x I; pose proof (poss_range _ _ _ NE1 I); lia).
  assert (LP : length (poss 0 pre) = S (length (filter nonblank pre)) - 1) by (rewrite poss_length; lia).
  rewrite TOT. rewrite <- app_assoc. cbn [app]. replace (length (concat pre) + length l + length (concat blanks)) with (length (concat pre) + length (l ++ concat blanks)) by (rewrite app_length; lia).
  destruct P as [->|(l' & r & -> & NL2)].
  - cbn [poss app concat length]. rewrite Nat.add_0_r. exists []. split; [reflexivity|]. split; [exact LP|]. split; [exact RNG|]. intros x [].
  - cbn [poss]. rewrite NL2. cbn [app]. eexists. split; [reflexivity|]. split; [exact LP|]. split; [exact RNG|].
    intros x I. inversion N3; subst. apply in_app_or in I. destruct I as [I|[<-|[]]]; [pose proof (poss_range _ _ _ H2 I); lia|lia].
Qed.
Lemma select_line : forall file k pre l blanks post, at_line file k pre l blanks post ->
  select (indexfile file) (k - 1) = Some (length (concat pre)) /\ select (indexfile file) k = Some (length (concat pre) + length (l ++ concat blanks)) /\ 1 <= k < length (indexfile file).
Proof.
  intros file k pre l blanks post A. assert (K : k >= 1) by (destruct A as (_ & _ & _ & _ & ->); lia). destruct (idx_split _ _ _ _ _ _ A) as (B & E & LP & _). unfold select. rewrite E. split; [|split].
  - rewrite nth_error_app2 by lia. rewrite LP, Nat.sub_diag. reflexivity.
  - rewrite nth_error_app2 by lia. rewrite LP. replace (k - (k - 1)) with 1 by lia. reflexivity.
  - rewrite app_length. cbn [length]. lia.
Qed.
Lemma filter_all : forall A (p : A -> bool) l, (forall x, In x l -> p x = true) -> filter p l = l.
Proof. intros A p. induction l as [|x l IH]; intros H; cbn; [reflexivity|]. rewrite (H x) by now left. f_equal. apply IH. intros. apply H. now right. Qed.
Lemma filter_no : forall A (p : A -> bool) l, (forall x, In x l -> p x = false) -> filter p l = [].
Proof. intros A p. induction l as [|x l IH]; intros H; cbn; [reflexivity|]. rewrite (H x) by now left. apply IH. intros. apply H. now right. Qed.
Lemma rank_line : forall file k pre l blanks post p, at_line file k pre l blanks post ->
  length (concat pre) <= p < length (concat pre) + length (l ++ concat blanks) -> rank (indexfile file) p = k.
Proof.
  intros file k pre l blanks post p A P. assert (K : k >= 1) by (destruct A as (_ & _ & _ & _ & ->); lia). destruct (idx_split _ _ _ _ _ _ A) as (B & E & LP & HA & HB). unfold rank. rewrite E, filter_app. cbn [filter].
  rewrite (filter_all _ _ (poss 0 pre)) by (intros x I; apply Nat.leb_le; specialize (HA x I); lia). rewrite (proj2 (Nat.leb_le (length (concat pre)) p)) by lia.
  rewrite (proj2 (Nat.leb_gt (length (concat pre) + length (l ++ concat blanks)) p)) by lia. rewrite (filter_no _ _ B) by (intros x I; apply Nat.leb_gt; specialize (HB x I); lia). rewrite app_length. cbn [length]. lia.
Qed.
(** every position from the first line on is in some line *)
Fixpoint takew (ls : list (list N)) : list (list N) := match ls with l :: r => if isspace l then l :: takew r else [] | [] => [] end.
Fixpoint dropw (ls : list (list N)) : list (list N) := match ls with l :: r => if isspace l then dropw r else ls | [] => [] end.
Lemma takew_dropw : forall ls, ls = takew ls ++ dropw ls /\ Forall (fun b => isspace b = true) (takew ls) /\ (dropw ls = [] \/ exists l' r, dropw ls = l' :: r /\ isspace l' = false).
Proof.
  induction ls as [|l ls (E & F & D)]; cbn [takew dropw]; [auto|]. destruct (isspace l) eqn:Q.
  - split; [cbn; now rewrite <- E|]. split; [constructor; auto|exact D].
  - split; [reflexivity|]. split; [constructor|]. right. eauto.
Qed.
Lemma locate : forall ls p, length (concat (takew ls)) <= p < length (concat ls) ->
  exists pre l blanks post, ls = pre ++ l :: blanks ++ post /\ isspace l = false /\ Forall (fun b => isspace b = true) blanks /\ (post = [] \/ exists l' r, post = l' :: r /\ isspace l' = false) /\
    length (concat pre) <= p < length (concat pre) + length (l ++ concat blanks).
Proof.
  induction ls as [|l ls IH]; intros p P; cbn [takew concat] in P; [cbn in P; lia|]. rewrite app_length in P. destruct (isspace l) eqn:Q.
  - cbn [concat] in P. rewrite app_length in P. destruct (IH (p - length l)) as (pre & m & bl & post & -> & H1 & H2 & H3 & H4); [lia|]. exists (l :: pre), m, bl, post. split; [reflexivity|]. split; [exact H1|]. split; [exact H2|]. split; [exact H3|]. cbn [concat]. rewrite app_length. lia.
  - destruct (takew_dropw ls) as (E & F & D). destruct (le_lt_dec (length l + length (concat (takew ls))) p) as [L|L].
    + destruct (IH (p - length l)) as (pre & m & bl & post & -> & H1 & H2 & H3 & H4); [lia|]. exists (l :: pre), m, bl, post. split; [reflexivity|]. split; [exact H1|]. split; [exact H2|]. split; [exact H3|]. cbn [concat]. rewrite app_length. lia.
    + exists [], l, (takew ls), (dropw ls). split; [cbn; now rewrite <- E|]. split; [exact Q|]. split; [exact F|]. split; [exact D|]. rewrite app_length. cbn [concat length]. lia.
Qed.
Lemma first_index : forall file, hd 0 (indexfile file) = length (concat (takew (lines file))).
Proof.
  intros file. unfold indexfile. assert (G : forall ls off, hd 0 (index off ls) = off + length (concat (takew ls))).
  { induction ls as [|l ls IH]; intros off; cbn [index takew]; [cbn; lia|]. destruct (isspace l); [rewrite IH; cbn [concat]; rewrite app_length; lia|cbn; lia]. }
  rewrite G. reflexivity.
Qed.
Lemma last_index : forall file, exists A, indexfile file = A ++ [length file] /\ length A = length (filter nonblank (lines file)).
Proof. intros file. exists (poss 0 (lines file)). unfold indexfile. rewrite index_poss, lines_concat. split; [reflexivity|apply poss_length]. Qed.
(** sorted *)
Lemma index_sorted : forall file, StronglySorted lt (indexfile file).
Proof.
  intros file. unfold indexfile. rewrite index_poss. pose proof (lines_nonempty file) as NE. revert NE. generalize (lines file) 0. induction l as [|l ls IH]; intros off NE; cbn [poss concat app]; [repeat constructor|].
  inversion NE as [|? ? N1 N2]; subst. assert (0 < length l) by (destruct l; [congruence|cbn; lia]). specialize (IH (off + length l) N2). rewrite app_length, Nat.add_assoc.
  destruct (isspace l); [exact IH|]. cbn [app]. constructor; [exact IH|]. apply Forall_forall. intros x I. apply in_app_or in I. destruct I as [I|[<-|[]]]; [pose proof (poss_range _ _ _ N2 I); lia|lia].
Qed.
Lemma sorted_nth : forall l, StronglySorted lt l -> forall i j x y, i < j -> nth_error l i = Some x -> nth_error l j = Some y -> x < y.
Proof.
  induction 1 as [|z l S IH F]; intros i j x y L A B; [destruct i; discriminate|]. destruct j as [|j]; [lia|]. cbn [nth_error] in B. destruct i as [|i]; cbn [nth_error] in A.
  - injection A as <-. rewrite Forall_forall in F. apply F. eapply nth_error_In; eauto.
  - eapply (IH i j); eauto. lia.
Qed.
Lemma rank_nth : forall l, StronglySorted lt l -> forall i x p, nth_error l i = Some x -> (x <= p <-> i < rank l p).
Proof.
  induction 1 as [|z l S IH F]; intros i x p A; [destruct i; discriminate|]. unfold rank in *. cbn [filter]. rewrite Forall_forall in F. destruct i as [|i]; cbn [nth_error] in A.
  - injection A as ->. destruct (x <=? p) eqn:Q; [apply Nat.leb_le in Q; cbn [length]; lia|]. apply Nat.leb_gt in Q. rewrite filter_no; [cbn; lia|]. intros y I. apply Nat.leb_gt. specialize (F y I). lia.
  - destruct (z <=? p) eqn:Q; [cbn [length]; rewrite (IH i x p A); lia|]. apply Nat.leb_gt in Q. pose proof F as F'. specialize (F x (nth_error_In _ _ A)). rewrite filter_no by (intros y I; apply Nat.leb_gt; pose proof (F' y I); lia). cbn. lia.
Qed.
