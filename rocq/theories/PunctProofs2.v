(** Proofs for C46 (2): punctraise *)
From Coq Require Import String.
From Coq Require Import List Bool Arith NArith Lia Permutation Sorted.
From Verif Require Import PyStr TreeModel TreeProps TransformModel TransformProps PunctModel PunctSpec PunctProofs.
Import ListNotations.
Open Scope list_scope.
Open Scope nat_scope.

Lemma moved_refl : forall S t, rooted t -> moved S t t.
Proof. intros S t H. split; auto. Qed.
Lemma moved_trans : forall S t u v, moved S t u -> moved S u v -> moved S t v.
Proof. intros S t u v (A & B & C) (D & E & F). split; auto. split; [etransitivity; eauto|congruence]. Qed.
Lemma rooted_perm : forall t l ts, rooted t -> (forall c, In c ts -> ptree c) -> Permutation (preterminals t) (preterminals (Node l ts : ptr)) -> rooted (Node l ts).
Proof.
  intros t l ts (l0 & ts0 & -> & P & N) Q PM. exists l, ts. split; auto. split; auto. rewrite <- preterminals_leaves by eauto. eapply Permutation_NoDup; [apply Permutation_map; exact PM|]. rewrite preterminals_leaves by eauto. exact N.
Qed.
(** ---- attach ---- *)
Definition attachs (i : nat) (node : ptr) : list ptr -> option (list ptr) := fix go (ts : list ptr) : option (list ptr) :=
      match ts with
      | [] => None
      | c :: r => match attach i node c with Some c' => Some (c' :: r) | None => option_map (cons c) (go r) end
      end.
Lemma attach_node : forall i node l ts, attach i node (Node l ts) = if phrasal (Node l ts) && existsb (startsat (i + 1)) ts then Some (Node l (ts ++ [node])) else option_map (Node l) (attachs i node ts).
Proof. reflexivity. Qed.
Lemma attach_pre : forall i node l a, attach i node (Node l [Leaf a]) = None.
Proof. reflexivity. Qed.
Lemma attachs_split : forall i node ts ts', attachs i node ts = Some ts' -> exists A c c' B, ts = A ++ c :: B /\ ts' = A ++ c' :: B /\ attach i node c = Some c'.
Proof.
  induction ts as [|c ts IH]; intros ts' E; [discriminate|]. cbn [attachs] in E. destruct (attach i node c) as [c'|] eqn:A; [injection E as <-; exists [], c, c', ts; auto|]. destruct (attachs i node ts) as [r|] eqn:R; [|discriminate]. injection E as <-. destruct (IH r eq_refl) as (X & d & d' & B & -> & -> & D). exists (c :: X), d, d', B. auto.
Qed.
Lemma pret_kids : forall c : ptr, ptree c -> exists l ts, c = Node l ts.
Proof. intros c H. inversion H; eauto. Qed.
(** the node is added to the words of t, which is the same without it *)
Definition added (S : nat -> pystr -> bool) (i : nat) (m : pystr) (l : pystr) (ts ts' : list ptr) : Prop :=
  (forall c, In c ts' -> ptree c) /\ Permutation ((m, i) :: preterminals (Node l ts : ptr)) (preterminals (Node l ts' : ptr)) /\ flat_map (rest S) ts' = flat_map (rest S) ts.
Lemma added_snoc : forall S i m l ts, S i m = true -> (forall c, In c ts -> ptree c) -> added S i m l ts (ts ++ [Node m [Leaf i]]).
Proof.
  intros S i m l ts H P. assert (P' : forall c, In c (ts ++ [Node m [Leaf i]]) -> ptree c) by (intros c C; apply in_app_or in C; destruct C as [C|[<-|[]]]; auto; constructor). split; auto. split.
  - rewrite !pret_node by (intros; apply ptree_qtree; auto). rewrite flat_map_app. cbn. rewrite <- Permutation_cons_append. reflexivity.
  - rewrite flat_map_app. cbn [flat_map]. rewrite rest_pre, H. cbn. now rewrite app_nil_r.
Qed.
Lemma added_inside : forall S i m l A B k us us', added S i m k us us' -> us' <> [] -> (forall c, In c us -> ptree c) -> (forall c, In c (A ++ Node k us :: B) -> ptree c) -> added S i m l (A ++ Node k us :: B) (A ++ Node k us' :: B).
Proof.
  intros S i m l A B k us us' (P1 & P2 & P3) NE PU P.
  assert (P' : forall c, In c (A ++ Node k us' :: B) -> ptree c). { intros c C. apply in_app_or in C. destruct C as [C|[<-|C]]; [apply P, in_or_app; now left|now constructor|apply P, in_or_app; right; now right]. }
  split; auto. split.
  - rewrite (pret_node l (A ++ Node k us :: B)), (pret_node l (A ++ Node k us' :: B)) by (intros; apply ptree_qtree; auto). rewrite !flat_map_app. cbn [flat_map]. rewrite <- P2. rewrite Permutation_middle. apply Permutation_app_head. reflexivity.
  - rewrite !flat_map_app. cbn [flat_map]. rewrite !rest_node by (intros; apply ptree_qtree; auto). now rewrite P3.
Qed.
Lemma attach_added : forall S i m, S i m = true -> forall l ts t', (forall c, In c ts -> ptree c) -> ts <> [] -> attach i (Node m [Leaf i]) (Node l ts) = Some t' -> exists ts', t' = Node l ts' /\ ts' <> [] /\ added S i m l ts ts' /\
  forall n b k, In n ts -> n = Node k [Leaf b] -> In n ts'.
Proof.
  intros S i m H t. intros ts. revert t. 
  assert (G : forall (t : ptr) l ts, t = Node l ts -> forall t', (forall c, In c ts -> ptree c) -> ts <> [] -> attach i (Node m [Leaf i]) (Node l ts) = Some t' -> exists ts', t' = Node l ts' /\ ts' <> [] /\ added S i m l ts ts' /\ forall n b k, In n ts -> n = Node k [Leaf b] -> In n ts'); [|intros; eapply G; eauto].
  clear ts. induction t as [a|l ts IH] using tree_ind'; intros l0 ts0 E t' P NE A; [discriminate|]. injection E as <- <-. rewrite attach_node in A. destruct (phrasal (Node l ts) && existsb (startsat (i + 1)) ts).
  - injection A as <-. exists (ts ++ [Node m [Leaf i]]). split; auto. split; [destruct ts; discriminate|]. split; [now apply added_snoc|]. intros n b k X _. apply in_or_app. now left.
  - destruct (attachs i (Node m [Leaf i]) ts) as [ts'|] eqn:AS; [|discriminate]. injection A as <-. destruct (attachs_split _ _ _ _ AS) as (X & c & c' & B & -> & -> & C). rewrite Forall_forall in IH.
    assert (HC : In c (X ++ c :: B)) by (apply in_or_app; right; now left). assert (PC := P c HC). inversion PC as [k a|k us NEu PU]; subst; [rewrite attach_pre in C; discriminate|].
    destruct (IH (Node k us) HC k us eq_refl c' PU NEu C) as (us' & -> & NEu' & AD & _). exists (X ++ Node k us' :: B). split; auto. split; [destruct X; discriminate|]. split; [now apply added_inside|]. intros n b k' Hn En. apply in_app_or in Hn. apply in_or_app. destruct Hn as [Hn|[Hn|Hn]]; auto; [|right; now right]. exfalso. rewrite En in Hn. injection Hn as _ Hn. apply (noleaf (L := pystr) b). apply PU. rewrite Hn. now left.
Qed.
(** ---- one step ---- *)
Lemma drop_split : forall i m ts, (forall c, In c ts -> ptree c) -> NoDup (flat_map leaves ts) -> In (Node m [Leaf i]) ts -> exists A B, ts = A ++ Node m [Leaf i] :: B /\ dropfirst (preof i) ts = A ++ B.
Proof.
  induction ts as [|c ts IH]; intros P N H; [destruct H|]. cbn [dropfirst]. destruct H as [->|H].
  - cbn [preof]. rewrite Nat.eqb_refl. exists [], ts. auto.
  - cbn in N. assert (N1 : ~ In i (leaves c)). { intros Q. assert (X : In i (flat_map leaves ts)) by (apply in_flat_map; exists (Node m [Leaf i]); split; auto; now left). clear - N Q X. induction (leaves c) as [|b r IHr]; [destruct Q|]. cbn in N. inversion N; subst. destruct Q as [<-|Q]; auto. apply H1. apply in_or_app. now right. }
    assert (E : preof i c = false). { destruct c as [b|k [|[b|] r]]; auto. cbn. destruct (Nat.eqb_spec b i) as [->|]; auto. exfalso. apply N1. cbn. now left. } rewrite E.
    destruct IH as (A & B & -> & D); auto; [intros; apply P; now right|clear - N; induction (leaves c) as [|b r IHr]; auto; inversion N; auto|]. exists (c :: A), B. rewrite D. auto.
Qed.
Lemma raisestep_moved : forall S t m i, S i m = true -> rooted t -> In (Node m [Leaf i]) (PunctModel.kids t) -> moved S t (raisestep t (Node m [Leaf i])) /\
  forall n b k, In n (PunctModel.kids t) -> n = Node k [Leaf b] -> b <> i -> In n (PunctModel.kids (raisestep t (Node m [Leaf i]))).
Proof.
  intros S t m i H R IN. assert (R' := R). destruct R' as (l & ts & -> & P & N). cbn [PunctModel.kids] in *. cbn [raisestep]. destruct (Nat.eqb_spec (length ts) 1) as [L1|L1].
  - split; [now apply moved_refl|]. auto.
  - destruct (drop_split i m ts P N IN) as (A & B & E & D). rewrite D. cbn [PunctModel.kids].
    assert (PAB : forall c, In c (A ++ B) -> ptree c) by (intros c C; apply P; rewrite E; apply in_app_or in C; apply in_or_app; destruct C; auto; right; now right).
    assert (NE : A ++ B <> []) by (intros Q; apply L1; rewrite E; rewrite app_length; cbn; apply (f_equal (@length _)) in Q; rewrite app_length in Q; cbn in Q; lia).
    assert (PM : Permutation ((m, i) :: preterminals (Node l (A ++ B) : ptr)) (preterminals (Node l ts : ptr))). { subst ts. rewrite !pret_node by (intros; apply ptree_qtree; auto). rewrite !flat_map_app. cbn. apply Permutation_middle. }
    assert (SK : flat_map (rest S) (A ++ B) = flat_map (rest S) ts). { subst ts. rewrite !flat_map_app. cbn [flat_map]. now rewrite rest_pre, H. }
    assert (KEEP : forall n b k, In n ts -> n = Node k [Leaf b] -> b <> i -> In n (A ++ B)). { intros n b k Hn En Nb. rewrite E in Hn. apply in_app_or in Hn. apply in_or_app. destruct Hn as [Hn|[Hn|Hn]]; auto. exfalso. rewrite En in Hn. injection Hn as _ Hn. congruence. }
    assert (FIN : forall ts', added S i m l (A ++ B) ts' -> moved S (Node l ts) (Node l ts')).
    { intros ts' (X1 & X2 & X3). assert (PP : Permutation (preterminals (Node l ts : ptr)) (preterminals (Node l ts' : ptr))) by (rewrite <- PM; exact X2). split; [apply (rooted_perm (Node l ts)); auto|]. split; auto. cbn [skeleton]. congruence. }
    destruct (attach i (Node m [Leaf i]) (Node l (A ++ B))) as [t2|] eqn:AT.
    + destruct (attach_added S i m H l (A ++ B) t2 PAB NE AT) as (ts' & -> & NE' & AD & K). split; [now apply FIN|]. cbn [PunctModel.kids]. intros n b k Hn En Nb. eapply K; eauto.
    + split; [apply FIN; now apply added_snoc|]. cbn [PunctModel.kids]. intros n b k Hn En Nb. apply in_or_app. left. eauto.
Qed.
Lemma raise_moved : forall S ns t, rooted t -> (forall n, In n ns -> exists m i, n = Node m [Leaf i] /\ S i m = true /\ In n (PunctModel.kids t)) -> NoDup (flat_map leaves ns) -> moved S t (fold_left raisestep ns t).
Proof.
  induction ns as [|n ns IH]; intros t R H N; [now apply moved_refl|]. cbn [fold_left]. destruct (H n (or_introl eq_refl)) as (m & i & -> & Si & IN). destruct (raisestep_moved S t m i Si R IN) as [M K]. cbn in N. inversion N as [|? ? N1 N2]; subst. eapply moved_trans; [exact M|]. apply IH; auto; [apply M|].
  intros n Hn. destruct (H n (or_intror Hn)) as (m' & i' & -> & Si' & IN'). exists m', i'. split; auto. split; auto. apply (K _ i' m'); auto. intros ->. apply N1. apply in_flat_map. exists (Node m' [Leaf i]). split; auto. now left.
Qed.
Lemma nodup_filter_leaves : forall f (ts : list ptr), NoDup (flat_map leaves ts) -> NoDup (flat_map leaves (filter f ts)).
Proof.
  intros f ts. induction ts as [|c ts IH]; intros N; auto. cbn in N. cbn [filter]. assert (N2 : NoDup (flat_map leaves ts)) by (clear - N; induction (leaves c) as [|b r IHr]; auto; inversion N; auto). destruct (f c); auto. cbn. clear N2. assert (X : forall a, In a (flat_map leaves (filter f ts)) -> In a (flat_map leaves ts)). { intros a Ha. apply in_flat_map in Ha. destruct Ha as (d & D1 & D2). apply filter_In in D1. apply in_flat_map. exists d. tauto. }
  induction (leaves c) as [|b r IHr]; [auto|]. cbn in *. inversion N as [|? ? N1 N3]; subst. constructor; auto. intros Q. apply N1. apply in_app_or in Q. apply in_or_app. destruct Q; auto.
Qed.
Lemma punctraise_moved : forall S sent all t, rooted t -> (forall m i, In (Node m [Leaf i]) (PunctModel.kids t) -> all || ispunct (wordof sent i) m = true -> S i m = true) -> moved S t (punctraise t sent all).
Proof.
  intros S sent all t R H. unfold punctraise. assert (R' := R). destruct R' as (l & ts & E & P & N). apply raise_moved; auto.
  - intros n Hn. apply in_rev in Hn. unfold raised in Hn. apply filter_In in Hn. destruct Hn as [H1 H2]. assert (PN : ptree n) by (apply P; subst t; exact H1). destruct n as [a|m [|[i|] r]]; try discriminate. assert (r = []) by (inversion PN as [|? ? ? X]; subst; auto; exfalso; apply (noleaf (L := pystr) i); apply X; now left). subst r. exists m, i. split; auto.
  - unfold raised. assert (X : NoDup (flat_map leaves (filter (fun c => match c with Node l0 (Leaf i :: _) => all || ispunct (wordof sent i) l0 | _ => false end) (PunctModel.kids t)))) by (apply nodup_filter_leaves; subst t; exact N). eapply Permutation_NoDup; [|exact X]. apply Permutation_flat_map. apply Permutation_rev.
Qed.
