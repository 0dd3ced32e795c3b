(** C38: equality and hash of DiscTree. *)
From Coq Require Import String.
From Coq Require Import List Bool Arith NArith Lia.
From Verif Require Import PyStr TreeModel BinarizeModel TransformProps DopModel.
Import ListNotations.
Open Scope list_scope.
Open Scope nat_scope.

(** what a tree and a sentence stand for: the tree with the words as leaves *)
Fixpoint wtree (s : sentence) (t : tree pystr nat) : tree pystr (option pystr) :=
  match t with Leaf a => Leaf (word_at s a) | Node l ts => Node l (map (wtree s) ts) end.
Lemma eqo_eq : forall a b, eqo a b = true <-> a = b.
Proof. intros [a|] [b|]; cbn; try (split; congruence). rewrite eqs_eq. split; congruence. Qed.
(** the loop of __eq__ over the children *)
Definition disc_eqs (s1 s2 : sentence) : list (tree pystr nat) -> list (tree pystr nat) -> bool :=
  fix go as_ bs :=
    match as_, bs with
    | a :: as', b :: bs' =>
      match a, b with
      | Leaf i, Leaf j => eqo (word_at s1 i) (word_at s2 j)
      | Node _ _, Node _ _ => if disc_eq s1 s2 a b then go as' bs' else false
      | _, _ => false
      end
    | _, _ => true
    end.
Lemma disc_eq_node : forall s1 s2 l1 l2 ts1 ts2, disc_eq s1 s2 (Node l1 ts1) (Node l2 ts2) = eqs l1 l2 && (length ts1 =? length ts2) && disc_eqs s1 s2 ts1 ts2.
Proof. reflexivity. Qed.
(** with one terminal per preterminal, equality is equality of labels, shape and words *)
Theorem C38_equal_words : forall s1 s2 t1 t2, ptree t1 -> ptree t2 -> (disc_eq s1 s2 t1 t2 = true <-> wtree s1 t1 = wtree s2 t2).
Proof.
  intros s1 s2 t1. induction t1 as [a|l ts IH] using tree_ind'; intros t2 P1 P2; [inversion P1|]. destruct t2 as [b|m us]; [inversion P2|]. rewrite disc_eq_node, !andb_true_iff, eqs_eq, Nat.eqb_eq. cbn [wtree].
  assert (K : length ts = length us -> disc_eqs s1 s2 ts us = true <-> map (wtree s1) ts = map (wtree s2) us).
  { inversion P1 as [? a|? ? _ HC]; subst; inversion P2 as [? b|? ? _ HC']; subst; intros L.
    - cbn. rewrite eqo_eq. split; congruence.
    - destruct us as [|[b|] [|]]; cbn in L; try lia; [exfalso; specialize (HC' (Leaf b) (or_introl eq_refl)); inversion HC'|]. cbn. split; discriminate.
    - destruct ts as [|[b'|] [|]]; cbn in L; try lia; [exfalso; specialize (HC (Leaf b') (or_introl eq_refl)); inversion HC|]. cbn. split; discriminate.
    - clear P1 P2. revert us L HC'. induction ts as [|t ts IHts]; intros [|u us] L HC'; try discriminate L; [cbn; tauto|]. inversion IH as [|? ? I1 I2]; subst. cbn [map]. assert (Pt := HC t (or_introl eq_refl)). assert (Pu := HC' u (or_introl eq_refl)).
      specialize (I1 u Pt Pu). specialize (IHts I2 (fun c Hc => HC c (or_intror Hc)) us ltac:(cbn in L; lia) (fun c Hc => HC' c (or_intror Hc))).
      destruct t as [|lt tts]; [inversion Pt|]. destruct u as [|lu uus]; [inversion Pu|]. cbn [disc_eqs]. fold (disc_eqs s1 s2). destruct (disc_eq s1 s2 (Node lt tts) (Node lu uus)).
      + rewrite IHts. assert (E : wtree s1 (Node lt tts) = wtree s2 (Node lu uus)) by (now apply I1). split; [intros ->; now rewrite E|intros X; now injection X].
      + split; [discriminate|]. intros X. assert (E : wtree s1 (Node lt tts) = wtree s2 (Node lu uus)) by (injection X; intros; cbn [wtree]; congruence). apply I1 in E. discriminate. }
  split.
  - intros [[-> L] E]. apply (K L) in E. now rewrite E.
  - intros E. injection E as -> E. assert (L : length ts = length us) by (apply (f_equal (@length _)) in E; now rewrite !map_length in E). split; auto. now apply K.
Qed.
Lemma disc_hash_wtree : forall H (h : pystr -> list H -> H) hw s1 s2 t1 t2, wtree s1 t1 = wtree s2 t2 -> disc_hash h hw s1 t1 = disc_hash h hw s2 t2.
Proof.
  intros H h hw s1 s2 t1. induction t1 as [a|l ts IH] using tree_ind'; intros [b|m us] E; cbn in E |- *; try discriminate; [congruence|]. injection E as -> E. f_equal. revert us E. induction IH as [|t ts I1 I2 IHts]; intros [|u us] E; try discriminate; [reflexivity|]. cbn [map] in E |- *. injection E as E1 E2. f_equal; auto.
Qed.
Theorem C38_hash : forall H (h : pystr -> list H -> H) hw s1 s2 t1 t2, ptree t1 -> ptree t2 -> disc_eq s1 s2 t1 t2 = true -> disc_hash h hw s1 t1 = disc_hash h hw s2 t2.
Proof. intros H h hw s1 s2 t1 t2 P1 P2 E. apply disc_hash_wtree. now apply C38_equal_words in E. Qed.
(** __eq__ is an equivalence relation for all trees *)
Theorem C38_equivalence : (forall s l ts, disc_eq s s (Node l ts) (Node l ts) = true) /\
  (forall s1 s2 t1 t2, disc_eq s1 s2 t1 t2 = true -> disc_eq s2 s1 t2 t1 = true) /\
  (forall s1 s2 s3 t1 t2 t3, disc_eq s1 s2 t1 t2 = true -> disc_eq s2 s3 t2 t3 = true -> disc_eq s1 s3 t1 t3 = true).
Proof.
  split; [|split].
  - intros s l ts. assert (R : forall t, match t with Leaf _ => True | Node _ _ => disc_eq s s t t = true end); [|exact (R (Node l ts))].
    clear l ts. induction t as [a|l ts IH] using tree_ind'; [exact Logic.I|]. rewrite disc_eq_node, eqs_refl, Nat.eqb_refl. cbn [andb]. induction IH as [|t ts I1 I2 IHts]; [reflexivity|]. destruct t as [a|m us]; cbn [disc_eqs]; [now apply eqo_eq|]. fold (disc_eqs s s). now rewrite I1.
  - intros s1 s2 t1. induction t1 as [a|l ts IH] using tree_ind'; intros [b|m us] E; try discriminate. rewrite disc_eq_node in E |- *. apply andb_true_iff in E. destruct E as [E E3]. apply andb_true_iff in E. destruct E as [E1 E2].
    apply eqs_eq in E1. apply Nat.eqb_eq in E2. subst m. rewrite eqs_refl, E2, Nat.eqb_refl. cbn [andb]. clear l E2. revert us E3. induction IH as [|t ts I1 I2 IHts]; intros [|u us] E; auto. destruct t as [a|l tts], u as [b|m uus]; cbn [disc_eqs] in E |- *; try discriminate.
    + apply eqo_eq in E. rewrite E. now apply eqo_eq.
    + fold (disc_eqs s1 s2) in E. fold (disc_eqs s2 s1). destruct (disc_eq s1 s2 (Node l tts) (Node m uus)) eqn:E1; [|discriminate]. rewrite (I1 _ E1). auto.
  - intros s1 s2 s3 t1. induction t1 as [a|l ts IH] using tree_ind'; intros [b|m us] [c|k ws] E F; try discriminate. rewrite disc_eq_node in E, F |- *. apply andb_true_iff in E, F. destruct E as [E E3], F as [F F3]. apply andb_true_iff in E, F. destruct E as [E1 E2], F as [F1 F2].
    apply eqs_eq in E1, F1. apply Nat.eqb_eq in E2, F2. subst m k. rewrite eqs_refl, E2, F2, Nat.eqb_refl. cbn [andb]. assert (L : length ts = length us) by exact E2. clear l E2 F2. revert us ws E3 F3 L. induction IH as [|t ts I1 I2 IHts]; intros [|u us] [|w ws] E F L; try discriminate L; auto.
    destruct t as [a|l tts], u as [b|m uus], w as [c|k wws]; cbn [disc_eqs] in E, F |- *; try discriminate.
    + apply eqo_eq in E, F. rewrite E, F. now apply eqo_eq.
    + fold (disc_eqs s1 s2) in E. fold (disc_eqs s2 s3) in F. fold (disc_eqs s1 s3). destruct (disc_eq s1 s2 (Node l tts) (Node m uus)) eqn:E1; [|discriminate]. destruct (disc_eq s2 s3 (Node m uus) (Node k wws)) eqn:F1; [|discriminate]. rewrite (I1 _ _ E1 F1). eapply IHts; eauto.
Qed.
(** In general, equal objects may differ in words and in hash: only the first
    terminal among the children of a node is compared. *)
Theorem C38_siblings_refuted : exists s1 s2 t, disc_eq s1 s2 t t = true /\ wtree s1 t <> wtree s2 t /\
  exists (h : pystr -> list nat -> nat) hw, disc_hash h hw s1 t <> disc_hash h hw s2 t.
Proof.
  exists [Some (str "a"); Some (str "b")], [Some (str "a"); Some (str "c")], (Node (str "X") [Leaf 0; Leaf 1]). split; [reflexivity|]. split; [intros H; vm_compute in H; discriminate H|].
  exists (fun _ l => list_sum l), (fun w => match w with Some [c] => N.to_nat c | _ => 0 end). intros H. vm_compute in H. discriminate H.
Qed.
Example C38_example : let t1 := Node (str "S") [Node (str "A") [Leaf 0]; Node (str "B") [Leaf 2]] in let t2 := Node (str "S") [Node (str "A") [Leaf 1]; Node (str "B") [Leaf 0]] in
  let s1 := [Some (str "x"); None; Some (str "y")] in let s2 := [Some (str "y"); Some (str "x")] in
  ptree t1 /\ ptree t2 /\ disc_eq s1 s2 t1 t2 = true /\ disc_eq s1 s1 t1 t2 = false.
Proof. cbn zeta. split; [|split; [|split; reflexivity]]; (apply pt_node; [discriminate|intros c [<-|[<-|[]]]; constructor]). Qed.
Print Assumptions C38_equal_words.
Print Assumptions C38_hash.
Print Assumptions C38_equivalence.
Print Assumptions C38_siblings_refuted.
