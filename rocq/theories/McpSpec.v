(** Specification for C66: expected number of correct constituents.  Nothing here
    refers to the algorithm (only the types of trees are shared). *)
From Coq Require Import String.
From Coq Require Import List Bool Arith NArith ZArith QArith.
From Verif Require Import PyStr BitsSpec McpModel.
Import ListNotations.
Local Open Scope list_scope.

Definition qsum (l : list Q) : Q := fold_right Qplus 0 l.

(** the positions of the words of a tree *)
Fixpoint words_of (t : bt) : list N :=
  match t with BLeaf _ i => [i] | BNode _ a b => words_of a ++ words_of b end.
(** a binary tree over distinct words, the first word in the left branch *)
Fixpoint proper (t : bt) : Prop :=
  match t with
  | BLeaf _ _ => True
  | BNode _ a b =>
      proper a /\ proper b
      /\ (forall i, In i (words_of a) -> ~ In i (words_of b))
      /\ exists i, In i (words_of a) /\ forall j, In j (words_of b) -> (i < j)%N
  end.
(** the labelled constituents of a tree: label and set of words *)
Fixpoint constituents (t : bt) : list (pystr * list N) :=
  match t with
  | BLeaf l i => [(l, [i])]
  | BNode l a b => (l, words_of t) :: constituents a ++ constituents b
  end.
Definition sameset (a b : list N) : Prop := forall i, In i a <-> In i b.
Definition samesetb (a b : list N) : bool :=
  forallb (fun i => existsb (N.eqb i) b) a && forallb (fun i => existsb (N.eqb i) a) b.
(** does the tree have a constituent with this label and these words? *)
Definition has_const (l : pystr) (s : list N) (t : bt) : bool :=
  existsb (fun c => eqs l (fst c) && samesetb s (snd c)) (constituents t).
(** the probability of a constituent: the share of the derivations that have it;
    labels that do not count have probability 0 *)
Definition cprob (counts : pystr -> bool) (ds : list (bt * Q)) (l : pystr) (s : list N) : Q :=
  if counts l
  then qsum (map snd (filter (fun d => has_const l s (fst d)) ds)) / qsum (map snd ds)
  else 0.
(** what including the constituent is worth: the chance that it is correct minus
    lambda times the chance that it is not; nothing if that is negative *)
Definition gain (labda : Q) (counts : pystr -> bool) (ds : list (bt * Q)) (c : pystr * list N) : Q :=
  let p := cprob counts ds (fst c) (snd c) in
  let v := p - labda * (1 - p) in
  if Qlt_le_dec v 0 then 0 else v.
(** a span is observed if some derivation has a constituent with these words *)
Definition observed (ds : list (bt * Q)) (s : list N) : Prop :=
  exists d w l s', In (d, w) ds /\ In (l, s') (constituents d) /\ sameset s s'.

(** the words and constituents of a resulting tree *)
Fixpoint owords (t : otree) : list N :=
  match t with
  | OLeaf _ i => [Z.to_N i]
  | ONode _ ts => flat_map owords ts
  end.
Fixpoint oconstituents (t : otree) : list (pystr * list N) :=
  match t with
  | OLeaf l i => [(l, [Z.to_N i])]
  | ONode l ts => (l, flat_map owords ts) :: flat_map oconstituents ts
  end.

(** the words of a sentence, and derivations of it *)
Definition sentence (n : nat) : list N := map N.of_nat (seq 0 n).
Definition derivations_of (n : nat) (ds : list (bt * Q)) : Prop :=
  ds <> []
  /\ forall d w, In (d, w) ds ->
       0 < w /\ proper d /\ sameset (words_of d) (sentence n)
       /\ forall l s, In (l, s) (constituents d) -> l <> [] /\ l <> str "-#-".
