(** Specification for C46: what moving punctuation leaves alone *)
From Coq Require Import List Bool Arith NArith Permutation.
From Verif Require Import PyStr TreeModel TransformProps.
Import ListNotations.

(** a tree in which each terminal occurs once and is the only child of its
    preterminal, no constituent is empty, and the root is not a preterminal *)
Definition rooted (t : tree pystr nat) : Prop := exists l ts, t = Node l ts /\ (forall c, In c ts -> ptree c) /\ NoDup (leaves t).
(** what is left of a constituent when the selected preterminals are taken out,
    and constituents without words with them *)
Fixpoint rest (sel : nat -> pystr -> bool) (c : tree pystr nat) : list (tree pystr nat) :=
  match c with
  | Leaf a => [Leaf a]
  | Node m us =>
    match us with
    | [Leaf a] => if sel a m then [] else [c]
    | _ => match flat_map (rest sel) us with [] => [] | vs => [Node m vs] end
    end
  end.
Definition skeleton (sel : nat -> pystr -> bool) (t : tree pystr nat) : tree pystr nat :=
  match t with Leaf a => Leaf a | Node l ts => Node l (flat_map (rest sel) ts) end.
(** only selected preterminals have moved: the result has the same tags and
    words, and without the selected ones the trees are equal *)
Definition moved (sel : nat -> pystr -> bool) (t t' : tree pystr nat) : Prop :=
  rooted t' /\ Permutation (preterminals t) (preterminals t') /\ skeleton sel t' = skeleton sel t.
