(** Specification for C47: editing ordered trees *)
From Coq Require Import List Arith NArith Permutation Sorted.
From Verif Require Import PyStr TreeModel TedModel.
Import ListNotations.

(** one operation on a forest, anywhere in it: give a node another label; delete
    a node, its children take its place; the inverse: insert a node, which gets a
    (possibly empty) sequence of neighbours as children *)
Inductive edit : list ltree -> list ltree -> Prop :=
| e_relabel : forall a b l m ts, edit (a ++ [T l ts] ++ b) (a ++ [T m ts] ++ b)
| e_delete : forall a b l ts, edit (a ++ [T l ts] ++ b) (a ++ ts ++ b)
| e_insert : forall a b l ts, edit (a ++ ts ++ b) (a ++ [T l ts] ++ b)
| e_inside : forall a b l ts us, edit ts us -> edit (a ++ [T l ts] ++ b) (a ++ [T l us] ++ b).
Inductive edits : nat -> list ltree -> list ltree -> Prop :=
| es_none : forall f, edits 0 f f
| es_step : forall n f g h, edit f g -> edits n g h -> edits (S n) f h.
(** the least number of operations that turn one tree into another *)
Definition edit_distance (s t : ltree) (d : nat) : Prop := edits d [s] [t] /\ forall n, edits n [s] [t] -> d <= n.

(** the trees that are compared: each terminal is the only child of its parent *)
Inductive wf : tree pystr nat -> Prop :=
| wf_pre : forall l a, wf (Node l [Leaf a])
| wf_node : forall l ts, ts <> [] -> Forall wf ts -> wf (Node l ts).
(** s starts no later than t *)
Definition starts_before (s t : tree pystr nat) : Prop := exists y, In y (leaves s) /\ forall x, In x (leaves t) -> y <= x.
(** the ordered tree that stands for a (discontinuous) tree: siblings are ordered
    by where they start; a preterminal and its terminal are a single node *)
Inductive canon : tree pystr nat -> ltree -> Prop :=
| canon_pre : forall l a, canon (Node l [Leaf a]) (T (l ++ [45%N] ++ dec a) [])
| canon_node : forall l ts ts' us, ts <> [] -> Permutation ts ts' -> StronglySorted starts_before ts' -> Forall2 canon ts' us -> canon (Node l ts) (T l us).
(** equal up to the order of siblings *)
Inductive same : tree pystr nat -> tree pystr nat -> Prop :=
| same_leaf : forall a, same (Leaf a) (Leaf a)
| same_node : forall l ts us vs, Permutation ts us -> Forall2 same us vs -> same (Node l ts) (Node l vs).
(** the nodes of a tree that are not terminals *)
Fixpoint nonterminals (t : tree pystr nat) : nat := match t with Leaf _ => 0 | Node _ ts => S (list_sum (map nonterminals ts)) end.
