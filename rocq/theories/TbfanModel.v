(** treetransforms.py: treebankfanout (674-680), the maximal fan-out of a
    treebank, by which runexp and Parser choose the formalism (PCFG or PLCFRS).

    Simplifications: trees have no labels; fanout(a), the number of gaps plus
    one, is a function on bitsets (C01-C04 are about its implementation);
    bitsets are the union of those of the children (addbitsets sums 1 << n over
    the leaves, which is the same when no word occurs twice). *)
From Coq Require Import List Bool Arith NArith.
From Verif Require Import PyStr.
Import ListNotations.
Open Scope nat_scope.

Inductive tr := Leaf (n : nat) | Node (ts : list tr).
(** addbitsets (940-956) *)
Fixpoint bits (t : tr) : N :=
  match t with
  | Leaf n => N.shiftl 1 (N.of_nat n)
  | Node ts => fold_right (fun c b => N.lor (bits c) b) 0%N ts
  end.
(** tree.subtrees(): the nodes, not the leaves *)
Fixpoint subtrees (t : tr) : list tr :=
  match t with Leaf _ => [] | Node ts => t :: flat_map subtrees ts end.
Definition arity (t : tr) : nat := match t with Leaf _ => 0 | Node ts => length ts end.

Section Treebankfanout.
  Variable fanout : N -> nat.
  (** the order of tuples *)
  Definition lexlt (x y : nat * nat) : bool := (fst x <? fst y) || ((fst x =? fst y) && (snd x <? snd y)).
  (** max(..) of a non-empty sequence: the first maximal element *)
  Fixpoint pymax (x : nat * nat) (l : list (nat * nat)) : nat * nat :=
    match l with [] => x | y :: l' => pymax (if lexlt x y then y else x) l' end.
  Fixpoint pairs (n : nat) (trees : list tr) : list (nat * nat) :=
    match trees with
    | [] => []
    | t :: trees' => map (fun a => (fanout (bits a), n)) (filter (fun a => 1 <? arity a) (subtrees t)) ++ pairs (S n) trees'
    end.
  (** 674-680 *)
  Definition treebankfanout (trees : list tr) : nat * nat :=
    match pairs 0 trees with [] => (1, 0) | x :: l => pymax x l end.
End Treebankfanout.
