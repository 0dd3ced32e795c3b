(** Model of discodop/treetransforms.py:593-615 canonicallyorderedtree and
    690-699 canonicalizealpino. *)
From Coq Require Import List Bool Arith.
From Verif Require Import PyStr TreeModel BinarizeModel TransformModel GenModel.
Import ListNotations.

Section Order.
Context {L W : Type}.
Notation tree := (tree L nat).

(** the key of line 698: (leaves[-1], leaves, function(n)), compared as Python
    compares tuples.  Simplification: a node without leaves, for which Python
    raises IndexError, has the last leaf 0 here; [fn] is the function tag of a
    node (treebanktransforms.function), a parameter. *)
Definition alpino_le (fn : tree -> pystr) (x y : tree) : bool :=
  let a := last (leaves x) 0 in let b := last (leaves y) 0 in
  (a <? b) || ((a =? b) && (lex_le (leaves x) (leaves y) && (negb (lex_le (leaves y) (leaves x)) || strleb (fn x) (fn y)))).
(** 690-699: for a in tree.postorder(len(n) > 1 and n[0] is a Tree) *)
Fixpoint canonicalizealpino (fn : tree -> pystr) (t : tree) : tree :=
  match t with
  | Leaf a => Leaf a
  | Node l ts =>
    let us := map (canonicalizealpino fn) ts in
    Node l (if (1 <? length us) && (match us with u :: _ => is_node u | [] => false end)
            then sort (alpino_le fn) us else us)
  end.

(** 610-613: the loop over enumerate(subtrees(n and isinstance(n[0], int))), a
    traversal in pre-order (C16): [n] is the next number; the result has the
    tree with the new numbers, the words sent[node[0]], and the number after.
    Simplification: a number outside of the sentence, for which Python raises
    IndexError, gives the word [none]. *)
Fixpoint renumleaves (none : W) (sent : list W) (t : tree) (n : nat) : tree * list W * nat :=
  match t with
  | Leaf a => (Leaf a, [], n)
  | Node l ts =>
    let '(us, ws, k) :=
      (fix go (first : bool) (ts : list tree) (n : nat) : list tree * list W * nat :=
         match ts with
         | [] => ([], [], n)
         | Leaf a :: r =>
           if first
           then let '(us, ws, k) := go false r (S n) in (Leaf n :: us, nth a sent none :: ws, k)
           else let '(us, ws, k) := go false r n in (Leaf a :: us, ws, k)
         | c :: r =>
           let '(c', ws, k) := renumleaves none sent c n in
           let '(us, ws', k') := go false r k in (c' :: us, ws ++ ws', k')
         end) true ts n in
    (Node l us, ws, k)
  end.
(** 593-615; [none] is None, for the positions that get no word.  More
    preterminals than words (IndexError) cannot occur when every preterminal
    has its own word. *)
Definition canonicallyorderedtree (fn : tree -> pystr) (none : W) (t : tree) (sent : list W) : tree * list W :=
  let '(t', ws, n) := renumleaves none sent (canonicalizealpino fn t) 0 in
  (t', ws ++ repeat none (length sent - length ws)).
End Order.
