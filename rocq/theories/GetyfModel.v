(** treetransforms.py: getyf (959-981), the yield function of a binarized node.

    Simplifications: nodes are given by their bitsets; the string is a list of
    characters; AttributeError is [None]. *)
From Coq Require Import List Bool Arith NArith.
From Verif Require Import PyStr.
Import ListNotations.
Open Scope nat_scope.

Definition c0 : N := 48%N.       (* '0' *)
Definition c1 : N := 49%N.       (* '1' *)
Definition comma : N := 44%N.
Definition semi : N := 59%N.
Definition bit (b : N) (n : nat) : bool := N.testbit b (N.of_nat n).
(** int.bit_length() *)
Definition bitlength (b : N) : nat := match b with 0%N => 0 | _ => S (N.to_nat (N.log2 b)) end.

(** if cur != c: cur = c; result.append(cur) *)
Definition emit (c cur : N) (rest : option pystr) : option pystr :=
  if N.eqb cur c then rest else option_map (cons c) rest.
(** 970-980: for n in range(bits); the rest of result from position n on *)
Fixpoint yfloop (left : N) (right : option N) (ns : list nat) (cur : N) : option pystr :=
  match ns with
  | [] => Some []
  | n :: ns' =>
      if bit left n then emit c0 cur (yfloop left right ns' c0)
      else match right with
           | None => None                    (* right.bitset *)
           | Some r =>
               if bit r n then emit c1 cur (yfloop left right ns' c1)
               else emit comma cur (yfloop left right ns' comma)
           end
  end.
(** 959-981 *)
Definition getyf (left : N) (right : option N) : option pystr :=
  let bits := match right with Some r => Nat.max (bitlength left) (bitlength r) | None => bitlength left end in
  option_map (cons semi) (yfloop left right (seq 0 bits) comma).

