(** Model of the dense chart numbering, discodop/containers.pxd. *)
From Coq Require Import ZArith List Bool Lia.
Import ListNotations.
Local Open Scope Z_scope.

(** Conversion to a signed 16-bit C [short] (gcc/clang wrap around). *)
Definition to_short (x : Z) : Z := (x + 2 ^ 15) mod 2 ^ 16 - 2 ^ 15.

(** containers.pxd:726-731 [cellidx].  The parenthesised expression is computed
    in [int] (no overflow possible for shorts up to 32767: < 2^31); the product
    with the 32-bit unsigned [Label] is computed modulo 2^32 before being
    widened to [size_t].  [//] is C division (cdivision=True, setup.py:77), which
    agrees with Coq's on the non-negative argument [(start - 1) * start]. *)
Definition cellidx (start stop lensent nonterminals : Z) : Z :=
  (nonterminals *
   (lensent * start - ((start - 1) * start / 2) + stop - start - 1)) mod 2 ^ 32.

(** containers.pxd:734-743, 756-765: the loop shared by [cellstart] and
    [cellend].  [idx] and [lensent], [start] are C shorts; [idx + lensent] is
    an [int] that is converted to the unsigned 64-bit type of [cell] for the
    comparison.  The fuel bounds the number of iterations; the theorems show
    that every larger fuel gives the same result, i.e. that the loop ends. *)
Fixpoint cell_loop (fuel : nat) (cell lensent idx start : Z) : Z * Z :=
  match fuel with
  | O => (start, idx)
  | S f =>
    if (idx + lensent) mod 2 ^ 64 <=? cell then
      cell_loop f cell (to_short (lensent - 1)) (to_short (idx + lensent))
                (to_short (start + 1))
    else (start, idx)
  end.

Definition cellstart (fuel : nat) (cell lensent nonterminals : Z) : Z :=
  fst (cell_loop fuel (cell / nonterminals) lensent 0 0).

(** [start + (cell - idx) + 1] is computed in 64-bit unsigned arithmetic and
    converted to short on return. *)
Definition cellend (fuel : nat) (cell lensent nonterminals : Z) : Z :=
  let c := cell / nonterminals in
  let '(start, idx) := cell_loop fuel c lensent 0 0 in
  to_short ((start + (c - idx) + 1) mod 2 ^ 64).
