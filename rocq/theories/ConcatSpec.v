(** What it means for a yield function to combine two discontinuous spans.
    A span is given by its list of contiguous components. *)
From Coq Require Import NArith List Bool.
From Verif Require Import BitsSpec.
Import ListNotations.
Local Open Scope N_scope.

(** [Arg vars L R a b L' R']: reading the variables of one argument off the
    fronts of [L] (variable 0 = false) and [R] (variable 1 = true) covers
    exactly the interval [a, b) without a gap, and leaves [L'] and [R']. *)
Inductive Arg : list bool -> list interval -> list interval ->
    N -> N -> list interval -> list interval -> Prop :=
| Arg_left : forall a b L R, Arg [false] ((a, b) :: L) R a b L R
| Arg_right : forall a b L R, Arg [true] L ((a, b) :: R) a b L R
| Arg_left_cons : forall a b c L R L' R' x xs,
    Arg (x :: xs) L R b c L' R' -> Arg (false :: x :: xs) ((a, b) :: L) R a c L' R'
| Arg_right_cons : forall a b c L R L' R' x xs,
    Arg (x :: xs) L R b c L' R' -> Arg (true :: x :: xs) L ((a, b) :: R) a c L' R'.

(** [Yield yf L R U]: all arguments are read one after the other, nothing is
    left over, and [U] lists the resulting intervals. *)
Inductive Yield : list (list bool) -> list interval -> list interval -> list interval -> Prop :=
| Yield_nil : Yield [] [] [] []
| Yield_cons : forall x xs L R a b L' R' U,
    Arg x L R a b L' R' -> Yield xs L' R' U -> Yield (x :: xs) L R ((a, b) :: U).

(** The spans combine: the resulting intervals are in order and separated by
    gaps, i.e. the arguments are exactly the components of the new span. *)
Definition combines (yf : list (list bool)) (L R : list interval) : Prop :=
  exists U, Yield yf L R U /\ separated 0 U.

(** Well-formed yield functions: at least one argument, none empty. *)
Definition wf_yf (yf : list (list bool)) : Prop :=
  yf <> [] /\ Forall (fun p => p <> []) yf.
(** Number of components the yield function expects of each daughter. *)
Definition expects (side : bool) (yf : list (list bool)) : nat :=
  length (filter (Bool.eqb side) (concat yf)).

(** Components of an array of words. *)
Definition acomponents (vec : list N) (l : list interval) : Prop :=
  separated 0 l /\ forall i, amember vec i <-> covered l i.
