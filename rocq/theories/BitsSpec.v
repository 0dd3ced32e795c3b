(** Specification vocabulary for bit vectors: a bit vector denotes the set of
    positions of its 1-bits.  Nothing here refers to the modelled code. *)
From Coq Require Import NArith ZArith List Bool.
Import ListNotations.
Local Open Scope N_scope.

(** [i] is a member of the set denoted by integer [v]. *)
Definition member (v i : N) : Prop := N.testbit v i = true.

(** [r] is the least position in [pos, n) satisfying [P], if any. *)
Definition is_least (P : N -> Prop) (pos n r : N) : Prop :=
  pos <= r < n /\ P r /\ forall i, pos <= i < r -> ~ P i.
Definition has_none (P : N -> Prop) (pos n : N) : Prop :=
  forall i, pos <= i < n -> ~ P i.

(** Membership in an array of 64-bit words. *)
Definition amember (vec : list N) (i : N) : Prop :=
  member (nth (N.to_nat (i / 64)) vec 0) (i mod 64).
Definition nbits (vec : list N) : N := 64 * N.of_nat (length vec).
Definition words (vec : list N) : Prop := Forall (fun v => v < 2 ^ 64) vec.

(** Lists of half-open intervals [a, b), in increasing order, non-empty, and
    with at least one position between consecutive ones: the contiguous
    components of a set. *)
Definition interval := (N * N)%type.
Fixpoint separated (lo : N) (l : list interval) : Prop :=
  match l with
  | [] => True
  | (a, b) :: r => lo <= a /\ a < b /\ separated (b + 1) r
  end.
Definition covered (l : list interval) (i : N) : Prop :=
  exists a b, In (a, b) l /\ a <= i < b.
(** [l] is the list of maximal contiguous components of [v]. *)
Definition components (v : N) (l : list interval) : Prop :=
  separated 0 l /\ forall i, member v i <-> covered l i.

(** Cardinality by listing. *)
Definition lists_members (P : N -> Prop) (l : list N) : Prop :=
  NoDup l /\ forall i, In i l <-> P i.
