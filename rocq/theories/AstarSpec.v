(** Specification for C68: constituents of derivations and admissible estimates. *)
From Coq Require Import List NArith.
From Verif Require Import BitsSpec PlcfrsModel PlcfrsSpec.
Import ListNotations.
Open Scope nat_scope.

Section Within.
Variable vec : Type.
Variable single : nat -> vec.
Variable join : list (list bool) -> vec -> vec -> vec -> Prop.
Variable allowed : nat -> vec -> Prop.
Variables (rules : list prule) (mask : nat -> bool).
Variable daughter : nat -> vec -> Prop.
Variable sent : list word.
Notation derives := (derives vec single join allowed rules mask daughter sent).
(** [within x v c y u d]: there is a derivation of the words in v from x with cost
    c, in which a constituent y derives the words in u with cost d *)
Inductive within : nat -> vec -> N -> nat -> vec -> N -> Prop :=
| w_here : forall x v c, derives x v c -> within x v c x v c
| w_unary : forall r v c y u d, usable rules mask r -> prhs2 r = 0 -> within (prhs1 r) v c y u d -> daughter (prhs1 r) v ->
    allowed (plhs r) v -> within (plhs r) v (pprob r + c) y u d
| w_left : forall r v1 v2 v a b y u d, usable rules mask r -> prhs2 r <> 0 ->
    within (prhs1 r) v1 a y u d -> daughter (prhs1 r) v1 -> derives (prhs2 r) v2 b -> daughter (prhs2 r) v2 ->
    join (ryf r) v1 v2 v -> allowed (plhs r) v -> within (plhs r) v (pprob r + a + b) y u d
| w_right : forall r v1 v2 v a b y u d, usable rules mask r -> prhs2 r <> 0 ->
    derives (prhs1 r) v1 a -> daughter (prhs1 r) v1 -> within (prhs2 r) v2 b y u d -> daughter (prhs2 r) v2 ->
    join (ryf r) v1 v2 v -> allowed (plhs r) v -> within (plhs r) v (pprob r + a + b) y u d.
(** The estimate of a constituent of a complete derivation exists, and together
    with the cost of the constituent it is at most the cost of the derivation. *)
Definition admissible (goal : nat * vec) (est : nat -> vec -> option N) : Prop :=
  forall C y u d, within (fst goal) (snd goal) C y u d ->
  exists e, est y u = Some e /\ (d + e <= C)%N.
End Within.

(** the words in u are between positions a and b (exclusive), the first is a and
    the last b - 1 *)
Definition extent (u : N) (a b : nat) : Prop :=
  a < b /\ member u (N.of_nat a) /\ member u (N.of_nat (b - 1)) /\ forall i, member u i -> (N.of_nat a <= i < N.of_nat b)%N.
(** Admissible estimates for sentences with n words, given the number of words to
    the left and right of a constituent *)
Definition admissible_sx (wl : nat -> N -> Prop) (rules : list prule) (mask : nat -> bool) (sent : list word) (start : nat)
    (outside : nat -> nat -> nat -> option N) : Prop :=
  forall C y u d a b,
  within N (fun i => 2 ^ N.of_nat i)%N set_join wl rules mask anywhere sent start (2 ^ N.of_nat (length sent) - 1)%N C y u d ->
  extent u a b -> exists e, outside y a (length sent - b) = Some e /\ (d + e <= C)%N.
(** ... given the number of words, the number of words to the left and right, and
    the number of words in gaps *)
Definition admissible_lrgaps (wl : nat -> N -> Prop) (rules : list prule) (mask : nat -> bool) (sent : list word) (start : nat)
    (outside : nat -> nat -> nat -> nat -> option N) : Prop :=
  forall C y u d a b l,
  within N (fun i => 2 ^ N.of_nat i)%N set_join wl rules mask anywhere sent start (2 ^ N.of_nat (length sent) - 1)%N C y u d ->
  extent u a b -> lists_members (member u) l ->
  exists e, outside y (length l) (a + (length sent - b)) (b - a - length l) = Some e /\ (d + e <= C)%N.
