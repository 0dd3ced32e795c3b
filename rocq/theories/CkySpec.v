(** Specification for C41: derivations of a PCFG *)
From Coq Require Import List NArith.
From Verif Require Import CkyModel.
Import ListNotations.

Section Spec.
Variables (rules : list rule) (mask : nat -> bool).
Variables (lexrules : nat -> list (nat * N)) (tag : nat -> option (nat -> bool)) (lexicallhs : list nat).
(** the tags of a word: those of the lexicon; with a gold tag, only those that
    match it; if the lexicon has none of these, all labels that match it, with
    probability 1 *)
Inductive tagged (i x : nat) (c : N) : Prop :=
| t_lexicon : tag i = None -> In (x, c) (lexrules i) -> tagged i x c
| t_gold : forall t, tag i = Some t -> t x = true -> In (x, c) (lexrules i) -> tagged i x c
| t_only_gold : forall t, tag i = Some t -> t x = true -> (forall y d, In (y, d) (lexrules i) -> t y = false) -> In x lexicallhs -> c = 0%N -> tagged i x c.
(** label x derives the words i..j-1 with negative log probability c *)
Inductive derives : nat -> nat -> nat -> N -> Prop :=
| d_word : forall i x c, tagged i x c -> derives i (i + 1) x c
| d_unary : forall i j r c, In r rules -> mask (rno r) = false -> rhs2 r = 0 -> derives i j (rhs1 r) c -> derives i j (lhs r) (rprob r + c)
| d_binary : forall i k j r a b, In r rules -> mask (rno r) = false -> rhs2 r <> 0 -> derives i k (rhs1 r) a -> derives k j (rhs2 r) b ->
    derives i j (lhs r) (rprob r + a + b).
Definition derivable i j x := exists c, derives i j x c.
Definition best i j x p := derives i j x p /\ forall c, derives i j x c -> (p <= c)%N.
(** the edges that belong in the chart at label x over i..j-1 *)
Inductive valid_edge (i j x : nat) : option rule * nat -> Prop :=
| v_word : forall c, j = i + 1 -> tagged i x c -> valid_edge i j x (None, j)
| v_unary : forall r, In r rules -> mask (rno r) = false -> lhs r = x -> rhs2 r = 0 -> derivable i j (rhs1 r) -> valid_edge i j x (Some r, j)
| v_binary : forall r k, In r rules -> mask (rno r) = false -> lhs r = x -> rhs2 r <> 0 -> derivable i k (rhs1 r) -> derivable k j (rhs2 r) -> valid_edge i j x (Some r, k).
End Spec.
