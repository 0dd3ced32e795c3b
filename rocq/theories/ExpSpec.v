(** What C63 says about reading input separated by blank lines. *)
From Coq Require Import NArith List Bool Arith.
From Verif Require Import PyStr.
Import ListNotations.

(** white space only *)
Definition whitespace (c : char) : Prop := In c [32%N; 9%N; 10%N; 13%N; 11%N; 12%N].
Definition blank (line : pystr) : Prop := forall c, In c line -> whitespace c.
(** [Blocks lines bs]: [bs] are the maximal runs of lines that are not blank *)
Inductive Blocks : list pystr -> list (list pystr) -> Prop :=
| b_nil : Blocks [] []
| b_blank : forall l ls bs, blank l -> Blocks ls bs -> Blocks (l :: ls) bs
| b_block : forall b rest bs, b <> [] -> (forall l, In l b -> ~ blank l) -> match rest with [] => True | l :: _ => blank l end ->
    Blocks rest bs -> Blocks (b ++ rest) (b :: bs).
(** [Trim s t]: [t] is [s] without the white space around it *)
Definition Trim (s t : pystr) : Prop :=
  exists a b, s = a ++ t ++ b /\ blank a /\ blank b /\ match t with [] => True | c :: _ => ~ whitespace c end /\ match rev t with [] => True | c :: _ => ~ whitespace c end.
