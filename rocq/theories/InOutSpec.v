(** Derivations of a chart and their probabilities, independently of the
    inside-outside computation. *)
From Coq Require Import QArith Qcanon List Bool.
From Verif Require Import InOutModel.
Import ListNotations.
Open Scope Qc_scope.

Inductive deriv := DLex (e : edge) | DUn (e : edge) (d : deriv) | DBin (e : edge) (d1 d2 : deriv).

(** d is a derivation of the item *)
Fixpoint isderiv (ch : chart) (item : nat) (d : deriv) : Prop :=
  match d with
  | DLex (ELex p) => In (ELex p) (forest ch item)
  | DLex (EUnk v) => In (EUnk v) (forest ch item)
  | DUn (EUn p l) d1 => In (EUn p l) (forest ch item) /\ isderiv ch l d1
  | DBin (EBin p l r) d1 d2 => In (EBin p l r) (forest ch item) /\ isderiv ch l d1 /\ isderiv ch r d2
  | _ => False
  end.
(** its probability: the product of the probabilities of its rules; [lex] is
    the probability of a lexical edge *)
Fixpoint weight (lex : edge -> Qc) (d : deriv) : Qc :=
  match d with
  | DLex e => lex e
  | DUn (EUn p _) d1 => p * weight lex d1
  | DBin (EBin p _ _) d1 d2 => p * weight lex d1 * weight lex d2
  | _ => 0
  end.
(** how often item x occurs in a derivation d of [item] *)
Fixpoint occ (x item : nat) (d : deriv) : nat :=
  ((if Nat.eqb item x then 1 else 0) +
  match d with
  | DUn (EUn _ l) d1 => occ x l d1
  | DBin (EBin _ l r) d1 d2 => occ x l d1 + occ x r d2
  | _ => 0
  end)%nat.

Definition sum (l : list Qc) : Qc := fold_right Qcplus 0 l.
Definition ofnat (n : nat) : Qc := Q2Qc (inject_Z (Z.of_nat n)).

(** l lists each derivation of the item once *)
Definition enumerates (ch : chart) (item : nat) (l : list deriv) : Prop :=
  NoDup l /\ forall d, In d l <-> isderiv ch item d.

Definition children (e : edge) : list nat :=
  match e with EUn _ l => [l] | EBin _ l r => [l; r] | _ => [] end.
(** The items are listed bottom up: the daughters of every edge come before
    the item; no edge is stored twice. *)
Definition bottomup (ch : chart) : Prop :=
  NoDup (order ch) /\ In (root ch) (order ch) /\
  (forall l1 x l2 e c, order ch = l1 ++ x :: l2 -> In e (forest ch x) -> In c (children e) -> In c l1) /\
  (forall x, NoDup (forest ch x)) /\ (forall x, ~ In x (order ch) -> forest ch x = []).

(** x can be reached from the item through edges *)
Inductive reach (ch : chart) : nat -> nat -> Prop :=
  | reach_self : forall x, reach ch x x
  | reach_edge : forall x e c y, In e (forest ch x) -> In c (children e) -> reach ch c y -> reach ch x y.

(** item x is one of the nodes of the derivation d of [item] *)
Fixpoint contains (x item : nat) (d : deriv) : bool :=
  Nat.eqb item x ||
  match d with
  | DUn (EUn _ l) d1 => contains x l d1
  | DBin (EBin _ l r) d1 d2 => contains x l d1 || contains x r d2
  | _ => false
  end.

(** Items cover sets of sentence positions: the daughters of an edge cover
    parts of what the item covers, two daughters cover disjoint parts. *)
Definition spanned (ch : chart) (cover : nat -> list nat) : Prop :=
  forall x e, In e (forest ch x) ->
    (forall c, In c (children e) -> cover c <> [] /\ incl (cover c) (cover x)) /\
    match e with EBin _ l r => forall i, In i (cover l) -> ~ In i (cover r) | _ => True end.

(** probability of a rule as found in the grammar *)
Definition ruleprob (e : edge) : Qc := match e with ELex p | EUn p _ | EBin p _ _ | EUnk p => p end.
Fixpoint rules (d : deriv) : list edge :=
  match d with DLex e => [e] | DUn e d1 => e :: rules d1 | DBin e d1 d2 => e :: rules d1 ++ rules d2 end.
Definition product (l : list Qc) : Qc := fold_right Qcmult 1 l.

(** every item in the chart has a derivation *)
Definition productive (ch : chart) : Prop := forall x, In x (order ch) -> exists d, isderiv ch x d.
