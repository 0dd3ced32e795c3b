(** disambiguation.pyx: dopparseprob (888-967), the probability of a given parse
    tree under a DOP reduction.

    Simplifications: probabilities are exact rationals instead of floating point
    logarithms (addition stands for logprobadd, multiplication for addition);
    Python dictionaries are partial functions; trees are binarized (the
    ValueError for other nodes is excluded by the type) and carry the list of
    the rules of the reduction for the production of each node, i.e.
    fine.rulemapping[coarse.getruleno(r, yf)] (an unknown production
    gets the rules for number 0, see LookupModel.v; any list is allowed here). *)
From Coq Require Import String.
From Coq Require Import List Bool Arith NArith.
From Coq Require Import QArith Qcanon.
From Verif Require Import PyStr.
Import ListNotations.
Open Scope nat_scope.

(** ProbRule: [rhs2] is not used for unary rules. *)
Record rule := Rule { lhs : nat; rhs1 : nat; rhs2 : nat; rprob : Qc }.

(** A tree: labels as strings, leaves as indices. *)
Inductive rtree :=
| Pre (pos : pystr) (n : nat)
| Un (l : pystr) (rules : list rule) (c : rtree)
| Bin (l : pystr) (rules : list rule) (a b : rtree).
Definition label (t : rtree) : pystr := match t with Pre p _ => p | Un l _ _ => l | Bin l _ _ _ => l end.

(** tree.subtrees(): pre-order; tree.pos() *)
Fixpoint subtrees (t : rtree) : list rtree :=
  t :: match t with Pre _ _ => [] | Un _ _ c => subtrees c | Bin _ _ a b => subtrees a ++ subtrees b end.
Fixpoint tpos (t : rtree) : list (nat * pystr) :=
  match t with Pre p n => [(n, p)] | Un _ _ c => tpos c | Bin _ _ a b => tpos a ++ tpos b end.
(** node.bitset (addbitsets) *)
Fixpoint bits (t : rtree) : N :=
  match t with Pre _ n => N.shiftl 1 (N.of_nat n) | Un _ _ c => bits c | Bin _ _ a b => N.lor (bits a) (bits b) end.

(** Dictionaries *)
Definition cell := nat -> option Qc.
Definition chart := N -> option cell.
Definition empty : cell := fun _ => None.
Definition set (c : cell) (A : nat) (p : Qc) : cell := fun B => if B =? A then Some p else c B.
Definition setc (ch : chart) (k : N) (c : cell) : chart := fun k' => if N.eqb k' k then Some c else ch k'.
Definition getc (ch : chart) (k : N) : cell := match ch k with Some c => c | None => empty end.
(** the two branches with logprobadd *)
Definition addto (c : cell) (A : nat) (p : Qc) : cell :=
  match c A with Some q => set c A (Qcplus q p) | None => set c A p end.

Section Dopparseprob.
  Variable tolabel : nat -> pystr.                      (* fine.tolabel *)
  Variable toid : pystr -> nat.                         (* fine.toid *)
  Variable lexical : nat -> option (list (nat * Qc)).   (* rules for the n-th word: lhs, prob *)

  (** 924-925 *)
  Definition matches (pos : pystr) (A : nat) : bool :=
    eqs (tolabel A) pos || startswith (tolabel A) (pos ++ str "@"%string).
  (** 917-926 *)
  Definition poscell (pos : pystr) (n : nat) : cell :=
    match lexical n with
    | None => set empty (toid pos) 1%Qc
    | Some rs => fold_left (fun c '(A, p) => if matches pos A then set c A p else c) rs empty
    end.
  Definition addpos (t : rtree) : chart :=
    fold_left (fun ch '(n, pos) => setc ch (N.shiftl 1 (N.of_nat n)) (poscell pos n)) (tpos t) (fun _ => None).

  (** 938-945: unary rules, in place *)
  Definition unary (c : cell) (r : rule) : cell :=
    match c (rhs1 r) with Some q => addto c (lhs r) (Qcmult (rprob r) q) | None => c end.
  (** 946-957 *)
  Definition binary (lc rc : cell) (c : cell) (r : rule) : cell :=
    match lc (rhs1 r), rc (rhs2 r) with
    | Some q1, Some q2 => addto c (lhs r) (Qcmult (Qcmult (rprob r) q1) q2)
    | _, _ => c
    end.
  (** 929-957: the body for one node *)
  Definition step (ch : chart) (t : rtree) : chart :=
    match t with
    | Pre _ _ => ch
    | Un _ rules c => setc ch (bits t) (fold_left unary rules (getc ch (bits t)))
    | Bin _ rules a b =>
        setc ch (bits t) (fold_left (binary (getc ch (bits a)) (getc ch (bits b))) rules (getc ch (bits t)))
    end.
  (** 888-960; [None] is the probability 0 (logarithm -inf) *)
  Definition dopparseprob (t : rtree) : option Qc :=
    getc (fold_left step (rev (subtrees t)) (addpos t)) (bits t) (toid (label t)).
End Dopparseprob.
