(** _grammar.pxi: Grammar.switch (707-763) and incrementrulecount (975-980): the
    weights in use of a grammar and their selection.

    Simplifications: weights are exact rationals; a stored probability is a pair
    of a representation (true: fabs(log(x)), false: x) and x; arrays are lists;
    alternative weights have been loaded into self.models (the lazy np.load of
    altweightsfile is left out; a model that cannot be found is a failure);
    failures (KeyError, ValueError), which all come before the first assignment,
    give [None]. *)
From Coq Require Import List Bool Arith NArith.
From Coq Require Import QArith Qcanon.
From Verif Require Import PyStr.
Import ListNotations.
Open Scope nat_scope.

Definition weight := (bool * Qc)%type.
(** ProbRule: number, left-hand side, probability (the rest is never changed) *)
Record prule := PRule { rno : nat; rlhs : nat; rw : weight }.
Definition setw (r : prule) (w : weight) : prule := PRule (rno r) (rlhs r) w.

Record gram := Gram {
  numrules : nat;
  rbylhs : list prule; runary : list prule; rlbin : list prule; rrbin : list prule;
  rlex : list (nat * weight);                 (* lexical: left-hand side, probability *)
  counts : list Qc; lexcounts : list Qc; mass : list Qc;
  revmap : list nat;                          (* revrulemap: rule number to index in bylhs *)
  models : list (pystr * list Qc);
  model : pystr; logprob : bool }.

Fixpoint getmodel (m : list (pystr * list Qc)) (name : pystr) : option (list Qc) :=
  match m with [] => None | (k, v) :: m' => if eqs k name then Some v else getmodel m' name end.
Definition qat (l : list Qc) (n : nat) : Qc := nth n l 0%Qc.
(** enumerate(self.lexical) *)
Fixpoint enum {A B} (f : nat -> A -> B) (n : nat) (l : list A) : list B :=
  match l with [] => [] | x :: l' => f n x :: enum f (S n) l' end.

(** 715-741 *)
Definition defaults (g : gram) (lp : bool) : gram :=
  let bl := map (fun r => setw r (lp, (qat (counts g) (rno r) / qat (mass g) (rlhs r))%Qc)) (rbylhs g) in
  let lx := enum (fun n x => (fst x, (lp, (qat (lexcounts g) n / qat (mass g) (fst x))%Qc))) 0 (rlex g) in
  let copy r := setw r (match nth_error bl (nth (rno r) (revmap g) 0) with Some b => rw b | None => rw r end) in
  Gram (numrules g) bl (map copy (runary g)) (map copy (rlbin g)) (map copy (rrbin g)) lx
    (counts g) (lexcounts g) (mass g) (revmap g) (models g) (model g) (logprob g).
(** 742-761 *)
Definition alternative (g : gram) (m : list Qc) (lp : bool) : gram :=
  let assign r := setw r (lp, qat m (rno r)) in
  let lx := enum (fun n x => (fst x, (lp, qat m (numrules g + n)))) 0 (rlex g) in
  Gram (numrules g) (map assign (rbylhs g)) (map assign (runary g)) (map assign (rlbin g)) (map assign (rrbin g)) lx
    (counts g) (lexcounts g) (mass g) (revmap g) (models g) (model g) (logprob g).
Definition selected (g : gram) (name : pystr) (lp : bool) : gram :=
  Gram (numrules g) (rbylhs g) (runary g) (rlbin g) (rrbin g) (rlex g)
    (counts g) (lexcounts g) (mass g) (revmap g) (models g) name lp.
(** the name of the model of normalized counts *)
Definition DEFAULT : pystr := [100; 101; 102; 97; 117; 108; 116]%N.
(** 707-763 *)
Definition switch (name : pystr) (lp : bool) (g : gram) : option gram :=
  if eqs (model g) name && Bool.eqb (logprob g) lp then Some g
  else if eqs name DEFAULT then Some (selected (defaults g lp) name lp)
  else match getmodel (models g) name with
       | None => None
       | Some m =>
           if length m =? numrules g + length (rlex g)
           then Some (selected (alternative g m lp) name lp)
           else None
       end.
Fixpoint addat (l : list Qc) (n : nat) (x : Qc) : list Qc :=
  match l, n with
  | [], _ => []
  | y :: l', 0 => (y + x)%Qc :: l'
  | y :: l', S n' => y :: addat l' n' x
  end.
(** 975-980 *)
Definition increment (no : nat) (freq : Qc) (g : gram) : gram :=
  let lhs := match nth_error (rbylhs g) (nth no (revmap g) 0) with Some r => rlhs r | None => 0 end in
  Gram (numrules g) (rbylhs g) (runary g) (rlbin g) (rrbin g) (rlex g)
    (addat (counts g) no freq) (lexcounts g) (addat (mass g) lhs freq) (revmap g) (models g) (model g) (logprob g).
