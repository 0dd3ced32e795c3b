(** Model of discodop/coarsetofine.pyx:182-288: posteriorthreshold, getinside,
    getoutside, of containers.pyx:140-147 Chart.lexprob, and of
    containers.pyx:169-178, 244-260 Chart.filter, _filtersubtree.

    Probabilities are exact rationals (the code uses doubles; rounding and
    underflow are not modelled).  The arrays chart.inside/outside are functions
    from item numbers, 0 where nothing was added (resize(..., 0.0)).
    [expneg x] stands for exp(-x). *)
From Coq Require Import QArith Qcanon List Bool.
Import ListNotations.
Open Scope Qc_scope.

(** An edge with the probability of its rule (after
    grammar.switch(model, logprob=False)).  ELex: a lexical rule with
    probability p was found; EUnk: no lexical rule was found, v is the Viterbi
    score chart.probs[item]. *)
Inductive edge :=
  | ELex (p : Qc)
  | EUnk (v : Qc)
  | EUn (p : Qc) (l : nat)
  | EBin (p : Qc) (l r : nat).

(** [order]: the items getitemidx(1), ..., getitemidx(numitems()) *)
Record chart := { forest : nat -> list edge; order : list nat; root : nat; logprob : bool }.

Definition upd (f : nat -> Qc) (i : nat) (v : Qc) : nat -> Qc := fun k => if Nat.eqb k i then v else f k.

Section Floats.
Variable expneg : Qc -> Qc.

(** containers.pyx:140-147 lexprob; 237-247 with the fall back *)
Definition lexvalue (ch : chart) (e : edge) : Qc :=
  match e with
  | ELex p => if logprob ch then expneg p else p
  | EUnk v => if logprob ch then expneg v else v
  | _ => 0
  end.

(** coarsetofine.pyx:234-256 *)
Definition insidevalue (ch : chart) (I : nat -> Qc) (e : edge) : Qc :=
  match e with
  | EUn p l => p * I l
  | EBin p l r => p * I l * I r
  | _ => lexvalue ch e
  end.
Definition inside_item (ch : chart) (I : nat -> Qc) (item : nat) : nat -> Qc :=
  fold_left (fun I e => upd I item (I item + insidevalue ch I e)) (forest ch item) I.
(** 214-256 *)
Definition getinside (ch : chart) : nat -> Qc := fold_left (inside_item ch) (order ch) (fun _ => 0).

(** 270-288 *)
Definition outside_edge (I : nat -> Qc) (item : nat) (O : nat -> Qc) (e : edge) : nat -> Qc :=
  match e with
  | ELex _ | EUnk _ => O
  | EUn p l => upd O l (O l + p * O item)
  | EBin p l r =>
      let outsideprob := O item in
      let O := upd O l (O l + p * I r * outsideprob) in
      upd O r (O r + p * I l * outsideprob)
  end.
Definition outside_item (ch : chart) (I : nat -> Qc) (O : nat -> Qc) (item : nat) : nat -> Qc :=
  fold_left (outside_edge I item) (forest ch item) O.
(** 259-288 *)
Definition getoutside (ch : chart) : nat -> Qc :=
  fold_left (outside_item ch (getinside ch)) (rev (order ch)) (upd (fun _ => 0) (root ch) 1).

Definition ltb (x y : Qc) : bool := negb (Qle_bool (this y) (this x)).

(** 182-201 posteriorthreshold.  None: ValueError.  The code goes over all item
    numbers; those not in [order] have inside 0 and are not selected. *)
Definition posteriorthreshold (ch : chart) (threshold : Qc) : option (list nat) :=
  if negb (ltb 0 threshold && ltb threshold 1) then None
  else
    let sentprob := getinside ch (root ch) in
    if Qc_eq_bool sentprob 0 then None
    else Some (filter (fun i => ltb (threshold * sentprob) (getinside ch i * getoutside ch i)) (order ch)).
End Floats.

(** containers.pyx:244-260 _filtersubtree: depth first, over the items [A] of
    any kind of chart; [edges x] lists the daughters of each edge of x (none for
    a lexical edge); [fuel] bounds the recursion depth (shown to be sufficient) *)
Section Filter.
Variables (A : Type) (eqb : A -> A -> bool) (edges : A -> list (list A)).
Definition mem (x : A) (l : list A) : bool := existsb (eqb x) l.
Fixpoint filtersubtree (fuel : nat) (item : A) (items : list A) : list A :=
  match fuel with
  | O => items
  | S f =>
      fold_left (fun items e =>
        match e with
        | [] => items
        | [l] => if mem l items then items else filtersubtree f l items
        | l :: r :: _ =>
            let items := if mem l items then items else filtersubtree f l items in
            if mem r items then items else filtersubtree f r items
        end) (edges item) (item :: items)
  end.
(** 169-178 filter: of the items numbered 1..numitems, those not to be cleared *)
Definition itemstokeep (rt : A) (numbered : list A) : list A := filtersubtree (S (length numbered)) rt [].
(** 169-178: the edges left of [item] *)
Definition filteredforest {E} (forest : A -> list E) (rt : A) (numbered : list A) (item : A) : list E :=
  if mem item numbered && negb (mem item (itemstokeep rt numbered)) then [] else forest item.
(** coarsetofine.pyx:117-121: k == 0, the items that still have edges *)
Definition filtereditems {E} (forest : A -> list E) (rt : A) (numbered : list A) : list A :=
  filter (fun i => match filteredforest forest rt numbered i with [] => false | _ => true end) numbered.
End Filter.

(** _left, _right *)
Definition daughters (e : edge) : list nat :=
  match e with EUn _ l => [l] | EBin _ l r => [l; r] | _ => [] end.
Definition chartfilter (ch : chart) : chart :=
  {| forest := filteredforest nat Nat.eqb (fun i => map daughters (forest ch i)) (forest ch) (root ch) (order ch);
     order := order ch; root := root ch; logprob := logprob ch |}.
Definition keptitems (ch : chart) : list nat :=
  filtereditems nat Nat.eqb (fun i => map daughters (forest ch i)) (forest ch) (root ch) (order ch).
