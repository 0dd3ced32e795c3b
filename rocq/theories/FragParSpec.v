(** What recurringfragments returns, for C62 *)
From Coq Require Import List Arith Sorting.Sorted.
From Verif Require Import FragModel FragSpec FragProofs7 FragParModel.
Import ListNotations.

(** f is a maximal common fragment of two different trees *)
Definition recurs (trees : list btree) (f : frag) : Prop :=
  exists n m s t u v, n < m /\ nth_error trees n = Some s /\ nth_error trees m = Some t /\ common f s u t v /\ maximal f s u t v.
(** f is a fragment of some tree with depth and frontier non-terminals within
    the limits (cf. C57: each unary node counts as a frontier as well) *)
Definition small (maxdepth maxfrontier : nat) (trees : list btree) (f : frag) : Prop :=
  f <> Open /\ depth f <= maxdepth /\ frontiers f + unaries f <= maxfrontier /\ exists n t u, nth_error trees n = Some t /\ occurs f t u.
(** ids: for every occurrence of f in tree n the number n, in ascending order *)
Definition indices_of (trees : list btree) (f : frag) (ids : list nat) : Prop :=
  StronglySorted le ids /\ (forall n, In n ids -> n < length trees) /\
  forall n t places, nth_error trees n = Some t -> NoDup places -> (forall u, In u places <-> occurs f t u) ->
    count_occ Nat.eq_dec ids n = length places.

(** consecutive intervals from s to e *)
Fixpoint tiles (s e : nat) (l : list (nat * nat)) : Prop :=
  match l with
  | [] => s = e
  | (a, b) :: r => a = s /\ a < b /\ tiles b e r
  end.
(** number of pairs (n, m), a <= n < b, n < m < N *)
Definition comparisons (N a b : nat) : nat := list_sum (map (fun n => N - 1 - n) (seq a (b - a))).
