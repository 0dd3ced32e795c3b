(** Specification for C40: the derivations of a chart *)
From Coq Require Import List NArith Lia.
From Verif Require Import KbestModel.
Import ListNotations.
Open Scope list_scope.
Open Scope nat_scope.

(** a derivation of item v is a tree of edges of the chart *)
Inductive derivation (forest : nat -> list edge) : nat -> dtree -> Prop :=
| d_lex : forall v e, In e (forest v) -> eno e = None -> derivation forest v (DLex e)
| d_un : forall v e n t, In e (forest v) -> eno e = Some n -> eright e = None -> derivation forest (eleft e) t -> derivation forest v (DUn e t)
| d_bin : forall v e n r t u, In e (forest v) -> eno e = Some n -> eright e = Some r -> derivation forest (eleft e) t -> derivation forest r u ->
    derivation forest v (DBin e t u).
(** its negative log probability: the sum of those of its rules *)
Fixpoint dcost (t : dtree) : N :=
  match t with
  | DLex e => eprob e
  | DUn e t => eprob e + dcost t
  | DBin e t u => eprob e + dcost t + dcost u
  end.
Definition edges_between (forest : nat -> list edge) (v c : nat) : Prop :=
  exists e n, In e (forest v) /\ eno e = Some n /\ (eleft e = c \/ eright e = Some c).
(** A chart as the parsers make it: without cycles ([height] decreases from an
    item to the items below it), [sub] is the probability of the best
    derivation, a lexical edge is the best derivation of its item, and the rule
    number and the position identify an edge among those of one item. *)
Record chart_ok (forest : nat -> list edge) (sub : nat -> N) (height : nat -> nat) : Prop := {
  ok_acyclic : forall v c, edges_between forest v c -> height c < height v;
  ok_complete : forall v c, edges_between forest v c -> forest c <> [];
  ok_viterbi : forall v, forest v <> [] -> (exists t, derivation forest v t /\ dcost t = sub v) /\ (forall t, derivation forest v t -> (sub v <= dcost t)%N);
  ok_lexical : forall v e, In e (forest v) -> eno e = None -> eprob e = sub v;
  ok_keys : forall v e e', In e (forest v) -> In e' (forest v) -> eno e = eno e' -> epos e = epos e' -> e = e' }.
(** the rule number and the position identify an edge among those of all items *)
Definition unique_edges (forest : nat -> list edge) : Prop :=
  forall v v' e e' n, In e (forest v) -> In e' (forest v') -> eno e = Some n -> eno e' = Some n -> epos e = epos e' -> v = v'.
