(** What a priority queue that keeps the best priority per key should do. *)
From Coq Require Import List Bool.
From Verif Require Import AgendaSpec CAgendaModel.
Import ListNotations.

Section Spec.
Context {K V : Type}.
Variable lt : V -> V -> Prop.
Notation dict := (list (K * V)).

(** Insert, or lower the priority of a stored key; otherwise no change. *)
Inductive improves (k : K) (v : V) : dict -> dict -> Prop :=
| imp_new : forall d, ~ has d k -> improves k v d (d ++ [(k, v)])
| imp_better : forall d1 v0 d2, lt v v0 -> improves k v (d1 ++ (k, v0) :: d2) (d1 ++ (k, v) :: d2)
| imp_same : forall d v0, In (k, v0) d -> ~ lt v v0 -> improves k v d d.

Inductive qstep (pick : dict -> K -> V -> Prop) : dict -> cop K V -> cres K V -> dict -> Prop :=
| q_set : forall d k v d', puts k v d d' -> qstep pick d (CSet k v) CNone d'
| q_setb : forall d k v d', improves k v d d' -> qstep pick d (CSetIfBetter k v) CNone d'
| q_pop : forall d k v d', pick d k v -> removes k v d d' -> qstep pick d CPop (CItem k v) d'
| q_pop_no : qstep pick [] CPop CNoItem []
| q_mem : forall d k, has d k -> qstep pick d (CMember k) (CBool true) d
| q_mem_no : forall d k, ~ has d k -> qstep pick d (CMember k) (CBool false) d
| q_size : forall d, qstep pick d CSize (CNum (length d)) d
| q_empty : qstep pick [] CEmpty (CBool true) []
| q_empty_no : forall d, d <> [] -> qstep pick d CEmpty (CBool false) d.
Inductive qrun (pick : dict -> K -> V -> Prop) : dict -> list (cop K V) -> list (cres K V) -> Prop :=
| qr_nil : forall d, qrun pick d [] []
| qr_cons : forall d o r d' ops rs, qstep pick d o r d' -> qrun pick d' ops rs ->
    qrun pick d (o :: ops) (r :: rs).

(** Histories in which a priority stored unconditionally, or for a key that is
    not stored, is never worse than one given earlier for the same key.  [seen]
    lists the priorities given so far. *)
Inductive improving : dict -> dict -> list (cop K V) -> Prop :=
| im_nil : forall d seen, improving d seen []
| im_set : forall d seen k v ops, (forall v0, In (k, v0) seen -> ~ lt v0 v) ->
    (forall d', puts k v d d' -> improving d' ((k, v) :: seen) ops) ->
    improving d seen (CSet k v :: ops)
| im_setb : forall d seen k v ops, (~ has d k -> forall v0, In (k, v0) seen -> ~ lt v0 v) ->
    (forall d', improves k v d d' -> improving d' ((k, v) :: seen) ops) ->
    improving d seen (CSetIfBetter k v :: ops)
| im_pop : forall d seen ops,
    (forall k v d', least lt d k v -> removes k v d d' -> improving d' seen ops) ->
    (d = [] -> improving [] seen ops) ->
    improving d seen (CPop :: ops)
| im_other : forall d seen o ops,
    match o with CMember _ | CSize | CEmpty => True | _ => False end ->
    improving d seen ops -> improving d seen (o :: ops).

(** Histories of setifbetter and pop in which no popped key is inserted again. *)
Inductive no_reinsert : dict -> list K -> list (cop K V) -> Prop :=
| nr_nil : forall d gone, no_reinsert d gone []
| nr_setb : forall d gone k v ops, ~ In k gone ->
    (forall d', improves k v d d' -> no_reinsert d' gone ops) ->
    no_reinsert d gone (CSetIfBetter k v :: ops)
| nr_pop : forall d gone ops,
    (forall k v d', oldest_least lt d k v -> removes k v d d' -> no_reinsert d' (k :: gone) ops) ->
    (d = [] -> no_reinsert [] gone ops) ->
    no_reinsert d gone (CPop :: ops)
| nr_other : forall d gone o ops,
    match o with CMember _ | CSize | CEmpty => True | _ => False end ->
    no_reinsert d gone ops -> no_reinsert d gone (o :: ops).

(** The k best of [d] by priority, older entries first among ties. *)
Definition best_of (d : dict) (k : nat) (d' : dict) : Prop :=
  exists rest, (forall x, In x d <-> In x d' \/ In x rest) /\ NoDup (map fst (d' ++ rest)) /\
    length d' = Nat.min k (length d) /\
    (forall ka va kb vb, In (ka, va) d' -> In (kb, vb) rest ->
       lt va vb \/ (~ lt vb va /\ exists d1 d2 d3, d = d1 ++ (ka, va) :: d2 ++ (kb, vb) :: d3)).
End Spec.
