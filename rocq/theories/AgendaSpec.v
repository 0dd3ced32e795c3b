(** What a priority queue with a dictionary interface should do, stated on
    plain association lists in insertion order. *)
From Coq Require Import List Bool ZArith.
From Verif Require Import AgendaModel.
Import ListNotations.

Section Spec.
Context {K V : Type}.
Variable lt : V -> V -> Prop.
Definition dict := list (K * V).
Definition has (d : dict) (k : K) : Prop := exists v, In (k, v) d.

(** [d'] is [d] with [k] bound to [v]: in place if present, else at the end. *)
Inductive puts (k : K) (v : V) : dict -> dict -> Prop :=
| puts_new : forall d, ~ has d k -> puts k v d (d ++ [(k, v)])
| puts_old : forall d1 v0 d2, ~ has d1 k -> puts k v (d1 ++ (k, v0) :: d2) (d1 ++ (k, v) :: d2).
Inductive removes (k : K) (v : V) : dict -> dict -> Prop :=
| removes_intro : forall d1 d2, ~ has d1 k -> removes k v (d1 ++ (k, v) :: d2) (d1 ++ d2).
Inductive puts_all : list (K * V) -> dict -> dict -> Prop :=
| puts_all_nil : forall d, puts_all [] d d
| puts_all_cons : forall k v l d d1 d2, puts k v d d1 -> puts_all l d1 d2 -> puts_all ((k, v) :: l) d d2.
(** Least value. *)
Definition least (d : dict) (k : K) (v : V) : Prop :=
  In (k, v) d /\ forall k' v', In (k', v') d -> ~ lt v' v.
(** Least value, and the oldest key among equals. *)
Definition oldest_least (d : dict) (k : K) (v : V) : Prop :=
  exists d1 d2, d = d1 ++ (k, v) :: d2 /\
    (forall k' v', In (k', v') d1 -> lt v v') /\ (forall k' v', In (k', v') d2 -> ~ lt v' v).

(** [pick] says which item may be popped. *)
Inductive spec_step (pick : dict -> K -> V -> Prop) : dict -> op K V -> result K V -> dict -> Prop :=
| S_set : forall d k v d', puts k v d d' -> spec_step pick d (OSet k v) RNone d'
| S_update : forall d l d', puts_all l d d' -> spec_step pick d (OUpdate l) RNone d'
| S_del : forall d k v d', removes k v d d' -> spec_step pick d (ODel k) RNone d'
| S_del_no : forall d k, ~ has d k -> spec_step pick d (ODel k) RKeyError d
| S_pop : forall d k v d', removes k v d d' -> spec_step pick d (OPop k) (RVal v) d'
| S_pop_no : forall d k, ~ has d k -> spec_step pick d (OPop k) RKeyError d
| S_popnone : forall d k v d', pick d k v -> removes k v d d' -> spec_step pick d OPopNone (RVal v) d'
| S_popnone_no : spec_step pick [] OPopNone RIndexError []
| S_popitem : forall d k v d', pick d k v -> removes k v d d' -> spec_step pick d OPopItem (RItem k v) d'
| S_popitem_no : spec_step pick [] OPopItem RIndexError []
| S_peek : forall d k v, pick d k v -> spec_step pick d OPeek (RItem k v) d
| S_peek_no : spec_step pick [] OPeek RIndexError []
| S_get : forall d k v, In (k, v) d -> spec_step pick d (OGet k) (RVal v) d
| S_get_no : forall d k, ~ has d k -> spec_step pick d (OGet k) RKeyError d
| S_in : forall d k, has d k -> spec_step pick d (OContains k) (RBool true) d
| S_in_no : forall d k, ~ has d k -> spec_step pick d (OContains k) (RBool false) d
| S_len : forall d, spec_step pick d OLen (RLen (Z.of_nat (length d))) d
| S_bool : forall d, d <> [] -> spec_step pick d OBool (RBool true) d
| S_bool_no : spec_step pick [] OBool (RBool false) []
| S_items : forall d, spec_step pick d OItems (RItems d) d
| S_clear : forall d, spec_step pick d OClear RNone [].

Inductive spec_run (pick : dict -> K -> V -> Prop) : dict -> list (op K V) -> list (result K V) -> Prop :=
| run_nil : forall d, spec_run pick d [] []
| run_cons : forall d o r d' ops rs, spec_step pick d o r d' -> spec_run pick d' ops rs ->
    spec_run pick d (o :: ops) (r :: rs).

(** Initial contents: each key once, in order of first occurrence, with the
    best value given for it. *)
Inductive initial : list (K * V) -> dict -> Prop :=
| initial_nil : initial [] []
| initial_new : forall l k v d, initial l d -> ~ has d k -> initial (l ++ [(k, v)]) (d ++ [(k, v)])
| initial_better : forall l k v d d1 v0 d2, initial l d -> d = d1 ++ (k, v0) :: d2 -> lt v v0 ->
    initial (l ++ [(k, v)]) (d1 ++ (k, v) :: d2)
| initial_worse : forall l k v d v0, initial l d -> In (k, v0) d -> ~ lt v v0 ->
    initial (l ++ [(k, v)]) d.

(** Histories that only insert new keys, pop the best item and query;
    [peek] says whether peekitem may occur. *)
Inductive fresh_history (peek : Prop) : dict -> list (op K V) -> Prop :=
| fh_nil : forall d, fresh_history peek d []
| fh_set : forall d k v ops, ~ has d k -> fresh_history peek (d ++ [(k, v)]) ops ->
    fresh_history peek d (OSet k v :: ops)
| fh_popitem : forall d ops,
    (forall k v d', oldest_least d k v -> removes k v d d' -> fresh_history peek d' ops) ->
    (d = [] -> fresh_history peek [] ops) ->
    fresh_history peek d (OPopItem :: ops)
| fh_peek : forall d ops, peek -> fresh_history peek d ops -> fresh_history peek d (OPeek :: ops)
| fh_get : forall d k ops, fresh_history peek d ops -> fresh_history peek d (OGet k :: ops)
| fh_in : forall d k ops, fresh_history peek d ops -> fresh_history peek d (OContains k :: ops)
| fh_items : forall d ops, fresh_history peek d ops -> fresh_history peek d (OItems :: ops).

End Spec.
