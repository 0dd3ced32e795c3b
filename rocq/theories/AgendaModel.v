(** Model of discodop/util.py:200-344, class PyAgenda (alias Agenda). *)
From Coq Require Import List Bool Arith ZArith Lia.
From Verif Require Import HeapqModel.
Import ListNotations.

(** Observable operations of the agenda and their outcomes. *)
Inductive op (K V : Type) : Type :=
| OSet (k : K) (v : V)        (* agenda[k] = v *)
| OUpdate (l : list (K * V))  (* agenda.update(l) *)
| ODel (k : K)                (* del agenda[k] *)
| OPop (k : K)                (* agenda.pop(k), k not None *)
| OPopNone                    (* agenda.pop(None) *)
| OPopItem                    (* agenda.popitem() *)
| OPeek                       (* agenda.peekitem() *)
| OGet (k : K)                (* agenda[k] *)
| OContains (k : K)           (* k in agenda *)
| OLen                        (* len(agenda) *)
| OBool                       (* bool(agenda) *)
| OItems                      (* list(agenda.items()) *)
| OClear.                     (* agenda.clear() *)
Inductive result (K V : Type) : Type :=
| RNone | RKeyError | RIndexError
| RVal (v : V) | RItem (k : K) (v : V) | RBool (b : bool) | RLen (n : Z)
| RItems (l : list (K * V)).
Arguments OSet {K V}. Arguments OUpdate {K V}. Arguments ODel {K V}. Arguments OPop {K V}.
Arguments OPopNone {K V}. Arguments OPopItem {K V}. Arguments OPeek {K V}. Arguments OGet {K V}.
Arguments OContains {K V}. Arguments OLen {K V}. Arguments OBool {K V}. Arguments OItems {K V}.
Arguments OClear {K V}.
Arguments RNone {K V}. Arguments RKeyError {K V}. Arguments RIndexError {K V}. Arguments RVal {K V}.
Arguments RItem {K V}. Arguments RBool {K V}. Arguments RLen {K V}. Arguments RItems {K V}.

Section Agenda.
Context {K V : Type}.
Variable keqb : K -> K -> bool.       (* == on keys *)
Variable vlt veq : V -> V -> bool.    (* < and == on values *)

(** util.py:200-213 class Entry.  [eid] is the identity of the Python object,
    which is shared between the heap and the mapping. *)
Record entry := E { ekey : K; evalue : V; ecount : nat; eid : nat }.
(** util.py:207-209 Entry.__lt__ *)
Definition entry_lt (a b : entry) : bool :=
  vlt (evalue a) (evalue b) || (veq (evalue a) (evalue b) && (ecount a <? ecount b)).

(** [next_id]: number of Entry objects created so far. *)
Record agenda := A { heap : list entry; mapping : list (K * entry); counter : nat;
                     alen : Z; next_id : nat }.

(** dict operations; a dict keeps insertion order *)
Fixpoint dget {X} (d : list (K * X)) (k : K) : option X :=
  match d with
  | [] => None
  | (k', x) :: t => if keqb k k' then Some x else dget t k
  end.
Fixpoint dput {X} (d : list (K * X)) (k : K) (x : X) : list (K * X) :=
  match d with
  | [] => [(k, x)]
  | (k', x') :: t => if keqb k k' then (k', x) :: t else (k', x') :: dput t k x
  end.
Fixpoint drop {X} (d : list (K * X)) (k : K) : list (K * X) :=
  match d with
  | [] => []
  | (k', x') :: t => if keqb k k' then t else (k', x') :: drop t k
  end.

(** [oldentry.count = INVALID]: the object is mutated in place, so the change
    shows in the heap as well. *)
Definition invalidate (i : nat) (h : list entry) : list entry :=
  map (fun e => if eid e =? i then E (ekey e) (evalue e) 0 (eid e) else e) h.

(** util.py:231-243 loop of __init__ *)
Definition init_step (s : agenda) (kv : K * V) : agenda :=
  let '(k, v) := kv in
  let e := E k v (counter s) (next_id s) in
  match dget (mapping s) k with
  | Some old =>
    if entry_lt e old then
      let e' := E k v (ecount old) (next_id s) in
      A (invalidate (eid old) (heap s) ++ [e']) (dput (mapping s) k e')
        (counter s) (alen s) (S (next_id s))
    else A (heap s) (mapping s) (counter s) (alen s) (S (next_id s))
  | None => A (heap s ++ [e]) (dput (mapping s) k e) (S (counter s)) (alen s) (S (next_id s))
  end.
(** util.py:224-245 __init__ (an empty or absent iterable gives the empty agenda) *)
Definition init (l : list (K * V)) : agenda :=
  let s := fold_left init_step l (A [] [] 1 0%Z 0) in
  A (heapify entry_lt (heap s)) (mapping s) (counter s)
    (Z.of_nat (length (mapping s))) (next_id s).

(** util.py:300-310 __setitem__ *)
Definition setitem (s : agenda) (k : K) (v : V) : agenda :=
  match dget (mapping s) k with
  | Some old =>
    let e := E k v (ecount old) (next_id s) in
    A (heappush entry_lt (invalidate (eid old) (heap s)) e) (dput (mapping s) k e)
      (counter s) (alen s) (S (next_id s))
  | None =>
    let e := E k v (counter s) (next_id s) in
    A (heappush entry_lt (heap s) e) (dput (mapping s) k e)
      (S (counter s)) (alen s + 1)%Z (S (next_id s))
  end.
(** util.py:312-316 __delitem__, util.py:261-268 pop *)
Definition delitem (s : agenda) (k : K) : option (V * agenda) :=
  match dget (mapping s) k with
  | Some e => Some (evalue e, A (invalidate (eid e) (heap s)) (drop (mapping s) k)
                                (counter s) (alen s - 1)%Z (next_id s))
  | None => None
  end.
(** util.py:273-275: pop until a valid entry comes up *)
Fixpoint pop_valid (fuel : nat) (h : list entry) : list entry * option entry :=
  match fuel with
  | O => (h, None)
  | S f => match heappop entry_lt h with
           | None => (h, None)
           | Some (e, h') => if ecount e =? 0 then pop_valid f h' else (h', Some e)
           end
  end.
(** util.py:270-278 popitem *)
Definition popitem (s : agenda) : agenda * result K V :=
  match pop_valid (S (length (heap s))) (heap s) with
  | (h, None) => (A h (mapping s) (counter s) (alen s) (next_id s), RIndexError)
  | (h, Some e) => (A h (drop (mapping s) (ekey e)) (counter s) (alen s - 1)%Z (next_id s),
                    RItem (ekey e) (evalue e))
  end.
(** util.py:253-258: loop of peekitem *)
Fixpoint peek_loop (fuel : nat) (e : entry) (n : nat) (h : list entry)
  : list entry * option entry :=
  match fuel with
  | O => (h, None)
  | S f =>
    if ecount e =? 0 then
      if n =? 1 then (h, None)
      else match heappop entry_lt h with
           | None => (h, None)
           | Some (e', h') => peek_loop f e' (n - 1) h'
           end
    else (h, Some e)
  end.
(** util.py:247-258 peekitem *)
Definition peekitem (s : agenda) : agenda * result K V :=
  match heap s with
  | [] => (s, RIndexError)
  | e :: _ =>
    match peek_loop (S (length (heap s))) e (length (heap s)) (heap s) with
    | (h, None) => (A h (mapping s) (counter s) (alen s) (next_id s), RIndexError)
    | (h, Some e') => (A h (mapping s) (counter s) (alen s) (next_id s),
                       RItem (ekey e') (evalue e'))
    end
  end.
(** util.py:280-286 update; 288-292 clear; 294-298, 325-344 queries *)
Definition step (s : agenda) (o : op K V) : agenda * result K V :=
  match o with
  | OSet k v => (setitem s k v, RNone)
  | OUpdate l => (fold_left (fun s kv => setitem s (fst kv) (snd kv)) l s, RNone)
  | ODel k => match delitem s k with Some (_, s') => (s', RNone) | None => (s, RKeyError) end
  | OPop k => match delitem s k with Some (v, s') => (s', RVal v) | None => (s, RKeyError) end
  | OPopNone => match popitem s with
                | (s', RItem _ v) => (s', RVal v)
                | (s', r) => (s', r)
                end
  | OPopItem => popitem s
  | OPeek => peekitem s
  | OGet k => match dget (mapping s) k with Some e => (s, RVal (evalue e)) | None => (s, RKeyError) end
  | OContains k => (s, RBool (match dget (mapping s) k with Some _ => true | None => false end))
  | OLen => (s, RLen (alen s))
  | OBool => (s, RBool (negb (alen s =? 0)%Z))
  | OItems => (s, RItems (map (fun ke => (fst ke, evalue (snd ke))) (mapping s)))
  | OClear => (A [] [] 1 (alen s) (next_id s), RNone)
  end.
Fixpoint run (s : agenda) (ops : list (op K V)) : list (result K V) :=
  match ops with
  | [] => []
  | o :: t => let '(s', r) := step s o in r :: run s' t
  end.
End Agenda.
