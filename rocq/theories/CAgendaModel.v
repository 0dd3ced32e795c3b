(** Model of the compiled agenda, discodop/_containers.h:31-196. *)
From Coq Require Import List Bool Arith Lia Permutation.
From Verif Require Import AgendaModel.
Import ListNotations.

(** Observable operations. *)
Inductive cop (K V : Type) : Type :=
| CSet (k : K) (v : V) | CSetIfBetter (k : K) (v : V) | CPop
| CMember (k : K) | CSize | CEmpty.
Inductive cres (K V : Type) : Type :=
| CNone | CNoItem | CItem (k : K) (v : V) | CBool (b : bool) | CNum (n : nat).
Arguments CSet {K V}. Arguments CSetIfBetter {K V}. Arguments CPop {K V}. Arguments CMember {K V}.
Arguments CSize {K V}. Arguments CEmpty {K V}.
Arguments CNone {K V}. Arguments CNoItem {K V}. Arguments CItem {K V}. Arguments CBool {K V}. Arguments CNum {K V}.

Section CAgenda.
Context {K V : Type}.
Variable keqb : K -> K -> bool.
Variable vlt veq : V -> V -> bool.

(** _containers.h:39-46 struct Entry.  [ccount] is uint32_t; its wrap-around
    after 2^32 insertions (which can only affect the order of ties) is not modelled. *)
Record centry := CE { ckey : K; cvalue : V; ccount : nat }.
(** _containers.h:172-178 Cmp (CmpRev is its mirror image) *)
Definition clt (a b : centry) : bool :=
  vlt (cvalue a) (cvalue b) || (veq (cvalue a) (cvalue b) && (ccount a <? ccount b)).
(** The heap (gheap's 4-ary heap, an external library) is a bag of entries;
    the hash map is an association list, used only through find / [] / erase /
    size; [ccounter] is [counter]. *)
Record cagenda := CA { cheap : list centry; cmap : list (K * centry); ccounter : nat }.

(** heap.top() followed by heap.pop(): any element no other element is less than. *)
Definition top (h : list centry) (e : centry) (h' : list centry) : Prop :=
  Permutation h (e :: h') /\ Forall (fun x => clt x e = false) h'.

(** _containers.h:123-133 setitem *)
Definition csetitem (s : cagenda) (k : K) (v : V) : cagenda :=
  let e := CE k v (S (ccounter s)) in
  CA (e :: cheap s) (dput keqb (cmap s) k e) (S (ccounter s)).
(** _containers.h:134-148 setifbetter *)
Definition csetifbetter (s : cagenda) (k : K) (v : V) : cagenda :=
  match dget keqb (cmap s) k with
  | None => csetitem s k v
  | Some x =>
    if vlt v (cvalue x) then
      let e := CE k v (ccount x) in
      CA (e :: cheap s) (dput keqb (cmap s) k e) (ccounter s)
    else s
  end.
(** _containers.h:156-168, the loop of pop: skip entries not in the map; the
    first valid one is popped.  [None]: the heap ran empty. *)
Inductive cpop_loop (m : list (K * centry)) : list centry -> list centry -> option centry -> Prop :=
| pl_found : forall h e h' x, top h e h' -> dget keqb m (ckey e) = Some x -> cpop_loop m h h' (Some e)
| pl_empty : forall h e, top h e [] -> dget keqb m (ckey e) = None -> cpop_loop m h [] None
| pl_skip : forall h e h' h'' r, top h e h' -> dget keqb m (ckey e) = None -> h' <> [] ->
    cpop_loop m h' h'' r -> cpop_loop m h h'' r.
(** _containers.h:149-169 pop *)
Inductive cpop : cagenda -> cres K V -> cagenda -> Prop :=
| pop_none : forall s, cmap s = [] -> cpop s CNoItem s
| pop_item : forall s h e, cmap s <> [] -> cpop_loop (cmap s) (cheap s) h (Some e) ->
    cpop s (CItem (ckey e) (cvalue e)) (CA h (drop keqb (cmap s) (ckey e)) (ccounter s))
| pop_lost : forall s h, cmap s <> [] -> cpop_loop (cmap s) (cheap s) h None ->
    cpop s CNoItem (CA h (cmap s) (ccounter s)).

(** _containers.h:120-122 member, empty, size *)
Inductive cstep : cagenda -> cop K V -> cres K V -> cagenda -> Prop :=
| cs_set : forall s k v, cstep s (CSet k v) CNone (csetitem s k v)
| cs_setb : forall s k v, cstep s (CSetIfBetter k v) CNone (csetifbetter s k v)
| cs_pop : forall s r s', cpop s r s' -> cstep s CPop r s'
| cs_mem : forall s k, cstep s (CMember k)
    (CBool (match dget keqb (cmap s) k with Some _ => true | None => false end)) s
| cs_size : forall s, cstep s CSize (CNum (length (cmap s))) s
| cs_empty : forall s, cstep s CEmpty (CBool (match cmap s with [] => true | _ => false end)) s.
Inductive crun : cagenda -> list (cop K V) -> list (cres K V) -> Prop :=
| cr_nil : forall s, crun s [] []
| cr_cons : forall s o r s' ops rs, cstep s o r s' -> crun s' ops rs -> crun s (o :: ops) (r :: rs).

Definition cempty : cagenda := CA [] [] 0.
(** _containers.h:60-78 replace_entries; the collected entries are heapified *)
Definition replace_step (mc : list (K * centry) * nat) (kv : K * V) : list (K * centry) * nat :=
  let '(m, c) := mc in (dput keqb m (fst kv) (CE (fst kv) (snd kv) (S c)), S c).
Definition replace_entries (l : list (K * V)) : cagenda :=
  let '(m, c) := fold_left replace_step l ([], 0) in
  CA (map snd m) m c.
(** _containers.h:86-98: first loop of kbest_entries *)
Definition kbest_step (mc : list (K * centry) * nat) (kv : K * V) : list (K * centry) * nat :=
  let '(m, c) := mc in
  match dget keqb m (fst kv) with
  | None => (dput keqb m (fst kv) (CE (fst kv) (snd kv) (S c)), S c)
  | Some x => if vlt (snd kv) (cvalue x)
              then (dput keqb m (fst kv) (CE (fst kv) (snd kv) (ccount x)), c)
              else (m, c)
  end.
(** _containers.h:79-119 kbest_entries.  [nth_element] (C++ standard library)
    leaves the vector permuted such that no element from position k on is less
    than one before it. *)
Inductive kbest_entries (l : list (K * V)) (k : nat) : cagenda -> Prop :=
| kb_all : forall m c, fold_left kbest_step l ([], 0) = (m, c) -> length m <= k ->
    kbest_entries l k (CA (map snd m) m c)
| kb_some : forall m c t1 t2, fold_left kbest_step l ([], 0) = (m, c) -> k < length m ->
    Permutation (map snd m) (t1 ++ t2) -> length t1 = k ->
    (forall a b, In a t1 -> In b t2 -> clt b a = false) ->
    kbest_entries l k (CA t1 (fold_left (fun m e => dput keqb m (ckey e) e) t1 []) c).
End CAgenda.
