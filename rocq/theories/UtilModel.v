(** Model of small containers and helpers of discodop/util.py and
    discodop/grammar.py. *)
From Coq Require Import List Bool Arith ZArith Lia.
From Verif Require Import PyStr.
Import ListNotations.

(** A Python call either returns or raises. *)
Inductive slres := SOk (start stop : Z) (step : Z) | SValueError | SAttributeError.

(** Python slice object: slice(start, stop, step) *)
Record pyslice := Sl { sl_start : option Z; sl_stop : option Z; sl_step : option Z }.

(** util.py:114-147 slice_bounds(seq, slice_obj, allow_step).  Only len(seq)
    and whether seq[stop - 1] raises IndexError matter (stop - 1 >= 0 there).
    Line 127 assigns to the attribute [step] of a slice object; the attributes
    of Python's slice objects are read-only, so it raises AttributeError. *)
Definition slice_bounds (len : Z) (s : pyslice) (allow_step : bool) : slres :=
  if allow_step then SAttributeError                                     (* 127 *)
  else match sl_step s with                                                (* 135 *)
  | Some st => if Z.eqb st 1 then
      (let start := match sl_start s with None => 0 | Some v => v end in
       let stop := match sl_stop s with None => len | Some v => v end in
       let start := if start <? 0 then Z.max 0 (len + start) else start in
       let stop := if stop <? 0 then Z.max 0 (len + stop) else stop in
       let stop := if 0 <? stop then (if stop - 1 <? len then stop else len) else stop in
       SOk (Z.min start stop) stop 1)%Z
    else SValueError
  | None =>
      (let start := match sl_start s with None => 0 | Some v => v end in   (* 138 *)
       let stop := match sl_stop s with None => len | Some v => v end in   (* 139 *)
       let start := if start <? 0 then Z.max 0 (len + start) else start in (* 140 *)
       let stop := if stop <? 0 then Z.max 0 (len + stop) else stop in     (* 141 *)
       let stop := if 0 <? stop                                            (* 142-146 *)
         then (if stop - 1 <? len then stop else len) else stop in
       SOk (Z.min start stop) stop 1)%Z                                    (* 147-148 *)
  end.

(** util.py:150-194 OrderedSet: the tuple [seq] and the frozenset [theset]
    (represented by a duplicate-free list, whose order is never used). *)
Section OrderedSet.
Context {X : Type}.
Variable xeqb : X -> X -> bool.
Definition mem (x : X) (l : list X) : bool := existsb (xeqb x) l.
Fixpoint dedup (l : list X) : list X :=
  match l with [] => [] | x :: t => if mem x t then dedup t else x :: dedup t end.
Record oset := OS { oseq : list X; oset_set : list X }.
(** 155-161 __init__ *)
Definition oinit (it : list X) : oset := OS it (dedup it).
Definition ocontains (s : oset) (x : X) : bool := mem x (oset_set s).
Definition olen (s : oset) : nat := length (oset_set s).
Definition oiter (s : oset) : list X := oseq s.
Definition ogetitem (s : oset) (n : nat) : option X := nth_error (oseq s) n.
Definition oreversed (s : oset) : list X := rev (oseq s).
(** 186-188 __eq__: self.theset == set(other) *)
Definition set_eqb (a b : list X) : bool := forallb (fun x => mem x b) a && forallb (fun x => mem x a) b.
Definition oeq (s o : oset) : bool := set_eqb (oset_set s) (dedup (oiter o)).
(** 190-194 __and__: filter self by membership in other, wrapped again *)
Definition oand (s o : oset) : oset := oinit (filter (fun x => ocontains o x) (oiter s)).
(** inherited from collections.abc.Set: a | b = cls(chain of both), a - b, a <= b *)
Definition oor (s o : oset) : oset := oinit (oiter s ++ oiter o).
Definition osub (s o : oset) : oset := oinit (filter (fun x => negb (ocontains o x)) (oiter s)).
Definition ole (s o : oset) : bool :=
  if olen o <? olen s then false else forallb (fun x => ocontains o x) (oiter s).
End OrderedSet.

(** grammar.py:960-989 UniqueIDs *)
Section UniqueIDs.
Context {K : Type}.
Variable keqb : K -> K -> bool.
Record uids := U { u_cnt : nat; u_ids : list (K * pystr); u_prefix : pystr }.
Definition uinit (prefix : pystr) : uids := U 0 [] prefix.
Fixpoint ulookup (k : K) (l : list (K * pystr)) : option pystr :=
  match l with [] => None | (k', v) :: t => if keqb k k' then Some v else ulookup k t end.
(** 977-982 __getitem__ *)
Definition ugetitem (u : uids) (k : K) : pystr * uids :=
  match ulookup k (u_ids u) with
  | Some v => (v, u)
  | None => let v := u_prefix u ++ dec (u_cnt u) in
            (v, U (S (u_cnt u)) ((k, v) :: u_ids u) (u_prefix u))
  end.
(** 984-986 __next__ *)
Definition unext (u : uids) : pystr * uids :=
  let c := S (u_cnt u) in (u_prefix u ++ dec (c - 1), U c (u_ids u) (u_prefix u)).
(** a history: [Some k] is ids[k], [None] is next(ids) *)
Fixpoint urun (u : uids) (ops : list (option K)) : list pystr :=
  match ops with
  | [] => []
  | Some k :: t => let '(v, u') := ugetitem u k in v :: urun u' t
  | None :: t => let '(v, u') := unext u in v :: urun u' t
  end.
End UniqueIDs.

(** grammar.py:1048-1057 cartpi.  seq[:-1] and seq[-1] are the recursion from
    the right; generators over infinite iterables are not modelled. *)
Fixpoint cartpi_rev {X} (rseq : list (list X)) : list (list X) :=
  match rseq with
  | [] => [[]]
  | last :: init => flat_map (fun b => map (fun a => b ++ [a]) last) (cartpi_rev init)
  end.
Definition cartpi {X} (seq : list (list X)) : list (list X) := cartpi_rev (rev seq).

(** grammar.py:992-998 rangeheads (integers may be negative in Python; leaf
    indices are not: a - 1 for a = 0 is -1, which is not in the set) *)
Definition rangeheads (s : list Z) : list Z :=
  filter (fun a => negb (existsb (Z.eqb (a - 1)) s)) s.
(** grammar.py:1001-1014, tree.py:2020-2033 ranges; [rng] is the list being
    built, [last] its last element *)
Fixpoint ranges_loop (rng : list Z) (s : list Z) : list (list Z) :=
  match s with
  | [] => match rng with [] => [] | _ => [rng] end
  | a :: t =>
    match rng with
    | [] => ranges_loop [a] t
    | _ => if Z.eqb a (last rng 0%Z + 1) then ranges_loop (rng ++ [a]) t
           else rng :: ranges_loop [a] t
    end
  end.
Definition ranges (s : list Z) : list (list Z) := ranges_loop [] s.
