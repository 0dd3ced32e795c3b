(** Model of discodop/util.py:347-393 [merge]. *)
From Coq Require Import List Bool Arith Lia.
From Verif Require Import HeapqModel.
Import ListNotations.

Section Merge.
Context {X V : Type}.
Variable key : X -> V.
Variable vlt veq : V -> V -> bool.

(** Entry((item, iterable), key(item), cnt): the iterator is represented by
    the items it still has to produce. *)
Record mentry := M { mitem : X; mrest : list X; mvalue : V; mcnt : nat }.
(** util.py:207-209 Entry.__lt__ *)
Definition mlt (a b : mentry) : bool :=
  vlt (mvalue a) (mvalue b) || (veq (mvalue a) (mvalue b) && (mcnt a <? mcnt b)).

(** util.py:366-373: entries for the non-empty iterables, numbered from [cnt] *)
Fixpoint entries (cnt : nat) (its : list (list X)) : list mentry :=
  match its with
  | [] => []
  | [] :: t => entries (S cnt) t
  | (x :: r) :: t => M x r (key x) cnt :: entries (S cnt) t
  end.
(** util.py:376-393: the generator's loops, producing the items in the order
    they are yielded; beside each item the number of its iterable is recorded
    (for the specification only).  One unit of fuel per yielded item. *)
Fixpoint merge_loop (fuel : nat) (heap : list mentry) : list (nat * X) :=
  match fuel with
  | O => []
  | S f =>
    match heap with
    | [] => []
    | [e] => (mcnt e, mitem e) :: map (pair (mcnt e)) (mrest e)   (* 389-393 *)
    | e :: _ =>
      (mcnt e, mitem e) ::
      match mrest e with
      | [] => match heappop mlt heap with                           (* StopIteration *)
              | Some (_, h') => merge_loop f h'
              | None => []
              end
      | x :: r => match heapreplace mlt heap (M x r (key x) (mcnt e)) with
                  | Some (_, h') => merge_loop f h'
                  | None => []
                  end
      end
    end
  end.
Definition merge_tagged (its : list (list X)) : list (nat * X) :=
  merge_loop (length (concat its)) (heapify mlt (entries 1 its)).
(** list(merge( *its, key=key)) *)
Definition merge (its : list (list X)) : list X := map snd (merge_tagged its).
End Merge.
