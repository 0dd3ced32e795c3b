(** Model of Python's heapq module (pure Python version, Lib/heapq.py), which
    discodop/util.py:15 imports; the heap is a list, indices are [nat].
    Not part of /repo but the code's agenda and merge rest on it. *)
From Coq Require Import List Bool Arith Lia.
Import ListNotations.

(** heap[i] = x *)
Fixpoint upd {A} (l : list A) (i : nat) (x : A) : list A :=
  match l, i with
  | [], _ => []
  | _ :: t, O => x :: t
  | a :: t, S j => a :: upd t j x
  end.

Section Heapq.
Context {A : Type}.
(** the elements' [__lt__] *)
Variable lt : A -> A -> bool.

Definition parent (i : nat) : nat := (i - 1) / 2.

(** Lib/heapq.py [_siftdown]: heap has a hole at [pos] to be filled by [x];
    follow the path to the root, moving parents down. *)
Fixpoint siftdown_loop (fuel : nat) (h : list A) (startpos pos : nat) (x : A) : list A :=
  match fuel with
  | O => upd h pos x
  | S f =>
    if startpos <? pos then
      let par := nth (parent pos) h x in
      if lt x par then siftdown_loop f (upd h pos par) startpos (parent pos) x
      else upd h pos x
    else upd h pos x
  end.
Definition siftdown (h : list A) (startpos pos : nat) (d : A) : list A :=
  siftdown_loop pos h startpos pos (nth pos h d).

(** Lib/heapq.py [_siftup], first loop: bubble up the smaller child until
    hitting a leaf. Returns the heap and the position of the hole. *)
Fixpoint siftup_loop (fuel : nat) (h : list A) (pos : nat) (x : A) : list A * nat :=
  match fuel with
  | O => (h, pos)
  | S f =>
    let childpos := 2 * pos + 1 in
    if childpos <? length h then
      let rightpos := childpos + 1 in
      let c := if (rightpos <? length h)
                  && negb (lt (nth childpos h x) (nth rightpos h x))
               then rightpos else childpos in
      siftup_loop f (upd h pos (nth c h x)) c x
    else (h, pos)
  end.
Definition siftup (h : list A) (pos : nat) (d : A) : list A :=
  let x := nth pos h d in
  let '(h1, p) := siftup_loop (length h) h pos x in
  siftdown_loop p h1 pos p x.

(** Lib/heapq.py [heappush] *)
Definition heappush (h : list A) (x : A) : list A :=
  siftdown (h ++ [x]) 0 (length h) x.
(** Lib/heapq.py [heappop]; [None] is IndexError *)
Definition heappop (h : list A) : option (A * list A) :=
  match h with
  | [] => None
  | a :: t =>
    let lastelt := last h a in
    match removelast h with
    | [] => Some (lastelt, [])
    | r :: rest => Some (r, siftup (lastelt :: rest) 0 lastelt)
    end
  end.
(** Lib/heapq.py [heapreplace] *)
Definition heapreplace (h : list A) (x : A) : option (A * list A) :=
  match h with
  | [] => None
  | a :: t => Some (a, siftup (x :: t) 0 x)
  end.
(** Lib/heapq.py [heapify] *)
Fixpoint heapify_loop (i : nat) (h : list A) : list A :=
  match i with
  | O => h
  | S j => match h with
           | [] => h
           | d :: _ => heapify_loop j (siftup h j d)
           end
  end.
Definition heapify (h : list A) : list A := heapify_loop (length h / 2) h.
End Heapq.
