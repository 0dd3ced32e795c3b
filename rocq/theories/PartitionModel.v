(** Model of discodop/kbest.pyx:236-263 partitionincompletechart.
    [best a b] is chart.bestsubtree(a, b) (pcfg.pyx:72-85, 254-271,
    plcfrs.pyx:107, 227): the label of the most probable item that covers
    exactly the words a..b-1, None when there is no item (item 0). *)
From Coq Require Import List Arith.
Import ListNotations.

Section Partition.
Context {L : Type}.
Variable best : nat -> nat -> option L.

(** kbest.pyx:242-243: the two loops, length from large to small, then start1
    from left to right *)
Definition spans (start end_ : nat) : list (nat * nat) :=
  flat_map (fun len => map (fun start1 => (start1, start1 + len)) (seq start (end_ - len + 1 - start)))
           (rev (seq 1 (end_ - start))).
(** 246-247: the first span for which there is an item *)
Fixpoint firstparse (l : list (nat * nat)) : option (L * nat * nat) :=
  match l with
  | [] => None
  | (a, b) :: r => match best a b with Some x => Some (x, a, b) | None => firstparse r end
  end.
(** 236-263; the label None stands for 'NOPARSE'.  [fuel] bounds the depth of
    the recursion; see PartitionProps.C42_terminates. *)
Fixpoint partition (fuel start end_ : nat) : option (list (option L * nat * nat)) :=
  match fuel with
  | O => None
  | S f =>
    match firstparse (spans start end_) with
    | Some (x, a, b) =>
      let before := if start <? a then partition f start a else Some [] in       (* 248-250 *)
      let after := if b <? end_ then partition f b end_ else Some [] in           (* 253-255 *)
      match before, after with
      | Some l, Some r => Some (l ++ (Some x, a, b) :: r)
      | _, _ => None
      end
    | None =>
      let after := if start + 1 <? end_ then partition f (start + 1) end_ else Some [] in   (* 258-259 *)
      match after with Some r => Some ((None, start, start + 1) :: r) | None => None end
    end
  end.
End Partition.
