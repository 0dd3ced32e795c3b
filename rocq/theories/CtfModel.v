(** Model of coarse-to-fine parsing with an LCFRS coarse stage:
    discodop/coarsetofine.pyx:35-170 prunechart with k == 0 and finecfg=False
    (items indexed by label), and discodop/plcfrs.pyx:878-940 checkwhitelist,
    for sentences of less than 64 words. *)
From Coq Require Import List Bool Arith NArith ZArith.
From Verif Require Import BitsModel PlcfrsModel InOutModel.
Import ListNotations.
Open Scope nat_scope.

(** coarsetofine.pyx: whitelist.small[label] is a set of items with that label;
    here one list of items.  mapping: 0 = never block.  splitmapping[label]:
    empty for labels with fan-out 1. *)
Record whitelist := Whitelist { small : list (item N); mapping : nat -> nat; splitmapping : nat -> list nat }.
Definition wl_count (w : whitelist) (it : item N) : bool := existsb (ieqb N N.eqb it) (small w).

(** plcfrs.pyx:903-915 the loop over the components of a discontinuous item.
    [None] stands for reading past the end of splitmapping[label]. *)
Fixpoint splitloop (fuel : nat) (w : whitelist) (markorigin : bool) (label : nat) (vec : N) (b : N) (cnt : nat) : option bool :=
  match fuel with
  | O => Some true
  | S f =>
      match nextset vec b with
      | Zneg _ => Some true
      | za =>
          let a := Z.to_N za in
          let b := Z.to_N (nextunset vec a) in
          let v := (wsub (wshl 1 b) (wshl 1 a))%N in
          match nth_error (splitmapping w label) (if markorigin then cnt else 0) with
          | None => None
          | Some l => if wl_count w (l, v) then splitloop f w markorigin label vec b (cnt + 1) else Some false
          end
      end
  end.
(** 878-933 *)
Definition checkwhitelist (w : whitelist) (splitprune markorigin : bool) (it : item N) : option bool :=
  let (label, vec) := it in
  if splitprune then
    if markorigin then
      match splitmapping w label with [] => Some true | _ => splitloop 65 w true label vec 0 0 end
    else
      if negb (mapping w label =? 0) then Some true
      else splitloop 65 w false label vec 0 0
  else if negb (mapping w label =? 0) then Some (wl_count w (mapping w label, vec))
  else Some true.

(** plcfrs.pyx:79-97 _left, _right: the daughters of the edges of an item *)
Definition edgeitems (it : item N) (e : PlcfrsModel.edge N) : list (item N) :=
  match fst e with
  | None => []
  | Some (r, lvec) =>
      if prhs2 r =? 0 then [(prhs1 r, lvec)] else [(prhs1 r, lvec); (prhs2 r, N.lxor (snd it) lvec)]
  end.
(** coarsetofine.pyx:117-121, 160-168: k == 0 *)
Definition prunechart (ch : PlcfrsModel.chart N) (rt : item N) (fmapping : nat -> nat) : whitelist :=
  Whitelist (filtereditems (item N) (ieqb N N.eqb) (fun it => map (edgeitems it) (PlcfrsModel.forest N ch it))
               (PlcfrsModel.forest N ch) rt (PlcfrsModel.index N ch))
            fmapping (fun _ => []).
(** the fine stage without splitprune: an item is blocked if it is not on the list *)
Definition allow (w : whitelist) (it : item N) : bool := match checkwhitelist w false false it with Some b => b | None => false end.
