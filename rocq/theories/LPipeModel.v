(** Model of LCFRS parsing followed by k-best extraction: the chart of plcfrs.pyx
    (SmallLCFRSChart, sentences of less than 64 words) as it is seen by kbest.pyx. *)
From Coq Require Import List Bool Arith NArith Cantor.
From Verif Require PlcfrsModel KbestModel.
Import ListNotations.
Open Scope list_scope.
Open Scope nat_scope.

(** the index of an item in chart.items; any numbering will do *)
Definition lenc (it : nat * N) : nat := Cantor.to_nat (fst it, N.to_nat (snd it)).
Definition ldec (v : nat) : nat * N := let '(x, w) := Cantor.of_nat v in (x, N.of_nat w).
(** plcfrs.pyx:83-97 _left, _right: the items of an edge; kbest.pyx:34-38: the probability
    of a lexical edge is that of the item *)
Definition lkedge (ch : PlcfrsModel.chart N) (it : nat * N) (e : PlcfrsModel.edge N) : KbestModel.edge :=
  match fst e with
  | None => KbestModel.Edge None (match PlcfrsModel.probs N ch it with Some p => p | None => 0%N end) (snd e) 0 None
  | Some (r, lvec) =>
    KbestModel.Edge (Some (PlcfrsModel.pno r)) (PlcfrsModel.pprob r) (N.to_nat lvec) (lenc (PlcfrsModel.prhs1 r, lvec))
      (if PlcfrsModel.prhs2 r =? 0 then None else Some (lenc (PlcfrsModel.prhs2 r, N.lxor (snd it) lvec)))
  end.
Definition lkforest (ch : PlcfrsModel.chart N) (v : nat) : list KbestModel.edge := map (lkedge ch (ldec v)) (PlcfrsModel.forest N ch (ldec v)).
(** plcfrs.pyx:46-50 subtreeprob *)
Definition lksub (ch : PlcfrsModel.chart N) (v : nat) : N := match PlcfrsModel.probs N ch (ldec v) with Some p => p | None => 0%N end.
(** kbest.pyx:266-297 lazykbest(chart, k) from the root item, plcfrs.pyx:99-106 *)
Definition lkbest (ch : PlcfrsModel.chart N) (start lensent k : nat) : option (list (KbestModel.dtree * N)) :=
  KbestModel.lazykbest (lkforest ch) (lksub ch) (lenc (PlcfrsModel.small_root start lensent)) k.

(** derivation trees in terms of the grammar *)
Inductive ltree := LWord (x i : nat) | LUn (r : PlcfrsModel.prule) (t : ltree) | LBin (r : PlcfrsModel.prule) (t u : ltree).
(** kbest.pyx:184-209 getderiv: labels of items, rules of edges; a terminal is the position
    of its word *)
Definition lruleof (rules : list PlcfrsModel.prule) (e : KbestModel.edge) : option PlcfrsModel.prule :=
  match KbestModel.eno e with Some n => find (fun r => PlcfrsModel.pno r =? n) rules | None => None end.
Fixpoint lread (rules : list PlcfrsModel.prule) (v : nat) (t : KbestModel.dtree) : option ltree :=
  match t with
  | KbestModel.DLex e => Some (LWord (fst (ldec v)) (KbestModel.epos e - 1))
  | KbestModel.DUn e t =>
    match lruleof rules e, lread rules (KbestModel.eleft e) t with Some r, Some g => Some (LUn r g) | _, _ => None end
  | KbestModel.DBin e t u =>
    match lruleof rules e, KbestModel.eright e with
    | Some r, Some w => match lread rules (KbestModel.eleft e) t, lread rules w u with Some g, Some g' => Some (LBin r g g') | _, _ => None end
    | _, _ => None
    end
  end.
