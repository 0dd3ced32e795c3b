(** Model of PCFG parsing followed by k-best extraction: the chart of pcfg.pyx as it is
    seen by kbest.pyx (parse, then lazykbest(chart, k)). *)
From Coq Require Import List Bool Arith NArith Cantor.
From Verif Require CkyModel KbestModel.
Import ListNotations.
Open Scope list_scope.
Open Scope nat_scope.

(** an item as a number: the dense chart uses cell numbers (pcfg.pyx:60-70, see C07), the
    sparse chart numbers items in order of insertion; any numbering will do *)
Definition enc (it : CkyModel.item) : nat := let '(i, j, x) := it in Cantor.to_nat (i, Cantor.to_nat (j, x)).
Definition dec (v : nat) : CkyModel.item := let '(i, w) := Cantor.of_nat v in let '(j, x) := Cantor.of_nat w in (i, j, x).
(** pcfg.pyx:117-138 _left, _right: the items of an edge.  The probability of a lexical
    edge is not in the chart; kbest.pyx:34-38 takes that of the item *)
Definition kedge (ch : CkyModel.chart) (it : CkyModel.item) (e : option CkyModel.rule * nat) : KbestModel.edge :=
  let '(i, j, x) := it in
  match fst e with
  | None => KbestModel.Edge None (match CkyModel.prob ch it with Some p => p | None => 0%N end) (snd e) 0 None
  | Some r => KbestModel.Edge (Some (CkyModel.rno r)) (CkyModel.rprob r) (snd e) (enc (i, snd e, CkyModel.rhs1 r))
                (if CkyModel.rhs2 r =? 0 then None else Some (enc (snd e, j, CkyModel.rhs2 r)))
  end.
Definition kforest (ch : CkyModel.chart) (v : nat) : list KbestModel.edge := map (kedge ch (dec v)) (CkyModel.edges ch (dec v)).
(** pcfg.pyx:38-40 subtreeprob *)
Definition ksub (ch : CkyModel.chart) (v : nat) : N := match CkyModel.prob ch (dec v) with Some p => p | None => 0%N end.

Section Pipe.
Variables (rules : list CkyModel.rule) (nts : nat) (mask : nat -> bool) (prio : CkyModel.chart -> nat -> CkyModel.item -> option N).
Variables (lexrules : nat -> list (nat * N)) (tag : nat -> option (nat -> bool)) (lexicallhs : list nat).
(** pcfg.pyx:373-395 parse and kbest.pyx:266-297 lazykbest; [None]: no parse (ValueError) *)
Definition parsekbest (fuel n start k : nat) : option (list (KbestModel.dtree * N)) :=
  match CkyModel.parse rules nts mask prio lexrules tag lexicallhs fuel n with
  | Some (true, ch) => KbestModel.lazykbest (kforest ch) (ksub ch) (enc (0, n, start)) k
  | _ => None
  end.
End Pipe.

(** derivation trees in terms of the grammar *)
Inductive gtree := GWord (x i : nat) | GUn (r : CkyModel.rule) (t : gtree) | GBin (r : CkyModel.rule) (t u : gtree).
(** kbest.pyx:184-209 getderiv: the label is that of the item, the rules are those of the
    edges *)
Definition ruleof (rules : list CkyModel.rule) (e : KbestModel.edge) : option CkyModel.rule :=
  match KbestModel.eno e with Some n => find (fun r => CkyModel.rno r =? n) rules | None => None end.
Fixpoint readderiv (rules : list CkyModel.rule) (v : nat) (t : KbestModel.dtree) : option gtree :=
  match t with
  | KbestModel.DLex e => let '(i, j, x) := dec v in Some (GWord x i)
  | KbestModel.DUn e t =>
    match ruleof rules e, readderiv rules (KbestModel.eleft e) t with Some r, Some g => Some (GUn r g) | _, _ => None end
  | KbestModel.DBin e t u =>
    match ruleof rules e, KbestModel.eright e with
    | Some r, Some w => match readderiv rules (KbestModel.eleft e) t, readderiv rules w u with Some g, Some g' => Some (GBin r g g') | _, _ => None end
    | _, _ => None
    end
  end.
