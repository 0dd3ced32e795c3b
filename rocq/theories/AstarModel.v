(** Model of discodop/plcfrs.pyx:307-866 with outside estimates (A* parsing):
    parse_main, populatepos and process_lexedge with estimatetype SX or SXlrgaps.
    The charts, the agenda and process_edge are those of PlcfrsModel.v.

    Simplifications: as in PlcfrsModel.v; no beam; the lexical rules of
    signatures of unknown words (769-786, without estimate) are not modelled, and
    reserveprob is 0. *)
From Coq Require Import List Bool Arith NArith ZArith.
From Verif Require Import BitsModel ConcatModel PlcfrsModel.
Import ListNotations.
Open Scope list_scope.
Open Scope nat_scope.

Section Astar.
Variable vec : Type.
Variable veqb : vec -> vec -> bool.
Variable vconcat : yfenc -> vec -> vec -> bool.
Variable vcombine : vec -> vec -> vec.
Variable vsingle : nat -> vec.
Variable vltb : vec -> vec -> bool.
Variable wl : item vec -> bool.
Variable maxlog : N.                  (* MAX_LOGPROB *)
(** the estimate looked up for a tag, for the result of a unary rule and for the
    result of a binary rule; None is infinity *)
Variable estlex : nat -> nat -> option N.   (* position, tag *)
Variables estun estbin : nat -> vec -> option N.

(** score += outside[...]; if score > MAX_LOGPROB: continue *)
Definition scored (e : option N) (prob : N) : option N :=
  match e with
  | None => None
  | Some e => if (maxlog <? prob + e)%N then None else Some (prob + e)%N
  end.

(** 820-866 *)
Definition a_process_lexedge (ch : chart vec) (newitem : item vec) (prob score : N) (wordidx : nat) (usewl : bool) : option (bool * chart vec) :=
  let ch := addindex vec veqb vltb ch newitem in
  if amem vec veqb (agenda vec ch) newitem then Some (false, ch)
  else match forest vec ch newitem with
       | _ :: _ => None
       | [] =>
         if usewl && negb (wl newitem) then Some (false, ch)
         else Some (true, addedge vec veqb (setitem vec veqb ch newitem (score, prob)) newitem (lexedge vec wordidx))
       end.
(** 739-768 *)
Fixpoint a_lexloop (ch : chart vec) (i : nat) (es : list (nat * N)) (recognized : bool) : option (bool * chart vec) :=
  match es with
  | [] => Some (recognized, ch)
  | (x, p) :: r =>
      match scored (estlex i x) p with
      | None => a_lexloop ch i r recognized
      | Some score =>
          match a_process_lexedge ch (x, vsingle i) p score i true with
          | None => None
          | Some (b, ch) => a_lexloop ch i r (recognized || b)
          end
      end
  end.
(** 788-817 *)
Fixpoint a_goldloop (ch : chart vec) (i : nat) (xs : list nat) (recognized : bool) : option (bool * chart vec) :=
  match xs with
  | [] => Some (recognized, ch)
  | x :: r =>
      match scored (estlex i x) 0 with
      | None => a_goldloop ch i r recognized
      | Some score =>
          match a_process_lexedge ch (x, vsingle i) 0 score i false with
          | Some (true, ch) => a_goldloop ch i r true
          | _ => None
          end
      end
  end.
Definition a_populate_word (ch : chart vec) (i : nat) (w : word) : option (bool * chart vec) :=
  match a_lexloop ch i (entries w) false with
  | None => None
  | Some (true, ch) => Some (true, ch)
  | Some (false, ch) => a_goldloop ch i (goldlabels w) false
  end.
Fixpoint a_populatepos (ch : chart vec) (i : nat) (ws : list word) : option (bool * chart vec) :=
  match ws with
  | [] => Some (true, ch)
  | w :: r =>
      match a_populate_word ch i w with
      | Some (true, ch) => a_populatepos ch (S i) r
      | Some (false, ch) => Some (false, ch)
      | None => None
      end
  end.

Variable rules : list prule.
Variable mask : nat -> bool.
(** the score of a new item, and process_edge unless the score is too high *)
Definition offer (ch : chart vec) (e : option N) (k : item vec) (newprob : N) (r : prule) (lvec : vec) : chart vec :=
  match scored e newprob with
  | None => ch
  | Some score => process_edge vec veqb vltb wl ch k newprob score r lvec
  end.
Section Item.
Variable it : item vec.
Variable prob : N.
(** 423-458 *)
Definition a_unarystep (ch : chart vec) (r : prule) : chart vec :=
  if mask (pno r) then ch
  else offer ch (estun (plhs r) (snd it)) (plhs r, snd it) (prob + pprob r)%N r (snd it).
(** 459-526 *)
Definition a_rightsib (r : prule) (ch : chart vec) (sib : item vec) : chart vec :=
  if vconcat (getyf (ryf r)) (snd sib) (snd it) then
    let v := vcombine (snd sib) (snd it) in
    match probs vec ch sib with
    | None => ch
    | Some siblingprob => offer ch (estbin (plhs r) v) (plhs r, v) (prob + siblingprob + pprob r)%N r (snd sib)
    end
  else ch.
Definition a_rightstep (ch : chart vec) (r : prule) : chart vec :=
  if mask (pno r) then ch else fold_left (a_rightsib r) (siblings vec ch (prhs1 r)) ch.
(** 527-590 *)
Definition a_leftsib (r : prule) (ch : chart vec) (sib : item vec) : chart vec :=
  if vconcat (getyf (ryf r)) (snd it) (snd sib) then
    let v := vcombine (snd it) (snd sib) in
    match probs vec ch sib with
    | None => ch
    | Some siblingprob => offer ch (estbin (plhs r) v) (plhs r, v) (prob + siblingprob + pprob r)%N r (snd it)
    end
  else ch.
Definition a_leftstep (ch : chart vec) (r : prule) : chart vec :=
  if mask (pno r) then ch else fold_left (a_leftsib r) (siblings vec ch (prhs2 r)) ch.
Definition a_expand (ch : chart vec) : chart vec :=
  let ch := fold_left a_unarystep (unary rules (fst it)) ch in
  let ch := fold_left a_rightstep (rbinary rules (fst it)) ch in
  fold_left a_leftstep (lbinary rules (fst it)) ch.
End Item.

Variable goal : item vec.
(** 404-590 *)
Definition a_explore (it : item vec) (prob : N) (ch : chart vec) : chart vec :=
  let ch := updateprob vec veqb ch it prob in
  if ieqb vec veqb it goal then ch else a_expand it prob ch.
(** 403-592, counting iterations *)
Inductive a_loop (exhaustive : bool) : nat -> chart vec -> chart vec -> Prop :=
| al_empty : forall ch, agenda vec ch = [] -> a_loop exhaustive 0 ch ch
| al_break : forall ch it p ch1, exhaustive = false -> pops vec ch it p ch1 -> ieqb vec veqb it goal = true ->
    a_loop exhaustive 1 ch (updateprob vec veqb ch1 it p)
| al_step : forall n ch it p ch1 ch2, pops vec ch it p ch1 -> (exhaustive = false -> ieqb vec veqb it goal = false) ->
    a_loop exhaustive n (a_explore it p ch1) ch2 -> a_loop exhaustive (S n) ch ch2.
(** 362-598 the chart, and whether all words were recognized *)
Inductive a_parse_main (exhaustive : bool) (sent : list word) : bool -> chart vec -> Prop :=
| ap_uncovered : forall ch, a_populatepos (emptychart vec) 0 sent = Some (false, ch) -> a_parse_main exhaustive sent false ch
| ap_covered : forall n ch ch', a_populatepos (emptychart vec) 0 sent = Some (true, ch) -> a_loop exhaustive n ch ch' ->
    a_parse_main exhaustive sent true ch'.

(** For examples: pop the first of the best entries. *)
Fixpoint a_runloop (fuel : nat) (exhaustive : bool) (ch : chart vec) : chart vec :=
  match fuel with
  | 0 => ch
  | S f => match popbest vec (agenda vec ch) with
           | None => ch
           | Some (k, (_, p)) =>
               let ch1 := Chart vec (index vec ch) (probs vec ch) (forest vec ch) (aremove vec veqb (agenda vec ch) k) in
               if negb exhaustive && ieqb vec veqb k goal then updateprob vec veqb ch1 k p else a_runloop f exhaustive (a_explore k p ch1)
           end
  end.
End Astar.

(** 428-436, 488-497: the position of an item in the sentence *)
Definition sx_left (v : N) : nat := Z.to_nat (nextset v 0).
Definition sx_length (v : N) : nat := N.to_nat (bitcount v).
Definition sx_gaps (v : N) : nat := N.to_nat (bitlength v) - sx_length v - sx_left v.
(** 444-447, 502-505, 727-742: outside[label, left, right, 0]; the unary case
    subtracts the gaps, the binary case does not *)
Definition sx_lex (outside : nat -> nat -> nat -> option N) (lensent : nat) (i x : nat) : option N :=
  outside x i (lensent - 1 - i).
Definition sx_un (outside : nat -> nat -> nat -> option N) (lensent : nat) (x : nat) (v : N) : option N :=
  outside x (sx_left v) (lensent - sx_length v - sx_left v - sx_gaps v).
Definition sx_bin (outside : nat -> nat -> nat -> option N) (lensent : nat) (x : nat) (v : N) : option N :=
  outside x (sx_left v) (lensent - sx_length v - sx_left v).
(** 448-452, 508-517, 744-748: outside[label, length, left + right, gaps] *)
Definition sxlrgaps (outside : nat -> nat -> nat -> nat -> option N) (lensent : nat) (x : nat) (v : N) : option N :=
  outside x (sx_length v) (sx_left v + (lensent - sx_length v - sx_left v - sx_gaps v)) (sx_gaps v).

(** parse with estimates SX, sentences of less than 64 words *)
Definition astar_sx (wl : item N -> bool) (maxlog : N) (outside : nat -> nat -> nat -> option N)
    (rules : list prule) (mask : nat -> bool) (start : nat) (exhaustive : bool) (sent : list word) : bool -> chart N -> Prop :=
  a_parse_main N N.eqb concat_small combine_small (fun i => 2 ^ N.of_nat i)%N N.ltb wl maxlog
    (sx_lex outside (length sent)) (sx_un outside (length sent)) (sx_bin outside (length sent)) rules mask
    (small_root start (length sent)) exhaustive sent.
(** parse with estimates SXlrgaps; of a tag: length 1, gaps 0 *)
Definition astar_lrgaps (wl : item N -> bool) (maxlog : N) (outside : nat -> nat -> nat -> nat -> option N)
    (rules : list prule) (mask : nat -> bool) (start : nat) (exhaustive : bool) (sent : list word) : bool -> chart N -> Prop :=
  a_parse_main N N.eqb concat_small combine_small (fun i => 2 ^ N.of_nat i)%N N.ltb wl maxlog
    (fun i x => outside x 1 (i + (length sent - 1 - i)) 0)
    (sxlrgaps outside (length sent)) (sxlrgaps outside (length sent)) rules mask
    (small_root start (length sent)) exhaustive sent.
