(** Model of discodop/plcfrs.pyx:19-300, 307-866: agenda-based parsing with an
    LCFRS (parse, parse_main, process_edge, populatepos, process_lexedge),
    without outside estimates and without beam.

    Simplifications: negative log probabilities are natural numbers, None is
    infinity; rounding is not modelled.  The C++ chart identifies items by an
    index into chart.items; here the item (label, bit vector) itself is used.
    The whitelist is an arbitrary predicate on items (checkwhitelist, 869-932).
    Labels are numbers, 0 is Epsilon.  As in the code (fused types), everything
    is parametric in the type of bit vectors. *)
From Coq Require Import List Bool Arith NArith.
From Verif Require Import BitsModel ConcatModel.
Import ListNotations.
Open Scope list_scope.
Open Scope nat_scope.

(** containers.pxd:170-187 ProbRule; rhs2 is 0 for unary rules.  The fields args
    and lengths of the struct are [getyf (ryf r)] (C08). *)
Record prule := PRule { plhs : nat; prhs1 : nat; prhs2 : nat; pprob : N; pno : nat; ryf : yieldfun }.

(** operator< of pair<Prob, Prob> *)
Definition lt2 (a b : N * N) : bool := (fst a <? fst b)%N || ((fst a =? fst b)%N && (snd a <? snd b)%N).
(** infinity is larger than any number *)
Definition ltp (a : N) (b : option N) : bool := match b with Some y => (a <? y)%N | None => true end.

Section Plcfrs.
(** SmallChartItem.vec: uint64_t; FatChartItem.vec: array of SLOTS words *)
Variable vec : Type.
Variable veqb : vec -> vec -> bool.
Variable vconcat : yfenc -> vec -> vec -> bool.  (* concat, 979-1056 *)
Variable vcombine : vec -> vec -> vec.           (* combine_item, 935-976 *)
Variable vcount : vec -> N.                      (* bitcount / abitcount *)
Variable vsingle : nat -> vec.                   (* 1 << wordidx / SETBIT *)
Variable vltb : vec -> vec -> bool.              (* second part of operator< of items *)

Definition item := (nat * vec)%type.
Definition ieqb (a b : item) : bool := (fst a =? fst b) && veqb (snd a) (snd b).
(** _containers.h:288-290, 325-329 operator< *)
Definition iltb (a b : item) : bool := (fst a <? fst b) || ((fst a =? fst b) && vltb (snd a) (snd b)).
(** an edge is a rule (None: NULL, lexical edge) and the vector of the left
    daughter (lexical edges: wordidx + 1) *)
Definition edge := (option (prule * vec) * nat)%type.
Definition edge_of (r : prule) (lvec : vec) : edge := (Some (r, lvec), 0).
Definition lexedge (wordidx : nat) : edge := (None, wordidx + 1).

(** chart.itemindex (an ordered map), chart.probs, chart.parseforest, and the agenda *)
Record chart := Chart {
  index : list item; probs : item -> option N; forest : item -> list edge; agenda : list (item * (N * N)) }.
(** 67-77 a new chart, without the sentinel item 0 *)
Definition emptychart : chart := Chart [] (fun _ => None) (fun _ => []) [].
Definition iput {X} (f : item -> X) (it : item) (x : X) : item -> X := fun u => if ieqb u it then x else f u.
Fixpoint iinsert (it : item) (l : list item) : list item :=
  match l with
  | [] => [it]
  | y :: r => if iltb it y then it :: l else y :: iinsert it r
  end.
(** chart.itemindex[newitem] = ... *)
Definition addindex (ch : chart) (it : item) : chart :=
  if existsb (ieqb it) (index ch) then ch
  else Chart (iinsert it (index ch)) (probs ch) (forest ch) (agenda ch).
(** 39-41 updateprob *)
Definition updateprob (ch : chart) (it : item) (p : N) : chart :=
  if ltp p (probs ch it) then Chart (index ch) (iput (probs ch) it (Some p)) (forest ch) (agenda ch) else ch.
(** 33-37 addlexedge and 79-86 addedge *)
Definition addedge (ch : chart) (it : item) (e : edge) : chart :=
  Chart (index ch) (probs ch) (iput (forest ch) it (forest ch it ++ [e])) (agenda ch).

(** The agenda, _containers.h:115-169: priorities of items.  C12 relates this to
    the heap with lazy deletion; ties may be broken in any way. *)
Fixpoint aget (a : list (item * (N * N))) (k : item) : option (N * N) :=
  match a with
  | [] => None
  | (k', v) :: r => if ieqb k k' then Some v else aget r k
  end.
Fixpoint aput (a : list (item * (N * N))) (k : item) (v : N * N) : list (item * (N * N)) :=
  match a with
  | [] => [(k, v)]
  | (k', v') :: r => if ieqb k k' then (k, v) :: r else (k', v') :: aput r k v
  end.
Definition amem (a : list (item * (N * N))) (k : item) : bool := match aget a k with Some _ => true | None => false end.
Definition setitem (ch : chart) (k : item) (v : N * N) : chart :=
  Chart (index ch) (probs ch) (forest ch) (aput (agenda ch) k v).
Definition setifbetter (ch : chart) (k : item) (v : N * N) : chart :=
  match aget (agenda ch) k with
  | None => setitem ch k v
  | Some w => if lt2 v w then setitem ch k v else ch
  end.
(** agenda.pop(): an entry that no other entry is less than *)
Inductive pops (ch : chart) : item -> N -> chart -> Prop :=
| pops_intro : forall a k s p b, agenda ch = a ++ (k, (s, p)) :: b ->
    Forall (fun e => lt2 (snd e) (s, p) = false) (agenda ch) ->
    pops ch k p (Chart (index ch) (probs ch) (forest ch) (a ++ b)).

Variable wl : item -> bool.           (* on the whitelist; constantly true if there is none *)
Variable maxlog : N.                  (* MAX_LOGPROB, in the unit of the weights *)

(** 820-866 process_lexedge; [usewl]: whitelist is not None.  [None] = ValueError. *)
Definition process_lexedge (ch : chart) (newitem : item) (prob : N) (wordidx : nat) (usewl : bool) : option (bool * chart) :=
  let ch := addindex ch newitem in
  if amem (agenda ch) newitem then Some (false, ch)
  else match forest ch newitem with
       | _ :: _ => None
       | [] =>
         if usewl && negb (wl newitem) then Some (false, ch)
         else Some (true, addedge (setitem ch newitem (prob, prob)) newitem (lexedge wordidx))
       end.

(** 601-668 process_edge, with beam = 0 *)
Definition process_edge (ch : chart) (newitem : item) (prob score : N) (r : prule) (lvec : vec) : chart :=
  let curprob := probs ch newitem in
  let inagenda := amem (agenda ch) newitem in
  let inchart := match forest ch newitem with [] => false | _ => true end in
  if negb inagenda && negb inchart then
    if negb (wl newitem) then ch
    else addedge (setitem (addindex ch newitem) newitem (score, prob)) newitem (edge_of r lvec)
  else if inagenda then addedge (setifbetter ch newitem (score, prob)) newitem (edge_of r lvec)
  else if ltp prob curprob then addedge (setitem ch newitem (score, prob)) newitem (edge_of r lvec)
  else addedge ch newitem (edge_of r lvec).

(** 671-817 populatepos.  Of each word: the lexical rules that apply, in order,
    with their probabilities (739-768 those of the word, filtered by the gold
    tag if given, and 769-786 those of its signature); and the labels that match
    its gold tag (788-809), empty if no gold tag is given. *)
Record word := Word { entries : list (nat * N); goldlabels : list nat }.
Fixpoint lexloop (ch : chart) (i : nat) (es : list (nat * N)) (recognized : bool) : option (bool * chart) :=
  match es with
  | [] => Some (recognized, ch)
  | (x, p) :: r =>
      match process_lexedge ch (x, vsingle i) p i true with
      | None => None
      | Some (b, ch) => lexloop ch i r (recognized || b)
      end
  end.
(** the whitelist is not applied to given tags; "tag is blocked" is a ValueError *)
Fixpoint goldloop (ch : chart) (i : nat) (xs : list nat) (recognized : bool) : option (bool * chart) :=
  match xs with
  | [] => Some (recognized, ch)
  | x :: r =>
      match process_lexedge ch (x, vsingle i) 0 i false with
      | Some (true, ch) => goldloop ch i r true
      | _ => None
      end
  end.
Definition populate_word (ch : chart) (i : nat) (w : word) : option (bool * chart) :=
  match lexloop ch i (entries w) false with
  | None => None
  | Some (true, ch) => Some (true, ch)
  | Some (false, ch) => goldloop ch i (goldlabels w) false
  end.
Fixpoint populatepos (ch : chart) (i : nat) (ws : list word) : option (bool * chart) :=
  match ws with
  | [] => Some (true, ch)
  | w :: r =>
      match populate_word ch i w with
      | Some (true, ch) => populatepos ch (S i) r
      | Some (false, ch) => Some (false, ch)
      | None => None
      end
  end.

Variable rules : list prule.
Variable mask : nat -> bool.
(** grammar.unary, lbinary and rbinary; see C48, C49 for the index arrays *)
Definition unary (x : nat) := filter (fun r => (prhs1 r =? x) && (prhs2 r =? 0)) rules.
Definition lbinary (x : nat) := filter (fun r => (prhs1 r =? x) && negb (prhs2 r =? 0)) rules.
Definition rbinary (x : nat) := filter (fun r => (prhs2 r =? x) && negb (prhs2 r =? 0)) rules.

Section Item.
Variable it : item.    (* the item from the agenda *)
Variable prob : N.
(** 423-458 *)
Definition unarystep (ch : chart) (r : prule) : chart :=
  if mask (pno r) then ch
  else
    let newprob := (prob + pprob r)%N in
    process_edge ch (plhs r, snd it) newprob (newprob + vcount (snd it) * maxlog)%N r (snd it).
(** 459-526 item from agenda is on the right *)
Definition rightsib (r : prule) (ch : chart) (sib : item) : chart :=
  if vconcat (getyf (ryf r)) (snd sib) (snd it) then
    let v := vcombine (snd sib) (snd it) in
    match probs ch sib with
    | None => ch
    | Some siblingprob =>
        let newprob := (prob + siblingprob + pprob r)%N in
        process_edge ch (plhs r, v) newprob (newprob + vcount v * maxlog)%N r (snd sib)
    end
  else ch.
Definition siblings (ch : chart) (x : nat) : list item := filter (fun s => fst s =? x) (index ch).
Definition rightstep (ch : chart) (r : prule) : chart :=
  if mask (pno r) then ch else fold_left (rightsib r) (siblings ch (prhs1 r)) ch.
(** 527-590 item from agenda is on the left *)
Definition leftsib (r : prule) (ch : chart) (sib : item) : chart :=
  if vconcat (getyf (ryf r)) (snd it) (snd sib) then
    let v := vcombine (snd it) (snd sib) in
    match probs ch sib with
    | None => ch
    | Some siblingprob =>
        let newprob := (prob + siblingprob + pprob r)%N in
        process_edge ch (plhs r, v) newprob (newprob + vcount v * maxlog)%N r (snd it)
    end
  else ch.
Definition leftstep (ch : chart) (r : prule) : chart :=
  if mask (pno r) then ch else fold_left (leftsib r) (siblings ch (prhs2 r)) ch.
Definition expand (ch : chart) : chart :=
  let ch := fold_left unarystep (unary (fst it)) ch in
  let ch := fold_left rightstep (rbinary (fst it)) ch in
  fold_left leftstep (lbinary (fst it)) ch.
End Item.

Variable goal : item.
(** 404-590 one iteration of the main loop, after agenda.pop() *)
Definition explore (it : item) (prob : N) (ch : chart) : chart :=
  let ch := updateprob ch it prob in
  if ieqb it goal then ch else expand it prob ch.
(** 403-592 the main loop *)
Inductive loop (exhaustive : bool) : chart -> chart -> Prop :=
| loop_empty : forall ch, agenda ch = [] -> loop exhaustive ch ch
| loop_break : forall ch it p ch1, exhaustive = false -> pops ch it p ch1 -> ieqb it goal = true ->
    loop exhaustive ch (updateprob ch1 it p)
| loop_step : forall ch it p ch1 ch2, pops ch it p ch1 -> (exhaustive = false -> ieqb it goal = false) ->
    loop exhaustive (explore it p ch1) ch2 -> loop exhaustive ch ch2.
(** parse_main, 362-598: the chart, and whether all words were recognized *)
Inductive parse_main (exhaustive : bool) (sent : list word) : bool -> chart -> Prop :=
| pm_uncovered : forall ch, populatepos emptychart 0 sent = Some (false, ch) -> parse_main exhaustive sent false ch
| pm_covered : forall ch ch', populatepos emptychart 0 sent = Some (true, ch) -> loop exhaustive ch ch' ->
    parse_main exhaustive sent true ch'.
(** single iterations of the exhaustive main loop *)
Inductive iterates : nat -> chart -> chart -> Prop :=
| it_zero : forall ch, iterates 0 ch ch
| it_next : forall n ch it p ch1 ch2, pops ch it p ch1 -> iterates n (explore it p ch1) ch2 -> iterates (S n) ch ch2.

(** For examples: pop the first of the best entries. *)
Fixpoint popbest (a : list (item * (N * N))) : option (item * (N * N)) :=
  match a with
  | [] => None
  | e :: r => match popbest r with
              | None => Some e
              | Some e' => if lt2 (snd e') (snd e) then Some e' else Some e
              end
  end.
Fixpoint aremove (a : list (item * (N * N))) (k : item) : list (item * (N * N)) :=
  match a with
  | [] => []
  | (k', v) :: r => if ieqb k k' then r else (k', v) :: aremove r k
  end.
Fixpoint runloop (fuel : nat) (exhaustive : bool) (ch : chart) : chart :=
  match fuel with
  | 0 => ch
  | S f => match popbest (agenda ch) with
           | None => ch
           | Some (k, (_, p)) =>
               let ch1 := Chart (index ch) (probs ch) (forest ch) (aremove (agenda ch) k) in
               if negb exhaustive && ieqb k goal then updateprob ch1 k p else runloop f exhaustive (explore k p ch1)
           end
  end.
End Plcfrs.

(** plcfrs.pyx:347-353 the instance for sentences of less than 64 words;
    935-945 combine_item; 99-100 _root *)
Definition small_root (start lensent : nat) : item N := (start, (2 ^ N.of_nat lensent - 1)%N).
Definition parse_small (wl : item N -> bool) (maxlog : N) (rules : list prule) (mask : nat -> bool) (start : nat) (exhaustive : bool) (sent : list word) : bool -> chart N -> Prop :=
  parse_main N N.eqb concat_small combine_small bitcount (fun i => 2 ^ N.of_nat i)%N N.ltb wl maxlog rules mask
    (small_root start (length sent)) exhaustive sent.
