(** Model of discodop/pcfg.pyx:397-534, 612-801: CKY parsing with a PCFG
    (parse_grammarloop, populatepos, applyunaryrules, updatemidfilter), without
    beam, without whitelist, and without unknown word model (postagging=None).

    Negative log probabilities are natural numbers, None is infinity; rounding
    of floating point numbers is not modelled.  A chart item is a triple (start,
    end, label); C07 shows that the numbers of the dense chart identify these
    triples.  Labels are numbers; 0 is Epsilon. *)
From Coq Require Import List Bool Arith NArith ZArith Lia.
From Verif Require CellModel.
Import ListNotations.
Open Scope list_scope.
Open Scope nat_scope.

(** containers.pxd ProbRule; rhs2 is 0 for unary rules *)
Record rule := Rule { lhs : nat; rhs1 : nat; rhs2 : nat; rprob : N; rno : nat }.
Definition item := (nat * nat * nat)%type.
Definition ieqb (a b : item) : bool :=
  let '(i, j, x) := a in let '(i', j', x') := b in (i =? i') && (j =? j') && (x =? x').
Definition iput {X} (f : item -> X) (it : item) (x : X) : item -> X := fun u => if ieqb u it then x else f u.
(** probs, parseforest and items of a chart; an edge is a rule (None: lexical,
    NULL) and a split point *)
Record chart := Chart { prob : item -> option N; edges : item -> list (option rule * nat); items : list item }.
Definition emptychart : chart := Chart (fun _ => None) (fun _ => []) [].
(** infinity is larger than any number *)
Definition ltp (a b : option N) : bool :=
  match a, b with Some x, Some y => (x <? y)%N | Some _, None => true | None, _ => false end.
(** pcfg.pyx:95-117 and 281-312 updateprob, without beam *)
Definition updateprob (ch : chart) (it : item) (p : N) : chart :=
  match prob ch it with
  | None => Chart (iput (prob ch) it (Some p)) (edges ch) (items ch ++ [it])
  | Some q => if (p <? q)%N then Chart (iput (prob ch) it (Some p)) (edges ch) (items ch) else ch
  end.
(** pcfg.pyx:88-93 and 272-279 addedge *)
Definition addedge (ch : chart) (it : item) (mid : nat) (r : option rule) : chart :=
  Chart (prob ch) (iput (edges ch) it (edges ch it ++ [(r, mid)])) (items ch).
(** MidFilter, by position and label *)
Record midfilter := MF { minleft : nat -> nat -> Z; maxleft : nat -> nat -> Z; minright : nat -> nat -> Z; maxright : nat -> nat -> Z }.
Definition put2 (f : nat -> nat -> Z) (i x : nat) (v : Z) : nat -> nat -> Z := fun i' x' => if (i' =? i) && (x' =? x) then v else f i' x'.
(** 788-801 updatemidfilter *)
Definition updatemid (m : midfilter) (left right x : nat) : midfilter :=
  let l := Z.of_nat left in let r := Z.of_nat right in
  MF (if (l >? minleft m right x)%Z then put2 (minleft m) right x l else minleft m)
     (if (l <? maxleft m right x)%Z then put2 (maxleft m) right x l else maxleft m)
     (if (r <? minright m left x)%Z then put2 (minright m) left x r else minright m)
     (if (r >? maxright m left x)%Z then put2 (maxright m) left x r else maxright m).

Section Cky.
Variable rules : list rule.            (* the phrasal rules of the grammar *)
Variable nts : nat.                    (* grammar.nonterminals *)
Variable mask : nat -> bool.           (* grammar.mask; all false if not used *)
(** grammar.bylhs and grammar.unary; see C48, C49 for the index arrays *)
Definition bylhs (x : nat) : list rule := filter (fun r => lhs r =? x) rules.
Definition unary (x : nat) : list rule := filter (fun r => (rhs1 r =? x) && (rhs2 r =? 0)) rules.

Section Cell.
Variables left right : nat.
(** 502-519 one split point of a rule *)
Definition binmid (r : rule) (ch : chart) (mid : nat) : chart :=
  match prob ch (left, mid, rhs1 r), prob ch (mid, right, rhs2 r) with
  | Some a, Some b => addedge (updateprob ch (left, right, lhs r) (a + b + rprob r)%N) (left, right, lhs r) mid (Some r)
  | _, _ => ch
  end.
(** 489-502 the split points that are tried *)
Definition midrange (m : midfilter) (r : rule) : list nat :=
  let narrowr := minright m left (rhs1 r) in
  let narrowl := minleft m right (rhs2 r) in
  if (rhs2 r =? 0) || (narrowr >=? Z.of_nat right)%Z || (narrowl <? narrowr)%Z || mask (rno r) then []
  else
    let minmid := Z.max narrowr (maxleft m right (rhs2 r)) in
    let maxmid := Z.min (maxright m left (rhs1 r)) narrowl in
    map (fun k => Z.to_nat minmid + k) (seq 0 (Z.to_nat (maxmid + 1 - minmid)%Z)).
Definition binrule (m : midfilter) (ch : chart) (r : rule) : chart := fold_left (binmid r) (midrange m r) ch.
(** 484-525 the rules with one left hand side *)
Definition finite (p : option N) : bool := match p with Some _ => true | None => false end.
Definition binlhs (s : chart * midfilter) (x : nat) : chart * midfilter :=
  let '(ch, m) := s in
  let ch' := fold_left (binrule m) (bylhs x) ch in
  (ch', if negb (finite (prob ch (left, right, x))) && finite (prob ch' (left, right, x)) then updatemid m left right x else m).
Definition binary (s : chart * midfilter) : chart * midfilter := fold_left binlhs (seq 1 (nts - 1)) s.

(** the agenda: labels with priorities (C12) *)
Definition agenda := list (nat * option N).
(** Agenda.setifbetter, _containers.h:140-153 *)
Fixpoint setifbetter (ag : agenda) (x : nat) (p : option N) : agenda :=
  match ag with
  | [] => [(x, p)]
  | (y, q) :: t => if y =? x then (if ltp p q then (x, p) :: t else ag) else (y, q) :: setifbetter t x p
  end.
Fixpoint popmin (ag : agenda) : option ((nat * option N) * agenda) :=
  match ag with
  | [] => None
  | e :: t =>
    match popmin t with
    | Some (f, t') => if ltp (snd f) (snd e) then Some (f, e :: t') else Some (e, t)
    | None => Some (e, t)
    end
  end.
(** 766-785 one unary rule *)
Definition ustate := (chart * midfilter * agenda)%type.
Definition relax (p : option N) (s : ustate) (r : rule) : ustate :=
  let '(ch, m, ag) := s in
  if mask (rno r) then s
  else
    let it := (left, right, lhs r) in
    let q := option_map (fun p => (rprob r + p)%N) p in
    let '(ch1, ag1) := match q with
      | Some q' => if ltp q (prob ch it) then (updateprob ch it q', setifbetter ag (lhs r) q) else (ch, ag)
      | None => (ch, ag)
      end in
    (addedge ch1 it right (Some r), updatemid m left right (lhs r), ag1).
(** 757-785 the loop *)
Fixpoint uloop (fuel : nat) (s : ustate) : option (chart * midfilter) :=
  let '(ch, m, ag) := s in
  match fuel with
  | O => None
  | S f =>
    match popmin ag with
    | None => Some (ch, m)
    | Some ((x, _), ag') => uloop f (fold_left (relax (prob ch (left, right, x))) (unary x) (ch, m, ag'))
    end
  end.
(** 731-785 applyunaryrules: [prio] is the priority of the n'th item of the
    chart at 750; for the sparse chart its probability *)
Variable prio : chart -> nat -> item -> option N.
Definition initagenda (ch : chart) (lastidx : nat) : agenda :=
  fold_left (fun ag n => match nth_error (items ch) n with Some it => setifbetter ag (snd it) (prio ch n it) | None => ag end)
    (seq lastidx (length (items ch) - lastidx)) [].
Definition applyunary (fuel : nat) (lastidx : nat) (s : chart * midfilter) : option (chart * midfilter) :=
  uloop fuel (fst s, snd s, initagenda (fst s) lastidx).
End Cell.

Variable prio : chart -> nat -> item -> option N.
(** 476-528 one cell *)
Definition cell (fuel : nat) (s : chart * midfilter) (left right : nat) : option (chart * midfilter) :=
  applyunary left right prio fuel (length (items (fst s))) (binary left right s).
(** the tags of a word: 650-676 lookup, 704-713 gold tags.  [lexrules i]: the
    lexical rules for the word, or else for its lower case form; [tag i]: the
    labels that match the gold tag, when there is one; [lexicallhs]: the labels
    that have lexical rules *)
Variable lexrules : nat -> list (nat * N).
Variable tag : nat -> option (nat -> bool).
Variable lexicallhs : list nat.
Definition wordtags (i : nat) : list (nat * N) :=
  match tag i with
  | None => lexrules i
  | Some t => match filter (fun e => t (fst e)) (lexrules i) with
              | [] => map (fun x => (x, 0%N)) (filter t lexicallhs)
              | l => l
              end
  end.
Definition addtag (i : nat) (s : chart * midfilter) (e : nat * N) : chart * midfilter :=
  let it := (i, i + 1, fst e) in
  (addedge (updateprob (fst s) it (snd e)) it (i + 1) None, updatemid (snd s) i (i + 1) (fst e)).
(** 634-722 one word; the boolean tells whether a tag has been found *)
Definition word (fuel : nat) (s : chart * midfilter) (i : nat) : option (bool * (chart * midfilter)) :=
  match wordtags i with
  | [] => Some (false, s)
  | l => match applyunary i (i + 1) prio fuel (length (items (fst s))) (fold_left (addtag i) l s) with
         | Some s' => Some (true, s')
         | None => None
         end
  end.
(** 612-728 populatepos *)
Fixpoint populatepos (fuel : nat) (ws : list nat) (s : chart * midfilter) : option (bool * (chart * midfilter)) :=
  match ws with
  | [] => Some (true, s)
  | i :: r => match word fuel s i with
              | Some (true, s') => populatepos fuel r s'
              | o => o
              end
  end.
Fixpoint cells (fuel : nat) (cs : list (nat * nat)) (s : chart * midfilter) : option (chart * midfilter) :=
  match cs with
  | [] => Some s
  | (l, r) :: cs' => match cell fuel s l r with Some s' => cells fuel cs' s' | None => None end
  end.
(** 441-533 parse_grammarloop for a sentence of n words; None: out of fuel *)
Definition initmid (n : nat) : midfilter :=
  MF (fun _ _ => -1)%Z (fun _ _ => Z.of_nat n + 1)%Z (fun _ _ => Z.of_nat n + 1)%Z (fun _ _ => -1)%Z.
Definition spancells (n span : nat) : list (nat * nat) := map (fun left => (left, left + span)) (seq 0 (n - span + 1)).
Definition parse (fuel n : nat) : option (bool * chart) :=
  match populatepos fuel (seq 0 n) (emptychart, initmid n) with
  | None => None
  | Some (false, s) => Some (false, fst s)
  | Some (true, s) =>
    match cells fuel (flat_map (spancells n) (seq 2 (n - 1))) s with
    | Some s' => Some (true, fst s')
    | None => None
    end
  end.
End Cky.
(** the two charts: 750-751 (<Chart>chart).subtreeprob(itemidx) is the probability
    of the item for the sparse chart (containers.pyx:84); the dense chart
    (148-150) takes the position in the list of items for the item itself *)
Definition sparseprio (ch : chart) (n : nat) (it : item) : option N := prob ch it.
(** 148-150: the item of which the dense chart takes the probability for the
    k'th item added to the list; chart.items has an extra first element (63) *)
Definition denseprio (n nts : nat) (ch : chart) (k : nat) (it : item) : option N :=
  let c := Z.of_nat (S k) in
  prob ch (Z.to_nat (CellModel.cellstart (S n) c (Z.of_nat n) (Z.of_nat nts)), Z.to_nat (CellModel.cellend (S n) c (Z.of_nat n) (Z.of_nat nts)), S k mod nts).

Section Left.
Variables (rules : list rule) (mask : nat -> bool).
Variables (lexrules : nat -> list (nat * N)) (tag : nat -> option (nat -> bool)) (lexicallhs : list nat).
(** 536-609 parse_leftchildloop, with a whitelist that blocks nothing.
    [lbinary x]: the rules with x as left child, grammar.lbinary[x] *)
Definition lbinary (x : nat) : list rule := filter (fun r => (rhs1 r =? x) && negb (rhs2 r =? 0)) rules.
(** 575-595 one rule for the left item [it], which the code takes to be in cell
    (left, mid) *)
Definition leftrule (left mid right : nat) (it : item) (ch : chart) (r : rule) : chart :=
  match prob ch it, prob ch (mid, right, rhs2 r) with
  | Some a, Some b => if mask (rno r) then ch else addedge (updateprob ch (left, right, lhs r) (a + b + rprob r)%N) (left, right, lhs r) mid (Some r)
  | _, _ => ch
  end.
(** 566-598 the items from position [idx] whose end is [mid]; reading past the
    end of the list, which is undefined in C++, ends the loop here *)
Fixpoint leftloop (fuel : nat) (left mid right : nat) (ch : chart) (idx : nat) : option chart :=
  match fuel with
  | O => None
  | S f =>
    match nth_error (items ch) idx with
    | Some (i, j, x) => if j =? mid then leftloop f left mid right (fold_left (leftrule left mid right (i, j, x)) (lbinary x) ch) (S idx) else Some ch
    | None => Some ch
    end
  end.
Fixpoint leftmids (fuel : nat) (left right : nat) (cellindex : nat -> nat -> nat) (mids : list nat) (ch : chart) : option chart :=
  match mids with
  | [] => Some ch
  | mid :: t => match leftloop fuel left mid right ch (cellindex left mid) with
                | Some ch' => leftmids fuel left right cellindex t ch'
                | None => None
                end
  end.
Definition putidx (ci : nat -> nat -> nat) (l r v : nat) : nat -> nat -> nat := fun l' r' => if (l' =? l) && (r' =? r) then v else ci l' r'.
(** 558-603 the cells; the midfilter is not used *)
Fixpoint leftcells (fuel : nat) (cs : list (nat * nat)) (ch : chart) (m : midfilter) (ci : nat -> nat -> nat) : option chart :=
  match cs with
  | [] => Some ch
  | (l, r) :: cs' =>
    let ci' := putidx ci l r (length (items ch)) in
    match leftmids fuel l r ci' (seq (l + 1) (r - l - 1)) ch with
    | Some ch1 => match applyunary rules mask l r sparseprio fuel (length (items ch)) (ch1, m) with
                  | Some (ch2, m2) => leftcells fuel cs' ch2 m2 ci'
                  | None => None
                  end
    | None => None
    end
  end.
(** 634-648, 720-726 populatepos with cellindex *)
Fixpoint leftwords (fuel : nat) (ws : list nat) (s : chart * midfilter) (ci : nat -> nat -> nat) : option (bool * (chart * midfilter) * (nat -> nat -> nat)) :=
  match ws with
  | [] => Some (true, s, ci)
  | i :: ws' =>
    let ci' := putidx ci i (i + 1) (length (items (fst s))) in
    match word rules mask sparseprio lexrules tag lexicallhs fuel s i with
    | Some (true, s') => leftwords fuel ws' s' ci'
    | Some (false, s') => Some (false, s', ci')
    | None => None
    end
  end.
Definition parse_left (fuel n : nat) : option (bool * chart) :=
  match leftwords fuel (seq 0 n) (emptychart, initmid n) (fun _ _ => 0) with
  | None => None
  | Some (false, s, _) => Some (false, fst s)
  | Some (true, s, ci) =>
    match leftcells fuel (flat_map (spancells n) (seq 2 (n - 1))) (fst s) (snd s) ci with
    | Some ch => Some (true, ch)
    | None => None
    end
  end.
End Left.
