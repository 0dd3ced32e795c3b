(** Model of discodop/gen.py: generating random sentences with an LCFRS.
    Weights are rational numbers (Python: floats); the random numbers are an argument.
    Nonterminals are numbered as in the code.  Not modelled: verbose output, the lookup
    tables that gen() does not use (unary, lbinary, rbinary, lexicalbyword, tolabel), the
    command line. *)
From Coq Require Import String.
From Coq Require Import List Bool Arith NArith QArith.
From Coq Require Qround.
From Verif Require Import PyStr.
From Verif Require TransformModel.
Import ListNotations.
Open Scope list_scope.
Open Scope nat_scope.

(** the second element of a rule: a yield function, or a word for lexical rules *)
Inductive yfield := Yf (yf : list (list nat)) | Word (w : pystr).
(** (rule, yf), weight: read_lcfrs_grammar, read_bitpar_grammar, grammar.py *)
Notation inrule := (list pystr * yfield * Q)%type (only parsing).
(** gen.py:21-24 *)
Record grule := Rule { lhs : nat; rhs1 : nat; rhs2 : nat; args : list N; lengths : list nat; prob : Q; no : nat }.
Record lexrule := LexicalRule { llhs : nat; word : pystr; lprob : Q; lno : nat }.
(** gen.py:19-20, the fields that gen() uses; lexicalbylhs is a dictionary *)
Record grammar := Grammar { numrules : nat; bylhs : nat -> list grule; lexicalbylhs : nat -> option (list lexrule); fanout : nat -> nat; toid : pystr -> option nat }.

(** gen.py:209-220 yfarray; [None]: AssertionError or OverflowError *)
Fixpoint yfnum (a : list nat) : N := match a with [] => 0%N | b :: r => (N.of_nat b + 2 * yfnum r)%N end.
Definition yfarray (yf : list (list nat)) : option (list N * list nat) :=
  if (length yf <=? 16) && forallb (fun a => length a <=? 32) yf && forallb (fun a => (yfnum a <? 2 ^ 32)%N) yf
  then Some (map yfnum yf, map (@length nat) yf) else None.
(** gen.py:223-226 arraytoyf *)
Definition arraytoyf (args : list N) (lengths : list nat) : list (list nat) :=
  map (fun na => map (fun m => if N.testbit (snd na) (N.of_nat m) then 1 else 0) (seq 0 (fst na))) (combine lengths args).

(** sorted(set(...)): by code point *)
Fixpoint strleb (a b : pystr) : bool :=
  match a, b with
  | [], _ => true
  | _ :: _, [] => false
  | x :: a', y :: b' => (x <? y)%N || ((x =? y)%N && strleb a' b')
  end.
Fixpoint dedups (l : list pystr) : list pystr :=
  match l with [] => [] | x :: r => if existsb (eqs x) (dedups r) then dedups r else x :: dedups r end.
Definition epsilon := str "Epsilon"%string.
Definition rootlabel := str "ROOT"%string.
(** gen.py:160-162 *)
Definition nonterminals (rules : list inrule) : list pystr :=
  epsilon :: rootlabel :: TransformModel.sort strleb (dedups (filter (fun a => negb (eqs a epsilon) && negb (eqs a rootlabel)) (flat_map (fun r : inrule => fst (fst r)) rules))).
Fixpoint indexs (a : pystr) (l : list pystr) : option nat :=
  match l with [] => None | b :: r => if eqs a b then Some 0 else match indexs a r with Some i => Some (S i) | None => None end end.
Definition put {X} (f : nat -> X) (i : nat) (x : X) : nat -> X := fun j => if j =? i then x else f j.
Definition eqyf (a b : list (list nat)) : bool := if list_eq_dec (list_eq_dec Nat.eq_dec) a b then true else false.
(** gen.py:187-188: unary rules with probability 1 *)
Definition unaryprob (labels : list pystr) (w : Q) : Q := if (length labels =? 2) && Qeq_bool w 1 then (w - (1 # 100000000))%Q else w.
(** gen.py:175-205 one rule; [None]: an exception *)
Definition addrule (ids : pystr -> option nat) (g : grammar) (n : nat) (r : inrule) : option grammar :=
  let '(labels, yf, w) := r in
  match labels with
  | a :: b :: rest =>
    match ids a, ids b with
    | Some x, Some y =>
      if eqs b epsilon then
        match yf with
        | Word wd =>
          if fanout g x <=? 1 then
            Some (Grammar (numrules g) (bylhs g)
              (put (lexicalbylhs g) x (Some (match lexicalbylhs g x with Some l => l | None => [] end ++ [LexicalRule x wd w n])))
              (put (fanout g) x 1) (toid g))
          else None
        | Yf _ => None
        end
      else
        match yf with
        | Yf yf =>
          match yfarray yf with
          | Some (ar, le) =>
            if eqyf yf (arraytoyf ar le) then
              match rest with
              | [] | [_] =>
                match (match rest with [] => Some 0 | c :: _ => ids c end) with
                | Some z =>
                  let fan := if fanout g x =? 0 then length ar else fanout g x in
                  if fan =? length ar then
                    Some (Grammar (numrules g) (put (bylhs g) x (bylhs g x ++ [Rule x y z ar le (unaryprob labels w) n])) (lexicalbylhs g) (put (fanout g) x fan) (toid g))
                  else None
                | None => None
                end
              | _ => None
              end
            else None
          | None => None
          end
        | Word _ => None
        end
    | _, _ => None
    end
  | _ => None
  end.
Fixpoint addrules (ids : pystr -> option nat) (g : grammar) (n : nat) (rs : list inrule) : option grammar :=
  match rs with
  | [] => Some g
  | r :: rs => match addrule ids g n r with Some g' => addrules ids g' (S n) rs | None => None end
  end.
(** gen.py:152-206 splitgrammar *)
Definition splitgrammar (rules : list inrule) : option grammar :=
  let nts := nonterminals rules in
  let ids := fun a => indexs a nts in
  addrules ids (Grammar (length rules) (fun _ => []) (fun _ => None) (fun _ => 0) ids) 0 rules.

(** gen.py:61-69 chooserule, for a random number [u]; [None]: ValueError *)
Fixpoint qpow (d : Q) (k : nat) : Q := match k with O => 1%Q | S k => (d * qpow d k)%Q end.
Fixpoint pick {A} (position : Q) (rw : list (A * Q)) : option A :=
  match rw with
  | [] => None
  | (r, w) :: rest => let position := (position - w)%Q in if Qle_bool 0 position then pick position rest else Some r
  end.
Fixpoint qsum (l : list Q) : Q := match l with [] => 0%Q | x :: r => (x + qsum r)%Q end.
Definition chooserule {A} (probof : A -> Q) (noof : A -> nat) (rules : list A) (discount : Q) (prodcounts : list nat) (u : Q) : option A :=
  let weights := map (fun r => (probof r * qpow discount (nth (noof r) prodcounts 0%nat))%Q) rules in
  pick (u * qsum weights)%Q (combine rules weights).
(** gen.py:72-90 compose; [None]: pop from an empty list *)
Fixpoint composearg {W} (bits : list bool) (l1 l2 : list (list W)) : option (list W * list (list W) * list (list W)) :=
  match bits with
  | [] => Some ([], l1, l2)
  | true :: bits =>
    match l2 with
    | x :: l2 => match composearg bits l1 l2 with Some (arg, l1, l2) => Some (x ++ arg, l1, l2) | None => None end
    | [] => None
    end
  | false :: bits =>
    match l1 with
    | x :: l1 => match composearg bits l1 l2 with Some (arg, l1, l2) => Some (x ++ arg, l1, l2) | None => None end
    | [] => None
    end
  end.
Fixpoint composeargs {W} (args : list (nat * N)) (l1 l2 : list (list W)) : option (list (list W)) :=
  match args with
  | [] => Some []
  | (a, n) :: args =>
    match composearg (map (fun b => N.testbit n (N.of_nat b)) (seq 0 a)) l1 l2 with
    | Some (arg, l1, l2) => match composeargs args l1 l2 with Some result => Some (arg :: result) | None => None end
    | None => None
    end
  end.
Definition compose {W} (r : grule) (left right : Q * list (list W)) : option (Q * list (list W)) :=
  let '(p1, l1) := left in let '(p2, l2) := right in
  match composeargs (combine (lengths r) (args r)) l1 l2 with
  | Some result => Some ((prob r * p1 * p2)%Q, result)
  | None => None
  end.
Definition setnth (l : list nat) (n v : nat) : list nat := firstn n l ++ match skipn n l with [] => [] | _ :: r => v :: r end.
(** gen.py:27-58 gen: the random numbers still to be used are an argument and a result, as
    are the counts of the rules; [fuel] bounds the depth of the recursion.  [None]: an
    exception, not enough fuel or random numbers *)
Fixpoint gen (g : grammar) (discount : Q) (fuel : nat) (start : nat) (prodcounts : list nat) (us : list Q) {struct fuel} : option (Q * list (list pystr) * list nat * list Q) :=
  match fuel, us with
  | S fuel, u :: us =>
    match bylhs g start with
    | [] =>
      match lexicalbylhs g start with
      | Some lex => match chooserule lprob lno lex discount prodcounts u with Some t => Some (lprob t, [[word t]], prodcounts, us) | None => None end
      | None => None
      end
    | rules =>
      match chooserule prob no rules discount prodcounts u with
      | Some r =>
        match gen g discount fuel (rhs1 r) (setnth prodcounts (no r) (nth (no r) prodcounts 0 + 1)) us with
        | Some (p1, l1, pc, us) =>
          if rhs2 r =? 0 then Some ((p1 * prob r)%Q, l1, setnth pc (no r) (nth (no r) pc 0 - 1), us)
          else match gen g discount fuel (rhs2 r) pc us with
          | Some (p2, l2, pc, us) =>
            match compose r (p1, l1) (p2, l2) with
            | Some (p, l) => Some (p, l, setnth pc (no r) (nth (no r) pc 0 - 1), us)
            | None => None
            end
          | None => None
          end
        | None => None
        end
      | None => None
      end
    end
  | _, _ => None
  end.
(** gen(grammar, start, discount): prodcounts = [1] * grammar.numrules *)
Definition generate (g : grammar) (discount : Q) (fuel : nat) (start : nat) (us : list Q) : option (Q * list (list pystr)) :=
  match gen g discount fuel start (repeat 1 (numrules g)) us with Some (p, l, _, _) => Some (p, l) | None => None end.

(** gen.py:115-149 read_bitpar_grammar (division by zero is not modelled) on the white space separated fields of the lines,
    with the numbers parsed.  map() and zip() objects are iterators: going through them
    again gives nothing.
    [weights]: the items that the iterator has not given yet *)
Inductive bitparline := BRule (p : Q) (labels : list pystr).
Definition isint (q : Q) : bool := Qeq_bool q (inject_Z (Qround.Qfloor q)).
(** all(int(w) == w for w in weights): the result and the rest of the iterator *)
Fixpoint allint (weights : list Q) : bool * list Q :=
  match weights with
  | [] => (true, [])
  | w :: rest => if isint w then allint rest else (false, rest)
  end.
Definition dictadd (fd : list (pystr * Q)) (k : pystr) (p : Q) : list (pystr * Q) :=
  if existsb (fun kv => eqs (fst kv) k) fd then map (fun kv => if eqs (fst kv) k then (fst kv, (snd kv + p)%Q) else kv) fd else fd ++ [(k, p)].
Definition dictget (fd : list (pystr * Q)) (k : pystr) : Q := match find (fun kv => eqs (fst kv) k) fd with Some kv => snd kv | None => 0%Q end.
Record bitparstate := BP { bgrammar : list inrule; bint : bool; bfd : list (pystr * Q) }.
(** 124-139 the loop over the rules; [None]: ValueError *)
Fixpoint bprules (st : bitparstate) (lines : list bitparline) : option bitparstate :=
  match lines with
  | [] => Some st
  | BRule p rule :: lines =>
    let int := bint st && isint p in
    let fd := match rule with a :: _ => dictadd (bfd st) a p | [] => bfd st end in
    match rule with
    | [_; _] => bprules (BP (bgrammar st ++ [(rule, Yf [[0]], p)]) int fd) lines
    | [_; _; _] => bprules (BP (bgrammar st ++ [(rule, Yf [[0; 1]], p)]) int fd) lines
    | _ => None
    end
  end.
(** 140-150 the loop over the lexicon: a word, its tags and weights *)
Definition bplex (st : bitparstate) (line : pystr * list pystr * list Q) : bitparstate :=
  let '(wd, tags, weights) := line in
  let '(int, weights) :=
    if bint st then let '(ok, rest) := allint weights in (ok, rest) else (false, weights) in
  let tagged := combine tags weights in
  let fd := fold_left (fun fd tp => dictadd fd (fst tp) (snd tp)) tagged (bfd st) in
  (* the zip object is exhausted by the loop over it *)
  let tagged : list (pystr * Q) := [] in
  BP (bgrammar st ++ map (fun tp => ([fst tp; epsilon], Word wd, snd tp)) tagged) int fd.
Definition read_bitpar_grammar (rules : list bitparline) (lexicon : list (pystr * list pystr * list Q)) : option (list inrule) :=
  match bprules (BP [] true []) rules with
  | Some st =>
    let st := fold_left bplex lexicon st in
    Some (if bint st then map (fun rp : inrule => let '(labels, yf, p) := rp in (labels, yf, (p / dictget (bfd st) (hd [] labels))%Q)) (bgrammar st) else bgrammar st)
  | None => None
  end.
