(** Model of the incremental tree reader, discodop/treebank.py:1003-1217: CONSUMED, NEWLB,
    incrementaltreereader, segmentbrackets, segmentalpino, segmentexport.
    The parsers of single trees (brackettree, exporttree, alpinotree) are parameters here:
    functions from text to a tree or None (an exception); brackettree is modelled in
    BracketModel, exporttree in ExportModel. *)
From Coq Require Import String.
From Coq Require Import List Bool Arith NArith.
From Verif Require Import PyStr BracketModel.
From Verif Require ExportModel.
Import ListNotations.
Open Scope list_scope.
Open Scope nat_scope.

(** Python runtime: s.find(c, k) for a character c (None for -1), s[i:], s[i:j], s.lstrip(), s.rstrip() *)
Fixpoint indexof (c : char) (s : pystr) : option nat :=
  match s with [] => None | x :: r => if N.eqb x c then Some 0 else option_map S (indexof c r) end.
Definition find (c : char) (s : pystr) (k : nat) : option nat := option_map (Nat.add k) (indexof c (skipn k s)).
Definition slice (s : pystr) (i j : nat) : pystr := firstn (j - i) (skipn i s).
Notation lstrip := ExportModel.lstrip.
Notation rstrip := ExportModel.rstrip.

Section Reader.
Context {T : Type}.
(** brackettree(result, detectdisc=True); exporttree(lines); alpinotree of the XML block *)
Variables (bracketparse : pystr -> option T) (exportparse alpinoparse : list pystr -> option (T * option pystr)).
Variables (strict robust : bool).

(** what a reader yields: (None, not CONSUMED), (None, CONSUMED), a list of (tree, rest) (the
    status is then CONSUMED); or it ends (StopIteration), or raises an exception *)
Inductive outcome := NotMine | Wait | Trees (l : list (T * option pystr)) | Stop | Error.

(** ---- 1065-1143 segmentbrackets ---- *)
Record bstate := BState { parens : nat; depth : nat; prev : pystr; result : pystr; rest : pystr; resumed : bool }.
(** 1079-1088 tryparse *)
Definition tryparse (text others : pystr) (results : list (T * option pystr)) : option (list (T * option pystr)) :=
  option_map (fun t => results ++ [(t, Some (rstrip others))]) (bracketparse text).
(** 1105-1127 the loop over the brackets in [line]; a, b are the positions of the next
    brackets; None is an exception. The fuel is the number of iterations *)
Definition lookahead (line : pystr) (a : nat) (b : option nat) : bool :=
  match b with
  | None => true                                                                        (* 1108 *)
  | Some b => negb robust || match find openb line (a + 1) with Some x => x <? b | None => false end
  end.
Fixpoint scan (fuel : nat) (line : pystr) (a b : option nat) (start : nat) (st : bstate) (results : list (T * option pystr)) : option (bstate * list (T * option pystr)) :=
  match fuel with
  | 0 => Some (st, results)
  | S f =>
    let leftfirst := match a, b with Some x, Some y => x <? y | Some _, None => true | None, _ => false end in
    match a, b with
    | None, None => Some (st, results)                                                   (* 1105 *)
    | Some x, _ =>
      if leftfirst then                                                                  (* 1106 left bracket *)
        match (if (parens st =? 0) && lookahead line x b then                            (* 1108-1109 *)
                 let others := slice line start x in                                     (* 1110 *)
                 match result st with
                 | [] => Some (start, BState (parens st) (depth st) (skipn x line) [] others (resumed st), results)
                 | _ => option_map (fun rs => (x, BState (parens st) (depth st) (skipn x line) [] others (resumed st), rs)) (tryparse (result st) others results)   (* 1111-1113 *)
                 end
               else Some (start, st, results)) with
        | None => None
        | Some (start, st, results) =>
          let st := BState (S (parens st)) (max (depth st) (S (parens st))) (prev st) (result st) (rest st) (resumed st) in   (* 1114-1115 *)
          scan f line (find openb line (x + 1)) b start st results                        (* 1116 *)
        end
      else match b with
           | None => Some (st, results)
           | Some y =>                                                                    (* 1117 right bracket *)
             match (if (parens st =? 1) && (negb robust || (1 <? depth st)) then            (* 1118-1122 *)
                      Some (y + 1, BState 0 0 (skipn (y + 1) line) (slice line start (y + 1)) (rest st) (resumed st))
                    else if (parens st =? 0) && strict then None                          (* 1123-1125 *)
                    else Some (start, BState (parens st - 1) (depth st) (prev st) (result st) (rest st) (resumed st))) with   (* 1118, 1126: max(0, parens - 1) *)
             | None => None
             | Some (start, st) => scan f line a (find closeb line (y + 1)) start st results     (* 1127 *)
             end
           end
    | None, Some y =>
      match (if (parens st =? 1) && (negb robust || (1 <? depth st)) then
               Some (y + 1, BState 0 0 (skipn (y + 1) line) (slice line start (y + 1)) (rest st) (resumed st))
             else if (parens st =? 0) && strict then None
             else Some (start, BState (parens st - 1) (depth st) (prev st) (result st) (rest st) (resumed st))) with
      | None => None
      | Some (start, st) => scan f line a (find closeb line (y + 1)) start st results
      end
    end
  end.
Definition nonempty {A} (l : list A) : bool := match l with [] => false | _ => true end.
(** 1128 the status; 1129 yield *)
Definition outcome_of (st : bstate) (results : list (T * option pystr)) : outcome :=
  match results with
  | _ :: _ => Trees results
  | [] => if nonempty (result st) || negb (parens st =? 0) then Wait else NotMine
  end.
(** 1099-1129 one round, with the line as it was sent; 1140-1143 what is left of the previous
    lines goes before it. 1101-1103 have no effect: NEWLB matches the empty string, so that
    NEWLB.match(prev) is never None *)
Definition round (st : bstate) (line : pystr) : option (bstate * list (T * option pystr)) :=
  let pr := if negb (parens st =? 0) || nonempty (result st) then prev st else [] in
  let line := pr ++ line in
  scan (S (length line)) line (find openb line (length pr)) (find closeb line (length pr)) 0 (BState (parens st) (depth st) line (result st) (rest st) false) [].
(** 1132-1139 None was sent: one more yield, after which the value sent is ignored and the
    line is empty (here: [resumed]) *)
Definition sendbrackets (st : bstate) (line : option pystr) : outcome * bstate :=
  match (if resumed st then Some [] else line) with
  | Some line => match round st line with None => (Error, st) | Some (st, results) => (outcome_of st results, st) end
  | None =>
    let again := BState (parens st) (depth st) (prev st) (result st) (rest st) true in
    match result st with
    | [] => (outcome_of again [], again)
    | text => match tryparse text (rest st) [] with None => (Error, again) | Some results => (outcome_of again results, again) end
    end
  end.
(** 1091-1096 *)
Definition binit : bstate := BState 0 0 [] [] [] false.

(** ---- 1181-1217 segmentexport: the lines read, and 0, 1 (#BOS) or 2 (#BOT) ---- *)
Definition sendexport (st : list pystr * nat) (line : option pystr) : outcome * (list pystr * nat) :=
  let '(cur, inblock) := st in
  match line with
  | None => (Stop, st)
  | Some line =>
    let line := rstrip line in
    if startswith line (str "#BOS ") || startswith line (str "#BOT ") then
      if strict && negb (inblock =? 0) then (Error, st) else (Wait, ([line], if startswith line (str "#BOS ") then 1 else 2))
    else if startswith line (str "#EOS ") || startswith line (str "#EOT ") then
      if strict && (inblock =? 0) then (Error, st)
      else match exportparse (cur ++ [line]) with None => (Error, st) | Some item => (Trees [item], ([], 0)) end
    else match line with
         | [] => (NotMine, st)
         | _ =>
           let st := if inblock =? 1 then (cur ++ [line], inblock) else st in
           let line := if inblock =? 1 then line else lstrip line in
           (if negb (inblock =? 0) || startswith line (str "%%") || startswith line (str "#FORMAT ") then Wait else NotMine, st)
         end
  end.
(** ---- 1146-1178 segmentalpino ---- *)
Definition xmlheader : pystr := str "<?xml version=""1.0"" encoding=""UTF-8""?>".
Definition sendalpino (st : list pystr * nat) (line : option pystr) : outcome * (list pystr * nat) :=
  let '(cur, inblock) := st in
  match line with
  | None => (Stop, st)
  | Some line =>
    if startswith line (str "<alpino_ds") then (Wait, ([xmlheader; line], 1))
    else if startswith line (str "</alpino_ds>") then
      match alpinoparse (cur ++ [line]) with None => (Error, st) | Some item => (Trees [item], ([], 0)) end
    else match lstrip line with
         | [] => (NotMine, st)
         | stripped => (if negb (inblock =? 0) || startswith stripped (str "<?xml") then Wait else NotMine, if inblock =? 1 then (cur ++ [line], inblock) else st)
         end
  end.

(** ---- 1006-1062 incrementaltreereader ---- *)
Variable othertext : bool.
Definition states : Type := (list pystr * nat) * (list pystr * nat) * bstate.
(** what is yielded: a tree with the text after it, or (None, None, text) *)
Notation item := (option T * option pystr)%type (only parsing).
(** 1033-1047 the readers are tried from the current one; the result: StopIteration, exception,
    no reader wants the line, reader i waits for more, reader i has trees *)
Inductive offered := OStop | OError | ORejected (s : states) | OWait (i : nat) (s : states) | OTrees (l : list (T * option pystr)) (s : states).
Definition offerbrackets (line : option pystr) (s : states) : offered :=
  let '(e, a, b) := s in
  match sendbrackets b line with
  | (Stop, _) => OStop | (Error, _) => OError | (NotMine, b) => ORejected (e, a, b) | (Wait, b) => OWait 2 (e, a, b) | (Trees l, b) => OTrees l (e, a, b)
  end.
Definition offeralpino (line : option pystr) (s : states) : offered :=
  let '(e, a, b) := s in
  match sendalpino a line with
  | (Stop, _) => OStop | (Error, _) => OError | (NotMine, a) => offerbrackets line (e, a, b) | (Wait, a) => OWait 1 (e, a, b) | (Trees l, a) => OTrees l (e, a, b)
  end.
Definition offerexport (line : option pystr) (s : states) : offered :=
  let '(e, a, b) := s in
  match sendexport e line with
  | (Stop, _) => OStop | (Error, _) => OError | (NotMine, e) => offeralpino line (e, a, b) | (Wait, e) => OWait 0 (e, a, b) | (Trees l, e) => OTrees l (e, a, b)
  end.
Definition offer (i : nat) : option pystr -> states -> offered :=
  match i with 0 => offerexport | 1 => offeralpino | _ => offerbrackets end.
(** 1048-1054 *)
Definition output (tr : T * option pystr) : list item :=
  let '(t, others) := tr in
  match others with
  | None => [(Some t, None)]
  | Some s => match find newline s 0 with
              | Some x => if othertext then [(Some t, Some (firstn x s)); (None, Some (skipn x s))] else [(Some t, Some s)]
              | None => [(Some t, Some s)]
              end
  end.
(** 1030-1062 [line] is the current line, [treeinput] the lines to come; None is an exception.
    The generator ends at the end of treeinput: the last item is None, and a reader that has
    used it up is only followed by readers that end, or by the end of the loop *)
Fixpoint readloop (treeinput : list (option pystr)) (i : nat) (line : option pystr) (s : states) : option (list item) :=
  let continue (i : nat) (s : states) : option (list item) := match treeinput with [] => Some [] | next :: more => readloop more i next s end in
  match offer i line s with
  | OStop => Some []
  | OError => None
  | OWait j s => continue j s
  | OTrees l s => option_map (app (flat_map output l)) (continue 0 s)
  | ORejected s =>
    let other := match line with Some l => if othertext then [(None, Some (rstrip l))] else [] | None => [] end in
    option_map (app other) (continue 0 s)
  end.
(** 1022-1029: '(', None, None are added at the end *)
Definition incrementaltreereader (lines : list pystr) : option (list item) :=
  match map Some lines ++ [Some [openb]; None; None] with
  | first :: more => readloop more 0 first (([], 0), ([], 0), binit)
  | [] => Some []
  end.
End Reader.
