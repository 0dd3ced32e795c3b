(** Model of the bracket notation of discodop/tree.py: Tree.parse, str(tree),
    pprint, escape / unescape, (disc)bracket readers and writers. *)
From Coq Require Import String.
From Coq Require Import List Bool Arith NArith Lia.
From Verif Require Import PyStr TreeModel.
Import ListNotations.
Open Scope list_scope.

(** Python runtime: str.isspace(), which is also what \s matches in a str
    pattern *)
Definition isspace (c : char) : bool :=
  ((9 <=? c) && (c <=? 13) || (28 <=? c) && (c <=? 32) || (c =? 133) || (c =? 160)
   || (c =? 5760) || (8192 <=? c) && (c <=? 8202) || (c =? 8232) || (c =? 8233)
   || (c =? 8239) || (c =? 8287) || (c =? 12288))%N.
Definition openb : char := 40%N.     (* ( *)
Definition closeb : char := 41%N.    (* ) *)
Definition space : char := 32%N.
Definition newline : char := 10%N.
(** tree.py:448-451: [^\s()] *)
Definition labelchar (c : char) : bool := negb (isspace c) && negb (N.eqb c openb) && negb (N.eqb c closeb).
Fixpoint span (p : char -> bool) (s : pystr) : pystr * pystr :=
  match s with
  | [] => ([], [])
  | c :: t => if p c then let '(a, b) := span p t in (c :: a, b) else ([], s)
  end.

(** tree.py:452-471: the tokens found by finditer: an open bracket with its
    label ('' when there is none; token[1:].lstrip()), a close bracket, a leaf *)
Inductive token := TOpen (label : pystr) | TClose | TLeaf (s : pystr).
Fixpoint tokens (fuel : nat) (s : pystr) : list token :=
  match fuel with
  | O => []
  | S f =>
    match s with
    | [] => []
    | c :: t =>
      if N.eqb c openb then
        let '(lab, rest) := span labelchar (snd (span isspace t)) in TOpen lab :: tokens f rest
      else if N.eqb c closeb then TClose :: tokens f t
      else if isspace c then tokens f t
      else let '(w, rest) := span labelchar s in TLeaf w :: tokens f rest
    end
  end.
Definition tokenize (s : pystr) : list token := tokens (length s) s.

(** tree.py:454-492: the stack of (label, children); the bottom element has no
    label.  [parse_leaf] may keep a state (the readers below collect the words
    in it); None is an exception it raises.  Here the top of the stack is kept
    apart from the rest: [cur] are the children of the top element, reversed. *)
Section Parse.
Context {S A : Type}.
Variable parse_leaf : S -> pystr -> option (S * A).
Notation tree := (tree pystr A).
Inductive parseres := POk (t : tree) (st : S) | PValueError.
Fixpoint parse_loop (toks : list token) (st : S) (bottom : list tree) (stack : list (pystr * list tree)) : parseres :=
  match toks with
  | [] =>
    match stack with
    | _ :: _ => PValueError                          (* 484-485 *)
    | [] => match bottom with
            | [] => PValueError                        (* 488-489 *)
            | t :: _ => POk t st                        (* 490 *)
            end
    end
  | TOpen lab :: r =>                                    (* 458-463 *)
    match stack, bottom with
    | [], _ :: _ => PValueError
    | _, _ => parse_loop r st bottom ((lab, []) :: stack)
    end
  | TClose :: r =>                                        (* 464-471 *)
    match stack with
    | [] => PValueError
    | [(lab, ch)] => parse_loop r st (bottom ++ [Node lab ch]) []
    | (lab, ch) :: (lab2, ch2) :: stack' => parse_loop r st bottom ((lab2, ch2 ++ [Node lab ch]) :: stack')
    end
  | TLeaf w :: r =>                                        (* 472-477 *)
    match stack with
    | [] => PValueError
    | (lab, ch) :: stack' =>
      match parse_leaf st w with
      | None => PValueError
      | Some (st', a) => parse_loop r st' bottom ((lab, ch ++ [Leaf a]) :: stack')
      end
    end
  end.
Definition parse (s : pystr) (st : S) : parseres := parse_loop (tokenize s) st [] [].
End Parse.

(** Tree.parse(s, parse_leaf=None) and Tree(s) / parse_leaf=int.  Of int(),
    only plain decimal numerals are modelled. *)
Definition parse_str (s : pystr) : @parseres unit pystr := parse (fun st w => Some (st, w)) s tt.
Definition parse_int (s : pystr) : @parseres unit nat :=
  parse (fun st w => match undec w with Some n => Some (st, n) | None => None end) s tt.

(** tree.py:557-573 _pprint_flat('()'), 525-526 __str__; [show] prints a leaf:
    '%s' for a string, repr for an integer *)
Fixpoint join (sep : pystr) (l : list pystr) : pystr :=
  match l with [] => [] | [x] => x | x :: r => x ++ sep ++ join sep r end.
Section Print.
Context {A : Type}.
Variable show : A -> pystr.
Fixpoint pprint_flat (t : tree pystr A) : pystr :=
  match t with
  | Leaf a => show a
  | Node l ts => [openb] ++ l ++ [space] ++ join [space] (map pprint_flat ts) ++ [closeb]
  end.
(** tree.py:528-555 pprint(margin, indent) *)
Fixpoint pprint (margin indent : nat) (t : tree pystr A) : pystr :=
  match t with
  | Leaf a => show a
  | Node l ts =>
    let s := pprint_flat t in
    if length s + indent <? margin then s
    else [openb] ++ l ++
      flat_map (fun c => newline :: repeat space (indent + 2) ++ pprint margin (indent + 2) c) ts
      ++ [closeb]
  end.
End Print.

(** str.replace(old, new) for a non-empty old: leftmost, non-overlapping *)
Fixpoint replace_loop (old new : pystr) (skip : nat) (s : pystr) : pystr :=
  match s with
  | [] => []
  | c :: t =>
    match skip with
    | S k => replace_loop old new k t
    | O => if startswith s old then new ++ replace_loop old new (length old - 1) t
           else c :: replace_loop old new 0 t
    end
  end.
Definition replace (s old new : pystr) : pystr := replace_loop old new 0 s.

(** tree.py:1976-1979 escape; None is the frontier / missing word *)
Definition escape (text : option pystr) : pystr :=
  match text with
  | None => []
  | Some t => replace (replace t (str "(") (str "#LRB#")) (str ")") (str "#RRB#")
  end.
(** tree.py:1982-1985 unescape *)
Definition unescape (text : pystr) : option pystr :=
  if eqs text [] || eqs text (str "#FRONTIER#") then None
  else Some (replace (replace text (str "#LRB#") (str "(")) (str "#RRB#") (str ")")).

(** tree.py:1988-2001 ptbescape *)
Definition ptbescape (token : option pystr) : pystr :=
  match token with
  | None => []
  | Some t =>
    if eqs t (str "{") then str "-LCB-" else if eqs t (str "}") then str "-RCB-"
    else if eqs t (str "[") then str "-LSB-" else if eqs t (str "]") then str "-RSB-"
    else replace (replace (replace t (str "(") (str "-LRB-")) (str ")") (str "-RRB-")) (str "/") (str "\/")
  end.
(** tree.py:2004-2017 ptbunescape *)
Definition ptbunescape (token : option pystr) : option pystr :=
  match token with
  | None => None
  | Some t =>
    if eqs t [] || eqs t (str "#FRONTIER#") then None
    else if eqs t (str "-LCB-") then Some (str "{") else if eqs t (str "-RCB-") then Some (str "}")
    else if eqs t (str "-LSB-") then Some (str "[") else if eqs t (str "-RSB-") then Some (str "]")
    else Some (replace (replace (replace (replace (replace t (str "-LRB-") (str "(")) (str "-RRB-") (str ")"))
                 (str "#LRB#") (str "(")) (str "#RRB#") (str ")")) (str "\/") (str "/"))
  end.

(** tree.py:26 INDEXRE = r' ([0-9]+)\)' and its sub with a replacement function
    of the digits (None: the function raises) *)
Fixpoint index_sub (fuel : nat) (f : pystr -> option pystr) (s : pystr) : option pystr :=
  match fuel with
  | O => Some s
  | S k =>
    match s with
    | [] => Some []
    | c :: t =>
      let '(ds, rest) := span isdigit t in
      match N.eqb c space, ds, rest with
      | true, _ :: _, d :: rest' =>
        if N.eqb d closeb then
          match f ds, index_sub k f rest' with Some a, Some b => Some (a ++ b) | _, _ => None end
        else option_map (cons c) (index_sub k f t)
      | _, _, _ => option_map (cons c) (index_sub k f t)
      end
    end
  end.
(** tree.py:1940-1944 writebrackettree; None is an exception (an index outside
    the sentence) *)
Definition sentword (sent : list (option pystr)) (ds : pystr) : option pystr :=
  match undec ds with Some i => option_map escape (nth_error sent i) | None => None end.
Definition writebrackettree (t : tree pystr nat) (sent : list (option pystr)) : option pystr :=
  let s := pprint_flat dec t in
  option_map (fun r => r ++ [newline])
    (index_sub (length s) (fun ds => option_map (fun w => [space] ++ w ++ [closeb]) (sentword sent ds)) s).
(** tree.py:1947-1952 writediscbrackettree *)
Definition writediscbrackettree (t : tree pystr nat) (sent : list (option pystr)) (pretty : bool) : option pystr :=
  let s := if pretty then pprint dec 70 0 t else pprint_flat dec t in
  option_map (fun r => r ++ [newline])
    (index_sub (length s) (fun ds => option_map (fun w => [space] ++ ds ++ [61%N] ++ w ++ [closeb]) (sentword sent ds)) s).

(** tree.py:25 SUPERFLUOUSSPACERE = r'\)\s+(?=\))', replaced by ')' *)
Fixpoint superfluous (fuel : nat) (s : pystr) : pystr :=
  match fuel with
  | O => s
  | S k =>
    match s with
    | [] => []
    | c :: t =>
      let '(sp, rest) := span isspace t in
      match N.eqb c closeb, sp, rest with
      | true, _ :: _, d :: _ => if N.eqb d closeb then closeb :: superfluous k rest else c :: superfluous k t
      | _, _, _ => c :: superfluous k t
      end
    end
  end.
(** tree.py:24 FRONTIERNTRE = r' \)', replaced by ' #FRONTIER#)' *)
Definition frontier_sub (s : pystr) : pystr := replace s (str " )") (str " #FRONTIER#)").
(** tree.py:28 STRTERMRE = r' (?![0-9]+=)[^()]*\s*\)': a space not followed by
    digits and =, after which the next bracket is a closing one *)
Fixpoint strterm (s : pystr) : bool :=
  match s with
  | [] => false
  | c :: t =>
    (N.eqb c space &&
     negb (let '(ds, rest) := span isdigit t in
           match ds, rest with _ :: _, d :: _ => N.eqb d 61 | _, _ => false end) &&
     (match snd (span (fun x => negb (N.eqb x openb) && negb (N.eqb x closeb)) t) with
      | d :: _ => N.eqb d closeb | [] => false end))
    || strterm t
  end.

(** s.split('=', 1) with exactly two parts *)
Fixpoint spliteq (s : pystr) : option (pystr * pystr) :=
  match s with
  | [] => None
  | c :: t => if N.eqb c 61 then Some ([], t)
              else match spliteq t with Some (a, b) => Some (c :: a, b) | None => None end
  end.
(** tree.py:1924-1931: the dictionary [sent] and substleaf *)
Definition dict := list (nat * option pystr).
Fixpoint dget (d : dict) (i : nat) : option (option pystr) :=
  match d with [] => None | (j, w) :: r => if i =? j then Some w else dget r i end.
Definition substleaf (d : dict) (x : pystr) : option (dict * nat) :=
  match spliteq x with
  | Some (idx, word) => match undec idx with Some i => Some ((i, unescape word) :: d, i) | None => None end
  | None => None
  end.
Fixpoint listmax (d : dict) : nat := match d with [] => 0 | (i, _) :: r => max i (listmax r) end.
(** 1936: [sent.get(n, None) for n in range(max(sent) + 1)]; max({}) raises *)
Definition sent_of (d : dict) : option (list (option pystr)) :=
  match d with
  | [] => None
  | _ => Some (map (fun n => match dget d n with Some w => w | None => None end) (seq 0 (listmax d + 1)))
  end.
(** tree.py:1920-1937 discbrackettree (ParentedTree: the parent pointers are
    modelled elsewhere); None is an exception *)
Definition discbrackettree (s : pystr) : option (tree pystr nat * list (option pystr)) :=
  match parse substleaf (superfluous (length s) s) [] with
  | POk t d => match sent_of d with Some snt => Some (t, snt) | None => None end
  | PValueError => None
  end.
(** tree.py:1885-1917 brackettree *)
Definition collect (st : list (option pystr)) (x : pystr) : option (list (option pystr) * nat) :=
  Some (st ++ [unescape x], length st).
Definition brackettree (s : pystr) (detectdisc : bool) : option (tree pystr nat * list (option pystr)) :=
  if negb detectdisc || strterm s then
    match parse collect (frontier_sub (superfluous (length s) s)) [] with
    | POk t sent => Some (t, sent)
    | PValueError => None
    end
  else discbrackettree s.
