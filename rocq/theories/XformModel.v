(** Model of discodop/treebanktransforms.py:131-217 transform and 1148-1354
    reversetransform, for these transformations: APPEND-FUNC, FUNC-NODE,
    APPEND-MORPH, MORPH-NODE, LEMMA-NODE, MARK-YEAR, PUNCT, FANOUT, PARENT, TAGPA,
    NP-PP (141-202), S-RC, NP, DP, VP-GF (225-268) and MARK-UNARY (494-497).
    The other transformations are not modelled. *)
From Coq Require Import String.
From Coq Require Import List Bool Arith NArith.
From Verif Require Import HeadModel PunctModel FuncModel PyStr TreeModel BracketModel TransformModel.
Import ListNotations.
Open Scope list_scope.
Notation before := HeadModel.before.
Notation leaves := TreeModel.leaves.

(** The fields of node.source.  Simplification: the fields WORD (the number of a
    node, which is renewed for new nodes), PARENT and the secondary edges are not
    modelled; a lemma of None comes from unescape(''). *)
Record src := mksrc { s_lemma : option pystr; s_tag : pystr; s_morph : pystr; s_func : pystr }.
(** ['--'] * 6 *)
Definition nosrc : src := mksrc (Some (str "--")) (str "--") (str "--") (str "--").
(** a node: label and source, which may be None *)
Notation nd := (prod pystr (option src)) (only parsing).
Notation xt := (tree nd nat).

Inductive name := AppendFunc | FuncNode | AppendMorph | MorphNode | LemmaNode | MarkYear | Punct | Fanout | Parent | TagPa | NpPp
  | SRc | Np | VpGf | MarkUnary | Dp.

Fixpoint alls {A} (l : list (option A)) : option (list A) :=
  match l with
  | [] => Some []
  | Some x :: r => match alls r with Some r' => Some (x :: r') | None => None end
  | None :: _ => None
  end.
Definition CARET : N := 94.
Definition funcs (l : nd) : list pystr := functions (option_map s_func (snd l)).
Definition func1 (l : nd) : pystr := function (option_map s_func (snd l)).
(** 1642-1648 strip *)
Definition strip (label : pystr) : pystr :=
  if contains label (str "-") then before HYPHEN label
  else if contains label (str "^") then before CARET label else label.
(** lexicon.py:35 YEARRE *)
Definition isdig (c : N) : bool := (48 <=? c)%N && (c <=? 57)%N.
Definition isyear (w : pystr) : bool :=
  match w with
  | a :: b :: c :: d :: r =>
    (eqs [a; b] (str "19") || eqs [a; b] (str "20")) && isdig c && isdig d && (match r with [] => true | [e] => N.eqb e 10 | _ => false end)
  | _ => false
  end.

(** ---- State splits: what is added to the label of a node.  [up] is the label
    of the parent (which the traversal has already changed); [None]: AttributeError,
    because the root has no parent.
    Simplification: PARENT (190-193) skips the first phrasal node of the
    traversal; here that is the root. *)
Definition suffix (n : name) (sent : list pystr) (up : option pystr) (l : nd) (ts : list xt) : option pystr :=
  let w := match ts with Leaf a :: _ => Some (nth a sent []) | _ => None end in
  let caret s := str "^" ++ s in
  match n with
  | MarkYear => Some (match w with Some w => if isyear w then caret (str "year") else [] | None => [] end)          (* 175-178 *)
  | Punct => Some (match w with Some w => if contains (str ".?!") w then caret w else [] | None => [] end)          (* 179-182 *)
  | Parent => Some (match ts, up with Node _ _ :: _, Some p => caret (strip p) | _, _ => [] end)                     (* 187-193 *)
  | TagPa =>                                                                                                         (* 194-198 *)
    match w with
    | Some w => if mem w PUNCTUATION then Some [] else match up with Some p => Some (caret (strip p)) | None => None end
    | None => Some []
    end
  | NpPp =>                                                                                                          (* 199-202 *)
    if eqs (fst l) (str "PP") then match up with Some p => Some (if eqs p (str "NP") then caret (str "NP") else []) | None => None end
    else Some []
  | SRc => Some (if eqs (fst l) (str "S") && eqs (func1 l) (str "RC") then caret (str "RC") else [])                (* 225-228 *)
  | Np => Some (if eqs (fst l) (str "NP") then caret (func1 l) else [])                                              (* 229-231 *)
  | VpGf => Some (if eqs (fst l) (str "VP") then caret (func1 l) else [])                                            (* 266-268 *)
  | MarkUnary => Some (match ts with [Node _ _] => caret (str "U") | _ => [] end)                                    (* 494-497 *)
  | _ => Some []
  end.
Fixpoint splits (n : name) (sent : list pystr) (up : option pystr) (t : xt) : option xt :=
  match t with
  | Leaf a => Some (Leaf a)
  | Node l ts =>
    match suffix n sent up l ts with
    | None => None
    | Some s =>
      let l' := fst l ++ s in
      match alls (map (splits n sent (Some l')) ts) with None => None | Some us => Some (Node (l', snd l) us) end
    end
  end.

(** ---- 143-147 APPEND-FUNC *)
Fixpoint appendfunc (t : xt) : xt :=
  match t with
  | Leaf a => Leaf a
  | Node l ts =>
    let f := funcs l in
    Node (if (match f with [] => false | _ => true end) && negb (endswith (fst l) (str "-")) then fst l ++ str "-" ++ join (str "-") f else fst l, snd l)
         (map appendfunc ts)
  end.
(** ---- 148-154 FUNC-NODE *)
Fixpoint funcnode (t : xt) : xt :=
  match t with
  | Leaf a => Leaf a
  | Node l ts =>
    let us := map funcnode ts in
    let f := funcs l in
    if (match f with [] => false | _ => true end) && negb (endswith (fst l) (str "-"))
    then Node (str "-" ++ join (str "-") f, snd l) [Node (fst l, None) us]
    else Node l us
  end.
(** ---- 161-167 MORPH-NODE, 168-174 LEMMA-NODE: a node between a preterminal and its word *)
Definition brackets (s : pystr) : pystr := map (fun c => if N.eqb c 40 then 91%N else if N.eqb c 41 then 93%N else c) s.
Fixpoint between (f : option src -> pystr) (t : xt) : xt :=
  match t with
  | Leaf a => Leaf a
  | Node l ts =>
    match ts with
    | Leaf _ :: _ => Node l [Node (f (snd l), None) ts]
    | _ => Node l (map (between f) ts)
    end
  end.
Definition morphof (s : option src) : pystr := match s with None => str "--" | Some s => brackets (s_morph s) end.
Definition lemmaof (s : option src) : pystr := match s with None => str "--" | Some s => escape (s_lemma s) end.
(** ---- treetransforms.py:619-626 FANOUT, as in TransformModel *)
Fixpoint addfanout (t : xt) : xt :=
  match t with
  | Leaf a => Leaf a
  | Node l ts =>
    let f := fanout_of (leaves t) in
    let mark := str "_" ++ dec f in
    Node (if (1 <? f) && negb (endswith (fst l) mark) then fst l ++ mark else fst l, snd l) (map addfanout ts)
  end.
(** ---- 255-265 DP; [None]: the first child of an NP is a word (AttributeError) or
    missing (IndexError), or its second child is a word *)
Fixpoint adddp (t : xt) : option xt :=
  match t with
  | Leaf a => Some (Leaf a)
  | Node l ts =>
    match alls (map adddp ts) with
    | None => None
    | Some us =>
      if eqs (fst l) (str "NP") then
        match ts, us with
        | Node l0 _ :: rest, u0 :: urest =>
          if eqs (fst l0) (str "ART") then
            match rest with
            | [] => Some (Node (str "DP", snd l) us)
            | Leaf _ :: _ => None
            | Node l1 _ :: _ =>
              Some (Node (str "DP", snd l) (if eqs (fst l1) (str "PN") then us else [u0; Node (str "NP", None) urest]))
            end
          else Some (Node l us)
        | _, _ => None
        end
      else Some (Node l us)
    end
  end.

(** ---- transform *)
Definition step (sent : list pystr) (n : name) (t : xt) : option xt :=
  match n with
  | AppendFunc => Some (appendfunc t)
  | FuncNode => Some (funcnode t)
  | AppendMorph => None                  (* 156: tree.subtree: AttributeError, there is no such method *)
  | MorphNode => Some (between morphof t)
  | LemmaNode => Some (between lemmaof t)
  | Fanout => Some (addfanout t)
  | Dp => adddp t
  | _ => splits n sent None t
  end.
Fixpoint steps (sent : list pystr) (ns : list name) (t : xt) : option xt :=
  match ns with
  | [] => Some t
  | n :: r => match step sent n t with None => None | Some u => steps sent r u end
  end.
(** 210-214, 1158-1160, 1345-1349: children in the order of their first words.
    Simplification: a node without words (ValueError) counts as 0. *)
Definition first_le (x y : xt) : bool := minleaf x <=? minleaf y.
Fixpoint order (t : xt) : xt := match t with Leaf a => Leaf a | Node l ts => Node l (sort first_le (map order ts)) end.
(** 131-220 *)
Definition transform (sent : list pystr) (ns : list name) (t : xt) : option xt := option_map order (steps sent ns t).

(** ---- reversetransform *)
(** 1153-1155: label[:label.index('^', 1)] *)
Definition unsplit (l : pystr) : pystr := match l with [] => [] | c :: r => c :: before CARET r end.
Fixpoint maplabels (f : pystr -> pystr) (t : xt) : xt :=
  match t with Leaf a => Leaf a | Node l ts => Node (f (fst l), snd l) (map (maplabels f) ts) end.
(** 1165-1166, removefanoutmarkers *)
Definition unfanout (l : pystr) : pystr := if contains l (str "_") then rsplit1 l else l.
(** 1167-1174 DP; [None]: the second child of a DP is a word (AttributeError) *)
Fixpoint removedp (t : xt) : option xt :=
  match t with
  | Leaf a => Some (Leaf a)
  | Node l ts =>
    match alls (map removedp ts) with
    | None => None
    | Some us =>
      if eqs (fst l) (str "DP") then
        match ts, us with
        | _ :: Leaf _ :: _, _ => None
        | _ :: Node l1 _ :: _, u0 :: Node _ ks :: _ =>
          if eqs (fst l1) (str "NP") then Some (Node (str "NP", snd l) (u0 :: ks)) else Some (Node (str "NP", snd l) us)
        | _, _ => Some (Node (str "NP", snd l) us)
        end
      else Some (Node l us)
    end
  end.
(** 1280-1289 APPEND-FUNC: label.split('-', 1) *)
Definition unappend (l : nd) : nd :=
  if contains (fst l) (str "-") && negb (startswith (fst l) (str "-")) && negb (endswith (fst l) (str "-")) then
    let label := before HYPHEN (fst l) in
    let s := match snd l with Some s => s | None => nosrc end in
    (label, Some (mksrc (s_lemma s) label (s_morph s) (skipn (S (length label)) (fst l))))
  else l.
Fixpoint mapnodes (f : nd -> nd) (t : xt) : xt :=
  match t with Leaf a => Leaf a | Node l ts => Node (f l) (map (mapnodes f) ts) end.
(** 1300-1307 FUNC-NODE; children after the first are dropped *)
Definition isfuncnode (l : nd) (ts : list xt) : bool :=
  startswith (fst l) (str "-") && negb (endswith (fst l) (str "-")) && (match ts with Node _ _ :: _ => true | _ => false end).
Fixpoint removefuncnode (t : xt) : xt :=
  match t with
  | Leaf a => Leaf a
  | Node l ts =>
    let us := map removefuncnode ts in
    if isfuncnode l ts then
      match us with
      | Node m ks :: _ => Node (fst m, Some (mksrc (Some (str "--")) (fst m) (str "--") (skipn 1 (fst l)))) ks
      | _ => Node l us
      end
    else Node l us
  end.
(** 1308-1314 MORPH-NODE, 1315-1321 LEMMA-NODE: the nodes with a preterminal as
    first child; other children are dropped *)
Definition overpreterm (ts : list xt) : option (pystr * list xt) :=
  match ts with Node m (Leaf a :: ks) :: _ => Some (fst m, Leaf a :: ks) | _ => None end.
Fixpoint removemorphnode (t : xt) : xt :=
  match t with
  | Leaf a => Leaf a
  | Node l ts =>
    match overpreterm ts with
    | Some (m, ks) => Node (m, Some (mksrc (Some (str "--")) m (fst l) (str "--"))) ks
    | None => Node l (map removemorphnode ts)
    end
  end.
(** [None]: a node without source (TypeError) *)
Fixpoint removelemmanode (t : xt) : option xt :=
  match t with
  | Leaf a => Some (Leaf a)
  | Node l ts =>
    match overpreterm ts with
    | Some (m, ks) =>
      match snd l with
      | None => None
      | Some s => Some (Node (fst l, Some (mksrc (unescape m) (fst l) (s_morph s) (s_func s))) ks)
      end
    | None => match alls (map removelemmanode ts) with None => None | Some us => Some (Node l us) end
    end
  end.
(** 1290-1299 APPEND-MORPH: a '/' in the label of a preterminal *)
Definition unmorph (l : nd) : nd :=
  if contains (fst l) (str "/") then
    let label := before 47 (fst l) in
    let s := match snd l with Some s => s | None => nosrc end in
    (label, Some (mksrc (s_lemma s) label (map (fun c => if N.eqb c 91 then 40%N else if N.eqb c 93 then 41%N else c) (skipn (S (length label)) (fst l))) (s_func s)))
  else l.
Fixpoint mappreterms (f : nd -> nd) (t : xt) : xt :=
  match t with
  | Leaf a => Leaf a
  | Node l ts => Node (match ts with Leaf _ :: _ => f l | _ => l end) (map (mappreterms f) ts)
  end.
(** 1164-1343; names without a branch are skipped *)
Definition rstep (n : name) (t : xt) : option xt :=
  match n with
  | AppendFunc => Some (mapnodes unappend t)
  | FuncNode => Some (removefuncnode t)
  | AppendMorph => Some (mappreterms unmorph t)
  | MorphNode => Some (removemorphnode t)
  | LemmaNode => removelemmanode t
  | Fanout => Some (maplabels unfanout t)
  | Dp => removedp t
  | _ => Some t
  end.
Fixpoint rsteps (ns : list name) (t : xt) : option xt :=
  match ns with
  | [] => Some t
  | n :: r => match rstep n t with None => None | Some u => rsteps r u end
  end.
(** 1148-1354 *)
Definition reversetransform (ns : list name) (t : xt) : option xt :=
  option_map order (rsteps (rev ns) (order (maplabels unsplit t))).
