(** Model of head finding (discodop/heads.py) and of the conversion to
    dependencies (treebank.py:872-931).

    A tree is a preterminal with one index, or a node with a non-empty list of
    nodes as children (what the treebank readers give).  Of a node's source
    only the function field is kept ([None]: no source).  str.upper is a
    parameter.  The head rules are given as a dictionary, after reading the file
    except in [readrule]. *)
From Coq Require Import String.
From Coq Require Import List Bool Arith NArith ZArith.
From Verif Require Import PyStr TransformModel PunctModel.
Import ListNotations.
Open Scope list_scope.
Open Scope nat_scope.

(** tree.py:22 HEAD, COMPLEMENT, MODIFIER = range(3); 82: None, or one of these *)
Inductive ntype := HEAD | COMPLEMENT | MODIFIER.
Record attr := mkA { a_label : pystr; a_func : option pystr; a_type : option ntype }.
Inductive htree := Pre (a : attr) (i : nat) | Con (a : attr) (ts : list htree).
Definition attrof (t : htree) : attr := match t with Pre a _ => a | Con a _ => a end.
Definition label (t : htree) : pystr := a_label (attrof t).
Definition ishead (t : htree) : bool := match a_type (attrof t) with Some HEAD => true | _ => false end.
Definition settype (ty : option ntype) (t : htree) : htree :=
  match t with Pre a i => Pre (mkA (a_label a) (a_func a) ty) i | Con a ts => Con (mkA (a_label a) (a_func a) ty) ts end.
(** Tree.__eq__ (tree.py:116-120): label and children *)
Fixpoint teqb (a b : htree) {struct a} : bool :=
  match a, b with
  | Pre x i, Pre y j => eqs (a_label x) (a_label y) && (i =? j)
  | Con x ts, Con y us => eqs (a_label x) (a_label y) &&
      (fix go (ts us : list htree) : bool := match ts, us with
        | [], [] => true | t :: ts', u :: us' => teqb t u && go ts' us' | _, _ => false end) ts us
  | _, _ => false
  end.
Fixpoint leaves (t : htree) : list nat := match t with Pre _ i => [i] | Con _ ts => flat_map leaves ts end.

(** s.split(c), and s.split(c)[0] / s.split(c, 1) *)
Fixpoint before (c : N) (s : pystr) : pystr := match s with [] => [] | x :: r => if N.eqb x c then [] else x :: before c r end.
Fixpoint after (c : N) (s : pystr) : option pystr := match s with [] => None | x :: r => if N.eqb x c then Some r else after c r end.
Fixpoint splitc (c : N) (s : pystr) : list pystr :=
  match s with
  | [] => [[]]
  | x :: r => if N.eqb x c then [] :: splitc c r else match splitc c r with [] => [[x]] | y :: ys => (x :: y) :: ys end
  end.
Definition DASH : N := 45%N.
Definition BRACKET : N := 91%N.

(** a child with its number *)
Notation numbered := (nat * htree)%type (only parsing).
Section Heads.
Variable upper : pystr -> pystr.

(** HEADRULERE (10-11): the directions *)
Inductive dir := LeftToRight | RightToLeft | Left | Right | LeftDis | RightDis.
Definition isleft (d : dir) : bool := match d with LeftToRight | Left | LeftDis => true | _ => false end.
Definition isdis (d : dir) : bool := match d with LeftDis | RightDis => true | _ => false end.
Definition rules := list (pystr * list (dir * list pystr)).
Fixpoint getrules {V} (k : pystr) (m : list (pystr * list V)) : list V :=
  match m with [] => [] | (k', v) :: r => if eqs k k' then v else getrules k r end.
(** 41-63 readheadrules, one line after strip().upper() and HEADRULERE; [None] for
    direction is LIKE, whose field is the other label (KeyError when it has no rules yet) *)
Fixpoint addto {V} (m : list (pystr * list V)) (k : pystr) (v : list V) : list (pystr * list V) :=
  match m with [] => [(k, v)] | (k', v') :: r => if eqs k k' then (k', v' ++ v) :: r else (k', v') :: addto r k v end.
Fixpoint haskey {V} (m : list (pystr * list V)) (k : pystr) : bool :=
  match m with [] => false | (k', _) :: r => eqs k k' || haskey r k end.
Definition readrule (m : option rules) (line : pystr * option dir * list pystr * pystr) : option rules :=
  let '(lab, d, heads, other) := line in
  match m with
  | None => None
  | Some m =>
    let m := addto m lab [] in                                     (* 58 *)
    match d with
    | None => if haskey m other then Some (addto m lab (getrules other m)) else None   (* 59-60 *)
    | Some d => Some (addto m lab [(d, heads)])                    (* 61-62 *)
    end
  end.
Definition readheadrules (lines : list (pystr * option dir * list pystr * pystr)) : option rules := fold_left readrule lines (Some []).

(** 72, 81: child.label.split('[')[0].upper() *)
Definition base (t : htree) : pystr := upper (before BRACKET (label t)).
(** 68-74 find: by the order of the head labels, then of the children *)
Fixpoint find_ (heads : list pystr) (cs : list numbered) : option numbered :=
  match heads with
  | [] => None
  | h :: r => match find (fun c => eqs (base (snd c)) h) cs with Some c => Some c | None => find_ r cs end
  end.
(** 76-82 invfind: by the order of the children *)
Definition invfind (heads : list pystr) (cs : list numbered) : option numbered :=
  find (fun c => existsb (fun h => eqs (base (snd c)) h) heads) cs.
(** 87-89: a function tag HD *)
Definition hdfunc (t : htree) : bool :=
  match a_func (attrof t) with Some f => existsb (eqs (str "HD")) (splitc DASH (upper f)) | None => false end.
(** 93-105: the rules in turn; the children in the order of the last rule that was tried *)
Fixpoint tryrules (rs : list (dir * list pystr)) (ts cs : list numbered) : option numbered * list numbered :=
  match rs with
  | [] => (None, cs)
  | (d, heads) :: r =>
    let cs := if isleft d then ts else rev ts in
    match (if isdis d then invfind heads cs else find_ heads cs) with
    | Some h => (Some h, cs)
    | None => tryrules r ts cs
    end
  end.
(** 106-112 *)
Definition defaulthead (cs : list numbered) : option numbered :=
  match find (fun c => negb (ispunct None (label (snd c)))) cs with Some c => Some c | None => hd_error cs end.
(** tree.index(head) *)
Fixpoint indexeq (t : htree) (ts : list htree) : nat :=
  match ts with [] => 0 | u :: r => if teqb u t then 0 else S (indexeq t r) end.
(** 114-119: in a coordination, the last non-punctuation before the conjunction *)
Definition coord (ts : list htree) (head : numbered) : numbered :=
  let i := indexeq (snd head) ts in
  if (2 <=? i) && existsb (eqs (label (nth (i - 1) ts (Pre (mkA [] None None) 0)))) [str "CC"; str "CONJP"] then
    match find (fun c => negb (ispunct (Some (label (snd c))) (label (snd c)))) (rev (firstn (i - 1) (combine (seq 0 (List.length ts)) ts))) with
    | Some c => c
    | None => head
    end
  else head.
(** 66-120 headfinder: the number of the child *)
Definition headfinder (hr : rules) (lab : pystr) (ts : list htree) : option nat :=
  let cs := combine (seq 0 (List.length ts)) ts in
  match find (fun c => ishead (snd c)) cs with                     (* 84-86 *)
  | Some c => Some (fst c)
  | None => match find (fun c => hdfunc (snd c)) cs with           (* 87-90 *)
    | Some c => Some (fst c)
    | None => match tryrules (getrules lab hr) cs cs with
      | (Some h, _) => Some (fst (coord ts h))
      | (None, cs') => option_map fst (defaulthead cs')
      end
    end
  end.

(** treebanktransforms.py:1700-1704 *)
Definition function (t : htree) : pystr := match a_func (attrof t) with Some f => before DASH f | None => [] end.
(** 146-169 markmodifiers: the new types of the children *)
Definition modrules := list (pystr * list pystr).
Definition modmatch (c : htree) (m : pystr) : bool :=
  (eqs (upper (before DASH (label c))) (before DASH m) || eqs (before DASH m) (str "*"))
  && match after DASH m with None => true | Some f => eqs f (str "*") || eqs (upper (function c)) f end.
Fixpoint marktypes (rs : list pystr) (prev : option pystr) (ts : list htree) : list (option ntype) :=
  match ts with
  | [] => []
  | c :: r =>
    if ishead c then a_type (attrof c) :: marktypes rs prev r
    else
      let same := match prev with Some p => eqs (label c) p | None => false end in
      Some (if existsb (modmatch c) rs || same then MODIFIER else COMPLEMENT) :: marktypes rs (Some (label c)) r
  end.
Definition markmodifiers (mr : modrules) (lab : pystr) (ts : list htree) : list (option ntype) :=
  marktypes (getrules (before DASH lab) mr ++ getrules (str "*") mr) None ts.

(** head.type = HEAD *)
Fixpoint sethead (k : nat) (ts : list htree) : list htree :=
  match ts, k with [] , _ => [] | t :: r, O => settype (Some HEAD) t :: r | t :: r, S k' => t :: sethead k' r end.
Fixpoint settypes (tys : list (option ntype)) (ts : list htree) : list htree :=
  match tys, ts with ty :: tys', t :: ts' => settype ty t :: settypes tys' ts' | _, _ => ts end.
(** 14-22 applyheadrules.  The code goes through the nodes from the top and changes
    the types of the children of each; the type of a node plays no part when its
    own children are dealt with, so the children can be done first. *)
Fixpoint applyheadrules (hr : rules) (mr : option modrules) (t : htree) : htree :=
  match t with
  | Pre a i => Pre a i
  | Con a ts =>
    match headfinder hr (a_label a) ts with
    | None => Con a (map (applyheadrules hr mr) ts)
    | Some k =>
      let tys := map (fun c => a_type (attrof c))
        (match mr with None => sethead k ts | Some mr => settypes (markmodifiers mr (a_label a) (sethead k ts)) (sethead k ts) end) in
      Con a (settypes tys (map (applyheadrules hr mr) ts))
    end
  end.
End Heads.

(** 25-38 getheadpos: the preterminal *)
Fixpoint getheadpos (t : htree) : option htree :=
  match t with
  | Pre a i => Some (Pre a i)
  | Con _ ts => (fix go (ts : list htree) : option htree :=
      match ts with [] => None | c :: r => if ishead c then getheadpos c else go r end) ts
  end.

(** ---- treebank.py ---- *)
(** (token, label, head); tokens start from 1 *)
Definition dep := (nat * pystr * nat)%type.
Definition d_tok (d : dep) : nat := fst (fst d).
Definition d_rel (d : dep) : pystr := snd (fst d).
Definition d_head (d : dep) : nat := snd d.
(** 914-918 *)
Definition relname (c : htree) : pystr :=
  match a_func (attrof c) with
  | Some f => if eqs f [] || eqs f (str "--") then str "-" else f
  | None => str "-"
  end.
Fixpoint headidx (ts : list htree) : option nat :=
  match ts with [] => None | c :: r => if ishead c then Some 0 else option_map S (headidx r) end.
(** 911-919: the other children; each has been converted already *)
Fixpoint others (k : option nat) (lexhead : nat) (ts : list htree) (rs : list (option (nat * list dep))) : option (list dep) :=
  match ts, rs with
  | c :: ts', r :: rs' =>
    match k with
    | Some O => others None lexhead ts' rs'          (* child is headchild *)
    | _ =>
      match r, others (option_map pred k) lexhead ts' rs' with
      | Some (h, ds), Some rest => Some (ds ++ [(h, relname c, lexhead)] ++ rest)
      | _, _ => None
      end
    end
  | _, _ => Some []
  end.
(** 905-920 _makedep; the deps that are appended, in order.  [None]: a node without head
    (next() raises StopIteration) *)
Fixpoint makedep (t : htree) : option (nat * list dep) :=
  match t with
  | Pre _ i => Some (i + 1, [])
  | Con _ ts =>
    let rs := map makedep ts in
    match headidx ts with
    | None => None
    | Some k =>
      match nth k rs None with
      | None => None
      | Some (lexhead, ds) =>
        match others (Some k) lexhead ts rs with
        | None => None
        | Some rest => Some (lexhead, ds ++ rest)
        end
      end
    end
  end.
(** comparison of tuples *)
Fixpoint strle (a b : pystr) : bool :=
  match a, b with
  | [], _ => true
  | _ :: _, [] => false
  | x :: a', y :: b' => N.ltb x y || (N.eqb x y && strle a' b')
  end.
Definition deple (a b : dep) : bool :=
  (d_tok a <? d_tok b) || ((d_tok a =? d_tok b) &&
    (if eqs (d_rel a) (d_rel b) then d_head a <=? d_head b else strle (d_rel a) (d_rel b))).
Fixpoint rootdeps (ts : list htree) : option (list dep) :=
  match ts with
  | [] => Some []
  | c :: r => match makedep c, rootdeps r with
    | Some (h, ds), Some rest => Some (ds ++ [(h, str "root", 0)] ++ rest)
    | _, _ => None
    end
  end.
(** 891-902 dependencies.  [None] for a root that is a preterminal: TypeError *)
Definition dependencies (root : htree) : option (list dep) :=
  match root with
  | Pre _ _ => None
  | Con _ ts => option_map (sort deple) (rootdeps ts)
  end.
(** 922-928 deplen *)
Definition absdiff (a b : nat) : nat := (a - b) + (b - a).
Definition deplen (deps : list dep) : nat * Z :=
  (list_sum (map (fun d => absdiff (d_tok d) (d_head d)) (filter (fun d => negb (eqs (d_rel d) (str "ROOT"))) deps)), (Z.of_nat (List.length deps) - 1)%Z).
(** tree.pos(), sorted *)
Fixpoint postags (t : htree) : list (nat * pystr) := match t with Pre a i => [(i, a_label a)] | Con _ ts => flat_map postags ts end.
Definition posle (a b : nat * pystr) : bool := (fst a <? fst b) || ((fst a =? fst b) && strle (snd a) (snd b)).
(** 884-888 the rows of the conll format: number, word, tag, head, relation *)
Definition row := (nat * pystr * pystr * nat * pystr)%type.
Fixpoint zip3 (sent : list pystr) (tags : list (nat * pystr)) (deps : list dep) : list row :=
  match sent, tags, deps with
  | w :: s, t :: ts, d :: ds => (d_tok d, w, snd t, d_head d, d_rel d) :: zip3 s ts ds
  | _, _, _ => []
  end.
Definition conll (t : htree) (sent : list pystr) : option (list row) :=
  option_map (zip3 sent (sort posle (postags t))) (dependencies t).
