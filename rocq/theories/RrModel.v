(** Model of the relational-realizational transformation, discodop/treebanktransforms.py:
    rrtransform (1399-1487), rrbacktransform (1490-1520), unifymorphfeat (1677-1697).
    A node has a label and the fields of its source attribute (WORD, LEMMA, TAG, MORPH, FUNC,
    PARENT); [] stands for None (new nodes). Simplified: the source of the nodes of the tree
    that is transformed is not None and has all fields. None is an exception. *)
From Coq Require Import String.
From Coq Require Import List Bool Arith NArith.
From Verif Require Import PyStr TreeModel.
From Verif Require BracketModel TransformModel GenModel HeadModel ExportModel.
Import ListNotations.
Open Scope list_scope.
Open Scope nat_scope.

Notation rtree := (tree (pystr * list pystr) nat).
Definition TAG := 2. Definition MORPH := 3. Definition FUNC := 4.
Definition fld (i : nat) (src : list pystr) : pystr := nth i src [].
(** Python runtime *)
Definition replace := BracketModel.replace.
Definition before := HeadModel.before.     (* s.split(c)[0] *)
Definition splitc := HeadModel.splitc.     (* s.split(c) *)
Notation all_ok := ExportModel.all_ok.
Definition slash : N := 47%N. Definition dash : N := 45%N. Definition colon : N := 58%N. Definition comma : N := 44%N. Definition dot : N := 46%N.
Definition lsq : N := 91%N. Definition rsq : N := 93%N.
Definition has (c : N) (s : pystr) : bool := existsb (N.eqb c) s.
Fixpoint index (c : N) (s : pystr) : option nat := match s with [] => None | x :: r => if N.eqb x c then Some 0 else option_map S (index c r) end.
Definition strsort (l : list pystr) : list pystr := TransformModel.sort GenModel.strleb l.
Definition truthy (s : pystr) : bool := match s with [] => false | _ => true end.

(** 1677-1697 unifymorphfeat *)
Definition onefeat (sep : N) (a : pystr) : option (list pystr) :=
  if has lsq a then
    match index lsq a, index rsq a with Some i, Some j => Some (splitc sep (firstn (j - S i) (skipn (S i) a))) | _, _ => None end
  else Some (splitc sep a).
Definition unifymorphfeat (feats : list pystr) (percolatefeatures : option (list pystr)) : option pystr :=
  let sep := if existsb (has dot) feats then dot else comma in
  match all_ok (map (onefeat sep) feats) with
  | None => None
  | Some ls =>
    let result := GenModel.dedups (concat ls) in
    let result := match percolatefeatures with Some (f :: fs) => filter (fun x => existsb (eqs x) (f :: fs)) result | _ => result end in
    Some (BracketModel.join [sep] (strsort (filter (fun x => negb (eqs x (str "*")) && negb (eqs x (str "--"))) result)))
  end.

Section RR.
Variables (morphlevels : nat) (percolatefeatures : option (list pystr)) (adjunctionlabel : option pystr).
Variables (ignorefunctions ignorecategories : option (list pystr)) (adjleft adjright : bool).
(** func == adjunctionlabel *)
Definition isadj (f : pystr) : bool := match adjunctionlabel with Some a => eqs f a | None => false end.
(** 1452-1455, 1460-1463, 1466-1470: the child is an argument; x in None is a TypeError *)
Definition isarg (c : rtree) : option bool :=
  match c with
  | Leaf _ => Some false
  | Node (l, src) _ =>
    let f := fld FUNC src in
    if negb (truthy f) then Some false else if isadj f then Some false
    else match ignorefunctions with
         | None => None
         | Some ig => if existsb (eqs f) ig then Some false
                      else match ignorecategories with None => None | Some ic => Some (negb (existsb (eqs l) ic)) end
         end
  end.
Definition func (c : rtree) : pystr := match c with Leaf _ => [] | Node (_, src) _ => fld FUNC src end.
(** 1450-1457 childfuncsl; its last element is the final value of prevfunc *)
Fixpoint childfuncsl (prevfunc : pystr) (ts : list (rtree * bool)) : list pystr :=
  match ts with
  | [] => [prevfunc]
  | (c, arg) :: r => prevfunc :: childfuncsl (if arg then func c else prevfunc) r
  end.
(** 1458-1465 childfuncsr: prevfunc is inserted, not nextfunc *)
Definition childfuncsr (prevfunc : pystr) (ts : list (rtree * bool)) : list pystr :=
  fold_left (fun acc _ => prevfunc :: acc) (rev (tl ts)) [[]].
(** 1466-1470 funcstr *)
Definition funcstr (ts : list (rtree * bool)) : pystr :=
  BracketModel.join [comma] (strsort (map (fun c => func (fst c)) (filter snd ts))).
(** 1437-1440 the label in realize *)
Definition realization (parentlabel prevfunc nextfunc : pystr) (c : rtree) : pystr :=
  (if isadj (func c) && (truthy prevfunc || truthy nextfunc) then prevfunc ++ [colon] ++ nextfunc else func c) ++ [slash] ++ parentlabel.
Definition maxl (l : list nat) : nat := fold_right max 0 l.
Fixpoint rrtransform (t : rtree) : option (rtree * option pystr * nat) :=
  match t with
  | Leaf _ => None
  | Node (label, src) ts =>
    match ts with
    | [] => None                                                              (* 1443 tree[0] *)
    | Leaf _ :: _ =>                                                          (* 1443-1448 *)
      let morph := replace (replace (fld MORPH src) (str "(") (str "[")) (str ")") (str "]") in
      let preterminal := Node (label ++ [slash] ++ morph, []) ts in
      if 0 <? morphlevels then Some (preterminal, Some morph, morphlevels) else Some (preterminal, None, 0)
    | Node _ _ :: _ =>
      match all_ok (map isarg ts), all_ok (map rrtransform ts) with
      | Some args, Some results =>
        let ta := combine ts args in
        let cfl := childfuncsl [] ta in
        let cfr := childfuncsr (last cfl []) ta in
        let children := map (fun x => match x with (c, (newchild, _, _), p, n) =>
                                Node (realization label (if adjleft then p else []) (if adjright then n else []) c, []) [newchild] end)
                            (combine (combine (combine ts results) cfl) cfr) in    (* 1472-1476, 1432-1441 *)
        let fl := flat_map (fun r => match r with (_, Some m, l) => if truthy m && (0 <? l) then [(m, l)] else [] | _ => [] end) results in   (* 1477-1479 *)
        let levels := maxl (map snd fl) in
        match (match fl with
               | _ :: _ => if (0 <? levels) && negb (eqs label (str "ROOT")) then option_map (fun m => (Some m, levels - 1)) (unifymorphfeat (map fst fl) percolatefeatures) else Some (None, 0)
               | [] => Some (None, 0) end) with                                 (* 1480-1482 *)
        | None => None
        | Some (morph, lvl) =>
          let configuration := Node (label ++ [slash] ++ str "<" ++ funcstr ta ++ str ">", []) children in
          Some (Node (match morph with Some (c :: m) => label ++ [dash] ++ c :: m | _ => label end, []) [configuration], morph, lvl)   (* 1483-1487 *)
        end
      | _, _ => None
      end
    end
  end.
End RR.

(** 1490-1520 rrbacktransform; [func] is [] for None *)
Definition dashes : pystr := str "--".
Definition newsource (label : pystr) (morph : pystr) (adjunctionlabel : option pystr) (func : pystr) : list pystr :=
  [dashes; dashes; label;
   if truthy morph then replace (replace morph (str "[") (str "(")) (str "]") (str ")") else dashes;
   if truthy func && match adjunctionlabel with Some a => truthy a | None => false end && has colon func then match adjunctionlabel with Some a => a | None => [] end
   else if truthy func then func else dashes;
   dashes].
Fixpoint rrbacktransform (adjunctionlabel : option pystr) (t : rtree) (func : pystr) : option rtree :=
  match t with
  | Leaf _ => None
  | Node (label, _) ts =>
    match ts with
    | [] => None
    | Leaf _ :: _ =>
      match splitc slash label with
      | [tag; morph] => Some (Node (tag, newsource tag morph adjunctionlabel func) ts)
      | _ => None
      end
    | Node (cl, _) reals :: _ =>
      if negb (has slash cl) then
        option_map (Node (label, newsource label [] adjunctionlabel func)) (all_ok (map (fun c => rrbacktransform adjunctionlabel c []) ts))
      else
        let l := before dash label in
        option_map (Node (l, newsource l [] adjunctionlabel func))
          (all_ok (map (fun c => match c with
             | Node (rl, _) (p :: _) => rrbacktransform adjunctionlabel p (before slash rl)
             | _ => None
             end) reals))
    end
  end.
