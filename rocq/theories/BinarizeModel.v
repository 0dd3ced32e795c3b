(** Model of discodop/treetransforms.py: binarize, unbinarize, collapseunary,
    factorconstituent.

    A tree node carries its label and whether its type is HEAD; Tree.__eq__
    ignores the latter.  The functions modify trees in place by moving node
    objects; they are modelled as functions from trees to trees (each node
    object occurs once in a tree, which C39 is about). *)
From Coq Require Import String.
From Coq Require Import List Bool Arith NArith Lia.
From Verif Require Import PyStr TreeModel BracketModel.
Import ListNotations.
Open Scope list_scope.

Definition nlabel : Type := pystr * bool.
Notation btree := (tree nlabel nat).
Definition is_node {L A} (t : tree L A) : bool := match t with Node _ _ => true | Leaf _ => false end.
Definition ishead (t : btree) : bool := match t with Node (_, h) _ => h | Leaf _ => false end.
Definition labelof (t : btree) : pystr := match t with Node (l, _) _ => l | Leaf _ => [] end.

(** the keyword arguments of binarize, treetransforms.py:32-37.  [oids] is
    ids.__getitem__: UniqueIDs gives equal keys equal ids, so the mapping at the
    end of the run is used for all lookups. *)
Record opts := Opts {
  oright : bool;                 (* factor='right' *)
  horzmarkov : nat; vertmarkov : nat; revhorzmarkov : nat;
  markhead : bool; headoutward : bool;
  childchar : pystr; parentchar : pystr; tailmarker : pystr;
  leftmostunary : bool; rightmostunary : bool; threshold : nat;
  artpa : bool; oids : option (pystr -> pystr);
  filterlabels : list pystr; labelfun : btree -> pystr;
  dot : bool; direction : bool }.

Section Binarize.
Variable o : opts.
Definition memf (a : pystr) : bool := existsb (eqs a) (filterlabels o).
Definition kept (l : list pystr) : list pystr := filter (fun a => negb (memf a)) l.
Definition commas (l : list pystr) : pystr := join (str ",") l.
Definition slice {A} (l : list A) (s e : nat) : list A := firstn (e - s) (skipn s l).
(** s.split('/', 1)[0] *)
Definition beforeslash (s : pystr) : pystr := fst (span (fun c => negb (N.eqb c 47)) s).
Definition dirmark (right : bool) : pystr :=
  if direction o then (if right then str "l:" else str "r:") else [].
Definition headmark (childlabels : list pystr) (headidx : option nat) : pystr :=
  if markhead o then match headidx with Some h => nth h childlabels [] ++ str ";" | None => [] end else [].
(** mark = '<%s>%s' % (siblings, parents), or the numeric id *)
Definition domark (siblings parents : pystr) : pystr :=
  let mark := str "<" ++ siblings ++ str ">" ++ parents in
  match oids o with None => mark | Some f => str "<" ++ f mark ++ str ">" end.
Definition hd0 (headidx : option nat) : nat := match headidx with Some h => h | None => 0 end.
Definition isheadidx (headidx : option nat) (i : nat) : bool :=
  headoutward o && match headidx with Some h => i =? h | None => false end.

Section OneNode.
Variables (origlabel parents : pystr) (headidx : option nat) (childlabels : list pystr) (n : nat).
(** treetransforms.py:163-185: the label of the initial artificial node *)
Definition firstlabel (right : bool) : pystr :=
  let start := if right then 0 else (n + hd0 headidx) - horzmarkov o in
  let stop := if right then horzmarkov o else min (n + hd0 headidx) n in
  let siblings := dirmark right ++ headmark childlabels headidx ++ (if dot o then str "." else [])
                  ++ commas (kept (slice childlabels start stop)) in
  origlabel ++ childchar o ++ domark siblings parents.
(** 196-231: the siblings part for the i'th artificial node *)
Definition siblingsof (right : bool) (i : nat) : pystr :=
  let start := if right then i else n - i - horzmarkov o + hd0 headidx in
  let stop := if right then i + horzmarkov o else min (n - i + hd0 headidx) n in
  dirmark right ++ headmark childlabels headidx
  ++ (if dot o then commas (kept (firstn start childlabels)) ++ str "." else [])
  ++ (if revhorzmarkov o =? 0 then [] else
        if right then commas (kept (slice childlabels (start - revhorzmarkov o) start)) ++ str ";"
        else commas (kept (slice childlabels stop (stop + revhorzmarkov o))) ++ str ";")
  ++ commas (firstn (horzmarkov o) (kept (skipn start childlabels))).
Definition midlabel (right : bool) (i : nat) : pystr :=
  origlabel ++ childchar o ++ (if i + 1 =? n then tailmarker o else []) ++ domark (siblingsof right i) parents.
(** 239-249: the unary node inserted when the direction switches *)
Definition switchlabel (right : bool) (i : nat) : pystr :=
  let siblings := if dot o then str "m" ++ skipn 1 (siblingsof right i)
                  else (if direction o then str "m:" else []) ++ headmark childlabels headidx in
  origlabel ++ childchar o ++ str "<" ++ siblings ++ str ">" ++ parents.
(** 192-251: the loop; the result is the list of children of curnode.  [k] is
    the number of iterations left. *)
Fixpoint factorloop (k i : nat) (right : bool) (childnodes : list btree) : list btree :=
  match k with
  | O => childnodes                                             (* 251 *)
  | S k' =>
    let lab := (midlabel right i, false) in
    let right' := if isheadidx headidx i then negb right else right in       (* 233-235 *)
    let below cs :=
      if isheadidx headidx i && direction o && negb (i + 1 =? n)
      then [Node (switchlabel right i, false) (factorloop k' (i + 1) right' cs)]
      else factorloop k' (i + 1) right' cs in
    if right then
      match childnodes with
      | [] => []                                              (* not reached *)
      | c :: cs => [c; Node lab (below cs)]
      end
    else [Node lab (below (removelast childnodes)); last childnodes (Leaf 0)]
  end.
(** 138-160: one or two children *)
Definition smallmark (ts : list btree) : pystr :=
  let right := oright o in
  let siblings :=
    (if match ts with t :: _ => is_node t | [] => false end then
      dirmark right ++ (if markhead o then match headidx with Some h => labelof (nth h ts (Leaf 0)) ++ str ";" | None => [] end else [])
      ++ commas (map (labelfun o) (filter (fun c => negb (memf (beforeslash (labelfun o c)))) (firstn (horzmarkov o) ts)))
     else []) ++ (if dot o then str "." else []) in
  origlabel ++ childchar o ++ domark siblings parents.
(** [ts0] are the children as they were, [ts] after the recursion *)
Definition factorize (ts0 ts : list btree) : list btree :=
  if n <=? threshold o then ts                                    (* 135-136 *)
  else if n <=? 2 then
    let new := smallmark ts0 in
    if oright o then firstn 1 ts ++ [Node (new, false) (skipn 1 ts)]
    else Node (new, false) (firstn 1 ts) :: skipn 1 ts
  else
    let right := if isheadidx headidx 0 then negb (oright o) else oright o in
    let k := n - 1 - (if rightmostunary o then 0 else 1) in
    let body := factorloop k 1 right ts in
    if leftmostunary o then [Node (firstlabel right, false) body] else body.
End OneNode.

Fixpoint find_head (i : nat) (ts : list btree) : option nat :=
  match ts with [] => None | t :: r => if ishead t then Some i else find_head (i + 1) r end.
(** treetransforms.py:103-134.  All children are labelled and factored before
    their own children are; a node whose first child is a terminal has no
    labels to show.  labelfun is applied to the untouched children; for a
    terminal next to a constituent it would raise (the docstring excludes it). *)
Fixpoint bin (root : bool) (parent : list pystr) (t : btree) : btree :=
  match t with
  | Leaf a => Leaf a
  | Node (l, h) ts =>
    let origlabel := if vertmarkov o =? 0 then str "_" else l in
    let firstnode := match ts with c :: _ => is_node c | [] => false end in
    let annotate := (2 <=? vertmarkov o) && negb root && firstnode in
    let ann := parentchar o ++ str "<" ++ commas parent ++ str ">" in
    let l' := if annotate then l ++ ann else l in
    let parents := if annotate && artpa o then ann else [] in
    let parent' := if annotate then origlabel :: firstn (vertmarkov o - 2) parent else parent in
    let headidx := if headoutward o || markhead o then find_head 0 ts else None in
    let childlabels := if firstnode then map (labelfun o) ts else [] in
    Node (l', h) (factorize origlabel parents headidx childlabels (length ts) ts (map (bin false parent') ts))
  end.
Definition binarize (t : btree) : btree := bin true [labelof t] t.
End Binarize.

(** treetransforms.py:255-306 unbinarize with childchar '|', parentchar '^',
    unarychar '+' *)
Definition cchar : pystr := str "|<".
Definition pchar : pystr := str "^<".
Definition uchar : char := 43%N.
(** label[:label.find(p)] if p in label *)
Fixpoint before (p s : pystr) : pystr :=
  match s with
  | [] => []
  | c :: r => if startswith s p then [] else c :: before p r
  end.
Fixpoint splitplus (s : pystr) : option (pystr * pystr) :=
  match s with
  | [] => None
  | c :: r => if N.eqb c uchar then Some ([], r)
              else match splitplus r with Some (a, b) => Some (c :: a, b) | None => None end
  end.
(** 290-303 for a node that is kept, whose children (after processing) are [ts];
    the new node below it is processed in turn *)
Fixpoint expand (fuel : nat) (expandunary : bool) (l : pystr) (h : bool) (ts : list btree) : btree :=
  let l1 := before pchar l in
  match fuel, (if expandunary then splitplus l1 else None) with
  | S f, Some (a, b) => Node (a, h) (if contains b cchar then ts else [expand f expandunary b false ts])
  | _, _ => Node (l1, h) ts
  end.
Fixpoint unb (eu : bool) (t : btree) : list btree :=
  match t with
  | Leaf a => [Leaf a]
  | Node (l, h) ts =>
    if contains l cchar then flat_map (unb eu) ts
    else [expand (length l) eu l h (flat_map (unb eu) ts)]
  end.
Definition unbinarize (eu : bool) (t : btree) : btree :=
  match t with
  | Leaf a => Leaf a
  | Node (l, h) ts => expand (length l) eu l h (flat_map (unb eu) ts)
  end.

(** treetransforms.py:309-339 collapseunary with joinchar '+'.  [pre] is the
    label of the unary nodes merged so far. *)
Section Collapse.
Variables collapsepos : bool.
Definition mergeable (c : btree) : bool :=
  match c with Node _ us => collapsepos || match us with u :: _ => is_node u | [] => false end | Leaf _ => false end.
Fixpoint col (pre : option nlabel) (t : btree) : btree :=
  match t with
  | Leaf a => Leaf a
  | Node (m, h) ts =>
    let l := match pre with Some (p, h0) => (p ++ uchar :: m, h0) | None => (m, h) end in
    match ts with
    | [c] => if mergeable c then col (Some l) c else Node l [col None c]
    | _ => Node l (map (col None) ts)
    end
  end.
Definition collapseunary (collapseroot : bool) (t : btree) : btree :=
  match t with
  | Node l [c] => if collapseroot then col None t else Node l [col None c]
  | _ => col None t
  end.
End Collapse.

(** treetransforms.py:386-449 factorconstituent.  The text of the artificial
    labels (labels of siblings, yield function, or ids) is abstracted to a
    function of the position; the bitset of a node is the set of its leaves,
    which for the original nodes was computed by addbitsets. *)
Section FactorConstituent.
Context {L A : Type}.
Variable key : nat -> L.
Notation ftree := (tree L A).
(** factor='right': range(len - 2, 0, -1), from prev = node[-1] *)
Fixpoint fc_right (i : nat) (ts : list ftree) (prev : ftree) : ftree :=
  match i with O => prev | S j => fc_right j ts (Node (key i) [nth i ts prev; prev]) end.
(** factor='left': range(1, len - 1), from prev = node[0] *)
Fixpoint fc_left (k i : nat) (ts : list ftree) (prev : ftree) : ftree :=
  match k with O => prev | S j => fc_left j (i + 1) ts (Node (key i) [prev; nth i ts prev]) end.
Definition factorconstituent (right : bool) (threshold : nat) (t : ftree) : ftree :=
  match t with
  | Leaf a => Leaf a
  | Node l ts =>
    let n := length ts in
    if n <=? threshold then t
    else if n <=? 2 then Node l [Node (key 0) ts]
    else match ts with
         | [] => t
         | t0 :: _ =>
           if right then Node l [t0; fc_right (n - 2) ts (last ts t0)]
           else Node l [fc_left (n - 2) 1 ts t0; last ts t0]
         end
  end.
End FactorConstituent.
