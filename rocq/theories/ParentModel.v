(** Model of discodop/tree.py:655-935 ParentedTree: mutable nodes with a list
    of children and a parent pointer.

    Objects are numbered; a heap lists the objects made so far.  A child is a
    node or a leaf (any other value).  An operation gives the heap afterwards
    and whether it returned normally (false: an exception was raised; the heap
    is then as it was at that moment).  Arguments that are iterables are given
    as the list of their items; tree positions (tuples) as index delegate to
    the operations below (836-840, 880-885).  Mixing with other Tree classes
    (TypeError) is not modelled. *)
From Coq Require Import List Bool Arith ZArith Lia.
From Verif Require Import PyStr UtilModel.
Import ListNotations.
Open Scope list_scope.
Open Scope nat_scope.

Inductive item := INode (i : nat) | ILeaf (a : pystr).
Record node := mkNode { lab : pystr; kids : list item; par : option nat }.
Definition heap := list node.
Definition kids_of (h : heap) (p : nat) : list item := match nth_error h p with Some n => kids n | None => [] end.
Definition par_of (h : heap) (c : nat) : option nat := match nth_error h c with Some n => par n | None => None end.
Fixpoint upd (h : heap) (i : nat) (f : node -> node) : heap :=
  match h, i with
  | [], _ => []
  | n :: r, O => f n :: r
  | n :: r, S j => n :: upd r j f
  end.
Definition setpar (h : heap) (c : nat) (v : option nat) : heap := upd h c (fun n => mkNode (lab n) (kids n) v).
Definition setkids (h : heap) (p : nat) (l : list item) : heap := upd h p (fun n => mkNode (lab n) l (par n)).
Definition eqo (a : option nat) (p : nat) : bool := match a with Some q => q =? p | None => false end.

(** tree.py:751-761 _delparent for all nodes in a part of the children *)
Fixpoint delall (h : heap) (p : nat) (its : list item) : heap * bool :=
  match its with
  | [] => (h, true)
  | ILeaf _ :: r => delall h p r
  | INode c :: r => if eqo (par_of h c) p then delall (setpar h c None) p r else (h, false)   (* 760 *)
  end.
(** 763-786 _setparent *)
Definition orphan (h : heap) (it : item) : bool :=
  match it with INode c => match par_of h c with None => true | Some _ => false end | ILeaf _ => true end.
Fixpoint setall (h : heap) (p : nat) (its : list item) : heap * bool :=
  match its with
  | [] => (h, true)
  | ILeaf _ :: r => setall h p r
  | INode c :: r => if orphan h (INode c) then setall (setpar h c (Some p)) p r else (h, false)  (* 782-784 *)
  end.

(** Python's own interpretation of a slice, for l[i:j] = v and del l[i:j] *)
Definition clip (len i : Z) : Z := Z.max 0 (Z.min (if (i <? 0)%Z then (i + len)%Z else i) len).
Definition py_lo (len : Z) (s : pyslice) : Z := match sl_start s with None => 0%Z | Some i => clip len i end.
Definition py_hi (len : Z) (s : pyslice) : Z := Z.max (py_lo len s) (match sl_stop s with None => len | Some i => clip len i end).
Definition zlen (l : list item) : Z := Z.of_nat (length l).
Definition replace_slice (l : list item) (s : pyslice) (v : list item) : list item :=
  firstn (Z.to_nat (py_lo (zlen l) s)) l ++ v ++ skipn (Z.to_nat (py_hi (zlen l) s)) l.
Definition segment (l : list item) (a b : Z) : list item := firstn (Z.to_nat (b - a)) (skipn (Z.to_nat a) l).
(** 843-862 ptree[start:stop] = value *)
Definition set_slice (h : heap) (p : nat) (s : pyslice) (value : list item) : heap * bool :=
  match slice_bounds (zlen (kids_of h p)) s false with
  | SOk start stop _ =>
    if forallb (orphan h) value then                                                          (* 850-852 *)
      let '(h1, ok1) := delall h p (segment (kids_of h p) start stop) in                     (* 854-856 *)
      if ok1 then
        let '(h2, ok2) := setall h1 p value in                                               (* 860-862 *)
        if ok2 then (setkids h2 p (replace_slice (kids_of h2 p) s value), true) else (h2, false)
      else (h1, false)
    else (h, false)
  | _ => (h, false)
  end.
(** 791-799 del ptree[start:stop] *)
Definition del_slice (h : heap) (p : nat) (s : pyslice) : heap * bool :=
  match slice_bounds (zlen (kids_of h p)) s false with
  | SOk start stop _ =>
    let '(h1, ok1) := delall h p (segment (kids_of h p) start stop) in
    if ok1 then (setkids h1 p (replace_slice (kids_of h1 p) s []), true) else (h1, false)
  | _ => (h, false)
  end.
(** a negative index counts from the end; None: IndexError *)
Definition index_of (l : list item) (i : Z) : option nat :=
  let i := if (i <? 0)%Z then (i + zlen l)%Z else i in
  if (i <? 0)%Z then None else if Z.to_nat i <? length l then Some (Z.to_nat i) else None.
Definition remove_nth (l : list item) (n : nat) : list item := firstn n l ++ skipn (S n) l.
Definition insert_nth (l : list item) (n : nat) (x : item) : list item := firstn n l ++ x :: skipn n l.
Definition itemeqb (a b : item) : bool :=
  match a, b with INode i, INode j => i =? j | ILeaf x, ILeaf y => eqs x y | _, _ => false end.
(** 800-808 del ptree[i]; also 915-922 pop, which returns the child *)
Definition del_nth (h : heap) (p n : nat) : heap * bool :=
  let '(h1, ok) := delall h p (firstn 1 (skipn n (kids_of h p))) in
  if ok then (setkids h1 p (remove_nth (kids_of h1 p) n), true) else (h1, false).
Definition del_int (h : heap) (p : nat) (i : Z) : heap * bool :=
  match index_of (kids_of h p) i with None => (h, false) | Some n => del_nth h p n end.
(** 866-880 ptree[i] = value; `value is self[index]` compares identity *)
Definition set_int (h : heap) (p : nat) (i : Z) (x : item) : heap * bool :=
  match index_of (kids_of h p) i with
  | None => (h, false)
  | Some n =>
    match nth_error (kids_of h p) n with
    | None => (h, false)
    | Some old =>
      if itemeqb x old then (h, true)
      else let '(h1, ok1) := setall h p [x] in
        if ok1 then
          let '(h2, ok2) := delall h1 p [old] in
          if ok2 then (setkids h2 p (firstn n (kids_of h2 p) ++ x :: skipn (S n) (kids_of h2 p)), true) else (h2, false)
        else (h1, false)
    end
  end.
(** 888-891 *)
Definition append (h : heap) (p : nat) (x : item) : heap * bool :=
  let '(h1, ok) := setall h p [x] in if ok then (setkids h1 p (kids_of h1 p ++ [x]), true) else (h1, false).
(** 893-897 *)
Fixpoint extend (h : heap) (p : nat) (xs : list item) : heap * bool :=
  match xs with
  | [] => (h, true)
  | x :: r => let '(h1, ok) := append h p x in if ok then extend h1 p r else (h1, false)
  end.
(** 899-910; list.insert puts an item with a larger index at the end *)
Definition insert (h : heap) (p : nat) (i : Z) (x : item) : heap * bool :=
  let i := if (i <? 0)%Z then (i + zlen (kids_of h p))%Z else i in
  let n := Z.to_nat (Z.max 0 i) in
  let '(h1, ok) := setall h p [x] in
  if ok then (setkids h1 p (insert_nth (kids_of h1 p) n x), true) else (h1, false).

Section Ops.
(** equality of children, as used by list.index *)
Variable same : heap -> item -> item -> bool.
Fixpoint find_index {X} (f : X -> bool) (l : list X) : option nat :=
  match l with [] => None | x :: r => if f x then Some 0 else option_map S (find_index f r) end.
(** 926-930: the first child that is equal to x *)
Definition remove (h : heap) (p : nat) (x : item) : heap * bool :=
  match find_index (fun y => same h y x) (kids_of h p) with None => (h, false) | Some n => del_nth h p n end.
(** 697-709 parent_index: the first child that is the same object (None: no
    parent, or the ValueError at 709) *)
Definition parent_index (h : heap) (c : nat) : option nat :=
  match par_of h c with None => None | Some p => find_index (itemeqb (INode c)) (kids_of h p) end.
(** 932-938 detach; a node without parent is returned as is *)
Definition detach (h : heap) (c : nat) : heap * bool :=
  match par_of h c with
  | None => (h, true)
  | Some p => match parent_index h c with None => (h, false) | Some i => del_int h p (Z.of_nat i) end
  end.
(** 940-944 disown: self[:] = [] *)
Definition disown (h : heap) (p : nat) : heap * bool := set_slice h p (Sl None None None) [].
(** 678-689 ParentedTree(label, children): the new object is the last one.  When
    line 686 raises, the new object is lost and nothing else has changed. *)
Definition construct (h : heap) (l : pystr) (xs : list item) : heap * bool :=
  let h0 := h ++ [mkNode l xs None] in
  if forallb (orphan h0) xs then setall h0 (length h) xs else (h, false).
(** 946-952 *)
Definition spliceabove (h : heap) (c : nat) (l : pystr) : heap * bool :=
  let parent := par_of h c in
  let i := parent_index h c in
  let '(h1, ok1) := detach h c in
  if ok1 then
    let '(h2, ok2) := construct h1 l [INode c] in
    if ok2 then match parent, i with
      | Some p, Some i => insert h2 p (Z.of_nat i) (INode (length h1))
      | _, _ => (h2, false)                                       (* None has no insert *)
      end
    else (h2, false)
  else (h1, false).
(** 954-958 *)
Definition splicebelow (h : heap) (c : nat) (l : pystr) : heap * bool :=
  let children := kids_of h c in
  let '(h1, ok1) := disown h c in
  if ok1 then
    let '(h2, ok2) := construct h1 l children in
    if ok2 then append h2 c (INode (length h1)) else (h2, false)
  else (h1, false).
(** 960-964 *)
Definition prune (h : heap) (c : nat) : heap * bool :=
  let i := parent_index h c in
  let children := kids_of h c in
  let '(h1, ok1) := disown h c in
  if ok1 then match par_of h1 c, i with
    | Some p, Some i => set_slice h1 p (Sl (Some (Z.of_nat i)) (Some (Z.of_nat i + 1)%Z) None) children
    | _, _ => (h1, false)
    end
  else (h1, false).

Inductive op :=
| New (l : pystr) (xs : list item)
| Append (p : nat) (x : item) | Extend (p : nat) (xs : list item) | Insert (p : nat) (i : Z) (x : item)
| Pop (p : nat) (i : Z) | Remove (p : nat) (x : item)
| SetInt (p : nat) (i : Z) (x : item) | SetSlice (p : nat) (s : pyslice) (xs : list item)
| DelInt (p : nat) (i : Z) | DelSlice (p : nat) (s : pyslice)
| Detach (c : nat) | Disown (p : nat) | SpliceAbove (c : nat) (l : pystr) | SpliceBelow (c : nat) (l : pystr) | Prune (c : nat).
Definition exec (h : heap) (o : op) : heap * bool :=
  match o with
  | New l xs => construct h l xs
  | Append p x => append h p x | Extend p xs => extend h p xs | Insert p i x => insert h p i x
  | Pop p i => del_int h p i | Remove p x => remove h p x
  | SetInt p i x => set_int h p i x | SetSlice p s xs => set_slice h p s xs
  | DelInt p i => del_int h p i | DelSlice p s => del_slice h p s
  | Detach c => detach h c | Disown p => disown h p | SpliceAbove c l => spliceabove h c l | SpliceBelow c l => splicebelow h c l | Prune c => prune h c
  end.
End Ops.
(** 711-723 left_sibling, right_sibling: parent[parent_index -+ 1].  For a node
    without parent, `parent_index > 0` is not evaluated, as _parent is None. *)
Definition left_sibling (h : heap) (c : nat) : option item :=
  match par_of h c, parent_index h c with Some p, Some i => if 0 <? i then nth_error (kids_of h p) (i - 1) else None | _, _ => None end.
Definition right_sibling (h : heap) (c : nat) : option item :=
  match par_of h c, parent_index h c with Some p, Some i => if i <? length (kids_of h p) - 1 then nth_error (kids_of h p) (i + 1) else None | _, _ => None end.
(** 725-740 treeposition and root, with a bound on the number of steps *)
Fixpoint treeposition (fuel : nat) (h : heap) (c : nat) : option (list nat) :=
  match fuel with
  | O => None
  | S f => match par_of h c with
           | None => Some []
           | Some p => match treeposition f h p, parent_index h c with Some l, Some i => Some (l ++ [i]) | _, _ => None end
           end
  end.
Fixpoint root (fuel : nat) (h : heap) (c : nat) : option nat :=
  match fuel with
  | O => None
  | S f => match par_of h c with None => Some c | Some p => root f h p end
  end.
(** tree.py:194-203 ptree[i1, i2, ...] *)
Fixpoint getitem (h : heap) (c : nat) (pos : list nat) : option item :=
  match pos with
  | [] => Some (INode c)
  | i :: r => match nth_error (kids_of h c) i with
              | Some (INode d) => getitem h d r
              | Some (ILeaf a) => match r with [] => Some (ILeaf a) | _ => None end
              | None => None
              end
  end.
