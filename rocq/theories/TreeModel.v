(** Model of the Tree class of discodop/tree.py: construction, equality and
    traversals.  A Python Tree object is [Node label children]; a child that is
    not a Tree object is [Leaf]. *)
From Coq Require Import List Bool Arith Lia.
Import ListNotations.

(** tree.py:85-114: the slots label and children.  source and type are not
    modelled here; _parent is modelled in ParentedModel.v. *)
Inductive tree {L A : Type} := Leaf (a : A) | Node (l : L) (ts : list tree).
Arguments tree : clear implicits.

Section Ind.
Context {L A : Type}.
Variable P : tree L A -> Prop.
Hypothesis HL : forall a, P (Leaf a).
Hypothesis HN : forall l ts, Forall P ts -> P (Node l ts).
Fixpoint tree_ind' (t : tree L A) : P t :=
  match t with
  | Leaf a => HL a
  | Node l ts => HN l ts ((fix go (ts : list (tree L A)) : Forall P ts := match ts with [] => Forall_nil P | t :: r => Forall_cons t (tree_ind' t) (go r) end) ts)
  end.
End Ind.

Section Tree.
Context {L A : Type}.
Notation tree := (tree L A).

Fixpoint size (t : tree) : nat := match t with Leaf _ => 1 | Node _ ts => S (list_sum (map size ts)) end.
Definition sizes (ts : list tree) : nat := list_sum (map size ts).

(** tree.py:239-250 leaves *)
Fixpoint leaves (t : tree) : list A := match t with Leaf a => [a] | Node _ ts => flat_map leaves ts end.
(** tree.py:252-265 height: the loop over the children computing a maximum;
    a child that is not a Tree counts 1 *)
Fixpoint height (t : tree) : nat :=
  match t with Leaf _ => 1 | Node _ ts => 1 + fold_left (fun m c => max m (height c)) ts 0 end.

(** tree.py:267-282 subtrees: a stack initialised with self; node[::-1] pushed
    so that the first child is on top.  The head of the list is the top of the
    stack.  Fuel: one per pop. *)
Fixpoint subtrees_loop (fuel : nat) (agenda : list tree) : list tree :=
  match fuel with
  | O => []
  | S f =>
    match agenda with
    | [] => []
    | Leaf _ :: r => subtrees_loop f r
    | Node l ts :: r => Node l ts :: subtrees_loop f (ts ++ r)
    end
  end.
Definition subtrees (condition : tree -> bool) (t : tree) : list tree :=
  filter condition (subtrees_loop (size t) [t]).

(** tree.py:311-335 pos(nodes=False) *)
Fixpoint pos_loop (fuel : nat) (agenda : list tree) : list (A * L) :=
  match fuel with
  | O => []
  | S f =>
    match agenda with
    | [] => []
    | Leaf _ :: r => pos_loop f r
    | Node l ts :: r =>
      flat_map (fun c => match c with Leaf a => [(a, l)] | Node _ _ => [] end) ts
      ++ pos_loop f (ts ++ r)
    end
  end.
Definition pos (t : tree) : list (A * L) := pos_loop (size t) [t].

(** tree.py:337-351 treepositions(order) *)
Inductive order := Preorder | Postorder | Bothorder | LeavesOrder.
Definition before (o : order) : bool := match o with Preorder | Bothorder => true | _ => false end.
Definition after (o : order) : bool := match o with Postorder | Bothorder => true | _ => false end.
Fixpoint mapi {X Y} (f : nat -> X -> Y) (i : nat) (l : list X) : list Y :=
  match l with [] => [] | x :: r => f i x :: mapi f (S i) r end.
Fixpoint treepositions (o : order) (t : tree) : list (list nat) :=
  match t with
  | Leaf _ => [[]]         (* a leaf child i contributes (i, ) *)
  | Node _ ts =>
    (if before o then [[]] else []) ++
    concat (mapi (fun i ps => map (cons i) ps) 0 (map (treepositions o) ts)) ++
    (if after o then [[]] else [])
  end.

(** tree.py:202-211 __getitem__ with a tuple index (non-negative components) *)
Fixpoint getpos (t : tree) (p : list nat) : option tree :=
  match p with
  | [] => Some t
  | i :: p' => match t with
               | Leaf _ => None
               | Node _ ts => match nth_error ts i with Some c => getpos c p' | None => None end
               end
  end.

(** tree.py:353-374 leaf_treeposition: stack of (value, treepos), with the
    children pushed from the last to the first; None is IndexError *)
Fixpoint leafpos_loop (fuel : nat) (stack : list (tree * list nat)) (index : nat) : option (list nat) :=
  match fuel with
  | O => None
  | S f =>
    match stack with
    | [] => None
    | (Leaf _, treepos) :: r => match index with O => Some treepos | S i => leafpos_loop f r i end
    | (Node _ ts, treepos) :: r => leafpos_loop f (mapi (fun i c => (c, treepos ++ [i])) 0 ts ++ r) index
    end
  end.
Definition leaf_treeposition (t : tree) (index : nat) : option (list nat) :=
  leafpos_loop (S (size t)) [(t, [])] index.

(** tree.py:376-392 treeposition_spanning_leaves *)
Inductive spanres := SpOk (p : list nat) | SpValueError | SpIndexError.
(** first index where they mismatch, 388-392 *)
Fixpoint common (a b : list nat) : list nat :=
  match a with
  | [] => []
  | x :: a' => match b with [] => [] | y :: b' => if x =? y then x :: common a' b' else [] end
  end.
Definition treeposition_spanning_leaves (t : tree) (start end_ : nat) : spanres :=
  if end_ <=? start then SpValueError
  else match leaf_treeposition t start, leaf_treeposition t (end_ - 1) with
       | Some p, Some q => SpOk (common p q)
       | _, _ => SpIndexError
       end.
End Tree.

(** tree.py:284-303 postorder, which remembers id(node) of the nodes it has
    expanded.  Object identity is made explicit: the label of a node is a pair
    of its id and its label. *)
Section Postorder.
Context {L A : Type}.
Notation itree := (tree (nat * L) A).
Fixpoint postorder_loop (fuel : nat) (agenda : list itree) (visited : list nat) : list itree :=
  match fuel with
  | O => []
  | S f =>
    match agenda with
    | [] => []
    | Leaf _ :: r => postorder_loop f r visited
    | Node (i, l) ts :: r =>
      if existsb (Nat.eqb i) visited
      then Node (i, l) ts :: postorder_loop f r visited
      else postorder_loop f (ts ++ Node (i, l) ts :: r) (i :: visited)
    end
  end.
Definition postorder (condition : itree -> bool) (t : itree) : list itree :=
  filter condition (postorder_loop (2 * size t) [t] []).
End Postorder.

(** tree.py:118-122 __eq__ (Python's list == compares pairwise) *)
Section Eq.
Context {L A : Type}.
Variable leq : L -> L -> bool.
Variable aeq : A -> A -> bool.
Fixpoint tree_eqb (s t : tree L A) : bool :=
  match s, t with
  | Leaf a, Leaf b => aeq a b
  | Node l ts, Node m us =>
    leq l m && (fix go ts us := match ts, us with
                 | [], [] => true
                 | x :: ts', y :: us' => tree_eqb x y && go ts' us'
                 | _, _ => false end) ts us
  | _, _ => false
  end.
End Eq.
