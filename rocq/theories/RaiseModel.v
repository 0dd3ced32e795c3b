(** Model of discodop/treetransforms.py:557-590 raisediscnodes.  Trees, head
    marks and splitdiscnodes are those of TransformModel. *)
From Coq Require Import String.
From Coq Require Import List Bool Arith.
From Verif Require Import PyStr TreeModel BinarizeModel TransformModel.
Import ListNotations.

(** 568-570: not (all children are nodes and no heads); None in
    [raisediscnodes] is the ValueError *)
Fixpoint headsok (t : btree) : bool :=
  match t with
  | Leaf _ => true
  | Node _ ts => negb (forallb (fun a => is_node a && negb (ishead a)) ts) && forallb headsok ts
  end.
(** 575-589: a child of a node.  Line 582 raises AttributeError when the child
    is a preterminal whose label looks like that of a part: a word has no type.
    Here a word is not a head. *)
Definition raisechild (child : btree) : list btree :=
  match child with
  | Leaf _ => [child]
  | Node (lab, h) gc =>
    match SPLITLABELRE lab with
    | None => [child]
    | Some (l, _) => if existsb ishead gc then [Node (l, h) gc] else gc
    end
  end.
(** 572-589: for node in tree.postorder() *)
Fixpoint raisenodes (t : btree) : btree :=
  match t with
  | Leaf a => Leaf a
  | Node l ts => Node l (flat_map raisechild (map raisenodes ts))
  end.
Definition raisediscnodes (t : btree) : option btree :=
  if headsok t then Some (raisenodes (splitdiscnodes false t)) else None.
