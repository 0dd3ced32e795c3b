(** disambiguation.pyx: fragmentsinderiv_str (658-670), frontiernt (751-753) and
    splitfrag (756-770): the fragments of a derivation of a DOP reduction.

    Simplifications: trees instead of bracket strings (DisambSpec.show gives the
    string of a derivation; REMOVEIDS.sub removes the addresses, as
    C65_tree_of_derivation shows); writediscbrackettree and pygetsent, which
    render a fragment, are not modelled; labels are split at '@'. *)
From Coq Require Import Reals.
From Coq Require Import List Bool Arith NArith.
From Verif Require Import PyStr DisambModel DisambSpec.
Import ListNotations.
Open Scope nat_scope.

(** Fragments: words, substitution sites (leaf 'lo:hi'), nodes. *)
Inductive ft :=
| FWord (i : nat)
| FSite (l : pystr) (lo hi : nat)
| FNode (l : pystr) (a : option pystr) (ts : list ft).

(** tree.leaves() *)
Fixpoint dleaves (t : dt) : list nat :=
  match t with DLeaf i => [i] | DNode _ _ ts => flat_map dleaves ts end.
(** a subtree of a derivation as part of a fragment *)
Fixpoint embed (t : dt) : ft :=
  match t with DLeaf i => FWord i | DNode l a ts => FNode l a (map embed ts) end.
Definition lmin (l : list nat) : nat := match l with [] => 0 | x :: r => fold_left Nat.min r x end.
Definition lmax (l : list nat) : nat := fold_left Nat.max l 0.

(** 751-753: the label has no '@' *)
Definition frontiernt (t : dt) : bool := match t with DNode _ None _ => true | _ => false end.

(** 756-770 *)
Fixpoint splitfrag (t : dt) : ft :=
  match t with
  | DLeaf i => FWord i
  | DNode l a ts =>
      FNode l a (map (fun child =>
        match child with
        | DLeaf i => FWord i
        | DNode _ (Some _) (DLeaf _ :: _) => embed child
        | DNode _ (Some _) _ => splitfrag child
        | DNode l' None _ => FSite l' (lmin (dleaves child)) (lmax (dleaves child))
        end) ts)
  end.
(** tree.subtrees(): pre-order *)
Fixpoint dsubtrees (t : dt) : list dt :=
  match t with DLeaf _ => [] | DNode _ _ ts => t :: flat_map dsubtrees ts end.
(** REMOVEIDS.sub('', str(fragment)) *)
Fixpoint stripids (t : ft) : ft :=
  match t with FNode l _ ts => FNode l None (map stripids ts) | t => t end.
(** 663-668 *)
Definition fragmentsinderiv (t : dt) : list ft :=
  map (fun n => stripids (splitfrag n)) (filter frontiernt (dsubtrees t)).
