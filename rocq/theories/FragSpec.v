(** Fragments of binary trees, independently of node arrays and bit matrices.

    A treebank tree is a binary tree whose nodes carry the number of their
    production; a fragment is a connected part of such a tree: a node with its
    production, for every child either the child's part or nothing. *)
From Coq Require Import NArith ZArith List Bool Permutation Sorting.Sorted.
From Verif Require Import BitsSpec TreeModel FragModel.
Import ListNotations.

Inductive btree :=
  | Lex (p : Z) (i : nat)             (* a preterminal over terminal i *)
  | Un (p : Z) (t : btree)
  | Bin (p : Z) (t1 t2 : btree).
Definition bprod (t : btree) : Z := match t with Lex p _ => p | Un p _ => p | Bin p _ _ => p end.
Definition same_kind (s t : btree) : Prop :=
  match s, t with
  | Lex _ _, Lex _ _ | Un _ _, Un _ _ | Bin _ _ _, Bin _ _ _ => True
  | _, _ => False
  end.

(** addresses: false is the first child, true the second *)
Definition addr := list bool.
Fixpoint sub (t : btree) (u : addr) {struct u} : option btree :=
  match u, t with
  | [], _ => Some t
  | false :: u', Un _ t1 => sub t1 u'
  | false :: u', Bin _ t1 _ => sub t1 u'
  | true :: u', Bin _ _ t2 => sub t2 u'
  | _, _ => None
  end.

(** fragments; [Open] is a frontier non-terminal (the child is not included) *)
Inductive frag := Open | FLex (p : Z) | FUn (p : Z) (f : frag) | FBin (p : Z) (f1 f2 : frag).

(** fragment f is found at the root of t: same productions *)
Fixpoint matches (f : frag) (t : btree) : Prop :=
  match f, t with
  | Open, _ => True
  | FLex p, Lex q _ => p = q
  | FUn p f1, Un q t1 => p = q /\ matches f1 t1
  | FBin p f1 f2, Bin q t1 t2 => p = q /\ matches f1 t1 /\ matches f2 t2
  | _, _ => False
  end.
Definition occurs (f : frag) (t : btree) (u : addr) : Prop :=
  exists s, sub t u = Some s /\ matches f s.
(** a non-empty fragment found at u in s and at v in t *)
Definition common (f : frag) (s : btree) (u : addr) (t : btree) (v : addr) : Prop :=
  f <> Open /\ occurs f s u /\ occurs f t v.

(** f is part of g, with the same root *)
Fixpoint prefix (f g : frag) : Prop :=
  match f, g with
  | Open, _ => True
  | FLex p, FLex q => p = q
  | FUn p f1, FUn q g1 => p = q /\ prefix f1 g1
  | FBin p f1 f2, FBin q g1 g2 => p = q /\ prefix f1 g1 /\ prefix f2 g2
  | _, _ => False
  end.
(** f is part of g, its root being at address w of g *)
Fixpoint part_at (w : addr) (f g : frag) {struct w} : Prop :=
  match w, g with
  | [], _ => prefix f g
  | false :: w', FUn _ g1 => part_at w' f g1
  | false :: w', FBin _ g1 _ => part_at w' f g1
  | true :: w', FBin _ _ g2 => part_at w' f g2
  | _, _ => False
  end.
(** No common fragment has g, in this place, as a proper part. *)
Definition maximal (g : frag) (s : btree) (u : addr) (t : btree) (v : addr) : Prop :=
  forall h u' v' w, common h s u' t v' -> u = u' ++ w -> v = v' ++ w -> part_at w g h -> h = g.

(** The same production number always has the same number of children: the
    numbers come from one Vocabulary. *)
Definition agree (s t : btree) : Prop :=
  forall u v s' t', sub s u = Some s' -> sub t v = Some t' -> bprod s' = bprod t' -> same_kind s' t'.

(** sizes of fragments *)
Fixpoint depth (f : frag) : nat :=
  match f with Open => 0 | FLex _ => 1 | FUn _ g => S (depth g) | FBin _ g h => S (Nat.max (depth g) (depth h)) end.
Fixpoint frontiers (f : frag) : nat :=
  match f with Open => 1 | FLex _ => 0 | FUn _ g => frontiers g | FBin _ g h => frontiers g + frontiers h end.
Fixpoint terminals (f : frag) : nat :=
  match f with Open => 0 | FLex _ => 1 | FUn _ g => terminals g | FBin _ g h => terminals g + terminals h end.

(** ---- node arrays ---- *)
(** node i of the array is the root of a copy of t *)
Fixpoint holds (a : list node) (i : nat) (t : btree) : Prop :=
  i < length a /\
  match t with
  | Lex p k => prod (nd a i) = p /\ left (nd a i) = (- Z.of_nat k - 1)%Z /\ right (nd a i) = (-1)%Z
  | Un p t1 => prod (nd a i) = p /\ (0 <= left (nd a i))%Z /\ right (nd a i) = (-1)%Z /\
      holds a (kid (left (nd a i))) t1
  | Bin p t1 t2 => prod (nd a i) = p /\ (0 <= left (nd a i))%Z /\ (0 <= right (nd a i))%Z /\
      holds a (kid (left (nd a i))) t1 /\ holds a (kid (right (nd a i))) t2
  end.
Fixpoint nodes_of (a : list node) (i : nat) (t : btree) : list nat :=
  match t with
  | Lex _ _ => [i]
  | Un _ t1 => i :: nodes_of a (kid (left (nd a i))) t1
  | Bin _ t1 t2 => i :: nodes_of a (kid (left (nd a i))) t1 ++ nodes_of a (kid (right (nd a i))) t2
  end.
(** the array holds the tree t and nothing else, sorted by production *)
Definition array_of (a : list node) (root : nat) (t : btree) : Prop :=
  holds a root t /\ Permutation (nodes_of a root t) (seq 0 (length a)) /\
  StronglySorted Z.le (map prod a).
(** the node at address u below node i *)
Fixpoint node_at (a : list node) (i : nat) (u : addr) : option nat :=
  match u with
  | [] => Some i
  | false :: u' => if (left (nd a i) <? 0)%Z then None else node_at a (kid (left (nd a i))) u'
  | true :: u' => if (right (nd a i) <? 0)%Z then None else node_at a (kid (right (nd a i))) u'
  end.

(** The set of nodes of a fragment whose root is node i *)
Fixpoint frag_nodes (a : list node) (i : nat) (f : frag) : list nat :=
  match f with
  | Open => []
  | FLex _ => [i]
  | FUn _ g => i :: frag_nodes a (kid (left (nd a i))) g
  | FBin _ g h => i :: frag_nodes a (kid (left (nd a i))) g ++ frag_nodes a (kid (right (nd a i))) h
  end.
(** bitset [bits] stands for fragment f at node i *)
Definition denotes (a : list node) (bits : list N) (i : nat) (f : frag) : Prop :=
  words bits /\ forall k, amember bits (N.of_nat k) <-> In k (frag_nodes a i f).

(** ---- the trees as Python objects ---- *)
(** the productions of the nodes in preorder (Tree.subtrees) *)
Fixpoint preorder (t : btree) : list Z :=
  match t with
  | Lex p _ => [p]
  | Un p t1 => p :: preorder t1
  | Bin p t1 t2 => p :: preorder t1 ++ preorder t2
  end.
(** t is the binarized Tree object s *)
Fixpoint same_shape {L} (s : tree L nat) (t : btree) : Prop :=
  match s, t with
  | Node _ [Leaf k], Lex _ k' => k = k'
  | Node _ [c], Un _ t1 => same_shape c t1
  | Node _ [c1; c2], Bin _ t1 t2 => same_shape c1 t1 /\ same_shape c2 t2
  | _, _ => False
  end.
