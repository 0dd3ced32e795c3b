(** Specification for C65, independent of DisambModel: probabilities of parse
    trees as sums over derivations, and derivations as trees some of whose nodes
    carry an address (interior nodes of fragments). *)
From Coq Require Import Reals.
From Coq Require Import List Bool Arith NArith ZArith.
From Verif Require Import PyStr.
Import ListNotations.
Open Scope R_scope.

Definition rsum (l : list R) : R := fold_right Rplus 0 l.

(** the probability of tree [t]: the sum of the probabilities [exp (- cost)] of
    the listed derivations that yield [t] *)
Definition yields {D} (key : D -> option pystr) (t : pystr) (d : D) : bool :=
  match key d with Some t' => eqs t' t | None => false end.
Definition treeprob {D} (key : D -> option pystr) (ds : list (D * R)) (t : pystr) : R :=
  rsum (map (fun x => exp (- snd x)) (filter (fun x => yields key t (fst x)) ds)).
(** the probability mass of all derivations that yield some tree *)
Definition mass {D} (key : D -> option pystr) (ds : list (D * R)) : R :=
  rsum (map (fun x => exp (- snd x))
    (filter (fun x => match key (fst x) with Some _ => true | None => false end) ds)).

(** derivations: trees over word positions; [Some a] is the address of an
    interior node of a fragment, [None] marks the root of a fragment *)
Inductive dt := DLeaf (i : nat) | DNode (l : pystr) (a : option pystr) (ts : list dt).

Definition showaddr (a : option pystr) : pystr :=
  match a with None => [] | Some x => 64%N :: x end.
(** bracket notation: "(label@addr child child)" *)
Fixpoint show (t : dt) : pystr :=
  match t with
  | DLeaf i => dec i
  | DNode l a ts =>
      40%N :: l ++ showaddr a ++ flat_map (fun c => 32%N :: show c) ts ++ [41%N]
  end.
(** the parse tree of a derivation: forget the addresses *)
Fixpoint forget (t : dt) : dt :=
  match t with
  | DLeaf i => DLeaf i
  | DNode l _ ts => DNode l None (map forget ts)
  end.
(** keep which nodes are interior, forget which treebank node they come from *)
Fixpoint anonymize (t : dt) : dt :=
  match t with
  | DLeaf i => DLeaf i
  | DNode l a ts =>
      DNode l (match a with None => None | Some _ => Some [49%N] end) (map anonymize ts)
  end.
(** the number of fragments in a derivation: nodes that are fragment roots *)
Fixpoint nfrags (t : dt) : nat :=
  match t with
  | DLeaf _ => O
  | DNode _ a ts =>
      ((match a with None => 1 | Some _ => 0 end) + list_sum (map nfrags ts))%nat
  end.

(** labels contain no '@', parentheses or blanks; an address consists of digits
    and hyphens *)
Definition wflabel (l : pystr) : Prop :=
  l <> [] /\ Forall (fun c => c <> 64 /\ c <> 40 /\ c <> 41 /\ c <> 32)%N l.
Definition wfaddr (a : option pystr) : Prop :=
  match a with
  | None => True
  | Some x => x <> [] /\ Forall (fun c => c = 45%N \/ isdigit c = true) x
  end.
Inductive wf : dt -> Prop :=
| wf_leaf : forall i, wf (DLeaf i)
| wf_node : forall l a ts, wflabel l -> wfaddr a -> Forall wf ts -> wf (DNode l a ts).
