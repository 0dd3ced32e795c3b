(** Specification for C69. *)
From Coq Require Import List Bool Arith Permutation.
From Verif Require Import PyStr TreeModel BinarizeModel TreeProps EvalModel ETransModel.
Import ListNotations.
Open Scope nat_scope.

(** The children of every node are all nodes, or a single word; the root is not a
    preterminal.  Every word occurs once. *)
Definition wellformed (t : tree pystr nat) (n : nat) : Prop :=
  (exists l ts, t = Node l ts /\ forallb is_node ts = true) /\
  (forall l ts, In (Node l ts) (pre t) -> forallb is_node ts = true \/ exists k, ts = [Leaf k]) /\
  Permutation (leaves t) (seq 0 n).
(** word k is to be removed: by its gold tag, as a word, or because it is attached
    to the root of the gold tree *)
Definition dropped (param : eparam) (sent tags : list pystr) (grootpos : list nat) (k : nat) : Prop :=
  In (nth k tags []) (delete_label param) \/ In (nth k sent []) (delete_word param) \/
  (delete_root_preterms param = true /\ In k grootpos).
(** [keep] says which words remain *)
Definition keeps (keep : nat -> bool) param sent tags grootpos : Prop :=
  forall k, k < length sent -> (keep k = false <-> dropped param sent tags grootpos k).
(** position of a word after the removal of words *)
Definition newpos (keep : nat -> bool) (k : nat) : nat := length (filter keep (seq 0 k)).

(** The description of a node: whether it is phrasal, its label, its words. *)
Definition describe (s : tree pystr nat) : bool * pystr * list nat := (phrasal s, tlabel s, leaves s).
(** What becomes of a node below the root: it is gone if no words are left, or if it
    is phrasal and its label is to be deleted; otherwise the label is mapped and
    the remaining words get their new positions. *)
Definition becomes (param : eparam) (keep : nat -> bool) (s : tree pystr nat) : list (bool * pystr * list nat) :=
  match filter keep (leaves s) with
  | [] => []
  | ks => if phrasal s && mems (dictmap (eq_label param) (tlabel s)) (delete_label param) then []
          else [(phrasal s, dictmap (eq_label param) (tlabel s), map (newpos keep) ks)]
  end.

(** [wraps del t t']: t' is t with children of a node collected under an additional
    node with a label to be deleted, or an additional node without words *)
Inductive wraps (param : eparam) : tree pystr nat -> tree pystr nat -> Prop :=
| wr_here : forall l a b c x, In (dictmap (eq_label param) x) (delete_label param) -> (exists l' ts, In (Node l' ts) b) ->
    wraps param (Node l (a ++ b ++ c)) (Node l (a ++ Node x b :: c))
| wr_empty : forall l a c x, wraps param (Node l (a ++ c)) (Node l (a ++ Node x [] :: c))
| wr_below : forall l a t t' c, wraps param t t' -> wraps param (Node l (a ++ t :: c)) (Node l (a ++ t' :: c)).
