(** Specification for the DOP reduction: what the fragments of a treebank are,
    and what the derivations of a grammar and their probabilities are. *)
From Coq Require Import String.
From Coq Require Import List Bool Arith NArith ZArith QArith Qcanon.
From Verif Require Import PyStr TreeModel BracketModel LcfrsModel DopModel.
Import ListNotations.
Open Scope list_scope.
Open Scope nat_scope.

(** ---- fragments (Bod 1992) ----
    A fragment has at each internal node a label, and the word or the yield
    function that belongs to it; a [Leaf] is a substitution site. *)
Definition fragment := tree (pystr * pvar) pystr.
Definition label (t : tree pystr nat) : pystr := match t with Node l _ => l | Leaf _ => [] end.
(** [fragment_of sent t f]: f is a fragment of the tree t, rooted at the root of t:
    each child of a node of the fragment has been made a substitution site, or
    is again (the root of) a fragment *)
Inductive fragment_of (sent : sentence) : tree pystr nat -> fragment -> Prop :=
| fragment_pre : forall l a w, nth_error sent a = Some (Some w) ->
    fragment_of sent (Node l [Leaf a]) (Node (l, PWord (escape (Some w))) [])
| fragment_node : forall l ts yf fs, yieldfunction ts = Some yf ->
    Forall2 (fun t f => (exists m us, t = Node m us /\ f = Leaf m) \/ fragment_of sent t f) ts fs ->
    fragment_of sent (Node l ts) (Node (l, PYf yf) fs).

(** all ways to choose one element of each list *)
Fixpoint cart {X} (ls : list (list X)) : list (list X) :=
  match ls with [] => [[]] | o :: r => flat_map (fun x => map (cons x) (cart r)) o end.
(** the fragments rooted at the root of t, as a list (C31_fragments: this list has
    exactly the fragments in the sense of [fragment_of], without repetition) *)
Fixpoint fragments (sent : sentence) (t : tree pystr nat) : list fragment :=
  match t with
  | Leaf _ => []
  | Node l ts =>
    match ts with
    | [Leaf a] => match nth_error sent a with Some (Some w) => [Node (l, PWord (escape (Some w))) []] | _ => [] end
    | _ => match yieldfunction ts with
           | Some yf => map (Node (l, PYf yf)) (cart (map (fun c => Leaf (label c) :: fragments sent c) ts))
           | None => []
           end
    end
  end.
(** the nodes of a tree, in preorder *)
Fixpoint nodes (t : tree pystr nat) : list (tree pystr nat) :=
  match t with Leaf _ => [] | Node _ ts => t :: flat_map nodes ts end.
(** the bag of all occurrences of fragments with root label A in a treebank *)
Definition fragment_bag (tb : list (tree pystr nat * sentence)) (A : pystr) : list fragment :=
  flat_map (fun ts => flat_map (fragments (snd ts)) (filter (fun v => eqs (label v) A) (nodes (fst ts)))) tb.

(** ---- derivations of a grammar ----
    A grammar is a list of rules with weights; the probability of a rule is its
    weight divided by the weights of all rules with the same left-hand side. *)
Definition weight (g : list (rule * N)) (r : rule) : N :=
  fold_right N.add 0%N (map snd (filter (fun rw => rule_eqb (fst rw) r) g)).
Definition mass (g : list (rule * N)) (X : pystr) : N :=
  fold_right N.add 0%N (map snd (filter (fun rw => eqs (lhs (fst rw)) X) g)).
Definition ruleprob (g : list (rule * N)) (r : rule) : Qc := (Nq (weight g r) / Nq (mass g (lhs r)))%Qc.
(** the non-terminals that a rule rewrites to *)
Definition symbols (r : rule) : list pystr := match snd r with PWord _ => [] | PYf _ => tl (fst r) end.
(** A derivation whose non-terminals with an address are rewritten, until only
    words and non-terminals without address are left. *)
Definition deriv := tree rule pystr.
Inductive derivation (g : list (rule * N)) : pystr -> deriv -> Prop :=
| derivation_rule : forall r ds, In r (map fst g) ->
    Forall2 (fun z d => addressed z = true /\ derivation g z d \/ addressed z = false /\ d = Leaf z) (symbols r) ds ->
    derivation g (lhs r) (Node r ds).
Fixpoint prob (g : list (rule * N)) (d : deriv) : Qc :=
  match d with
  | Leaf _ => 1%Qc
  | Node r ds => (ruleprob g r * fold_right Qcmult 1 (map (prob g) ds))%Qc
  end.
(** label without its address: what precedes the first '@' *)
Fixpoint strip (s : pystr) : pystr := match s with [] => [] | c :: r => if N.eqb c (ch "@") then [] else c :: strip r end.
(** the fragment that is derived *)
Fixpoint erase (d : deriv) : fragment :=
  match d with
  | Leaf z => Leaf z
  | Node r ds => Node (strip (lhs r), snd r) (map erase ds)
  end.
