(** Specification for C67: parse trees of a PCFG with their costs. *)
From Coq Require Import List Bool Arith NArith.
From Verif Require Import EstModel.
Import ListNotations.
Local Open Scope N_scope.

Inductive ptree := PLex (l : nat) (p : N) | PUn (r : erule) (t : ptree) | PBin (r : erule) (a b : ptree).
Definition plabel (t : ptree) : nat :=
  match t with PLex l _ => l | PUn r _ => e_lhs r | PBin r _ _ => e_lhs r end.
Fixpoint psize (t : ptree) : nat :=
  match t with PLex _ _ => 1%nat | PUn _ t => psize t | PBin _ a b => (psize a + psize b)%nat end.
Fixpoint pcost (t : ptree) : N :=
  match t with
  | PLex _ p => p
  | PUn r t => e_prob r + pcost t
  | PBin r a b => e_prob r + pcost a + pcost b
  end.
(** a tree built from the rules of the grammar, over some words *)
Fixpoint derivation (g : egrammar) (t : ptree) : Prop :=
  match t with
  | PLex l p => In (l, p) (g_lexical g)
  | PUn r t => In r (g_rules g) /\ e_rhs2 r = 0%nat /\ e_rhs1 r = plabel t /\ derivation g t
  | PBin r a b => In r (g_rules g) /\ e_rhs2 r <> 0%nat /\ e_rhs1 r = plabel a /\ e_rhs2 r = plabel b
                  /\ derivation g a /\ derivation g b
  end.
(** [occurs t sub left right]: [sub] is a constituent of [t] with so many words of
    [t] to its left and to its right *)
Inductive occurs : ptree -> ptree -> nat -> nat -> Prop :=
| oc_here : forall t, occurs t t 0 0
| oc_un : forall r t s m n, occurs t s m n -> occurs (PUn r t) s m n
| oc_left : forall r a b s m n, occurs a s m n -> occurs (PBin r a b) s m (n + psize b)
| oc_right : forall r a b s m n, occurs b s m n -> occurs (PBin r a b) s (psize a + m) n.
(** weights are costs, labels are numbered from 1 below the number of nonterminals *)
Definition costs (g : egrammar) : Prop :=
  (forall r, In r (g_rules g) -> 0 <= e_prob r) /\ (forall l p, In (l, p) (g_lexical g) -> 0 <= p).
(** no label has more rules of one kind than there are nonterminals *)
Definition fewrules (g : egrammar) : Prop :=
  forall l, (length (unaryrules g l) <= g_nonterminals g)%nat
    /\ (length (lbinaryrules g l) <= g_nonterminals g)%nat
    /\ (length (rbinaryrules g l) <= g_nonterminals g)%nat.
