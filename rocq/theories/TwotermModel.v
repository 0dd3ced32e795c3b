(** containers.pyx: Ctrees.indextrees (395-417) and _fragments.pyx:
    twoterminals (652-673) with the loop that uses it (151-190): which pairs of
    trees are compared when fragments must have two words (--twoterms).

    Simplifications: a production that no tree has is indexed by the empty set
    (None in the code); a RoaringBitmap is a list without duplicates;
    production numbers are natural numbers (the check prod >= 0 is omitted:
    the numbers of read trees are not negative). *)
From Coq Require Import List Bool Arith.
Import ListNotations.
Open Scope nat_scope.

(** a node: left < 0 (it is a preterminal), and its production *)
Record node := Nd { leaf : bool; prod : nat }.
Definition mem (x : nat) (l : list nat) : bool := existsb (Nat.eqb x) l.
(** rb.add(n) *)
Definition add (n : nat) (rb : list nat) : list nat := if mem n rb then rb else rb ++ [n].
Fixpoint upd (i : nat) (f : list nat -> list nat) (l : list (list nat)) : list (list nat) :=
  match l, i with
  | [], _ => []
  | x :: l', 0 => f x :: l'
  | x :: l', S i' => x :: upd i' f l'
  end.
(** containers.pyx 408-415 *)
Definition indextree (n : nat) (nodes : list node) (idx : list (list nat)) : list (list nat) :=
  fold_left (fun idx nd => upd (prod nd) (add n) idx) nodes idx.
(** containers.pyx 407: for n in range(start, self.len) *)
Fixpoint indexfrom (n : nat) (ts : list (list node)) (idx : list (list nat)) : list (list nat) :=
  match ts with [] => idx | t :: ts' => indexfrom (S n) ts' (indextree n t idx) end.
(** containers.pyx 402-417 *)
Definition indextrees (nprods : nat) (trees : list (list node)) (start : nat) (idx : list (list nat)) : list (list nat) :=
  indexfrom start (skipn start trees) (idx ++ repeat [] (nprods - length idx)).
(** tmp & other; candidates |= other *)
Definition inter (a b : list nat) : list nat := filter (fun x => mem x b) a.
Definition union (a b : list nat) : list nat := a ++ filter (fun x => negb (mem x a)) b.
Definition lookup (idx : list (list nat)) (p : nat) : list nat := nth p idx [].

Section Twoterminals.
  Variables contentwordprods lexicalprods : nat -> bool.
  Variable prodindex : list (list nat).
  (** _fragments.pyx 669-672: the loop over j, nodes numbered from j *)
  Fixpoint inner (i : nat) (tmp : list nat) (j : nat) (nodes : list node) (cand : list nat) : list nat :=
    match nodes with
    | [] => cand
    | b :: nodes' =>
        inner i tmp (S j) nodes'
          (if negb (i =? j) && leaf b && lexicalprods (prod b)
           then union cand (inter tmp (lookup prodindex (prod b))) else cand)
    end.
  (** _fragments.pyx 665-672: the loop over i *)
  Fixpoint outer (a : list node) (i : nat) (nodes : list node) (cand : list nat) : list nat :=
    match nodes with
    | [] => cand
    | b :: nodes' =>
        outer a (S i) nodes'
          (if negb (leaf b) || negb (contentwordprods (prod b)) then cand
           else inner i (lookup prodindex (prod b)) 0 a cand)
    end.
  Definition twoterminals (a : list node) : list nat := outer a 0 a [].
  (** _fragments.pyx 181-190: the trees m compared with tree n *)
  Definition partners (singletb : bool) (start2 end2 n : nat) (a : list node) : list nat :=
    filter (fun m => negb (singletb && (m <=? n)) && negb ((m <? start2) || (end2 <? m))) (twoterminals a).
End Twoterminals.
