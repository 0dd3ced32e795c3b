(** Model of discodop/grammar.py:24-97 lcfrsproductions: reading off LCFRS
    productions from a tree with indices and a sentence. *)
From Coq Require Import String.
From Coq Require Import List Bool Arith NArith Lia.
From Verif Require Import PyStr TreeModel BracketModel BinarizeModel TransformModel.
Import ListNotations.
Open Scope list_scope.

(** a production, as (nonterminals, yield function or word):
    ((lhs, 'Epsilon'), (word, )), ((lhs, ), ()), ((lhs, rhs...), yf) *)
Inductive prod :=
| Lexical (lhs : pystr) (word : pystr)
| Frontier (lhs : pystr)
| Phrasal (lhs : pystr) (rhs : list pystr) (yf : list (list nat)).
Inductive pres := PRules (ps : list prod) | PError.   (* PError: ValueError *)

(** enumerate(xs), counting from n *)
Fixpoint enumerate {X} (n : nat) (xs : list X) : list (nat * X) :=
  match xs with [] => [] | x :: r => (n, x) :: enumerate (S n) r end.
(** grammar.py:76-80: the pairs (idx, n), sorted by descending index; the loop
    takes them from the end of the list *)
Definition indexed (ts : list (tree pystr nat)) : list (nat * nat) :=
  flat_map (fun p => map (fun idx => (idx, fst p)) (leaves (snd p))) (enumerate 0 ts).
Definition idx_ge (a b : nat * nat) : bool := fst b <=? fst a.
(** yf[-1].append(parent) *)
Definition append_last (yf : list (list nat)) (parent : nat) : list (list nat) :=
  removelast yf ++ [last yf [] ++ [parent]].
(** grammar.py:83-90 *)
Fixpoint yfloop (ls : list (nat * nat)) (previdx prevparent : nat) (yf : list (list nat)) : list (list nat) :=
  match ls with
  | [] => yf
  | (idx, parent) :: r =>
    yfloop r idx parent
      (if negb (idx =? previdx + 1) then yf ++ [[parent]]
       else if negb (parent =? prevparent) then append_last yf parent
       else yf)
  end.
(** grammar.py:81-82; leaves.pop() of an empty list raises an IndexError *)
Definition yieldfunction (ts : list (tree pystr nat)) : option (list (list nat)) :=
  match rev (sort idx_ge (indexed ts)) with
  | [] => None
  | (idx, parent) :: ls => Some (yfloop ls idx parent [[parent]])
  end.

Inductive sres := SRule (p : prod) | SSkip | SError.
(** grammar.py:57-96, one iteration.  A node whose only descendants are empty
    nodes leads to an IndexError at line 81 before the ValueError for the empty
    node is raised; both are [SError] here. *)
Definition production (frontiers : bool) (sent : list (option pystr)) (st : tree pystr nat) : sres :=
  match st with
  | Leaf _ => SSkip                               (* not among subtrees() *)
  | Node _ [] => SError                           (* 57-60 *)
  | Node label ((Leaf a :: r) as ts) =>          (* 62 *)
    match r, nth_error sent a with
    | [], Some (Some w) => SRule (Lexical label (escape (Some w)))       (* 63-64 *)
    | _, _ => if frontiers then SRule (Frontier label) else SSkip        (* 65-68 *)
    end
  | Node label ts =>
    if forallb is_node ts then                    (* 74 *)
      match yieldfunction ts with
      | Some yf => SRule (Phrasal label (map (fun c => match c with Node l _ => l | Leaf _ => [] end) ts) yf)
      | None => SError
      end
    else SError                                   (* 93-95 *)
  end.
Fixpoint collect (rs : list sres) : pres :=
  match rs with
  | [] => PRules []
  | r :: rest =>
    match r with
    | SError => PError
    | SSkip => collect rest
    | SRule p => match collect rest with PRules ps => PRules (p :: ps) | PError => PError end
    end
  end.
Fixpoint nodupb (l : list nat) : bool :=
  match l with [] => true | x :: r => negb (existsb (Nat.eqb x) r) && nodupb r end.
(** grammar.py:24-97.  Terminals are natural numbers; that they are integers
    (line 49) and not negative (line 52) is part of the type. *)
Definition lcfrsproductions (t : tree pystr nat) (sent : list (option pystr)) (frontiers : bool) : pres :=
  let ls := leaves t in
  if negb (nodupb ls) then PError                                        (* 43-45 *)
  else match sent with
  | [] => PError                                                            (* 46-48 *)
  | _ => if negb (forallb (fun a => a <? length sent) ls) then PError       (* 52-54 *)
         else collect (map (production frontiers sent) (subtrees (fun _ => true) t))
  end.
