(** Model of discodop/treetransforms.py:29 MARKOVRE and 453-479 markovthreshold:
    reducing the Markov order of rare labels.  Trees are those of BinarizeModel.

    Simplifications: labels have no newlines (which '.' does not match); [horz] and
    [vert] are not negative; the message that is returned is left out; trees are
    modified in place, here they are returned. *)
From Coq Require Import String.
From Coq Require Import List Bool Arith NArith.
From Verif Require Import PyStr TreeModel BinarizeModel HeadModel.
Import ListNotations.
Open Scope list_scope.

(** ** The regular expression: '.*' takes as much as possible and gives back one
    character at a time until the rest, [k], matches *)
Fixpoint greedy {R} (k : pystr -> pystr -> option R) (s : pystr) : option R :=
  match s with
  | [] => k [] []
  | c :: r => match greedy (fun p q => k (c :: p) q) r with Some x => Some x | None => k [] s end
  end.
(** a literal *)
Fixpoint lit (p s : pystr) : option pystr :=
  match p, s with
  | [], _ => Some s
  | x :: p', y :: s' => if N.eqb x y then lit p' s' else None
  | _ :: _, [] => None
  end.
(** groups 1-5; None: a group that did not take part in the match *)
Record groups := mkG { g1 : pystr; g2 : option pystr; g3 : pystr; g4 : option pystr; g5 : pystr }.
(** line 29: any text, \|<, optionally text and a semicolon, text, >, optionally
    \^<, text and >, any text; all are greedy, so that the last group takes what is left *)
Definition re_parent (a : pystr) (b : option pystr) (c r : pystr) : option groups :=
  match lit (str "^<") r with
  | None => None
  | Some r' => greedy (fun d r => match lit (str ">") r with None => None | Some r => Some (mkG a b c (Some (str "^<" ++ d ++ str ">")) r) end) r'
  end.
Definition re_siblings (a : pystr) (b : option pystr) : pystr -> option groups :=
  greedy (fun c r =>
    match lit (str ">") r with
    | None => None
    | Some r => match re_parent a b c r with Some g => Some g | None => Some (mkG a b c None r) end
    end).
Definition re_first (a r : pystr) : option groups :=
  match greedy (fun b r => match lit (str ";") r with None => None | Some r => re_siblings a (Some (b ++ str ";")) r end) r with
  | Some g => Some g
  | None => re_siblings a None r
  end.
Definition MARKOVRE (label : pystr) : option groups :=
  greedy (fun a r => match lit (str "|<") r with None => None | Some r => re_first a r end) label.

(** ** 462-473 *)
Definition newlabel (horz vert : nat) (g : groups) : pystr :=
  g1 g ++ str "|<" ++ match g2 g with Some b => b | None => [] end ++ BracketModel.join (str ",") (firstn horz (splitc 44 (g3 g))) ++ str ",>"
  ++ match g4 g with
     | Some d => match d with [] => [] | _ => str "^<" ++ BracketModel.join (str ",") (firstn vert (splitc 44 d)) ++ str ">" end
     | None => []
     end
  ++ g5 g.
(** 455-457: the labels of all nodes of all trees *)
Fixpoint labelsof (t : btree) : list pystr :=
  match t with Leaf _ => [] | Node (l, _) ts => l :: flat_map labelsof ts end.
Definition count (l : pystr) (ls : list pystr) : nat := length (filter (eqs l) ls).
(** 475-477 *)
Fixpoint relabel (f : pystr -> pystr) (t : btree) : btree :=
  match t with Leaf a => Leaf a | Node (l, h) ts => Node (f l, h) (map (relabel f) ts) end.
(** newlabels.get(label, label): 458-473; the frequency is that before any change *)
Definition reduced (ls : list pystr) (n horz vert : nat) (l : pystr) : pystr :=
  match MARKOVRE l with
  | Some g => if count l ls <? n then newlabel horz vert g else l
  | None => l
  end.
(** 453-479 *)
Definition markovthreshold (trees : list btree) (n horz vert : nat) : list btree :=
  map (relabel (reduced (flat_map labelsof trees) n horz vert)) trees.
