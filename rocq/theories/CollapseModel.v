(** Model of discodop/treebanktransforms.py:20 LABELRE and 1356-1400
    collapselabels: coarser labels for coarse-to-fine parsing.

    Simplifications: str.isalpha is a parameter; the mapping argument is a list of
    coarse labels with their fine labels, in the order of the dictionary; trees are
    modified in place, here they are returned; the two entries of the resulting
    mapping that are not from nodes come first. *)
From Coq Require Import String.
From Coq Require Import List Bool Arith NArith.
From Verif Require Import PyStr TreeModel FuncModel.
Import ListNotations.
Open Scope list_scope.

Notation ltree := (tree pystr nat).
(** line 20: the characters that are not part of a name *)
Definition separator (c : N) : bool := existsb (N.eqb c) (str "^|<>,;:_-").
(** LABELRE.sub(f, label): every longest run of other characters is replaced *)
Definition replaced (f : pystr -> pystr) (run : pystr) : pystr := match run with [] => [] | _ => f run end.
Fixpoint labelsub (f : pystr -> pystr) (run s : pystr) : pystr :=
  match s with
  | [] => replaced f run
  | c :: r => if separator c then replaced f run ++ c :: labelsub f [] r else labelsub f (run ++ [c]) r
  end.

(** isinstance(node[0], Tree) *)
Definition isphrase (ts : list ltree) : bool := match ts with Node _ _ :: _ => true | _ => false end.
(** 1391: not isinstance(n[0], Tree) raises IndexError for a node without children *)
Fixpoint anyempty (t : ltree) : bool :=
  match t with Leaf _ => false | Node _ ts => (match ts with [] => true | _ => false end) || existsb anyempty ts end.
(** 1390-1393: the labels of all preterminals *)
Fixpoint poslabels (t : ltree) : list pystr :=
  match t with Leaf _ => [] | Node l ts => (if isphrase ts then [] else [l]) ++ flat_map poslabels ts end.
Definition mems (l : pystr) (ls : list pystr) : bool := existsb (eqs l) ls.
(** 1384-1385, 1393 and revmapping.get(x, ''): part-of-speech tags come last, and
    later coarse labels replace earlier ones *)
Definition revmapping (tbmapping : list (pystr * list pystr)) (pos : list pystr) (fine : pystr) : pystr :=
  if mems fine pos then fine
  else fold_left (fun r c => if mems fine (snd c) then fst c else r) tbmapping [].
(** 1375-1378: sub, replace('-', ''), rstrip('^') *)
Definition collapsed (rev : pystr -> pystr) (l : pystr) : pystr :=
  rstripw (N.eqb 94) (filter (fun c => negb (N.eqb c HYPHEN)) (labelsub rev [] l)).
Section Collapse.
(** str.isalpha of a character *)
Variable alpha : N -> bool.
(** 1379-1380, the assertion *)
Definition acceptable (l : pystr) : bool := match l with [] => false | c :: _ => alpha c end.
Fixpoint all (l : list (option ltree)) : option (list ltree) :=
  match l with
  | [] => Some []
  | Some x :: r => match all r with Some r' => Some (x :: r') | None => None end
  | None :: _ => None
  end.
(** 1369-1381 for a node below the root *)
Fixpoint collapse (rev : pystr -> pystr) (t : ltree) : option ltree :=
  match t with
  | Leaf a => Some (Leaf a)
  | Node l ts =>
    match all (map (collapse rev) ts) with
    | None => None
    | Some us =>
      if isphrase ts
      then if acceptable (collapsed rev l) then Some (Node (collapsed rev l) us) else None
      else Some (Node l us)
    end
  end.
(** 1371: islice(tree.subtrees(), 1, None) *)
Definition collapsetree (rev : pystr -> pystr) (t : ltree) : option ltree :=
  match t with
  | Leaf a => Some (Leaf a)
  | Node l ts => match all (map (collapse rev) ts) with Some us => Some (Node l us) | None => None end
  end.
(** the labels of phrases below the root *)
Fixpoint phraselabels (t : ltree) : list pystr :=
  match t with Leaf _ => [] | Node l ts => (if isphrase ts then [l] else []) ++ flat_map phraselabels ts end.
Definition innerlabels (t : ltree) : list pystr := match t with Leaf _ => [] | Node _ ts => flat_map phraselabels ts end.
Definition rootlabel (t : ltree) : pystr := match t with Node l _ => l | Leaf _ => [] end.
(** a dictionary as its assignments, in order: the last one counts *)
Definition lookup (d : list (pystr * pystr)) (l : pystr) : option pystr :=
  fold_left (fun r kv => if eqs l (fst kv) then Some (snd kv) else r) d None.
(** 1384-1400; None: an exception *)
Definition collapselabels (tbmapping : list (pystr * list pystr)) (trees : list ltree) : option (list ltree * list (pystr * pystr)) :=
  match trees with
  | [] => None
  | t0 :: _ =>
    if existsb anyempty trees then None
    else
      let pos := flat_map poslabels trees in
      let rev := revmapping tbmapping pos in
      match all (map (collapsetree rev) trees) with
      | None => None
      | Some trees' =>
        Some (trees', (str "Epsilon", str "Epsilon") :: (rootlabel t0, rootlabel t0)
                      :: map (fun l => (l, l)) pos ++ map (fun l => (l, collapsed rev l)) (flat_map innerlabels trees))
      end
  end.
End Collapse.
