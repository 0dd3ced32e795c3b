(** Model of discodop/punctuation.py.

    Trees have terminals that are indices in the sentence.  Nodes are objects in
    the code; here a preterminal is identified by its terminal (no terminal
    occurs twice), and an operation gives the tree afterwards. *)
From Coq Require Import String.
From Coq Require Import List Bool Arith NArith Lia.
From Verif Require Import PyStr TreeModel BracketModel BinarizeModel TransformModel.
Import ListNotations.
Open Scope list_scope.
Open Scope nat_scope.

(** ---- punctuation.py:7-31 the tables ---- *)
Definition dq : pystr := [34%N].
Definition PUNCTTAGS : list pystr :=
  [str "."; str ","; str ":"; str "'"; str "''"; str "`"; str "``"; dq; str "-LRB-"; str "-RRB-"; str "-LSB-"; str "-RSB-"; str "-LCB-"; str "-RCB-";
   str "$,"; str "$."; str "$["; str "$("; str "let"; str "LET[]"; str "SPEC[symb]"; str "TW[hoofd,vrij]"; str "PONCT"; str "PUNCT"; str "COMMA"; str "PAREN"].
Definition PUNCTUATION : list pystr :=
  map (fun c => [c]) (str ".,():-" ++ dq ++ str ";?/!*&`[]<>{}|=" ++ [194; 171; 194; 187; 183; 173; 92]%N) ++
  [str "&bullet;"; str ".."; str "..."; str "...."; str "....."; str "......"; str "!!"; str "!!!"; str "??"; str "???"; str "''"; str "``"; str ",,";
   str "--"; str "---"; str "----"; str "-LRB-"; str "-RRB-"; str "-LCB-"; str "-RCB-"; str "-LSB-"; str "-RSB-"; str "#LRB#"; str "#RRB#"].
Definition PRUNEPUNCT : list pystr := [str "``"; str "''"; dq; str "."].
Definition BALANCEDPUNCTMATCH : list (pystr * pystr) :=
  [(dq, dq); (str "'", str "'"); (str "``", str "''"); (str "[", str "]"); (str "(", str ")"); (str "-LRB-", str "-RRB-"); (str "-LSB-", str "-RSB-");
   (str "-", str "-"); ([194; 171]%N, [194; 187]%N)].
Definition mem (w : pystr) (l : list pystr) : bool := existsb (eqs w) l.
(** a word, or None (a pruned word, or a frontier) *)
Definition word := option pystr.
Definition memw (w : word) (l : list pystr) : bool := match w with Some w => mem w l | None => false end.
(** 196-198 ispunct *)
Definition ispunct (w : word) (tag : pystr) : bool := mem tag PUNCTTAGS || memw w PUNCTUATION.
Definition wordof (sent : list word) (i : nat) : word := nth i sent None.

Notation ptr := (tree pystr nat).
Definition kids (t : ptr) : list ptr := match t with Node _ ts => ts | Leaf _ => [] end.

(** ---- 54-61 punctremove ---- *)
(** `node in preterms` compares label and terminal *)
Definition rootpre (t : ptr) (i : nat) (l : pystr) : bool :=
  existsb (fun c => match c with Node m (Leaf a :: _) => eqs l m && (i =? a) | _ => false end) (kids t).
Definition punctremove (t : ptr) (sent : list word) (rootpreterms : bool) : ptr * list word :=
  if rootpreterms then
    let oldindices := sort Nat.leb (keptindices (rootpre t) t) in
    (renumber (fun a => TransformModel.index_of a oldindices) (prune (rootpre t) t), map (wordof sent) oldindices)
  else removeterminals ispunct None t sent.

(** ---- 64-79 punctprune ---- *)
(** 66-69 *)
Fixpoint prunefront (sent : list word) : list word :=
  match sent with [] => [] | w :: r => if memw w PRUNEPUNCT then None :: prunefront r else sent end.
(** 70-73: i counts down; i + 1 is given, the loop cannot get below the first
    word because it was tested before.  None: IndexError (an empty sentence) *)
Fixpoint setnone (sent : list word) (i : nat) : list word :=
  match sent, i with [], _ => [] | _ :: r, O => None :: r | w :: r, S j => w :: setnone r j end.
Fixpoint pruneback (sent : list word) (i1 : nat) : option (list word) :=
  match i1 with
  | O => match sent with [] => None | _ => Some sent end   (* sent[-1] is the last word, which is None or not in PRUNEPUNCT *)
  | S i => if memw (wordof sent i) PRUNEPUNCT then pruneback (setnone sent i) i else Some sent
  end.
Definition punctprune (t : ptr) (sent : list word) : option (ptr * list word) :=
  let sent1 := prunefront sent in
  match pruneback sent1 (length sent1) with
  | None => None
  | Some sent2 => Some (removeterminals (fun w _ => match w with None => true | Some _ => false end) None t sent2)
  end.

(** ---- 82-94 punctroot ---- *)
(** del tree[p] *)
Fixpoint delpos (t : ptr) (p : list nat) : ptr :=
  match t, p with
  | Node l ts, [i] => Node l (firstn i ts ++ skipn (S i) ts)
  | Node l ts, i :: q => Node l (firstn i ts ++ match nth_error ts i with Some c => [delpos c q] | None => [] end ++ skipn (S i) ts)
  | _, _ => t
  end.
(** 90-93: a[:-n] for n = 1, ..., len(a) - 1; stops when the parent is not empty *)
Fixpoint delup (t : ptr) (p : list nat) (n : nat) : ptr :=
  match n with
  | O => t
  | S k =>
    let t' := delpos t p in
    match getpos t' (removelast p) with
    | Some (Node _ []) => delup t' (removelast p) k
    | _ => t'
    end
  end.
Definition rootstep (sent : list word) (st : ptr * list ptr) (a : list nat) : ptr * list ptr :=
  let '(t, punct) := st in
  match getpos t a, getpos t (removelast a) with
  | Some (Leaf i), Some (Node l ts) =>
    if ispunct (wordof sent i) l then (delup t (removelast a) (length a - 1), punct ++ [Node l ts]) else st
  | _, _ => st
  end.
Definition punctroot (t : ptr) (sent : list word) : ptr :=
  match fold_left (rootstep sent) (rev (treepositions LeavesOrder t)) (t, []) with
  | (Node l ts, punct) => Node l (ts ++ punct)
  | (Leaf a, _) => Leaf a
  end.

(** ---- 121-155 punctraise ---- *)
Definition phrasal (t : ptr) : bool := match t with Node _ (Node _ _ :: _) => true | _ => false end.
(** node[0] + 1 == min(a.leaves()) *)
Definition minleaf (t : ptr) : nat := fold_right Nat.min (hd 0 (leaves t)) (leaves t).
Definition startsat (i : nat) (t : ptr) : bool := i =? minleaf t.
(** 147-153: the first node in the order of subtrees() (pre-order) gets the
    node as last child; None: no such node *)
Fixpoint attach (i : nat) (node : ptr) (t : ptr) : option ptr :=
  match t with
  | Leaf _ => None
  | Node l ts =>
    if phrasal t && existsb (startsat (i + 1)) ts then Some (Node l (ts ++ [node]))
    else option_map (Node l) ((fix go (ts : list ptr) : option (list ptr) :=
      match ts with
      | [] => None
      | c :: r => match attach i node c with Some c' => Some (c' :: r) | None => option_map (cons c) (go r) end
      end) ts)
  end.
Definition preof (i : nat) (t : ptr) : bool := match t with Node _ (Leaf a :: _) => a =? i | _ => false end.
Fixpoint dropfirst (f : ptr -> bool) (ts : list ptr) : list ptr :=
  match ts with [] => [] | c :: r => if f c then r else c :: dropfirst f r end.
(** 140-155: a node of punct is a child of the root, so that 142-143 only asks
    whether it is the only one *)
Definition raisestep (t : ptr) (node : ptr) : ptr :=
  match t, node with
  | Node l ts, Node _ (Leaf i :: _) =>
    if length ts =? 1 then t
    else let t1 := Node l (dropfirst (preof i) ts) in
      match attach i node t1 with Some t2 => t2 | None => Node l (kids t1 ++ [node]) end
  | _, _ => t
  end.
(** 136-137; punct.pop() takes the last *)
Definition raised (sent : list word) (rootpreterms : bool) (t : ptr) : list ptr :=
  filter (fun c => match c with Node l (Leaf i :: _) => rootpreterms || ispunct (wordof sent i) l | _ => false end) (kids t).
Definition punctraise (t : ptr) (sent : list word) (rootpreterms : bool) : ptr :=
  fold_left raisestep (rev (raised sent rootpreterms t)) t.

(** ---- 158-193 balancedpunctraise ---- *)
(** 166-167 termparent: the punctuation terminals with their tags; 168 sorted *)
Definition termparent (sent : list word) (t : ptr) : list (nat * pystr) :=
  flat_map (fun n => match n with Node l (Leaf i :: _) => if ispunct (wordof sent i) l then [(i, l)] else [] | _ => [] end) (subtrees (fun _ => true) t).
(** the parent of the preterminal of a terminal *)
Definition parentof (i : nat) (t : ptr) : option ptr := find (fun n => existsb (preof i) (kids n)) (subtrees (fun _ => true) t).
(** apply f to the children of that parent *)
Fixpoint atparent (i : nat) (f : list ptr -> list ptr) (t : ptr) : ptr :=
  match t with
  | Leaf a => Leaf a
  | Node l ts => if existsb (preof i) ts then Node l (f ts) else Node l (map (atparent i f) ts)
  end.
Definition maxleaf (t : ptr) : nat := fold_right Nat.max 0 (leaves t).
(** 186-188: the old parent and its ancestors are deleted when empty, except the
    root.  Simplification: all empty nodes below the root are (there are no
    others). *)
Fixpoint dropempty (t : ptr) : ptr :=
  match t with
  | Leaf a => Leaf a
  | Node l ts => Node l (filter (fun c => match c with Node _ [] => false | _ => true end) (map dropempty ts))
  end.
Definition balancestep (sent : list word) (st : ptr * list (pystr * nat)) (it : nat * pystr) : ptr * list (pystr * nat) :=
  let '(t, punctmap) := st in
  let '(terminal, tag) := it in
  match wordof sent terminal with
  | None => st
  | Some w =>
    match find (fun e => eqs (fst e) w) punctmap with
    | Some (_, lft) =>
      if mem tag PUNCTTAGS then
        let right := terminal in
        let t' :=
          match parentof lft t, parentof right t with
          | Some leftparent, Some rightparent =>
            if maxleaf leftparent =? right - 1 then                                          (* 177 *)
              match find (preof right) (kids rightparent) with
              | Some c => dropempty (atparent lft (fun ts => ts ++ [c]) (atparent right (dropfirst (preof right)) t))
              | None => t
              end
            else if minleaf rightparent =? lft + 1 then                                     (* 180 *)
              match find (preof lft) (kids leftparent) with
              | Some c => dropempty (atparent right (cons c) (atparent lft (dropfirst (preof lft)) t))
              | None => t
              end
            else t
          | _, _ => t
          end in
        (t', filter (fun e => negb (eqs (fst e) w)) punctmap)                                (* 189-190 *)
      else st
    | None =>
      match find (fun e => eqs (fst e) w) BALANCEDPUNCTMATCH with
      | Some (_, r) => if mem tag PUNCTTAGS then (t, (r, terminal) :: filter (fun e => negb (eqs (fst e) r)) punctmap) else st
      | None => st
      end
    end
  end.
Definition balancedpunctraise (t : ptr) (sent : list word) : ptr :=
  fst (fold_left (balancestep sent) (sort (fun a b => fst a <=? fst b) (termparent sent t)) (t, [])).

(** ---- 34-51 applypunct ---- *)
Inductive method := Remove | RemoveAll | Move | MoveAll | Prune | Root.
Definition move (t : ptr) (sent : list word) (all : bool) : ptr := canonicalize (balancedpunctraise (punctraise t sent all) sent).
Definition applypunct (m : method) (t : ptr) (sent : list word) : option (ptr * list word) :=
  match m with
  | Remove => Some (punctremove t sent false)
  | RemoveAll => Some (punctremove t sent true)
  | Move => Some (move t sent false, sent)
  | MoveAll => Some (move t sent true, sent)
  | Prune => match punctprune t sent with Some (t', sent') => Some (move t' sent' false, sent') | None => None end
  | Root => Some (punctroot t sent, sent)
  end.

(** ---- 97-118 punctlower ---- *)
(** 107: enumerate(sorted(candidate)): the position in the sorted order is used
    as position in candidate.  110 a preterminal (or empty node) is skipped.
    The first child with num < min or num < max of its terminals decides; when
    there is none the node is lost. *)
Fixpoint lower (fuel : nat) (num : nat) (node : ptr) (candidate : ptr) : ptr :=
  match fuel, candidate with
  | S f, Node l ts =>
    (fix go (i : nat) (cs : list ptr) : ptr :=
       match cs with
       | [] => candidate
       | c :: r =>
         if phrasal c then
           if num <? minleaf c then Node l (firstn (i + 1) ts ++ node :: skipn (i + 1) ts)
           else if num <? maxleaf c then Node l (map (fun d => if tree_eqb eqs Nat.eqb d c then lower f num node d else d) ts)
           else go (S i) r
         else go (S i) r
       end) 0 (sort leaves_le ts)
  | _, _ => candidate
  end.
Definition lowerstep (sent : list word) (o : option ptr) (a : list nat) : option ptr :=
  match o with
  | None => None
  | Some t =>
    match getpos t a, getpos t (removelast a) with
    | Some (Leaf i), Some (Node l ts) =>
      if ispunct (wordof sent i) l then
        let t1 := delpos t (removelast a) in
        Some (lower (size t1) i (Node l ts) t1)
      else Some t
    | _, _ => None     (* IndexError: the positions were computed beforehand *)
    end
  end.
Definition punctlower (t : ptr) (sent : list word) : option ptr := fold_left (lowerstep sent) (treepositions LeavesOrder t) (Some t).
