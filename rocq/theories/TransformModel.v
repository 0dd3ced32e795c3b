(** Model of discodop/treetransforms.py: introducepreterminals, removeterminals,
    canonicalize, addfanoutmarkers, removefanoutmarkers, contsets,
    splitdiscnodes, mergediscnodes; and of tree.py:isdisc.

    As in BinarizeModel, in-place modification of trees is modelled by functions
    from trees to trees; the traversals visit each node object once. *)
From Coq Require Import String.
From Coq Require Import List Bool Arith NArith Lia.
From Verif Require Import PyStr TreeModel BracketModel BinarizeModel.
Import ListNotations.
Open Scope list_scope.

(** ---- treetransforms.py:341-369 introducepreterminals ---- *)
(** [word i] is (sent[i] or ''), or the value drawn from the iterator [ids] for
    terminal i *)
Fixpoint introducepreterminals (word : nat -> pystr) (t : tree pystr nat) : tree pystr nat :=
  match t with
  | Leaf a => Leaf a
  | Node l ts =>
    let hassiblings := 1 <? length ts in
    Node l (map (fun c => match c with
                          | Leaf a => if hassiblings then Node (l ++ str "/" ++ word a) [Leaf a] else Leaf a
                          | Node _ _ => introducepreterminals word c
                          end) ts)
  end.

(** ---- treetransforms.py:633-668 removeterminals ---- *)
(** The deletions, for trees in which every terminal has its own preterminal:
    652-654 skips empty children (they stay), 656 recurses, 657-662 deletes a
    preterminal and then the ancestors that became empty, except the root.
    [sel i l] is func(sent[i], node) for the preterminal node with label l. *)
Section Remove.
Context {L : Type}.
Variable sel : nat -> L -> bool.
Fixpoint prune (t : tree L nat) : tree L nat :=
  match t with
  | Leaf a => Leaf a
  | Node l ts =>
    Node l (flat_map (fun c =>
      match c with
      | Leaf a => [Leaf a]
      | Node m us =>
        match us with
        | [] => [c]
        | Leaf a :: _ => if sel a m then [] else [c]
        | Node _ _ :: _ => match prune c with Node _ [] => [] | c' => [c'] end
        end
      end) ts)
  end.
(** the preterminals that are kept: {index: node} *)
Fixpoint keptindices (t : tree L nat) : list nat :=
  match t with
  | Leaf _ => []
  | Node l ts => flat_map (fun c =>
      match c with
      | Leaf _ => []
      | Node m us => match us with
                     | [] => []
                     | Leaf a :: _ => if sel a m then [] else [a]
                     | Node _ _ :: _ => keptindices c
                     end
      end) ts
  end.
End Remove.
(** sorted() on a list of numbers / with a key: a stable sort *)
Section Sort.
Context {T : Type}.
Variable le : T -> T -> bool.
Fixpoint insert (x : T) (l : list T) : list T :=
  match l with [] => [x] | y :: r => if le x y then x :: l else y :: insert x r end.
Fixpoint sort (l : list T) : list T := match l with [] => [] | x :: r => insert x (sort r) end.
End Sort.
(** newindices = {a: n for n, a in enumerate(oldindices)} *)
Fixpoint index_of (a : nat) (l : list nat) : nat :=
  match l with [] => 0 | b :: r => if a =? b then 0 else S (index_of a r) end.
(** 665-667: node[0] = newindices[a] for the kept preterminals *)
Fixpoint renumber {L} (f : nat -> nat) (t : tree L nat) : tree L nat :=
  match t with
  | Leaf a => Leaf a
  | Node l ts => match ts with
                 | Leaf a :: r => Node l (Leaf (f a) :: r)
                 | _ => Node l (map (renumber f) ts)
                 end
  end.
Definition removeterminals {L W} (func : W -> L -> bool) (d : W) (t : tree L nat) (sent : list W) : tree L nat * list W :=
  let sel := fun i l => func (nth i sent d) l in
  let oldindices := sort Nat.leb (keptindices sel t) in
  (renumber (fun a => index_of a oldindices) (prune sel t), map (fun a => nth a sent d) oldindices).

(** ---- treetransforms.py:688-693 canonicalize ---- *)
(** Simplification: at a node with a constituent as first child and a terminal
    further on, Python raises AttributeError (an int has no leaves()); the model
    sorts such children too. *)
(** Python's comparison of lists *)
Fixpoint lex_le (a b : list nat) : bool :=
  match a, b with
  | [], _ => true
  | _ :: _, [] => false
  | x :: a', y :: b' => if x =? y then lex_le a' b' else x <? y
  end.
Definition leaves_le {L} (s t : tree L nat) : bool := lex_le (leaves s) (leaves t).
Fixpoint canonicalize {L} (t : tree L nat) : tree L nat :=
  match t with
  | Leaf a => Leaf a
  | Node l ts =>
    let us := map canonicalize ts in
    Node l (if (1 <? length us) && (match us with u :: _ => is_node u | [] => false end)
            then sort leaves_le us else us)
  end.

(** ---- treetransforms.py:613-630 fan-out markers ---- *)
Fixpoint dedup (l : list nat) : list nat :=
  match l with [] => [] | x :: r => if existsb (Nat.eqb x) r then dedup r else x :: dedup r end.
Definition fanout_of (ls : list nat) : nat :=
  length (filter (fun a => match a with O => true | S p => negb (existsb (Nat.eqb p) ls) end) (sort Nat.leb (dedup ls))).
Definition endswith (s p : pystr) : bool := startswith (rev s) (rev p).
Fixpoint addfanoutmarkers (t : tree pystr nat) : tree pystr nat :=
  match t with
  | Leaf a => Leaf a
  | Node l ts =>
    let f := fanout_of (leaves t) in
    let mark := str "_" ++ dec f in
    Node (if (1 <? f) && negb (endswith l mark) then l ++ mark else l) (map addfanoutmarkers ts)
  end.
(** s.rsplit('_', 1)[0] *)
Definition rsplit1 (s : pystr) : pystr :=
  match snd (span (fun c => negb (N.eqb c 95)) (rev s)) with
  | [] => s
  | _ :: r => rev r
  end.
Fixpoint removefanoutmarkers (t : tree pystr nat) : tree pystr nat :=
  match t with
  | Leaf a => Leaf a
  | Node l ts => Node (if contains l (str "_") then rsplit1 l else l) (map removefanoutmarkers ts)
  end.

(** ---- tree.py:1955-1973 isdisc (for a mutable tree) ---- *)
Fixpoint gap (prev : nat) (l : list nat) : bool :=
  match l with [] => false | a :: r => if a =? prev + 1 then gap a r else true end.
Definition isdisc {L} (t : tree L nat) : bool :=
  match t with
  | Leaf _ => false
  | Node _ _ => match sort Nat.leb (leaves t) with [] => false | a :: r => gap a r end
  end.

(** ---- treetransforms.py:907-927 contsets ---- *)
(** mins: {min(leaves): node}; a later node with the same minimum overrides *)
Definition minleaf {L} (t : tree L nat) : nat :=
  match leaves t with [] => 0 | x :: r => fold_left min r x end.
Fixpoint mins_get {L} (a : nat) (nodes : list (tree L nat)) (cur : option (tree L nat)) : option (tree L nat) :=
  match nodes with [] => cur | t :: r => mins_get a r (if minleaf t =? a then Some t else cur) end.
(** rng = -1 is None *)
Fixpoint contloop {L} (nodes : list (tree L nat)) (ls : list nat) (rng : option nat) (subset : list (tree L nat)) : list (list (tree L nat)) :=
  match ls with
  | [] => match subset with [] => [] | _ => [subset] end
  | a :: r =>
    let '(out, subset1) := match rng with
                           | Some p => if a =? p + 1 then ([], subset) else ([subset], [])
                           | None => ([], subset)
                           end in
    let subset2 := match mins_get a nodes None with Some t => subset1 ++ [t] | None => subset1 end in
    out ++ contloop nodes r (Some a) subset2
  end.
Definition contsets {L} (nodes : list (tree L nat)) : list (list (tree L nat)) :=
  contloop nodes (sort Nat.leb (flat_map leaves nodes)) None [].

(** ---- treetransforms.py:479-517 splitdiscnodes ---- *)
(** 508-514: the parts of a discontinuous child.  Line 512 looks for a head among
    the children of [child], after line 504 has removed them all. *)
Definition partlabel (markorigin : bool) (l : pystr) (n : nat) : pystr :=
  if markorigin then l ++ str "*" ++ dec n else l ++ str "*".
Fixpoint parts_from (markorigin : bool) (l : nlabel) (n : nat) (sets : list (list btree)) : list btree :=
  match sets with
  | [] => []
  | s :: r => Node (partlabel markorigin (fst l) n, snd l && existsb ishead []) s :: parts_from markorigin l (n + 1) r
  end.
Definition splitchild (markorigin : bool) (c : btree) : list btree :=
  match c with
  | Leaf _ => [c]
  | Node l ts => if isdisc c then parts_from markorigin l 0 (contsets ts) else [c]
  end.
Fixpoint splitnodes (markorigin : bool) (t : btree) : btree :=
  match t with
  | Leaf a => Leaf a
  | Node l ts => Node l (flat_map (fun c => splitchild markorigin (splitnodes markorigin c)) ts)
  end.
Definition splitdiscnodes (markorigin : bool) (t : btree) : btree := canonicalize (splitnodes markorigin t).

(** ---- treetransforms.py:28, 520-552 mergediscnodes ---- *)
(** SPLITLABELRE.search(label) and the groups 1 and 2, for labels without
    newlines.  The text after the star is empty, or starts with digits after
    which there may be text with one exclamation mark inside. *)
Definition noexcl (c : char) : bool := negb (N.eqb c 33).
Definition tail_ok (s : pystr) : bool :=
  match s with
  | [] => true
  | _ => let '(a, r) := span noexcl s in
         match a, r with
         | _ :: _, _ :: r' => match r' with [] => false | _ => forallb noexcl r' end
         | _, _ => false
         end
  end.
(** the digits, as many as possible *)
Fixpoint digits_upto (k : nat) (s : pystr) : option pystr :=
  match k with
  | O => None
  | S j => if forallb isdigit (firstn k s) && (k <=? length s) && tail_ok (skipn k s) then Some (firstn k s) else digits_upto j s
  end.
(** None: no match; Some None: no digits *)
Definition rest_ok (s : pystr) : option (option pystr) :=
  match s with [] => Some None | _ => option_map Some (digits_upto (length s) s) end.
(** the last possible star: [pre] is the reversed text before *)
Fixpoint splitlabel (rpre rest_rev : pystr) : option (pystr * option pystr) :=
  match rpre with
  | [] => None
  | c :: r =>
    if N.eqb c 42 then
      match rest_ok rest_rev with
      | Some part => Some (rev r, part)
      | None => splitlabel r (c :: rest_rev)
      end
    else splitlabel r (c :: rest_rev)
  end.
Definition SPLITLABELRE (l : pystr) : option (pystr * option pystr) := splitlabel (rev l) [].

(** the new children of a node, and for each label the queue of (indices of)
    nodes waiting for the part with that label *)
Definition queues := list (pystr * list nat).
Fixpoint qget (q : queues) (l : pystr) : list nat :=
  match q with [] => [] | (k, v) :: r => if eqs k l then v else qget r l end.
Definition qset (q : queues) (l : pystr) (v : list nat) : queues := (l, v) :: q.
Fixpoint update_nth {T} (i : nat) (f : T -> T) (l : list T) : list T :=
  match l with [] => [] | x :: r => match i with O => f x :: r | S j => x :: update_nth j f r end end.
Definition extend (h : bool) (gc : list btree) (t : btree) : btree :=
  match t with Node (l, h0) ts => Node (l, h0 || h) (ts ++ gc) | Leaf a => Leaf a end.
Definition mergestep (st : list btree * queues) (child : btree) : list btree * queues :=
  let '(new, q) := st in
  match child with
  | Leaf _ => (new ++ [child], q)
  | Node (lab, h) gc =>
    match SPLITLABELRE lab with
    | None => (new ++ [child], q)
    | Some (label, part) =>
      let '(new1, q1) := match qget q lab with
                         | [] => (new ++ [Node (label, false) []], qset q lab [length new])
                         | _ => (new, q)
                         end in
      let i := hd 0 (qget q1 lab) in
      let new2 := update_nth i (extend h gc) new1 in
      match part with
      | None => (new2, q1)
      | Some ds =>
        let n := match undec ds with Some n => n | None => 0 end in
        let nextlabel := label ++ str "*" ++ dec (n + 1) in
        let q2 := qset q1 lab (tl (qget q1 lab)) in
        (new2, qset q2 nextlabel (qget q2 nextlabel ++ [i]))
      end
    end
  end.
Definition mergechildren (ts : list btree) : list btree := fst (fold_left mergestep ts ([], [])).
(** tree.subtrees(): the node is processed, then its new children *)
Fixpoint mergenodes (fuel : nat) (t : btree) : btree :=
  match fuel, t with
  | S f, Node l ts => Node l (map (mergenodes f) (mergechildren ts))
  | _, _ => t
  end.
Definition mergediscnodes (t : btree) : btree := mergenodes (size t) t.
