(** Model of discodop/treedist.py: tree edit distance by Zhang & Shasha (treedist)
    and by recursion on forests (newtreedist). *)
From Coq Require Import List Bool Arith NArith Lia.
From Verif Require Import PyStr TreeModel TransformModel.
Import ListNotations.
Open Scope list_scope.
Open Scope nat_scope.

(** a prepared tree: a label and child nodes *)
Inductive ltree := T (l : pystr) (ts : list ltree).
Definition label (t : ltree) : pystr := match t with T l _ => l end.
Definition kids (t : ltree) : list ltree := match t with T _ ts => ts end.
Fixpoint tsize (t : ltree) : nat := match t with T _ ts => S (list_sum (map tsize ts)) end.
Definition fsize (f : list ltree) : nat := list_sum (map tsize f).

(** ---- treedist.py:71-90 prepare, with includeterms=False ----
    79-80 children are sorted by their first terminal.  The code sorts the
    children of a node before those of its descendants; as min(n.leaves()) does
    not depend on the order of the leaves, sorting bottom-up is the same. *)
Definition list_min (l : list nat) : nat := fold_right Nat.min (hd 0 l) l.
Definition minle (s t : tree pystr nat) : bool := list_min (leaves s) <=? list_min (leaves t).
Fixpoint sortmin (t : tree pystr nat) : tree pystr nat :=
  match t with
  | Leaf a => Leaf a
  | Node l ts => Node l (match ts with Node _ _ :: _ => sort minle (map sortmin ts) | _ => ts end)
  end.
(** 85-88 the terminal is merged with its preterminal.  Only trees in which each
    terminal is the only child of its parent and each other node has a child are
    modelled; for others the code raises an IndexError or uses wrong positions. *)
Fixpoint mergeterms (t : tree pystr nat) : option ltree :=
  match t with
  | Leaf _ => None
  | Node l [Leaf a] => Some (T (l ++ [45%N] ++ dec a) [])
  | Node l [] => None
  | Node l ts =>
    option_map (T l) ((fix go (ts : list (tree pystr nat)) : option (list ltree) :=
      match ts with
      | [] => Some []
      | c :: r => match mergeterms c, go r with Some c', Some r' => Some (c' :: r') | _, _ => None end
      end) ts)
  end.
Definition prepare (t : tree pystr nat) : option ltree := mergeterms (sortmin t).

(** ---- 94-133 AnnotatedTree ---- *)
(** 106-117 the first loop: the head of a list is the top of the stack; each node
    gets a number and the list of the numbers of its ancestors, the nearest first *)
Fixpoint annot1 (fuel : nat) (stack : list (ltree * list nat)) (j : nat) (pstack : list (ltree * nat * list nat)) : list (ltree * nat * list nat) :=
  match fuel with
  | O => pstack
  | S f =>
    match stack with
    | [] => pstack
    | (n, anc) :: st => annot1 f (rev (map (fun c => (c, j :: anc)) (kids n)) ++ st) (S j) ((n, j, anc) :: pstack)
    end
  end.
(** 125-130 the ancestors that have no leftmost descendant yet *)
Fixpoint setanc (anc : list nat) (i : nat) (d : nat -> option nat) : nat -> option nat :=
  match anc with
  | [] => d
  | a :: r => match d a with Some _ => d | None => setanc r i (fun k => if k =? a then Some i else d k) end
  end.
(** keyroots[lmd] = i *)
Fixpoint kput (k v : nat) (d : list (nat * nat)) : list (nat * nat) :=
  match d with [] => [(k, v)] | (k', v') :: r => if k' =? k then (k, v) :: r else (k', v') :: kput k v r end.
(** 118-132 the second loop; None: KeyError *)
Fixpoint annot2 (pstack : list (ltree * nat * list nat)) (i : nat) (d : nat -> option nat) (nodes : list ltree) (lmds : list nat) (kr : list (nat * nat)) : option (list ltree * list nat * list (nat * nat)) :=
  match pstack with
  | [] => Some (nodes, lmds, kr)
  | (n, id, anc) :: r =>
    match kids n with
    | [] => annot2 r (S i) (setanc anc i d) (nodes ++ [n]) (lmds ++ [i]) (kput i i kr)
    | _ => match d id with
           | Some lmd => annot2 r (S i) d (nodes ++ [n]) (lmds ++ [lmd]) (kput lmd i kr)
           | None => None
           end
    end
  end.
Record annotated := Ann { anodes : list ltree; almd : list nat; akeyroots : list nat }.
Definition annotate (t : ltree) : option annotated :=
  match annot2 (annot1 (tsize t) [(t, [])] 0 []) 0 (fun _ => None) [] [] [] with
  | Some (nodes, lmds, kr) => Some (Ann nodes lmds (sort Nat.leb (map snd kr)))
  | None => None
  end.

(** 136-138 *)
Definition strdist (a b : pystr) : nat := if eqs a b then 0 else 1.
Definition table := nat -> nat -> nat.
Definition tput (t : table) (x y v : nat) : table := fun x' y' => if (x' =? x) && (y' =? y) then v else t x' y'.
Section TreeDist.
Variables a1 a2 : annotated.
Definition lmd1 (i : nat) : nat := nth i (almd a1) 0.
Definition lmd2 (j : nat) : nat := nth j (almd a2) 0.
Definition label1 (i : nat) : pystr := label (nth i (anodes a1) (T [] [])).
Definition label2 (j : nat) : pystr := label (nth j (anodes a2) (T [] [])).
(** 165-195 one entry of the table for the key roots i and j.  x + ioff is
    lmd(i) + x - 1; tree1lmd[x + ioff] - 1 - ioff is lmd(x + ioff) - lmd(i). *)
Definition entry (i j x : nat) (s : table * table) (y : nat) : table * table :=
  let '(tab, td) := s in
  let xi := lmd1 i + x - 1 in
  let yj := lmd2 j + y - 1 in
  if (lmd1 i =? lmd1 xi) && (lmd2 j =? lmd2 yj) then
    let v := Nat.min (Nat.min (tab (x - 1) y + 1) (tab x (y - 1) + 1)) (tab (x - 1) (y - 1) + strdist (label1 xi) (label2 yj)) in
    (tput tab x y v, tput td xi yj v)
  else
    let a := lmd1 xi - lmd1 i in
    let b := lmd2 yj - lmd2 j in
    (tput tab x y (Nat.min (Nat.min (tab (x - 1) y + 1) (tab x (y - 1) + 1)) (tab a b + td xi yj)), td).
(** 152-195 one pair of key roots *)
Definition keypair (i : nat) (td : table) (j : nat) : table :=
  let m := i - lmd1 i + 2 in
  let n := j - lmd2 j + 2 in
  let tab := fold_left (fun t x => tput t x 0 (t (x - 1) 0 + 1)) (seq 1 (m - 1)) (fun _ _ => 0) in
  let tab := fold_left (fun t y => tput t 0 y (t 0 (y - 1) + 1)) (seq 1 (n - 1)) tab in
  snd (fold_left (fun s x => fold_left (entry i j x) (seq 1 (n - 1)) s) (seq 1 (m - 1)) (tab, td)).
Definition keyloop : table :=
  fold_left (fun td i => fold_left (keypair i) (akeyroots a2) td) (akeyroots a1) (fun _ _ => 0).
Definition lastdist : nat := keyloop (length (anodes a1) - 1) (length (anodes a2) - 1).
End TreeDist.
(** 141-207 treedist *)
Definition treedist (tree1 tree2 : tree pystr nat) : option nat :=
  match prepare tree1, prepare tree2 with
  | Some p1, Some p2 => match annotate p1, annotate p2 with Some a1, Some a2 => Some (lastdist a1 a2) | _, _ => None end
  | _, _ => None
  end.

(** ---- 211-310 newtreedist ---- *)
Inductive op := Del (t : ltree) | Ins (t : ltree) | Swap (t u : ltree).
(** 230-259 EditStats *)
Record stats := Stats { distance : nat; matched : nat; editscript : list op }.
Definition addstats (a b : stats) : stats := Stats (distance a + distance b) (matched a + matched b) (editscript a ++ editscript b).
(** min: the first of the smallest, 248 __lt__ *)
Definition minstats (a b : stats) : stats := if distance b <? distance a then b else a.
(** forest[:-1] and forest[-1] *)
Fixpoint splitlast (f : list ltree) : option (list ltree * ltree) :=
  match f with
  | [] => None
  | t :: r => match splitlast r with Some (i, z) => Some (t :: i, z) | None => Some ([], t) end
  end.
Definition flat (i : list ltree) (t : ltree) : list ltree := i ++ kids t.
(** geteditstats.mem: the keys are compared as (tuples of) immutable trees *)
Fixpoint teqb (s t : ltree) : bool :=
  match s, t with
  | T l ss, T m ts => eqs l m && (fix go (ss ts : list ltree) : bool := match ss, ts with [], [] => true | s :: ss', t :: ts' => teqb s t && go ss' ts' | _, _ => false end) ss ts
  end.
Fixpoint feqb (f g : list ltree) : bool := match f, g with [], [] => true | s :: f', t :: g' => teqb s t && feqb f' g' | _, _ => false end.
Definition memo := list (list ltree * list ltree * stats).
Fixpoint mget (m : memo) (f g : list ltree) : option stats :=
  match m with [] => None | (f', g', s) :: r => if feqb f f' && feqb g g' then Some s else mget r f g end.
(** 262-310 geteditstats; None: out of fuel *)
Fixpoint geteditstats (fuel : nat) (f1 f2 : list ltree) (mem : memo) : option (stats * memo) :=
  match fuel with
  | O => None
  | S fu =>
    match mget mem f1 f2 with
    | Some r => Some (r, mem)
    | None =>
      let finish (o : option (stats * memo)) := match o with Some (r, m) => Some (r, (f1, f2, r) :: m) | None => None end in
      match splitlast f1, splitlast f2 with
      | None, None => finish (Some (Stats 0 0 [], mem))
      | Some (i1, n1), None =>
        finish (match geteditstats fu (flat i1 n1) [] mem with
                | Some (t, m) => Some (Stats (distance t + 1) (matched t) (Del n1 :: editscript t), m)
                | None => None end)
      | None, Some (i2, n2) =>
        finish (match geteditstats fu [] (flat i2 n2) mem with
                | Some (t, m) => Some (Stats (distance t + 1) (matched t) (Ins n2 :: editscript t), m)
                | None => None end)
      | Some (i1, n1), Some (i2, n2) =>
        finish (match geteditstats fu (flat i1 n1) f2 mem with
        | None => None
        | Some (t1, m1) =>
          match geteditstats fu f1 (flat i2 n2) m1 with
          | None => None
          | Some (t2, m2) =>
            match geteditstats fu (kids n1) (kids n2) m2 with
            | None => None
            | Some (t3, m3) =>
              match geteditstats fu i1 i2 m3 with
              | None => None
              | Some (t4, m4) =>
                let d := Stats (distance t1 + 1) (matched t1) (Del n1 :: editscript t1) in
                let i := Stats (distance t2 + 1) (matched t2) (Ins n2 :: editscript t2) in
                let ms := addstats t3 t4 in
                let s := if eqs (label n1) (label n2) then Stats (distance ms) (matched ms + 1) (editscript ms)
                         else Stats (distance ms + 1) (matched ms) (Swap n1 n2 :: editscript ms) in
                Some (minstats (minstats d i) s, m4)
              end
            end
          end
        end)
      end
    end
  end.
Definition newtreedist (tree1 tree2 : tree pystr nat) : option stats :=
  match prepare tree1, prepare tree2 with
  | Some p1, Some p2 => option_map fst (geteditstats (S (tsize p1 + tsize p2)) [p1] [p2] [])
  | _, _ => None
  end.
(** eval.py:927-933 treedisteval; tree.subtrees() are the nodes that are not terminals *)
Definition treedisteval (a b : tree pystr nat) (includeroot : bool) : option (nat * nat) :=
  match treedist a b with
  | Some ted =>
    let denom := length (subtrees (fun _ => true) a ++ subtrees (fun _ => true) b) in
    Some (ted, if includeroot then denom else denom - 2)
  | None => None
  end.
