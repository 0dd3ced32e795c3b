(** Model of the fragment extraction code: discodop/_fragments.pyx
    237-275 extractfrompair, 277-318 fasttreekernel ... 352 extractat,
    355-412 exactcounts, 544-567 getcandidates, 570-585 containsbitset,
    664-802 allfragments/traverse, 1075-1098 copynodes, and of
    containers.pyx:361-417 Ctrees.addnodes, indextrees.

    A tree is an array of Node structs (containers.pxd:647-650); each tree has
    its own list here instead of an offset in one big array.  The bit matrix
    is a list of rows of [slots] 64-bit words (the C code uses one block of
    blen * SLOTS words), and a stored fragment is the triple of the words, the
    tree number and the root (the C code appends id and root to the words).
    16- and 32-bit wrap around of indices is not modelled.  Recursion carries
    [fuel]; the theorems show that the number of nodes is enough. *)
From Coq Require Import NArith ZArith List Bool Lia.
From Verif Require Import BitsModel TreeModel TransformModel.
Import ListNotations.

(** containers.pxd:647-650 *)
Record node := mkNode { prod : Z; left : Z; right : Z }.
Definition nd (a : list node) (i : nat) : node := nth i a (mkNode (-1) (-1) (-1)).
Definition kid (z : Z) : nat := Z.to_nat z.
Definition bit (i : nat) : N := N.of_nat i.

(** rows of the matrix *)
Fixpoint updrow (f : list N -> list N) (j : nat) (m : list (list N)) : list (list N) :=
  match m, j with
  | [], _ => []
  | r :: m', O => f r :: m'
  | r :: m', S j' => r :: updrow f j' m'
  end.
Definition row (m : list (list N)) (j : nat) : list N := nth j m [].

(** _fragments.pyx:277-305 fasttreekernel.
    299-303: while a[ii].prod == b[j].prod: SETBIT; ii += 1; if ii >= alen: break *)
Fixpoint kernel_row (fuel : nat) (a : list node) (p : Z) (r : list N) (ii : nat) : list N :=
  match fuel with
  | O => r
  | S f =>
      if (prod (nd a ii) =? p)%Z then
        let r' := SETBIT r (bit ii) in
        if length a <=? S ii then r' else kernel_row f a p r' (S ii)
      else r
  end.
(** 297-306: while a[i].prod == b[j].prod: ...; the boolean is 'return' *)
Fixpoint kernel_eq (fuel : nat) (a b : list node) (m : list (list N)) (i j : nat)
  : list (list N) * nat * bool :=
  match fuel with
  | O => (m, j, true)
  | S f =>
      if (prod (nd a i) =? prod (nd b j))%Z then
        let m' := updrow (fun r => kernel_row (S (length a)) a (prod (nd b j)) r i) j m in
        if length b <=? S j then (m', S j, true) else kernel_eq f a b m' i (S j)
      else (m, j, false)
  end.
(** 285-306 *)
Fixpoint kernel (fuel : nat) (a b : list node) (m : list (list N)) (i j : nat) : list (list N) :=
  match fuel with
  | O => m
  | S f =>
      if (prod (nd a i) <? prod (nd b j))%Z then
        if length a <=? S i then m else kernel f a b m (S i) j
      else if (prod (nd b j) <? prod (nd a i))%Z then
        if length b <=? S j then m else kernel f a b m i (S j)
      else
        let '(m', j', fin) := kernel_eq (S (length b)) a b m i j in
        if fin then m' else kernel f a b m' i j'
  end.
Definition fasttreekernel (a b : list node) (m : list (list N)) : list (list N) :=
  kernel (S (length a + length b)) a b m 0 0.

(** 336-352 extractat *)
Fixpoint extractat (fuel : nat) (a b : list node) (m : list (list N)) (res : list N)
  (i j : nat) : list (list N) * list N * Z :=
  match fuel with
  | O => (m, res, 0%Z)
  | S f =>
      let res := SETBIT res (bit i) in
      let m := updrow (fun r => CLEARBIT r (bit i)) j m in
      if (left (nd a i) <? 0)%Z then (m, res, 1%Z)
      else
        let '(m, res, terms) :=
          if TESTBIT (row m (kid (left (nd b j)))) (bit (kid (left (nd a i))))
          then extractat f a b m res (kid (left (nd a i))) (kid (left (nd b j)))
          else (m, res, 0%Z) in
        if (right (nd a i) <? 0)%Z then (m, res, 0%Z)
        else if TESTBIT (row m (kid (right (nd b j)))) (bit (kid (right (nd a i)))) then
          let '(m, res, terms2) :=
            extractat f a b m res (kid (right (nd a i))) (kid (right (nd b j))) in
          (m, res, (terms + terms2)%Z)
        else (m, res, terms)
  end.

(** a stored fragment: words, tree number, root (59-71, 91-103) *)
Definition stored := (list N * nat * nat)%type.
Definition stored_eq_dec : forall x y : stored, {x = y} + {x <> y}.
Proof. decide equality; [apply Nat.eq_dec | decide equality; [apply Nat.eq_dec | apply (list_eq_dec N.eq_dec)]]. Defined.
(** results.add(...): a Python set *)
Definition set_add (x : stored) (l : list stored) : list stored :=
  if in_dec stored_eq_dec x l then l else l ++ [x].

(** 319-326: the body of the loop over the set bits of row j *)
Definition extract_one (a b : list node) (n : nat) (minterms : Z) (slots j : nat)
  (mr : list (list N) * list stored) (i : Z) : list (list N) * list stored :=
  let '(m, results) := mr in
  let '(m', scratch, terms) := extractat (S (length a)) a b m (repeat 0%N slots) (kid i) j in
  (m', if (minterms <=? terms)%Z then set_add (scratch, n, kid i) results else results).

(** 308-333 extractbitsets.  The C iterator keeps a copy of the current word
    and reads later words of row j while extractat clears bits; extractat only
    clears bit i of row j (lemma [extractat_row] in FragProofs.v), so the bits
    are collected beforehand here. *)
Fixpoint extractbitsets (fuel : nat) (a b : list node) (n : nat) (minterms : Z) (slots : nat)
  (mr : list (list N) * list stored) (j : nat) : list (list N) * list stored :=
  match fuel with
  | O => mr
  | S f =>
      let mr := fold_left (extract_one a b n minterms slots j)
        (iter_collect (S (64 * slots)) (iter_init (row (fst mr) j))) mr in
      if (0 <=? left (nd b j))%Z then
        let mr := extractbitsets f a b n minterms slots mr (kid (left (nd b j))) in
        if (0 <=? right (nd b j))%Z
        then extractbitsets f a b n minterms slots mr (kid (right (nd b j)))
        else mr
      else mr
  end.

(** 218-234 extractfrompair; [results] is the set [inter] *)
Definition extractfrompair (a : list node) (n : nat) (b : list node) (broot : nat) (minterms : Z)
  (slots : nat) (results : list stored) : list stored :=
  let m := fasttreekernel a b (repeat (repeat 0%N slots) (length b)) in
  snd (extractbitsets (S (length b)) a b n minterms slots (m, results) broot).

(** A treebank: every tree with its root *)
Definition ctree := (list node * nat)%type.
(** 161-164: SLOTS *)
Definition maxnodes (ts : list ctree) : nat := fold_right Nat.max 0 (map (fun t => length (fst t)) ts).
Definition slots_for (k : nat) : nat := N.to_nat (BITNSLOTS (N.of_nat k + 1)).

(** 173-214 extractfragments, 'all pairs' (no twoterms, no adjacent), for tree
    n: the fragments shared with each tree m of range(start2, end2). *)
Definition fragments_of (ts1 : list ctree) (ts2 : list ctree) (slots n start2 end2 : nat) : list stored :=
  fold_left (fun inter m =>
      extractfrompair (fst (nth n ts1 ([], 0))) n (fst (nth m ts2 ([], 0))) (snd (nth m ts2 ([], 0))) 0 slots inter)
    (seq start2 (end2 - start2)) [].
(** 202-204: with a single treebank, start2 = max(n + 1, start2) *)
Definition extract_single (ts : list ctree) : list (list stored) :=
  map (fun n => fragments_of ts ts (slots_for (maxnodes ts)) n (S n) (length ts)) (seq 0 (length ts)).
Definition extract_double (ts1 ts2 : list ctree) : list (list stored) :=
  map (fun n => fragments_of ts1 ts2 (slots_for (Nat.max (maxnodes ts1) (maxnodes ts2))) n 0 (length ts2))
    (seq 0 (length ts1)).

(** ---- 570-585 containsbitset ---- *)
Fixpoint containsbitset (fuel : nat) (a b : list node) (bits : list N) (i j : nat) : bool :=
  match fuel with
  | O => false
  | S f =>
      if negb (prod (nd a i) =? prod (nd b j))%Z then false
      else if (left (nd a i) <? 0)%Z then true
      else if TESTBIT bits (bit (kid (left (nd a i))))
              && negb (containsbitset f a b bits (kid (left (nd a i))) (kid (left (nd b j)))) then false
      else if (right (nd a i) <? 0)%Z then true
      else if TESTBIT bits (bit (kid (right (nd a i))))
           then containsbitset f a b bits (kid (right (nd a i))) (kid (right (nd b j)))
      else true
  end.

(** ---- containers.pyx:395-417 indextrees: for each production the set of
    the trees it occurs in (an ascending list for a RoaringBitmap) ---- *)
Definition rb_add (n : nat) (rb : option (list nat)) : option (list nat) :=
  match rb with
  | None => Some [n]
  | Some l => if in_dec Nat.eq_dec n l then Some l else Some (l ++ [n])
  end.
Fixpoint upd_opt (f : option (list nat) -> option (list nat)) (k : nat) (l : list (option (list nat)))
  : list (option (list nat)) :=
  match l, k with
  | [], _ => []
  | x :: l', O => f x :: l'
  | x :: l', S k' => x :: upd_opt f k' l'
  end.
Definition index_tree (idx : list (option (list nat))) (n : nat) (t : list node) : list (option (list nat)) :=
  fold_left (fun idx x => if (0 <=? prod x)%Z then upd_opt (rb_add n) (kid (prod x)) idx else idx) t idx.
(** [nprods]: len(vocab.prods) *)
Definition indextrees (nprods : nat) (ts : list ctree) : list (option (list nat)) :=
  fold_left (fun idx nt => index_tree idx (fst nt) (fst (snd nt)))
    (combine (seq 0 (length ts)) ts) (repeat None nprods).

(** ---- 544-567 getcandidates (list index; start = 0, end = len(trees), so
    clamp(start, end) changes nothing).  None: an unseen production, or no set
    bits.  551-557: the productions of the set bits; a production beyond the
    index stops the search. *)
Fixpoint cand_prods (a : list node) (idxlen : nat) (bits : list Z) : option (list Z) :=
  match bits with
  | [] => Some []
  | i :: rest =>
      if (Z.of_nat (length a) <=? i)%Z then Some []
      else if (Z.of_nat idxlen <=? prod (nd a (kid i)))%Z then None
      else match cand_prods a idxlen rest with
           | None => None
           | Some ps => Some (prod (nd a (kid i)) :: ps)
           end
  end.
Definition rb_inter (l1 l2 : list nat) : list nat := filter (fun x => if in_dec Nat.eq_dec x l2 then true else false) l1.
Definition getcandidates (a : list node) (bits : list N) (prodindex : list (option (list nat))) : option (list nat) :=
  match cand_prods a (length prodindex) (iter_collect (S (64 * length bits)) (iter_init bits)) with
  | None | Some [] => None
  | Some (p :: ps) =>
      if existsb (fun q => match nth (kid q) prodindex None with None => true | Some _ => false end) (p :: ps)
      then None
      else Some (fold_left (fun acc q => match nth (kid q) prodindex None with Some l => rb_inter acc l | None => acc end)
             ps (match nth (kid p) prodindex None with Some l => l | None => [] end))
  end.

(** 400-411: for j in range(b.len): if equal: if contains ... elif <: break *)
Fixpoint match_nodes (a b : list node) (bits : list N) (i : nat) (js : list nat) : list nat :=
  match js with
  | [] => []
  | j :: rest =>
      if (prod (nd a i) =? prod (nd b j))%Z then
        (if containsbitset (S (length a)) a b bits i j then [j] else []) ++ match_nodes a b bits i rest
      else if (prod (nd a i) <? prod (nd b j))%Z then []
      else match_nodes a b bits i rest
  end.
(** 383-412 exactcounts for one fragment, indices=2: the pairs (tree, node);
    indices=1 gives the first components, indices=0 their number. *)
Definition exactindices (ts1 ts2 : list ctree) (nprods : nat) (x : stored) : list (nat * nat) :=
  let '(bits, id, root) := x in
  let a := fst (nth id ts1 ([], 0)) in
  match getcandidates a bits (indextrees nprods ts2) with
  | None => []
  | Some cands =>
      flat_map (fun m => let b := fst (nth m ts2 ([], 0)) in
                         map (fun j => (m, j)) (match_nodes a b bits root (seq 0 (length b)))) cands
  end.
Definition exactcount (ts1 ts2 : list ctree) (nprods : nat) (x : stored) : nat :=
  length (exactindices ts1 ts2 nprods x).

(** ---- 706-802 traverse: for each node the fragments rooted there, with
    depth and number of frontiers ---- *)
Definition entry := (list N * nat * nat)%type.
Definition entries (tb : list (list entry)) (i : nat) : list entry := nth i tb [].
Fixpoint append_at (i : nat) (x : entry) (tb : list (list entry)) : list (list entry) :=
  match tb, i with
  | [], _ => []
  | l :: tb', O => (l ++ [x]) :: tb'
  | l :: tb', S i' => l :: append_at i' x tb'
  end.
Definition just (slots i : nat) : list N := SETBIT (repeat 0%N slots) (bit i).
(** 746-759, 762-773: node i with the fragments of one child *)
Definition one_child (slots i maxdepth maxfrontier : nat) (frags : list entry) (tb : list (list entry)) : list (list entry) :=
  fold_left (fun tb fr =>
      let '(fbits, fdepth, ffront) := fr in
      if (fdepth + 1 <=? maxdepth) && (ffront + 1 <=? maxfrontier)
      then append_at i (setunioninplace (just slots i) fbits, fdepth + 1, ffront + 1) tb
      else tb) frags tb.
(** 774-802: node i with the fragments of both children *)
Definition two_children (slots i maxdepth maxfrontier : nat) (ls rs : list entry) (tb : list (list entry)) : list (list entry) :=
  fold_left (fun tb fl =>
      let '(lbits, ldepth, lfront) := fl in
      fold_left (fun tb fr =>
          let '(rbits, rdepth, rfront) := fr in
          if (Nat.max ldepth rdepth + 1 <=? maxdepth) && (lfront + rfront <=? maxfrontier)
          then append_at i (setunioninplace (setunioninplace (just slots i) lbits) rbits,
                            Nat.max ldepth rdepth + 1, lfront + rfront) tb
          else tb) rs tb) ls tb.
Fixpoint traverse (fuel : nat) (t : list node) (slots maxdepth maxfrontier : nat)
  (tb : list (list entry)) (i : nat) : list (list entry) :=
  match fuel with
  | O => tb
  | S f =>
      let l := left (nd t i) in
      let r := right (nd t i) in
      let tb := if (0 <=? l)%Z then
                  let tb := traverse f t slots maxdepth maxfrontier tb (kid l) in
                  if (0 <=? r)%Z then traverse f t slots maxdepth maxfrontier tb (kid r) else tb
                else tb in
      let front := if (l <? 0)%Z then 0 else if (r <? 0)%Z then 1 else 2 in
      let tb := if front <=? maxfrontier then append_at i (just slots i, 1, front) tb else tb in
      if (0 <=? l)%Z then
        let tb := one_child slots i maxdepth maxfrontier (entries tb (kid l)) tb in
        if (0 <=? r)%Z then
          let tb := one_child slots i maxdepth maxfrontier (entries tb (kid r)) tb in
          two_children slots i maxdepth maxfrontier (entries tb (kid l)) (entries tb (kid r)) tb
        else tb
      else tb
  end.
(** 683-704 allfragments for one tree: the stored fragments of all nodes *)
Definition allfragments (t : ctree) (n slots maxdepth maxfrontier : nat) : list stored :=
  let tb := traverse (S (length (fst t))) (fst t) slots maxdepth maxfrontier
              (repeat [] (length (fst t))) (snd t) in
  fold_left (fun inter ie => fold_left (fun inter e => set_add (fst (fst e), n, fst ie) inter) (snd ie) inter)
    (combine (seq 0 (length tb)) tb) [].

(** ---- 1075-1098 copynodes: nodes in preorder.  None: ValueError. ---- *)
Fixpoint copynodes {L} (t : tree L nat) (prods : list Z) (idx : nat) : option (list node) :=
  let p := nth idx prods (-1)%Z in
  match t with
  | Node _ [Leaf k] => Some [mkNode p (- Z.of_nat k - 1) (-1)]
  | Node _ [Node _ _ as c] =>
      match copynodes c prods (S idx) with
      | Some l => Some (mkNode p (Z.of_nat (S idx)) (-1) :: l)
      | None => None
      end
  | Node _ [Leaf k; Node _ _ as c] =>
      match copynodes c prods (S idx) with
      | Some l => Some (mkNode p (- Z.of_nat k - 1) (Z.of_nat (S idx)) :: l)
      | None => None
      end
  | Node _ [Node _ _ as c1; Node _ _ as c2] =>
      match copynodes c1 prods (S idx) with
      | Some l1 =>
          match copynodes c2 prods (S idx + length l1) with
          | Some l2 => Some (mkNode p (Z.of_nat (S idx)) (Z.of_nat (S idx + length l1)) :: l1 ++ l2)
          | None => None
          end
      | None => None
      end
  | _ => None
  end.

(** ---- containers.pyx:372-387 addnodes ----
    sortidx maps position in the source to position in the sorted order. *)
Fixpoint position (k : nat) (l : list nat) : nat :=
  match l with [] => 0 | x :: r => if k =? x then 0 else S (position k r) end.
Definition sortorder (source : list node) : list nat :=
  sort (fun x y => (prod (nd source x) <=? prod (nd source y))%Z) (seq 0 (length source)).
Definition translate (order : list nat) (x : node) : node :=
  mkNode (prod x)
    (if (0 <=? left x)%Z then Z.of_nat (position (kid (left x)) order) else left x)
    (if (0 <=? right x)%Z then Z.of_nat (position (kid (right x)) order) else right x).
Definition addnodes (source : list node) (root : nat) : ctree :=
  let order := sortorder source in
  (map (fun n => translate order (nd source n)) order, position root order).
(** _fragments.pyx:1130-1149 getctrees, one tree *)
Definition getctree {L} (t : tree L nat) (prods : list Z) : option ctree :=
  match copynodes t prods 0 with Some l => Some (addnodes l 0) | None => None end.
