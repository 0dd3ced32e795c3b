(** Model of optimalbinarize and minimalbinarization (discodop/treetransforms.py
    702-991): optimal binarization of LCFRS productions (Gildea 2010).

    Trees have terminal indices as leaves; the bitset of a node is the list of its
    leaves.  The fan-out of a bitset is [fanout_of] (TransformModel). *)
From Coq Require Import String.
From Coq Require Import List Bool Arith NArith.
From Verif Require Import PyStr TreeModel BracketModel TransformModel.
Import ListNotations.
Open Scope list_scope.
Open Scope nat_scope.

(** ---- scores: tuples, compared lexicographically ---- *)
Notation score2 := (nat * nat)%type (only parsing).
Notation score3 := (nat * nat * nat)%type (only parsing).
Definition lt2 (a b : score2) : bool := (fst a <? fst b) || ((fst a =? fst b) && (snd a <? snd b)).
Definition lt3 (a b : score3) : bool := lt2 (fst a) (fst b) || (negb (lt2 (fst b) (fst a)) && (snd a <? snd b)).
(** max(...): the first of the largest *)
Definition max2 (a b : score2) : score2 := if lt2 a b then b else a.

(** ---- partial binarizations: the children of the node are numbered.  Equality of
    trees is structural equality: the children are different trees, since each has
    different terminals ---- *)
Inductive bt := BL (i : nat) | BN (l r : bt).
Fixpoint bt_eqb (a b : bt) : bool :=
  match a, b with BL i, BL j => i =? j | BN l r, BN l' r' => bt_eqb l l' && bt_eqb r r' | _, _ => false end.
Fixpoint btleaves (t : bt) : list nat := match t with BL i => [i] | BN l r => btleaves l ++ btleaves r end.

(** ---- dictionaries, in order of insertion ---- *)
Section Dict.
Context {K V : Type}.
Variable keqb : K -> K -> bool.
Fixpoint dget (d : list (K * V)) (k : K) : option V := match d with [] => None | (k', v) :: r => if keqb k' k then Some v else dget r k end.
Definition dmem (d : list (K * V)) (k : K) : bool := match dget d k with Some _ => true | None => false end.
Fixpoint dset (d : list (K * V)) (k : K) (v : V) : list (K * V) :=
  match d with [] => [(k, v)] | (k', v') :: r => if keqb k' k then (k', v) :: r else (k', v') :: dset r k v end.
Fixpoint ddel (d : list (K * V)) (k : K) : list (K * V) := match d with [] => [] | (k', v) :: r => if keqb k' k then ddel r k else (k', v) :: ddel r k end.
End Dict.
(** PyAgenda (util.py 216-, see C09-C11): the entries in order of insertion; the first
    of the smallest is taken out; assigning to a key again makes it the last *)
Definition agset (a : list (bt * score3)) (k : bt) (v : score3) : list (bt * score3) := ddel bt_eqb a k ++ [(k, v)].
Fixpoint agmin (a : list (bt * score3)) : option (bt * score3) :=
  match a with
  | [] => None
  | e :: r => match agmin r with Some e' => if lt3 (snd e') (snd e) then Some e' else Some e | None => Some e end
  end.

(** ---- 753-882 minimalbinarization, the search.  [nonterms] has bitsets also when
    head is given: an OrderedSet is compared without regard for order, and its order is
    that of the leaves of the partial binarization (see [artlabel]) ---- *)
Record ost := mkO { agenda : list (bt * score3); workingset : list (bt * score3); nonterms : list (bt * N); revnonterms : list (N * bt) }.
Inductive ores := Found (p : bt) | KeyErr | Exhausted | Fuel.
Section Search.
Variable n : nat.                       (* len(tree) *)
Variable head : option nat.
Variable score : bt -> score2.          (* the score of the partial binarization *)
Definition bit (i : nat) : N := N.shiftl 1 (N.of_nat i).
Definition card (m : N) : nat := length (filter (fun i => N.testbit m (N.of_nat i)) (seq 0 n)).
Definition goal : N := N.ones (N.of_nat n).
Definition init : ost :=
  match head with
  | None =>                                                                      (* 813-818 *)
    mkO (map (fun i => (BL i, (score (BL i), 0))) (seq 0 n)) (map (fun i => (BL i, (score (BL i), 0))) (seq 0 n))
        (map (fun i => (BL i, bit i)) (seq 0 n)) (map (fun i => (bit i, BL i)) (seq 0 n))
  | Some hd =>                                                                   (* 819-841 *)
    let others := filter (fun i => negb (i =? hd)) (seq 0 n) in
    let first := map (fun i => let p := BN (BL i) (BL hd) in (p, (score p, fst (score p)))) others in
    mkO first (map (fun i => (BL i, (score (BL i), 0))) others ++ first)
        (map (fun i => (BL i, bit i)) (seq 0 n) ++ map (fun i => (BN (BL i) (BL hd), N.lor (bit i) (bit hd))) others)
        (map (fun i => (bit i, BL i)) (seq 0 n) ++ map (fun i => (N.lor (bit i) (bit hd), BN (BL i) (BL hd))) others)
  end.
(** 856-866: the new production for [p] and [p1] with their bitsets *)
Definition combine (p p1 : bt) (m m1 : N) : option bt :=
  match head with
  | None => Some (BN p p1)
  | Some _ => if card m1 =? 1 then Some (BN p1 p) else if card m =? 1 then Some (BN p p1) else None
  end.
(** 867-871 *)
Definition newscore (p2 : bt) (x y : score3) : score3 :=
  (max2 (max2 (score p2) (fst y)) (fst x), fst (score p2) + snd x + snd y).
(** 849-881, for one item of the working set.  [None]: KeyError *)
Definition inner (p : bt) (x : score3) (st : option ost) (e : bt * score3) : option ost :=
  match st with
  | None => None
  | Some st =>
    let '(p1, y) := e in
    if negb (dmem bt_eqb (workingset st) p1) then Some st
    else match dget bt_eqb (nonterms st) p, dget bt_eqb (nonterms st) p1 with
      | Some m, Some m1 =>
        if negb (N.land m m1 =? 0)%N then Some st
        else match combine p p1 m m1 with
          | None => Some st
          | Some p2 =>
            let m2 := N.lor m m1 in
            let x2 := newscore p2 x y in
            let add st := mkO (agset (agenda st) p2 x2) (dset bt_eqb (workingset st) p2 x2) (dset bt_eqb (nonterms st) p2 m2) (dset N.eqb (revnonterms st) m2 p2) in
            match dget N.eqb (revnonterms st) m2 with
            | None => Some (add st)
            | Some a =>
              match dget bt_eqb (workingset st) a with
              | None => None
              | Some z =>
                if lt3 x2 z then
                  if dmem bt_eqb (nonterms st) a
                  then Some (add (mkO (ddel bt_eqb (agenda st) a) (ddel bt_eqb (workingset st) a) (ddel bt_eqb (nonterms st) a) (revnonterms st)))
                  else None
                else Some st
              end
            end
          end
      | _, _ => None
      end
  end.
(** 842-882; the fuel is the number of times an item is taken from the agenda *)
Fixpoint search (fuel : nat) (st : ost) : ores :=
  match fuel with
  | O => Fuel
  | S fuel =>
    match agmin (agenda st) with
    | None => Exhausted
    | Some (p, x) =>
      let st := mkO (ddel bt_eqb (agenda st) p) (workingset st) (nonterms st) (revnonterms st) in
      match dget bt_eqb (nonterms st) p with
      | None => KeyErr
      | Some m =>
        if N.eqb m goal then Found p
        else match fold_left (inner p x) (workingset st) (Some st) with
          | None => KeyErr
          | Some st => search fuel st
          end
      end
    end
  end.
Definition minimal : ores := search (S (2 ^ n)) init.
End Search.

(** ---- 885-904: scores of trees ---- *)
Definition treefanout (t : tree pystr nat) : nat := match t with Leaf _ => 1 | Node _ _ => fanout_of (leaves t) end.
Definition complexity (t : tree pystr nat) : nat := treefanout t + list_sum (map treefanout (match t with Leaf _ => [] | Node _ ts => ts end)).
Definition complexityfanout (t : tree pystr nat) : score2 := (complexity t, treefanout t).
Definition fanoutcomplexity (t : tree pystr nat) : score2 := (treefanout t, complexity t).

Definition labelof (t : tree pystr nat) : pystr := match t with Leaf _ => [] | Node l _ => l end.
Definition comma : pystr := str ",".
(** 780-790 newproduction: the label *)
Definition artlabel (head : option nat) (h : nat) (sep label parentstr : pystr) (cs : list (tree pystr nat)) (p : bt) : pystr :=
  let siblings := match head with Some _ => firstn h (btleaves p) | None => sort Nat.leb (btleaves p) end in
  label ++ sep ++ str "<" ++ join comma (map (fun i => labelof (nth i cs (Leaf 0))) siblings) ++ str ">" ++ parentstr.
Section Render.
Variable lab : bt -> pystr.
Variable cs : list (tree pystr nat).
Fixpoint render (p : bt) : tree pystr nat :=
  match p with BL i => nth i cs (Leaf 0) | BN l r => Node (lab p) [render l; render r] end.
End Render.
(** factorconstituent(tree, sep=sep, h=h) (384-450) for more than two children *)
Definition keylabel (h : nat) (sep label : pystr) (cs : list (tree pystr nat)) : pystr :=
  label ++ sep ++ str "<" ++ join comma (map labelof (firstn h cs)) ++ str ">".
Fixpoint rightfactor (h : nat) (sep label : pystr) (cs : list (tree pystr nat)) : tree pystr nat :=
  match cs with
  | [] => Leaf 0
  | [c] => c
  | c :: rest => Node (keylabel h sep label cs) [c; rightfactor h sep label rest]
  end.
(** 753-882.  [None]: an exception *)
Definition minimalbinarization (score : tree pystr nat -> score2) (sep : pystr) (head : option nat) (parentstr : pystr) (h : nat) (t : tree pystr nat) : option (tree pystr nat) :=
  match t with
  | Leaf _ => Some t
  | Node label cs =>
    if length cs <=? 2 then Some t
    else if (treefanout t =? 1) && forallb (fun c => treefanout c =? 1) cs
    then match cs with c :: rest => Some (Node label [c; rightfactor h sep label rest]) | [] => Some t end
    else let rd := render (artlabel head h sep label parentstr cs) cs in
      match minimal (length cs) head (fun p => score (rd p)) with
      | Found (BN l r) => Some (Node label [rd l; rd r])                         (* 845-848 *)
      | _ => None
      end
  end.
Fixpoint allsome {A} (l : list (option A)) : option (list A) :=
  match l with [] => Some [] | x :: r => match x, allsome r with Some x, Some r => Some (x :: r) | _, _ => None end end.
(** 740-751 *)
Definition parentstr (v : nat) (ancestors : list pystr) : pystr :=
  if 1 <? v then str "^<" ++ join comma (firstn (v - 1) ancestors) ++ str ">" else [].
Fixpoint optbin (score : tree pystr nat -> score2) (sep : pystr) (headdriven : bool) (h v : nat) (ancestors : list pystr) (t : tree pystr nat) : option (tree pystr nat) :=
  match t with
  | Leaf _ => Some t
  | Node label ts =>
    match allsome (map (optbin score sep headdriven h v (label :: ancestors)) ts) with
    | None => None
    | Some us => minimalbinarization score sep (if headdriven then Some (length ts - 1) else None) (parentstr v ancestors) h (Node (label ++ parentstr v ancestors) us)
    end
  end.
(** 728-737; [h = None]: the tree is canonicalized *)
Definition optimalbinarize (sep : pystr) (headdriven : bool) (h : option nat) (v : nat) (score : tree pystr nat -> score2) (t : tree pystr nat) : option (tree pystr nat) :=
  optbin score sep headdriven (match h with Some (S k) => S k | _ => 999 end) v [] (match h with None => canonicalize t | Some _ => t end).
