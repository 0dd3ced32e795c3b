(** Model of discodop/eval.py: multiset measures, accumulated scores, label
    equivalence classes, edit distance and leaf-ancestor paths.

    Simplifications: decimal.Decimal numbers are exact rationals (no rounding to
    28 digits); Decimal('NaN') is [None]. *)
From Coq Require Import String.
From Coq Require Import List Bool Arith NArith QArith Qcanon.
From Verif Require Import PyStr TreeModel BitsModel BinarizeModel TransformModel.
Import ListNotations.
Open Scope list_scope.
Open Scope nat_scope.

(** ** collections.Counter: (element, count) in the order of first insertion *)
Section Counter.
Context {K : Type}.
Variable eqb : K -> K -> bool.
Definition Counter := list (K * nat).
(** c[k] += n; a missing element counts 0 *)
Fixpoint cadd (n : nat) (c : Counter) (k : K) : Counter :=
  match c with
  | [] => [(k, n)]
  | (k', m) :: r => if eqb k k' then (k', m + n) :: r else (k', m) :: cadd n r k
  end.
Definition update (c : Counter) (ks : list K) : Counter := fold_left (cadd 1) ks c.
Definition counter (ks : list K) : Counter := update [] ks.
Fixpoint cget (c : Counter) (k : K) : nat :=
  match c with [] => 0 | (k', m) :: r => if eqb k k' then m else cget r k end.
(** sum(c.values()) *)
Definition csum (c : Counter) : nat := fold_right (fun p acc => snd p + acc) 0 c.
(** c.elements() *)
Definition elements (c : Counter) : list K := flat_map (fun p => repeat (fst p) (snd p)) c.
(** keys of a & b: those of a whose lower count is positive *)
Definition cinter (a b : Counter) : list K :=
  map fst (filter (fun p => 0 <? min (snd p) (cget b (fst p))) a).
(** sum(min(reference[a], candidate[a]) for a in reference & candidate) *)
Definition overlap (r c : Counter) : nat :=
  fold_right (fun k acc => min (cget r k) (cget c k) + acc) 0 (cinter r c).
(** Counter.__eq__: the same counts for all elements of either *)
Definition ceqb (a b : Counter) : bool :=
  forallb (fun p => cget a (fst p) =? cget b (fst p)) (a ++ b).

Definition nq (n : nat) : Qc := Q2Qc (Z.of_nat n # 1).
(** eval.py:943-948 *)
Definition recall (reference candidate : Counter) : option Qc :=
  match reference with
  | [] => None
  | _ => Some (nq (overlap reference candidate) / nq (csum reference))%Qc
  end.
(** eval.py:951-956 *)
Definition precision (reference candidate : Counter) : option Qc :=
  match candidate with
  | [] => None
  | _ => Some (nq (overlap reference candidate) / nq (csum candidate))%Qc
  end.
(** eval.py:959-967; a comparison with NaN is false and arithmetic with NaN is NaN *)
Definition f_measure (reference candidate : Counter) (alpha : Qc) : option Qc :=
  match precision reference candidate, recall reference candidate with
  | Some p, Some r =>
    if Qc_eq_bool p 0 || Qc_eq_bool r 0 then None
    else Some (1 / (alpha / p + (1 - alpha) / r))%Qc
  | _, _ => None
  end.
End Counter.
Arguments Counter : clear implicits.

(** eval.py:970-978 (ZeroDivisionError or ValueError: None) *)
Definition accuracy {X} (eqb : X -> X -> bool) (reference candidate : list X) : option Qc :=
  if negb (length reference =? length candidate) then None
  else match reference with
  | [] => None
  | _ => Some (nq (length (filter (fun p => eqb (fst p) (snd p)) (combine reference candidate))) / nq (length reference))%Qc
  end.
(** eval.py:996-1006; the sequence may contain NaN *)
Definition mean (xs : list (option Qc)) : option Qc :=
  match xs with
  | [] => None
  | _ => option_map (fun s => s / nq (length xs))%Qc
           (fold_left (fun acc x => match acc, x with Some a, Some b => Some (a + b)%Qc | _, _ => None end) xs (Some 0%Qc))
  end.

(** ** Bracketings *)
(** tree.py:602 ImmutableTree.bitset *)
Definition bitset (t : tree pystr nat) : N := fold_right (fun n acc => (N.shiftl 1 (N.of_nat n) + acc)%N) 0%N (leaves t).
(** eval.py:857-859 *)
Definition bracketing (labeled : bool) (t : tree pystr nat) : pystr * N :=
  (match t with Node l _ => if labeled then l else [] | Leaf _ => [] end, bitset t).
(** a and isinstance(a[0], Tree) *)
Definition phrasal (t : tree pystr nat) : bool :=
  match t with Node _ (c :: _) => is_node c | _ => false end.
Definition tlabel (t : tree pystr nat) : pystr := match t with Node l _ => l | Leaf _ => [] end.
Definition beqb (a b : pystr * N) : bool := eqs (fst a) (fst b) && N.eqb (snd a) (snd b).
(** eval.py:826-854 *)
Definition bracketings (labeled : bool) (dellabel : list pystr) (disconly : bool) (t : tree pystr nat) : Counter (pystr * N) :=
  counter beqb (map (bracketing labeled) (subtrees (fun a => phrasal a && negb (existsb (eqs (tlabel a)) dellabel)
    && (negb disconly || (1 <? bitfanout (bitset a))%N)) t)).

(** ** Accumulating scores *)
(** what EvalAccumulator.add uses of a TreePairResult (the breakdowns by category,
    function tags, dependencies and rules are not modelled) *)
Record pair := mkPair {
  p_n : nat; p_gbrack : Counter (pystr * N); p_cbrack : Counter (pystr * N);
  p_gpos : list pystr; p_cpos : list pystr; p_lengpos : nat;
  p_lascore : option Qc; p_ted : option Qc; p_denom : option Qc }.
Record accum := mkAcc {
  sentcount : nat; maxlenseen : nat; exact : nat;
  goldb : Counter (nat * (pystr * N)); candb : Counter (nat * (pystr * N));
  goldpos : list pystr; candpos : list pystr; lascores : list (option Qc);
  dicenoms : option Qc; dicedenoms : option Qc }.
Definition nbeqb (a b : nat * (pystr * N)) : bool := (fst a =? fst b) && beqb (snd a) (snd b).
(** eval.py:534-551 *)
Definition acc0 : accum := mkAcc 0 0 0 [] [] [] [] [] (Some 0%Qc) (Some 0%Qc).
Definition oadd (a b : option Qc) : option Qc := match a, b with Some x, Some y => Some (x + y)%Qc | _, _ => None end.
Definition nonempty {X} (l : list X) : bool := match l with [] => false | _ => true end.
(** eval.py:553-573.  lascore, ted and denom are NaN, never Python's None. *)
Definition addpair (disconly : bool) (s : accum) (p : pair) : accum :=
  let relevant := negb disconly || nonempty (p_cbrack p) || nonempty (p_gbrack p) in
  mkAcc (if relevant then S (sentcount s) else sentcount s)
    (if maxlenseen s <? p_lengpos p then p_lengpos p else maxlenseen s)
    (if ceqb beqb (p_cbrack p) (p_gbrack p) && relevant then S (exact s) else exact s)
    (update nbeqb (goldb s) (map (fun a => (p_n p, a)) (elements (p_gbrack p))))
    (update nbeqb (candb s) (map (fun a => (p_n p, a)) (elements (p_cbrack p))))
    (goldpos s ++ p_gpos p) (candpos s ++ p_cpos p)
    (lascores s ++ [p_lascore p])
    (oadd (dicenoms s) (p_ted p)) (oadd (dicedenoms s) (p_denom p)).
Definition accumulate (disconly : bool) (ps : list pair) : accum := fold_left (addpair disconly) ps acc0.

(** ** Edit distance *)
Section Edit.
Context {X : Type}.
Variable eqb : X -> X -> bool.
(** eval.py:1056-1062: row i+1 from row i.  [d] = lev[i][j], [up] = lev[i][j+1:],
    [left] = lev[i+1][j] *)
Fixpoint nextrow (x : X) (seq2 : list X) (d : nat) (up : list nat) (left : nat) : list nat :=
  match seq2, up with
  | y :: seq2', u :: up' =>
    let cell := min (min (u + 1) (d + (if eqb x y then 0 else 1))) (left + 1) in
    cell :: nextrow x seq2' u up' cell
  | _, _ => []
  end.
Fixpoint levrows (i : nat) (seq1 seq2 : list X) (row : list nat) : list nat :=
  match seq1 with
  | [] => row
  | x :: seq1' => levrows (S i) seq1' seq2 (S i :: nextrow x seq2 (hd 0 row) (tl row) (S i))
  end.
(** eval.py:1040-1063; only the previous row of the array is kept *)
Definition editdistance (seq1 seq2 : list X) : nat :=
  last (levrows 0 seq1 seq2 (seq 0 (S (length seq2)))) 0.
End Edit.
(** eval.py:912-914 *)
Definition pathscore (gold cand : list pystr) : Qc :=
  (1 - nq (editdistance eqs cand gold) / nq (max (length (gold ++ cand)) 1))%Qc.

(** ** Leaf-ancestor paths *)
Definition mems (s : pystr) (l : list pystr) : bool := existsb (eqs s) l.
Definition memn (n : nat) (l : list nat) : bool := existsb (Nat.eqb n) l.
(** eval.py:892-908: the path of leaf b, given the leaves of the node *)
Definition extendpath (label : pystr) (ls : list nat) (b : nat) (path : list pystr) : list pystr :=
  let first := fold_right min (hd 0 ls) ls in
  let last := fold_right max 0 ls in
  let p1 := if negb (memn (b + 1) ls) then
      if (b =? last) && negb (mems (str ")") path) then path ++ [str ")"]
      else if negb (b =? last) && negb (mems (str "]") path) then path ++ [str "]"] else path
    else path in
  let p2 := p1 ++ [label] in
  if (b =? 0) || negb (memn (b - 1) ls) then
    if (b =? first) && negb (mems (str "(") p2) then p2 ++ [str "("]
    else if negb (b =? first) && negb (mems (str "[") p2) then p2 ++ [str "["] else p2
  else p2.
(** one node: leaves are visited in order; the paths of other leaves stay *)
Definition visit (dellabel : list pystr) (paths : list (nat * list pystr)) (n : tree pystr nat) : list (nat * list pystr) :=
  if phrasal n && nonempty (leaves n) && negb (mems (tlabel n) dellabel)
  then map (fun p => if memn (fst p) (leaves n) then (fst p, extendpath (tlabel n) (leaves n) (fst p) (snd p)) else p) paths
  else paths.
(** eval.py:878-909, level by level *)
Fixpoint la_levels (fuel : nat) (dellabel : list pystr) (thislevel : list (tree pystr nat)) (paths : list (nat * list pystr)) : list (nat * list pystr) :=
  match fuel, thislevel with
  | S f, _ :: _ =>
    la_levels f dellabel
      (flat_map (fun n => match n with Node _ ts => if phrasal n && nonempty (leaves n) then ts else [] | Leaf _ => [] end) thislevel)
      (fold_left (visit dellabel) thislevel paths)
  | _, _ => paths
  end.
(** the keys are the leaves, in ascending order *)
Definition leafancestorpaths (dellabel : list pystr) (t : tree pystr nat) : list (nat * list pystr) :=
  la_levels (S (size t)) dellabel [t] (map (fun a => (a, [])) (sort Nat.leb (leaves t))).
Fixpoint nlookup {V} (k : nat) (l : list (nat * V)) : option V :=
  match l with [] => None | (k', v) :: r => if k =? k' then Some v else nlookup k r end.
Fixpoint allsome {X} (l : list (option X)) : option (list X) :=
  match l with [] => Some [] | Some x :: r => option_map (cons x) (allsome r) | None :: _ => None end.
(** eval.py:917-924; the outer None is a KeyError *)
Definition leafancestor (gold cand : tree pystr nat) (dellabel : list pystr) : option (option Qc) :=
  let g := leafancestorpaths dellabel gold in
  let c := leafancestorpaths dellabel cand in
  option_map (fun xs => mean (map Some xs))
    (allsome (map (fun p => option_map (pathscore (snd p)) (nlookup (fst p) c)) g)).

(** ** Label equivalence classes *)
Section Closure.
(** The order in which a set is traversed, and which element set.pop() takes. *)
Variable order : list pystr -> list pystr.
Variable pick : list pystr -> nat.
Definition sadd (x : pystr) (s : list pystr) : list pystr := if mems x s then s else x :: s.
Definition edges := list (pystr * list pystr).
(** edges[a] of a defaultdict(set) *)
Fixpoint eget (e : edges) (a : pystr) : list pystr :=
  match e with [] => [] | (k, s) :: r => if eqs a k then s else eget r a end.
Fixpoint eadd (e : edges) (a b : pystr) : edges :=
  match e with [] => [(a, [b])] | (k, s) :: r => if eqs a k then (k, sadd b s) :: r else (k, s) :: eadd r a b end.
(** eval.py:722-725 *)
Definition mkedges (eqpairs : list (pystr * pystr)) : edges :=
  fold_left (fun e p => eadd (eadd e (fst p) (snd p)) (snd p) (fst p)) eqpairs [].
Definition epop (e : edges) (a : pystr) : edges := filter (fun p => negb (eqs a (fst p))) e.
(** agenda.pop() *)
Definition pop (agenda : list pystr) : option (pystr * list pystr) :=
  match agenda with
  | [] => None
  | x :: _ => let n := pick agenda mod length agenda in
              Some (nth n agenda x, firstn n agenda ++ skipn (S n) agenda)
  end.
(** eval.py:733-737: (class, seen) *)
Fixpoint closure_loop (fuel : nat) (e : edges) (agenda cls seen : list pystr) : list pystr * list pystr :=
  match fuel, pop agenda with
  | S f, Some (x, agenda') =>
    let seen' := sadd x seen in
    closure_loop f e (fold_left (fun ag y => sadd y ag) (filter (fun y => negb (mems y seen')) (eget e x)) agenda') (sadd x cls) seen'
  | _, _ => (cls, seen)
  end.
(** eval.py:728-738 *)
Fixpoint classes_loop (elems : list pystr) (e : edges) (seen : list pystr) (fuel : nat) : list (pystr * list pystr) :=
  match elems with
  | [] => []
  | x :: r =>
    if mems x seen then classes_loop r e seen fuel
    else let agenda := eget e x in
         let e' := epop e x in
         let '(cls, seen') := closure_loop fuel e' agenda [] seen in
         (x, cls) :: classes_loop r e' seen' fuel
  end.
(** eval.py:710-739 *)
Definition transitiveclosure (eqpairs : list (pystr * pystr)) : list (pystr * list pystr) :=
  let e := mkedges eqpairs in classes_loop (order (map fst e)) e [] (S (length e)).
(** eval.py:704-706: every label to the representative of its class (a dict
    comprehension: a later class would override an earlier one) *)
Definition representative (eqpairs : list (pystr * pystr)) (x : pystr) : option pystr :=
  option_map fst (find (fun c => mems x (snd c)) (rev (transitiveclosure eqpairs))).
End Closure.

(** ** Bit sets *)
(** treetransforms.py:929-938 getbits *)
Fixpoint getbits_loop (fuel : nat) (b : N) (n : nat) : list nat :=
  match fuel with
  | O => []
  | S f => if N.eqb b 0 then [] else (if N.odd b then [n] else []) ++ getbits_loop f (N.shiftr b 1) (S n)
  end.
Definition getbits (b : N) : list nat := getbits_loop (N.size_nat b) b 0.
(** eval.py:1017-1028 intervals *)
Fixpoint intervals_loop (l : list nat) (start prev : nat) : list (nat * nat) :=
  match l with
  | [] => [(start, prev)]
  | a :: r => if a =? prev + 1 then intervals_loop r start a else (start, prev) :: intervals_loop r a a
  end.
Definition intervals (b : N) : list (nat * nat) :=
  match getbits b with [] => [] | a :: r => intervals_loop r a a end.

(** eval.py:742-760 alignsent *)
Fixpoint alignsent (csent gsent : list pystr) (gpos : list pystr) (n : nat) : list (nat * pystr) :=
  match csent, gsent, gpos with
  | c :: cs, g :: gs, t :: ts => if eqs c g then (n, t) :: alignsent cs gs ts (S n) else alignsent csent gs ts n
  | _, _, _ => []
  end.
