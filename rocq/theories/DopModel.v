(** Model of the DOP reduction, discodop/grammar.py:116-181 dopreduction,
    677-696 sortgrammar, 789-821 nodefreq, 824-885 TreeDecorator, 1048-1057
    cartpi, and of discodop/tree.py:947-985 DiscTree. *)
From Coq Require Import String.
From Coq Require Import List Bool Arith NArith ZArith QArith Qcanon.
From Verif Require Import PyStr TreeModel BracketModel BinarizeModel TransformModel LcfrsModel TreebankModel.
Import ListNotations.
Open Scope list_scope.
Open Scope nat_scope.

(** ---- tree.py:947-985 DiscTree: a tree of indices with its sentence.
    sent[a] for an index outside of the sentence is an IndexError in the code;
    here it is compared as a missing word. ---- *)
Definition sentence := list (option pystr).
Definition word_at (sent : sentence) (a : nat) : option pystr := match nth_error sent a with Some w => w | None => None end.
Definition eqo (a b : option pystr) : bool := match a, b with Some x, Some y => eqs x y | None, None => true | _, _ => false end.
(** tree.py:960-975 __eq__: the loop returns at the first pair of terminals *)
Fixpoint disc_eq (s1 s2 : sentence) (t1 t2 : tree pystr nat) {struct t1} : bool :=
  match t1, t2 with
  | Node l1 ts1, Node l2 ts2 =>
    eqs l1 l2 && (length ts1 =? length ts2) &&
    (fix go (as_ bs : list (tree pystr nat)) {struct as_} : bool :=
       match as_, bs with
       | a :: as', b :: bs' =>
         match a, b with
         | Leaf i, Leaf j => eqo (word_at s1 i) (word_at s2 j)          (* 971-972: return *)
         | Node _ _, Node _ _ => if disc_eq s1 s2 a b then go as' bs' else false
         | _, _ => false                                                  (* 969-970 *)
         end
       | _, _ => true
       end) ts1 ts2
  | _, _ => false
  end.
(** tree.py:977-980 __hash__: the hash of a tuple of hashes and words, for any
    hash function [h] of tuples and any embedding [hw] of words *)
Fixpoint disc_hash {H} (h : pystr -> list H -> H) (hw : option pystr -> H) (s : sentence) (t : tree pystr nat) : H :=
  match t with
  | Leaf a => hw (word_at s a)
  | Node l ts => h l (map (disc_hash h hw s) ts)
  end.

(** ---- grammar.py:824-885 TreeDecorator ---- *)
(** '%s@%d-%d' % (label, n, m) *)
Definition address (l : pystr) (n m : nat) : pystr := l ++ str "@" ++ dec n ++ str "-" ++ dec m.
(** 861-864: enumerate(islice(dectree.subtrees(), 1, None)); subtrees() is
    preorder (C16_subtrees_preorder), which the counter m follows *)
Fixpoint numbernodes (n : nat) (t : tree pystr nat) (m : nat) : tree pystr nat * nat :=
  match t with
  | Leaf a => (Leaf a, m)
  | Node l ts =>
    let '(ts', m') := (fix go (ts : list (tree pystr nat)) (m : nat) :=
       match ts with
       | [] => ([], m)
       | c :: r => let '(c', m1) := numbernodes n c m in let '(r', m2) := go r m1 in (c' :: r', m2)
       end) ts (S m) in
    (Node (address l n m) ts', m')
  end.
Definition numberlist (n : nat) : list (tree pystr nat) -> nat -> list (tree pystr nat) * nat :=
  fix go (ts : list (tree pystr nat)) (m : nat) :=
    match ts with
    | [] => ([], m)
    | c :: r => let '(c', m1) := numbernodes n c m in let '(r', m2) := go r m1 in (c' :: r', m2)
    end.
(** self.packedgraphs: keys are DiscTree objects, i.e., a tree with a sentence.
    A lookup compares with __eq__ (for equal hashes; C38 for when equal objects
    have equal hashes) *)
Definition packed := list ((tree pystr nat * sentence) * tree pystr nat).
Fixpoint plookup (sent : sentence) (t : tree pystr nat) (pg : packed) : option (tree pystr nat) :=
  match pg with
  | [] => None
  | ((k, s), v) :: r => if disc_eq s sent k t then Some v else plookup sent t r
  end.
(** 879-885 _copyexceptindices; the labels of tree2, the indices of tree1;
    returns the new value of self.ids *)
Fixpoint copyexceptindices (t1 t2 : tree pystr nat) (ids : nat) {struct t1} : tree pystr nat * nat :=
  match t1, t2 with
  | Leaf a, _ => (Leaf a, ids)
  | Node l1 ts1, Node l2 ts2 =>
    let '(ts', ids') := (fix go (as_ bs : list (tree pystr nat)) (ids : nat) {struct as_} :=
       match as_, bs with
       | a :: as', b :: bs' => let '(c, i1) := copyexceptindices a b ids in let '(r, i2) := go as' bs' i1 in (c :: r, i2)
       | _, _ => ([], ids)
       end) ts1 ts2 (S ids) in
    (Node l2 ts', ids')
  | Node l1 ts1, Leaf _ => (t1, S ids)                (* not reached: AttributeError *)
  end.
(** 868-877 _recdecorate *)
Fixpoint recdecorate (sent : sentence) (n : nat) (t : tree pystr nat) (ids : nat) (pg : packed) {struct t} : tree pystr nat * nat * packed :=
  match t with
  | Leaf a => (Leaf a, ids, pg)
  | Node l ts =>
    match plookup sent t pg with
    | None =>
      let '(ts', ids', pg') := (fix go (ts : list (tree pystr nat)) (ids : nat) (pg : packed) :=
         match ts with
         | [] => ([], ids, pg)
         | c :: r => let '(c', i1, p1) := recdecorate sent n c ids pg in let '(r', i2, p2) := go r i1 p1 in (c' :: r', i2, p2)
         end) ts (S ids) pg in
      let d := Node (address l n (S ids)) ts' in
      (d, ids', ((t, sent), d) :: pg')
    | Some v => let '(c, i) := copyexceptindices t v ids in (c, i, pg)
    end
  end.
Definition reclist (sent : sentence) (n : nat) : list (tree pystr nat) -> nat -> packed -> list (tree pystr nat) * nat * packed :=
  fix go ts ids pg :=
    match ts with
    | [] => ([], ids, pg)
    | c :: r => let '(c', i1, p1) := recdecorate sent n c ids pg in let '(r', i2, p2) := go r i1 p1 in (c' :: r', i2, p2)
    end.
Record decorator := mkDec { memoize : bool; dn : nat; packedgraphs : packed }.
(** 832-836 *)
Definition newdecorator (memo : bool) : decorator := mkDec memo 1 [].
(** 838-866 *)
Definition decorate (d : decorator) (t : tree pystr nat) (sent : sentence) : tree pystr nat * decorator :=
  match t with
  | Leaf a => (Leaf a, d)                              (* not a Tree object *)
  | Node l ts =>
    if memoize d then
      let '(ts', _, pg) := reclist sent (dn d) ts 0 (packedgraphs d) in
      (Node l ts', mkDec true (S (dn d)) pg)
    else (Node l (fst (numberlist (dn d) ts 0)), mkDec false (S (dn d)) (packedgraphs d))
  end.

(** ---- defaultdict(int): the value of a missing key is 0 ---- *)
Definition dict := pystr -> N.
Definition dempty : dict := fun _ => 0%N.
Definition dadd (k : pystr) (n : N) (d : dict) : dict := fun x => if eqs x k then (d x + n)%N else d x.
Definition dset (k : pystr) (n : N) (d : dict) : dict := fun x => if eqs x k then n else d x.

(** ---- grammar.py:789-821 nodefreq; returns n and the new subtreefd, nonterminalfd ---- *)
Fixpoint nodefreq (t dt : tree pystr nat) (fd nt : dict) {struct t} : N * dict * dict :=
  match t, dt with
  | Node l ts, Node dl dts =>
    let nt0 := dadd dl 1 (dadd l 1 nt) in                         (* 806-807 *)
    let '(n, fd1, nt1) :=
      match ts with
      | Node _ _ :: _ =>                                          (* 808-810 *)
        (fix go (xs uxs : list (tree pystr nat)) (n : N) (fd nt : dict) {struct xs} : N * dict * dict :=
           match xs, uxs with
           | x :: xs', ux :: uxs' => let '(m, fd', nt') := nodefreq x ux fd nt in go xs' uxs' (n * (m + 1))%N fd' nt'
           | _, _ => (n, fd, nt)
           end) ts dts 1%N fd nt0
      | _ => (1%N, fd, nt0)                                       (* 811-812 *)
      end in
    let fd2 := dadd l n fd1 in                                    (* 813 *)
    (n, if eqs dl l then fd2 else dset dl n fd2, nt1)            (* 816-819 *)
  | _, _ => (0%N, fd, nt)                                         (* not reached *)
  end.
Definition freqlist : list (tree pystr nat) -> list (tree pystr nat) -> N -> dict -> dict -> N * dict * dict :=
  fix go xs uxs n fd nt :=
    match xs, uxs with
    | x :: xs', ux :: uxs' => let '(m, fd', nt') := nodefreq x ux fd nt in go xs' uxs' (n * (m + 1))%N fd' nt'
    | _, _ => (n, fd, nt)
    end.

(** ---- grammar.py:1048-1057 cartpi: recursion on seq[:-1]; the argument is the
    reversed sequence ---- *)
Fixpoint cartpi_rev {X} (rseq : list (list X)) : list (list X) :=
  match rseq with
  | [] => [[]]
  | options :: r => flat_map (fun b => map (fun a => b ++ [a]) options) (cartpi_rev r)
  end.
Definition cartpi {X} (sq : list (list X)) : list (list X) := cartpi_rev (rev sq).

(** a production as the tuple of grammar.py:62-96: non-terminals, and word or
    yield function *)
Inductive pvar := PWord (w : pystr) | PYf (yf : list (list nat)).
Definition rule := (list pystr * pvar)%type.
Definition astuple (p : prod) : rule :=
  match p with
  | Lexical l w => ([l; str "Epsilon"], PWord w)
  | Frontier l => ([l], PYf [])
  | Phrasal l rhs yf => (l :: rhs, PYf yf)
  end.
Definition pvar_eqb (a b : pvar) : bool :=
  match a, b with
  | PWord x, PWord y => eqs x y
  | PYf x, PYf y => eqll (eqll Nat.eqb) x y
  | _, _ => false
  end.
Definition rule_eqb (a b : rule) : bool := eqll eqs (fst a) (fst b) && pvar_eqb (snd a) (snd b).
(** rules[c, avar] += 1 *)
Fixpoint radd (r : rule) (c : list (rule * N)) : list (rule * N) :=
  match c with
  | [] => [(r, 1%N)]
  | (r', n) :: q => if rule_eqb r r' then (r', (n + 1)%N) :: q else (r', n) :: radd r q
  end.
(** '@' in s *)
Definition addressed (s : pystr) : bool := existsb (N.eqb (ch "@")) s.
(** 147-150, one pair of productions; None: the assertion at 148 fails *)
Definition options (x y : pystr) : list pystr := if eqs x y then [x] else [x; y].
Fixpoint zipwith {X Y Z} (f : X -> Y -> Z) (a : list X) (b : list Y) : list Z :=
  match a, b with x :: a', y :: b' => f x y :: zipwith f a' b' | _, _ => [] end.
Definition rulesof (p u : prod) : option (list rule) :=
  let '(a, avar) := astuple p in let '(b, bvar) := astuple u in
  if pvar_eqb avar bvar then Some (map (fun c => (c, avar)) (cartpi (zipwith options a b))) else None.
(** 147: zip(prods, uprods) *)
Fixpoint allrules (ps us : list prod) : option (list rule) :=
  match ps, us with
  | p :: ps', u :: us' =>
    match rulesof p u, allrules ps' us' with Some a, Some b => Some (a ++ b) | _, _ => None end
  | _, _ => Some []
  end.
(** state of the loop at 141-150 *)
Record dstate := mkSt { st_dec : decorator; st_fd : dict; st_ntfd : dict; st_rules : list (rule * N) }.
Definition addtree (s : dstate) (ts : tree pystr nat * sentence) : option dstate :=
  let '(t, sent) := ts in
  match lcfrsproductions t sent false with
  | PError => None
  | PRules prods =>
    let '(dectree, d') := decorate (st_dec s) t sent in
    match lcfrsproductions dectree sent false with
    | PError => None
    | PRules uprods =>
      let '(_, fd, nt) := nodefreq t dectree (st_fd s) (st_ntfd s) in
      match allrules prods uprods with
      | None => None
      | Some rs => Some (mkSt d' fd nt (fold_left (fun c r => radd r c) rs (st_rules s)))
      end
    end
  end.
Fixpoint addtrees (s : dstate) (tb : list (tree pystr nat * sentence)) : option dstate :=
  match tb with [] => Some s | ts :: r => match addtree s ts with Some s' => addtrees s' r | None => None end end.
(** ---- 156-176 weights; 1/2, 1/4 etc. as rational numbers ---- *)
Definition Nq (n : N) : Qc := Q2Qc (Z.of_N n # 1).
Definition lhs (r : rule) : pystr := hd [] (fst r).
Definition rfe_of (fd : dict) (rf : rule * N) : N :=
  let '(r, freq) := rf in
  fold_left N.mul (map fd (filter addressed (tl (fst r)))) (if addressed (lhs r) then 1%N else freq).
Definition ewe_of (fd nt : dict) (rf : rule * N) : Qc :=
  (Nq (rfe_of fd rf) / Nq (fd (lhs (fst rf)) * (if addressed (lhs (fst rf)) then 1 else nt (lhs (fst rf)))))%Qc.
Definition shortest_of (rf : rule * N) : Qc := if addressed (lhs (fst rf)) then 1%Qc else Q2Qc (1 # 2).
Definition bon_of (nt : dict) (rf : rule * N) : Qc :=
  if addressed (lhs (fst rf)) then Q2Qc (1 # 4) else (1 / Nq (4 * nt (lhs (fst rf))))%Qc.
(** ---- 677-690 sortgrammar: stable sort by (word or '', '}<' in lhs, lhs);
    strings are compared by code points ---- *)
Fixpoint strle (a b : pystr) : bool :=
  match a, b with
  | [], _ => true
  | _ :: _, [] => false
  | x :: a', y :: b' => if N.ltb x y then true else if N.ltb y x then false else strle a' b'
  end.
Definition sortkey (rf : rule * N) : pystr * bool * pystr :=
  let '((nts, v), _) := rf in
  (match v with PWord w => w | PYf _ => [] end, contains (hd [] nts) (str "}<"), hd [] nts).
Definition key_le (a b : pystr * bool * pystr) : bool :=
  let '(w1, b1, l1) := a in let '(w2, b2, l2) := b in
  if negb (eqs w1 w2) then strle w1 w2
  else if negb (Bool.eqb b1 b2) then negb b1 else strle l1 l2.
Definition sortgrammar (c : list (rule * N)) : list (rule * N) := sort (fun a b => key_le (sortkey a) (sortkey b)) c.
(** the result: rules with rfe weight, and the three lists of alternate weights *)
Record dopgrammar := mkDop { dop_rules : list (rule * N); dop_ewe : list Qc; dop_shortest : list Qc; dop_bon : list Qc }.
(** grammar.py:116-181, with decorator=None and extrarules=None.  An exception
    is None.  (zip of an empty list of rules raises a ValueError.)  Weights are
    exact rationals instead of doubles. *)
Definition dopreduction (tb : list (tree pystr nat * sentence)) (packedgraph : bool) : option dopgrammar :=
  match addtrees (mkSt (newdecorator packedgraph) dempty dempty []) tb with
  | None => None
  | Some s =>
    match sortgrammar (st_rules s) with
    | [] => None
    | rules => Some (mkDop (map (fun rf => (fst rf, rfe_of (st_fd s) rf)) rules) (map (ewe_of (st_fd s) (st_ntfd s)) rules)
                           (map shortest_of rules) (map (bon_of (st_ntfd s)) rules))
    end
  end.

(** the examples of the docstrings, grammar.py:797-804 and 841-853 *)
Definition doc1 := Node (str "S") [Node (str "NP") [Leaf 0]; Node (str "VP") [Leaf 1]].
Definition sent1 : sentence := map Some [str "mary"; str "walks"].
Example nodefreq_doc : let '(n, fd, _) := nodefreq doc1 (fst (decorate (newdecorator false) doc1 sent1)) dempty dempty in
  n = 4%N /\ map (fun s => fd (str s)) ["S"; "NP"; "VP"; "NP@1-0"; "VP@1-1"; "S@1"]%string = [4; 1; 1; 1; 1; 0]%N.
Proof. vm_compute. repeat split. Qed.
Definition doc2 := Node (str "S") [Node (str "NP") [Node (str "DT") [Leaf 0]; Node (str "N") [Leaf 1]]; Node (str "VP") [Leaf 2]].
Definition sent2 : sentence := map Some [str "the"; str "dog"; str "walks"].
Definition sent3 : sentence := map Some [str "the"; str "dog"; str "barks"].
Example decorate_doc : fst (decorate (newdecorator false) doc2 sent2)
  = Node (str "S") [Node (str "NP@1-0") [Node (str "DT@1-1") [Leaf 0]; Node (str "N@1-2") [Leaf 1]]; Node (str "VP@1-3") [Leaf 2]].
Proof. reflexivity. Qed.
Example decorate_doc_memo : let '(d1, s) := decorate (newdecorator true) doc2 sent2 in
  d1 = Node (str "S") [Node (str "NP@1-1") [Node (str "DT@1-2") [Leaf 0]; Node (str "N@1-3") [Leaf 1]]; Node (str "VP@1-4") [Leaf 2]] /\
  fst (decorate s doc2 sent3) = Node (str "S") [Node (str "NP@1-1") [Node (str "DT@1-2") [Leaf 0]; Node (str "N@1-3") [Leaf 1]]; Node (str "VP@2-4") [Leaf 2]].
Proof. vm_compute. split; reflexivity. Qed.
