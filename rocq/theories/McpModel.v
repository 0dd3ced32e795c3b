(** Model of the Max Constituents Parse of
    /repo/discodop/disambiguation.pyx (maxconstituentsparse 290-396, gettree
    398-409).

    A derivation is given as the binary tree that results from lines 330-338
    (recovered, debinarized, unaries collapsed and rebinarized: those
    transformations are the subject of other properties), with its probability
    exp(-prob), a rational number (floating point is not modelled).  The
    resulting string is modelled as the list of trees it denotes. *)
From Coq Require Import String.
From Coq Require Import List Bool Arith NArith ZArith QArith.
From Verif Require Import PyStr BitsModel.
Import ListNotations.
Local Open Scope list_scope.

(** dictionaries in insertion order *)
Section Dict.
  Context {K V : Type}.
  Variable eqb : K -> K -> bool.
  Fixpoint dget (k : K) (m : list (K * V)) : option V :=
    match m with
    | [] => None
    | (k', v) :: m' => if eqb k k' then Some v else dget k m'
    end.
  Fixpoint dput (k : K) (v : V) (m : list (K * V)) : list (K * V) :=
    match m with
    | [] => [(k, v)]
    | (k', v') :: m' => if eqb k k' then (k', v) :: m' else (k', v') :: dput k v m'
    end.
End Dict.

(** binary trees: preterminals over a word position, and nodes with 2 children *)
Inductive bt := BLeaf (l : pystr) (i : N) | BNode (l : pystr) (a b : bt).
(** treetransforms.py:941-957 addbitsets *)
Fixpoint bitset (t : bt) : N :=
  match t with
  | BLeaf _ i => N.shiftl 1 i
  | BNode _ a b => N.lor (bitset a) (bitset b)
  end.
(** 340: tree.subtrees(), the labels and bitsets, in preorder *)
Fixpoint subtrees (t : bt) : list (pystr * N) :=
  match t with
  | BLeaf l i => [(l, N.shiftl 1 i)]
  | BNode l a b => (l, N.lor (bitset a) (bitset b)) :: subtrees a ++ subtrees b
  end.

(** 311-313: table[start][spanlen][span][label] = prob.  start and spanlen are
    functions of span, so the table is indexed by span only; line 353 selects by
    start and spanlen. *)
Definition tablecell := list (pystr * Q).
Definition table := list (N * tablecell).

(** 346: '|<' not in t.label and (labels is None or t.label in labels) *)
Definition counted (labels : option (list pystr)) (l : pystr) : bool :=
  negb (contains l (str "|<"))
  && match labels with None => true | Some ls => existsb (eqs l) ls end.

(** 344-347 *)
Definition addconst (labels : option (list pystr)) (w : Q) (tb : table) (ls : pystr * N) : table :=
  let '(l, s) := ls in
  let cell := match dget N.eqb s tb with Some c => c | None => [] end in
  let cell := match dget eqs l cell with Some _ => cell | None => dput eqs l 0 cell end in
  let cell := if counted labels l
              then dput eqs l (match dget eqs l cell with Some p => p | None => 0 end + w) cell
              else cell in
  dput N.eqb s cell tb.
(** 327-347; 339: sentprob += exp(-prob) *)
Definition addtree (labels : option (list pystr)) (tb : table) (d : bt * Q) : table :=
  fold_left (addconst labels (snd d)) (subtrees (fst d)) tb.
Definition marginals (labels : option (list pystr)) (ds : list (bt * Q)) : table :=
  fold_left (addtree labels) ds [].
Definition sentprob (ds : list (bt * Q)) : Q := fold_left (fun p d => p + snd d) ds 0.

Definition NONCONSTLABEL : pystr := [].
Definition NEGATIVECONSTLABEL : pystr := str "-#-".

(** 356-357: max(tablecell.items(), key=itemgetter(1)): the first maximum *)
Fixpoint maxitem (x : pystr * Q) (l : tablecell) : pystr * Q :=
  match l with
  | [] => x
  | y :: l' => maxitem (if Qlt_le_dec (snd x) (snd y) then y else x) l'
  end.
Definition maxlabelof (cell : tablecell) : pystr * Q :=
  match cell with [] => (NONCONSTLABEL, 0) | x :: l => maxitem x l end.

(** cells[span] = (label, score, leftspan) *)
Definition cell := (pystr * Q * option N)%type.
Definition cells := list (N * cell).
Definition c_label (c : cell) := fst (fst c).
Definition c_score (c : cell) := snd (fst c).
Definition c_left (c : cell) := snd c.

Definition startof (s : N) : Z := pyintnextset s 0.
Definition lenof (s : N) : nat := N.to_nat (pyintbitcount s).
(** table[start][spanlen] *)
Definition at_ (tb : table) (start : Z) (len : nat) : list (N * tablecell) :=
  filter (fun x => Z.eqb (startof (fst x)) start && Nat.eqb (lenof (fst x)) len) tb.

(** 361-371, one iteration of the loop over leftspan; None: KeyError *)
Definition trysplit (cs : cells) (span : N) (st : option (Q * option N)) (leftspan : N)
    : option (Q * option N) :=
  match st with
  | None => None
  | Some (maxcombscore, maxleft) =>
      if negb (N.eqb (N.land span leftspan) leftspan) then st
      else match dget N.eqb leftspan cs with
      | None => None
      | Some cl =>
          if eqs (c_label cl) NONCONSTLABEL then st
          else
            let rightspan := N.ldiff span leftspan in
            match dget N.eqb rightspan cs with
            | None => st
            | Some cr =>
                if eqs (c_label cr) NONCONSTLABEL then st
                else
                  let score := c_score cl + c_score cr in
                  if Qlt_le_dec maxcombscore score then Some (score, Some leftspan) else st
            end
      end
  end.
(** 359-371; 360-361: for spans in table[start][1:spanlen]: for leftspan in spans *)
Definition bestsplit (tb : table) (cs : cells) (span : N) : option (Q * option N) :=
  fold_left (trysplit cs span)
    (flat_map (fun len => map fst (at_ tb (startof span) len)) (seq 1 (lenof span - 1)))
    (Some (0, None)).
(** 353-382, the body of the loop for one span; None: KeyError *)
Definition fillcell (labda total : Q) (n : nat) (tb : table) (cs : option cells)
    (x : N * tablecell) : option cells :=
  match cs with
  | None => None
  | Some cs =>
      let '(span, tc) := x in
      let '(maxlabel, maxscore) := maxlabelof tc in
      match bestsplit tb cs span with
      | None => None
      | Some (maxcombscore, maxleft) =>
          let score := maxscore / total in
          let contribution := score - labda * (1 - score) in
          Some (dput N.eqb span
            (if Qlt_le_dec contribution 0
             then ((if (1 <? lenof span) && (lenof span <? n) then NEGATIVECONSTLABEL else maxlabel),
                   maxcombscore, maxleft)
             else (maxlabel, maxcombscore + contribution, maxleft)) cs)
      end
  end.
(** 351-353: the order in which the spans are considered *)
Definition spanorder (n : nat) (tb : table) : list (N * tablecell) :=
  flat_map (fun spanlen => flat_map (fun start => at_ tb (Z.of_nat start) spanlen)
    (seq 0 (n - spanlen + 1))) (seq 1 n).
Definition fillcells (labda total : Q) (n : nat) (tb : table) : option cells :=
  fold_left (fillcell labda total n tb) (spanorder n tb) (Some []).

(** the trees of the resulting string *)
Inductive otree := OLeaf (l : pystr) (i : Z) | ONode (l : pystr) (ts : list otree).
(** 398-409 gettree; the result is a list because of line 406; None: ValueError or
    not enough fuel.  403: "leftspan not in cells" also covers None. *)
Fixpoint gettree (fuel : nat) (cs : cells) (span : N) : option (list otree) :=
  match fuel with
  | O => None
  | S fuel =>
      match dget N.eqb span cs with
      | None => None
      | Some c =>
          match c_left c with
          | None => Some [OLeaf (c_label c) (startof span)]
          | Some leftspan =>
              match dget N.eqb leftspan cs with
              | None => Some [OLeaf (c_label c) (startof span)]
              | Some _ =>
                  match gettree fuel cs leftspan, gettree fuel cs (N.ldiff span leftspan) with
                  | Some a, Some b =>
                      if eqs (c_label c) NONCONSTLABEL || eqs (c_label c) NEGATIVECONSTLABEL
                      then Some (a ++ b) else Some [ONode (c_label c) (a ++ b)]
                  | _, _ => None
                  end
              end
          end
      end
  end.
(** 290-396; 386: tree is the tree of the last derivation.  None: KeyError, or
    [], 'MCP failed' (388-391). *)
Definition mcp (labda : Q) (labels : option (list pystr)) (n : nat) (ds : list (bt * Q))
    : option (list otree) :=
  let tb := marginals labels ds in
  match fillcells labda (sentprob ds) n tb, rev ds with
  | Some cs, (t, _) :: _ => gettree (S n) cs (bitset t)
  | _, _ => None
  end.
