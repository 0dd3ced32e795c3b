(** Model of Negra's export format in discodop/treebank.py: writeexporttree,
    exporttree, exportsplit and NegraCorpusReader._read_blocks.

    A label is the label of a node together with its source: None, or the
    lemma, morphology and function fields of the tuple.  Not modelled: secondary
    edges (fields beyond the sixth), the options functions, morphology and
    lemmas (they are None: handlefunctions 939-940 and handlemorphology do
    nothing), files (a file is the list of its lines), warnings. *)
From Coq Require Import String.
From Coq Require Import List Bool Arith NArith Lia.
From Verif Require Import PyStr TreeModel BracketModel TransformModel.
Import ListNotations.
Open Scope list_scope.
Open Scope nat_scope.

Definition source := (pystr * pystr * pystr)%type.     (* LEMMA, MORPH, FUNC *)
Definition elabel := (pystr * option source)%type.
Notation etree := (tree elabel nat).
Notation path := (list nat).
Definition tab : char := 9%N.
Definition none : pystr := str "--".
Definition orelse (s d : pystr) : pystr := match s with [] => d | _ => s end.   (* s or d *)

(** ---- Python runtime: str.split(), rstrip(), strip(), startswith, split('%%') ---- *)
Fixpoint split_go (s cur : pystr) : list pystr :=
  match s with
  | [] => match cur with [] => [] | _ => [cur] end
  | c :: r => if isspace c then match cur with [] => split_go r [] | _ => cur :: split_go r [] end else split_go r (cur ++ [c])
  end.
Definition split (s : pystr) : list pystr := split_go s [].
Fixpoint lstrip (s : pystr) : pystr := match s with c :: r => if isspace c then lstrip r else s | [] => [] end.
Definition rstrip (s : pystr) : pystr := rev (lstrip (rev s)).
Definition strip (s : pystr) : pystr := rstrip (lstrip s).
Definition pct : char := 37%N.
(** the part before the first '%%', and the part after it if there is one *)
Fixpoint cut (s : pystr) : pystr * option pystr :=
  match s with
  | [] => ([], None)
  | c :: r => match r with
              | d :: r' => if N.eqb c pct && N.eqb d pct then ([], Some r') else let '(a, b) := cut r in (c :: a, b)
              | [] => ([c], None)
              end
  end.

(** ---- treebank.py:753-827 writeexporttree ---- *)
(** 767-779: the agenda has the node to be popped first; nodes are identified by
    their position in the tree.  phrasalnodes is appended to and reversed
    afterwards, that is, nodes are added in front.  None: an exception (a
    terminal outside of a preterminal). *)
Definition children_of (p : path) (ts : list etree) : list (path * etree) := map (fun kc => (p ++ [fst kc], snd kc)) (combine (seq 0 (length ts)) ts).
Fixpoint setpre (n : nat) (v : path * elabel) (d : list (nat * (path * elabel))) : list (nat * (path * elabel)) :=
  match d with [] => [(n, v)] | (m, w) :: r => if m =? n then (n, v) :: r else (m, w) :: setpre n v r end.
Fixpoint agendaloop (fuel : nat) (agenda : list (path * etree)) (preterms : list (nat * (path * elabel))) (phrasalnodes : list (path * etree))
  : option (list (nat * (path * elabel)) * list (path * etree)) :=
  match agenda with
  | [] => Some (preterms, phrasalnodes)
  | (p, node) :: r =>
    match fuel with
    | O => None
    | S f =>
      match node with
      | Leaf _ => None
      | Node l ts =>
        match ts with
        | Leaf a :: _ => agendaloop f r (setpre a (p, l) preterms) phrasalnodes
        | _ => agendaloop f (rev (children_of p ts) ++ r) preterms ((p, node) :: phrasalnodes)
        end
      end
    end
  end.
Fixpoint pathindex (p : path) (ns : list (path * etree)) : nat :=
  match ns with [] => 0 | (q, _) :: r => if list_eq_dec Nat.eq_dec p q then 0 else S (pathindex p r) end.
(** 805-806, 819-820: the number of the parent *)
Definition parentid (ns : list (path * etree)) (p : path) : pystr :=
  match removelast p with [] => dec 0 | q => dec (500 + pathindex q ns) end.
Definition f_lemma (o : option source) : pystr := match o with Some (l, _, _) => orelse l none | None => none end.
Definition f_morph (o : option source) : pystr := match o with Some (_, m, _) => orelse m none | None => none end.
Definition f_func (o : option source) : pystr := match o with Some (_, _, f) => orelse f none | None => none end.
(** 789-791 *)
Definition written (w : option pystr) : pystr := match w with Some (c :: r) => c :: r | _ => str "..." end.
(** 794 *)
Definition postag (l : pystr) : pystr := orelse (replace l (str "$[") (str "$(")) none.
Definition termrow (ns : list (path * etree)) (w : option pystr) (v : path * elabel) : list pystr :=
  let '(p, (l, src)) := v in [written w; f_lemma src; postag l; f_morph src; f_func src; parentid ns p].
Definition noderow (ns : list (path * etree)) (n : nat) (v : path * etree) : list pystr :=
  match v with
  | (p, Node (l, src) _) => [35%N :: dec (500 + n); none; orelse l none; f_morph src; f_func src; parentid ns p]
  | (p, Leaf _) => []
  end.
Fixpoint lookup_pre (n : nat) (d : list (nat * (path * elabel))) : option (path * elabel) :=
  match d with [] => None | (m, v) :: r => if m =? n then Some v else lookup_pre n r end.
Fixpoint termrows (ns : list (path * etree)) (preterms : list (nat * (path * elabel))) (n : nat) (sent : list (option pystr)) : option (list (list pystr)) :=
  match sent with
  | [] => Some []
  | w :: r => match lookup_pre n preterms, termrows ns preterms (S n) r with
              | Some v, Some rows => Some (termrow ns w v :: rows)
              | _, _ => None     (* KeyError *)
              end
  end.
Fixpoint noderows (ns : list (path * etree)) (n : nat) (vs : list (path * etree)) : list (list pystr) :=
  match vs with [] => [] | v :: r => noderow ns n v :: noderows ns (S n) r end.
Definition bos (key : pystr) (comment : option pystr) : pystr :=
  str "#BOS " ++ key ++ match comment with Some (c :: r) => str " %% " ++ c :: r | _ => [] end.
Definition eos (key : pystr) : pystr := str "#EOS " ++ key.
(** the lines; 827 joins them and adds a newline.  key is not None. *)
Definition writeexporttree (t : etree) (sent : list (option pystr)) (key : pystr) (comment : option pystr) : option (list pystr) :=
  match t with
  | Leaf _ => None
  | Node _ ts =>
    match agendaloop (size t) (rev (children_of [] ts)) [] [] with
    | None => None
    | Some (preterms, ns) =>
      if length sent =? length preterms then
        match termrows ns preterms 0 sent with
        | Some rows => Some (bos key comment :: map (join [tab]) (rows ++ noderows ns 0 ns) ++ [eos key])
        | None => None
        end
      else None
    end
  end.
Definition text (lines : list pystr) : pystr := join [newline] lines ++ [newline].

(** ---- 582-599 exportsplit ---- *)
Definition exportsplit (line : pystr) : option (list pystr) :=
  let fields := split (fst (cut line)) in
  if length fields <? 5 then None
  else Some (if Nat.odd (length fields) then match fields with w :: r => w :: none :: r | [] => [] end else fields).
Definition fld (i : nat) (row : list pystr) : pystr := nth i row [].
Definition WORD := 0. Definition LEMMA := 1. Definition TAG := 2. Definition MORPH := 3. Definition FUNC := 4. Definition PARENT := 5.
(** 23 EXPORTNONTERMINAL = ^#([5-9][0-9][0-9])$ *)
Definition nonterminal (w : pystr) : option pystr :=
  match w with
  | [h; a; b; c] => if N.eqb h 35 && (N.leb 53 a && N.leb a 57) && isdigit b && isdigit c then Some [a; b; c] else None
  | _ => None
  end.
(** ---- 544-579 exporttree ---- *)
Definition table_sent (table : list (list pystr)) : list pystr :=
  flat_map (fun row => match nonterminal (fld WORD row) with Some _ => [] | None => [fld WORD row] end) table.
(** 570-577: the keys of children, and what is appended (None: KeyError) *)
Definition keys (table : list (list pystr)) : list pystr :=
  str "0" :: flat_map (fun row => match nonterminal (fld WORD row) with Some k => [k] | None => [] end) table.
Definition allparents (table : list (list pystr)) : bool := forallb (fun row => existsb (eqs (fld PARENT row)) (keys table)) table.
Definition childrows (table : list (list pystr)) (parent : pystr) : list (nat * list pystr) :=
  filter (fun nr => eqs (fld PARENT (snd nr)) parent) (combine (seq 0 (length table)) table).
(** .replace('(', '[').replace(')', ']') *)
Definition debracket (s : pystr) : pystr := replace (replace s (str "(") (str "[")) (str ")") (str "]").
Fixpoint all_ok {X} (os : list (option X)) : option (list X) :=
  match os with [] => Some [] | Some x :: r => option_map (cons x) (all_ok r) | None :: _ => None end.
(** 549-564; None: RecursionError (only when an identifier occurs twice) *)
Fixpoint getchildren (fuel : nat) (table : list (list pystr)) (parent : pystr) : option (list etree) :=
  match fuel with
  | O => None
  | S f =>
    all_ok (map (fun nr =>
      let row := snd nr in
      let label := (debracket (fld TAG row), Some (fld LEMMA row, fld MORPH row, fld FUNC row)) in
      match nonterminal (fld WORD row) with
      | Some k => option_map (Node label) (getchildren f table k)
      | None => Some (Node label [Leaf (fst nr)])
      end) (childrows table parent))
  end.
Definition exporttree (block : list pystr) : option (etree * list pystr * option pystr) :=
  let comment := option_map (fun s => strip (fst (cut s))) (snd (cut (hd [] block))) in
  match all_ok (map exportsplit (removelast (tl block))) with
  | None => None
  | Some table =>
    if allparents table then
      match getchildren (S (length table)) table (str "0") with
      | Some ts => Some (Node (str "ROOT", None) ts, table_sent table, comment)
      | None => None
      end
    else None
  end.

(** ---- 309-343 NegraCorpusReader._read_blocks, for the lines of a file ----
    None: ValueError, or IndexError when a marker has no identifier *)
Fixpoint readblocks (lines : list pystr) (started : bool) (sentid : pystr) (block : list pystr) (results : list pystr) : option (list (pystr * list pystr)) :=
  match lines with
  | [] => Some []
  | raw :: rest =>
    let line := rstrip raw in
    if startswith line (str "#BOS ") then
      if started then None
      else match split line with _ :: i :: _ => readblocks rest true i [line] results | _ => None end
    else if startswith line (str "#EOS ") then
      if negb started then None
      else match split line with
           | _ :: i :: _ =>
             if negb (eqs sentid i) then None
             else if existsb (eqs sentid) results then None
             else option_map (cons (sentid, block ++ [line])) (readblocks rest false sentid (block ++ [line]) (sentid :: results))
           | _ => None
           end
    else if started then readblocks rest started sentid (block ++ [line]) results
    else readblocks rest started sentid block results
  end.
(** Python runtime: iterating over a file opened in text mode (treebank.py:319;
    universal newlines) *)
Fixpoint filelines (s cur : pystr) : list pystr :=
  match s with
  | [] => match cur with [] => [] | _ => [cur] end
  | c :: r => if N.eqb c newline then (cur ++ [newline]) :: filelines r []
              else if N.eqb c 13 then match r with
                                      | d :: r' => if N.eqb d newline then (cur ++ [newline]) :: filelines r' [] else (cur ++ [newline]) :: filelines r []
                                      | [] => [cur ++ [newline]]
                                      end
              else filelines r (cur ++ [c])
  end.
(** 177-197 _parsetree, without removeempty, ensureroot, punct, headrules: the
    children of all nodes are sorted bottom up, as in canonicalize
    (TransformModel: treetransforms.py) *)
Definition parsetree (item : etree * list pystr * option pystr) : etree * list pystr * option pystr :=
  let '(t, sent, comment) := item in
  match sent with [] => item | _ => (canonicalize t, sent, comment) end.
(** 118-163 itertrees, 345-346: the items of a corpus *)
Definition readcorpus (file : pystr) : option (list (pystr * (etree * list pystr * option pystr))) :=
  match readblocks (filelines file []) false [] [] [] with
  | None => None
  | Some bs => all_ok (map (fun kb => option_map (fun i => (fst kb, parsetree i)) (exporttree (snd kb))) bs)
  end.
