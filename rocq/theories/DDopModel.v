(** Model of Double-DOP grammars: discodop/grammar.py:225-321 dopgrammar (the
    frequency weights), 699-778 flatten, 672-688 sortgrammar (DopModel.v),
    960-989 UniqueIDs; treetransforms.py:384-450 factorconstituent with ids,
    959-981 getyf; discodop/disambiguation.pyx:546-623 recoverfragments.

    Fragments and templates are trees; the code handles them as strings in
    bracket notation (cf. C17) with regular expressions that match frontier
    nodes and terminals, and format strings.  A node number in the format
    string is a [Hole].  Labels and words have no white space or brackets;
    labels of inner nodes have no braces (str.format would fail). *)
From Coq Require Import String.
From Coq Require Import List Bool Arith NArith Lia.
From Verif Require Import PyStr TreeModel BracketModel BinarizeModel TransformModel LcfrsModel TreebankModel DopModel.
Import ListNotations.
Open Scope list_scope.

(** a fragment: (label 0= 2=), (label 1=word), (label child ...) *)
Inductive frag := Site (l : pystr) (idx : list nat) | Term (l : pystr) (i : nat) (w : pystr) | Inner (l : pystr) (ts : list frag).
Definition flabel (f : frag) : pystr := match f with Site l _ => l | Term l _ _ => l | Inner l _ => l end.
(** FRONTIERORTERM.finditer(frag), in the order of the string *)
Fixpoint sites (f : frag) : list frag := match f with Inner _ ts => flat_map sites ts | _ => [f] end.
(** group(3) and the indices of a match *)
Definition fidx (f : frag) : list nat := match f with Site _ idx => idx | Term _ i _ => [i] | Inner _ _ => [] end.
Definition first (f : frag) : nat := hd 0 (fidx f).
(** 729-742 repl: terminals get a unique POS tag *)
Definition wlabel (f : frag) : pystr := match f with Term l _ w => l ++ str "@" ++ w | _ => flabel f end.
(** a match as a node of the flattened tree *)
Definition fnode (f : frag) : tree pystr nat := Node (wlabel f) (map Leaf (fidx f)).
(** 744-749 substleaf, 763: the sentence; terminals have a word *)
Definition fword (f : frag) : option pystr := match f with Term _ _ w => Some w | _ => None end.
Definition fsent (ls : list frag) : sentence :=
  map (fun n => match find (fun f => existsb (Nat.eqb n) (fidx f)) ls with Some f => fword f | None => None end) (seq 0 (S (list_max (flat_map fidx ls)))).
(** 757-761: sorted by the first index *)
Definition first_le (a b : frag) : bool := first a <=? first b.
Definition ordered (f : frag) : list frag := sort first_le (sites f).

(** ** 960-989 UniqueIDs *)
Record ids := mkIds { cnt : nat; seen : list (pystr * nat) }.
Fixpoint idlookup (key : pystr) (d : list (pystr * nat)) : option nat :=
  match d with [] => None | (k, v) :: d => if eqs k key then Some v else idlookup key d end.
Definition getid (key : pystr) (s : ids) : nat * ids :=
  match idlookup key (seen s) with Some v => (v, s) | None => (cnt s, mkIds (S (cnt s)) ((key, cnt s) :: seen s)) end.
Definition nextid (s : ids) : nat * ids := (cnt s, mkIds (S (cnt s)) (seen s)).

(** ** treetransforms.py:959-981 getyf; bitsets as lists of indices *)
Definition memn (n : nat) (l : list nat) : bool := existsb (Nat.eqb n) l.
Fixpoint getyfloop (k n : nat) (l r : list nat) (cur : char) : pystr :=
  match k with
  | O => []
  | S k =>
      let c := if memn n l then ch "0" else if memn n r then ch "1" else ch "," in
      if N.eqb cur c then getyfloop k (S n) l r cur else c :: getyfloop k (S n) l r c
  end.
Definition getyf (l r : list nat) : pystr := str ";" ++ getyfloop (S (list_max (l ++ r))) 0 l r (ch ",").
(** number of spans of consecutive indices (bitfanout) *)
Definition fanoutof (l : list nat) : nat := length (filter (fun n => negb (memn (S n) l)) l).
(** 439-442 *)
Definition fomark (n : nat) : pystr := if 1 <? n then str "_" ++ dec n else [].
Section Flatten.
(** UniqueIDs(prefix) *)
Variable prefix : pystr.
(** 438-442 *)
Definition newlabel (label : pystr) (id : nat) (mark : pystr) : pystr := label ++ str "}" ++ str "<" ++ prefix ++ dec id ++ str ">" ++ mark.
(** treetransforms.py:414-446 with factor='left', markfanout, markyf, ids.
    [before]: labels of the children up to [prev]; [rest]: node[i:] *)
Fixpoint fcleft (label : pystr) (before : list pystr) (prev : tree pystr nat) (rest : list (tree pystr nat)) (s : ids) : tree pystr nat * ids :=
  match rest with
  | [] => (prev, s)
  | [c] => (Node label [prev; c], s)
  | c :: ((_ :: more) as rest) =>
      let before := before ++ [match c with Node l _ => l | Leaf _ => [] end] in
      let '(id, s) := match more with [] => nextid s | _ => getid (join (str ",") before ++ getyf (leaves prev) (leaves c)) s end in
      fcleft label before (Node (newlabel label id (fomark (fanoutof (leaves prev ++ leaves c)))) [prev; c]) rest s
  end.
(** treetransforms.py:397-446 with threshold=2 *)
Definition factorids (label : pystr) (ts : list (tree pystr nat)) (s : ids) : tree pystr nat * ids :=
  match ts with
  | c :: ((_ :: _ :: _) as rest) => fcleft label [match c with Node l _ => l | Leaf _ => [] end] c rest s
  | _ => (Node label ts, s)
  end.
(** templates: '(label {0} ({1} ...))' *)
Inductive template := Hole (n : nat) | TNode (l : pystr) (ts : list template).
Fixpoint posof (f : frag) (ls : list frag) : nat :=
  match ls with [] => 0 | x :: ls => if eqll Nat.eqb (fidx x) (fidx f) then 0 else S (posof f ls) end.
(** 768-771 *)
Fixpoint totemplate (order : list frag) (f : frag) : template :=
  match f with Inner l ts => TNode l (map (totemplate order) ts) | _ => Hole (posof f order) end.
(** 785-787: the fan-out of the first nonterminal on the right-hand side *)
Definition zeros (yf : list (list nat)) : list (list nat) := flat_map (fun comp => map (fun _ => [0]) (filter (Nat.eqb 0) comp)) yf.
(** 773-788 *)
Definition artificial (prods : list prod) (s : ids) : option (list prod * ids) :=
  match prods with
  | Phrasal l (a :: rest) yf :: prods =>
      let '(id, s) := nextid s in
      let new := newlabel l id (match yf with [_] => [] | _ => str "_" ++ dec (length yf) end) in
      Some (Phrasal l (new :: rest) yf :: Phrasal new [a] (zeros yf) :: prods, s)
  | _ => None
  end.
(** 699-778.  None: an exception.  The template of a fragment with a single
    node is not used. *)
Definition flatten (f : frag) (s : ids) : option (list prod * option template * ids) :=
  match f with
  | Inner label _ =>
      let order := ordered f in
      let '(tmp, s) := factorids label (map fnode order) s in
      match lcfrsproductions tmp (fsent order) false with
      | PError => None
      | PRules prods =>
          match (if length order <=? 2 then artificial prods s else Some (prods, s)) with
          | Some (prods, s) => Some (prods, Some (totemplate order f), s)
          | None => None
          end
      end
  | _ =>
      match lcfrsproductions (Node (flabel f) (map Leaf (fidx f))) (fsent [f]) false with
      | PError => None
      | PRules prods => Some (prods, None, s)
      end
  end.
(** grammar[rule] = weight *)
Fixpoint setrule (r : rule) (w : N) (g : list (rule * N)) : list (rule * N) :=
  match g with
  | [] => [(r, w)]
  | (r', n) :: q => if rule_eqb r r' then (r', w) :: q else (r', n) :: setrule r w q
  end.
(** 264-278; the weight is the frequency of the fragment *)
Record gstate := mkG { g_rules : list (rule * N); g_back : list (rule * template); g_ids : ids }.
Definition addfrag (g : gstate) (f : frag * N) : option gstate :=
  match flatten (fst f) (g_ids g) with
  | Some ((Lexical l w :: _) as prods, _, s) => Some (mkG (setrule (astuple (Lexical l w)) (snd f) (g_rules g)) (g_back g) s)
  | Some (p :: prods, Some t, s) =>
      Some (mkG (fold_left (fun g p => setrule (astuple p) 1%N g) prods (setrule (astuple p) (snd f) (g_rules g))) (g_back g ++ [(astuple p, t)]) s)
  | _ => None
  end.
Fixpoint addfrags (g : gstate) (fs : list (frag * N)) : option gstate :=
  match fs with [] => Some g | f :: fs => match addfrag g f with Some g => addfrags g fs | None => None end end.
Fixpoint backlookup (r : rule) (d : list (rule * template)) : option template :=
  match d with [] => None | (k, v) :: d => if rule_eqb k r then Some v else backlookup r d end.
(** 302-307; without extrarules *)
Definition dopgrammar (fs : list (frag * N)) : option (list (rule * N) * list template) :=
  match addfrags (mkG [] [] (mkIds 0 [])) fs with
  | None => None
  | Some g =>
      let grammar := sortgrammar (g_rules g) in
      Some (grammar, flat_map (fun rw => match backlookup (fst rw) (g_back g) with Some t => [t] | None => [] end) grammar)
  end.
End Flatten.

(** ** disambiguation.pyx:546-623 recoverfragments.  A derivation: a word with
    its POS tag and position, or the application of a rule (deriv.edge.rule)
    to the derivations of its right-hand side. *)
Inductive deriv := DLex (l : pystr) (i : nat) | DUn (r : rule) (d : deriv) | DBin (r : rule) (d1 d2 : deriv).
(** selfmapping[label] == 0: neverblockre '.+}<' matches (_grammar.pxi:864-865;
    parser.py:747-750) *)
Definition auxlabel (l : pystr) : bool := match l with [] => false | _ :: l => contains l (str "}<") end.
Definition rhs1 (r : rule) : pystr := nth 1 (fst r) [].
(** the rules file: lexical rules are not part of it (writegrammar 1077-1079);
    rule.no is the line number *)
Definition phrasal (rw : rule * N) : bool := match snd (fst rw) with PWord _ => false | PYf _ => true end.
Fixpoint ruleno (r : rule) (g : list rule) : option nat :=
  match g with [] => None | r' :: g => if rule_eqb r' r then Some 0 else option_map S (ruleno r g) end.
Fixpoint sequence {X} (l : list (option X)) : option (list X) :=
  match l with
  | [] => Some []
  | None :: _ => None
  | Some x :: l => match sequence l with Some l => Some (x :: l) | None => None end
  end.
(** frag.format( *children); None: IndexError *)
Fixpoint format (t : template) (children : list (tree pystr nat)) : option (tree pystr nat) :=
  match t with
  | Hole n => nth_error children n
  | TNode l ts => option_map (Node l) (sequence (map (fun t => format t children) ts))
  end.
Section Recover.
Variable grammar : list (rule * N).
Variable backtransform : list template.
(** 582, 611-613 *)
Definition expandrule (r : rule) (children : list (option (tree pystr nat))) : option (tree pystr nat) :=
  match ruleno r (map fst (filter phrasal grammar)) with
  | None => None
  | Some n => match nth_error backtransform n, sequence children with Some t, Some cs => format t cs | _, _ => None end
  end.
(** 585-616: the tree for a derivation; its children (in reverse order of
    childitems) when part of a binarized constituent (the while loop); and its
    left-most child *)
Fixpoint recover_ (d : deriv) : option (tree pystr nat) * list (option (tree pystr nat)) * list (option (tree pystr nat)) :=
  match d with
  | DLex l i => (Some (Node l [Leaf i]), [], [])
  | DUn r d1 =>
      let '(t, walk, fst_) := recover_ d1 in
      let children := if auxlabel (rhs1 r) then fst_ else [t] in
      (expandrule r children, if auxlabel (rhs1 r) then walk else [t], [t])
  | DBin r d1 d2 =>
      let '(t1, walk, _) := recover_ d1 in let '(t2, _, _) := recover_ d2 in
      let children := (if auxlabel (rhs1 r) then walk else [t1]) ++ [t2] in
      (expandrule r children, children, [t1])
  end.
(** REMOVEWORDTAGS = '@[^ )]+' *)
Fixpoint removeword (l : pystr) : pystr :=
  match l with [] => [] | c :: r => if (N.eqb c (ch "@") && match r with [] => false | _ => true end)%bool then [] else c :: removeword r end.
Fixpoint removewordtags (t : tree pystr nat) : tree pystr nat :=
  match t with Leaf a => Leaf a | Node l ts => Node (removeword l) (map removewordtags ts) end.
Definition recoverfragments (d : deriv) : option (tree pystr nat) := option_map removewordtags (fst (fst (recover_ d))).
End Recover.
