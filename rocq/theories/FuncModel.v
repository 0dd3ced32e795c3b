(** Model of discodop/treebank.py:932-1007 (handlefunctions, handlemorphology),
    229-243 (function tags read by BracketCorpusReader._parse) and
    treebanktransforms.py:1665-1712 (morphfeats, function, functions): function tags
    and morphological features in labels.

    Simplifications: of the six fields of node.source, a node has those used: the
    function tag; preterminals also morphology and lemma.  An empty node[0] is taken
    for a word instead of raising IndexError. *)
From Coq Require Import String.
From Coq Require Import List Bool Arith NArith.
From Verif Require Import PyStr HeadModel.
Import ListNotations.
Open Scope list_scope.
Open Scope nat_scope.

(** a word, or a node with its label and source[FUNC] (None: no source) *)
Inductive ft := FL (i : nat) | FN (label : pystr) (func : option pystr) (ch : list ft).
Definition HYPHEN : N := 45%N.
Definition EQUALS : N := 61%N.
Definition SLASH : N := 47%N.
Definition NOTAG : pystr := [45; 45]%N.
(** str.find of a character *)
Fixpoint find (c : N) (s : pystr) : option nat :=
  match s with [] => None | x :: r => if N.eqb x c then Some 0 else option_map S (find c r) end.
(** x = label.find(char); if x > 0: label = label[:x] *)
Definition cut (c : N) (s : pystr) : pystr :=
  match find c s with Some (S x) => firstn (S x) s | _ => s end.
(** treebank.py:943-946 *)
Definition removetags (s : pystr) : pystr := cut EQUALS (cut HYPHEN s).
(** isinstance(node[0], Tree) *)
Definition phrasal (ch : list ft) : bool := match ch with FN _ _ _ :: _ => true | _ => false end.
(** treebank.py:952-954: test for non-empty function tag *)
Definition tag (func : option pystr) : option pystr :=
  match func with Some [] => None | Some f => if eqs f NOTAG then None else Some f | None => None end.
Inductive faction := Leave | Remove | Add | Replace | Between.
(** treebank.py:947-951: nodes left alone *)
Definition skipped (between pos root isroot : bool) (action : faction) (ch : list ft) : bool :=
  if between && negb (phrasal ch) then true
  else if (negb root || match action with Between => true | _ => false end) && isroot then true
  else negb (pos || phrasal ch).
(** treebank.py:932-964; [between]: morphology = 'between'.  The traversal takes the
    children of a node after the node has been changed and wrapped, so that new nodes
    are not visited. *)
Fixpoint handle (action : faction) (pos root between isroot : bool) (t : ft) : ft :=
  match t with
  | FL i => FL i
  | FN l s ch =>
    let ch' := map (handle action pos root between false) ch in
    match action with
    | Leave => FN l s ch'
    | Remove => FN (removetags l) s ch'
    | _ =>
      if skipped between pos root isroot action ch then FN l s ch'
      else match action, tag s with
      | Add, Some f => FN (l ++ HYPHEN :: f) s ch'
      | Replace, Some f => FN f s ch'
      | Replace, None => FN NOTAG s ch'
      | Between, Some f => FN (HYPHEN :: f) None [FN l s ch']
      | Between, None => FN (HYPHEN :: NOTAG) None [FN l s ch']
      | _, _ => FN l s ch'
      end
    end
  end.
Definition handlefunctions (action : faction) (pos root between : bool) (t : ft) : ft := handle action pos root between true t.

(** ** Reading labels in bracket notation *)
(** str.rstrip('=0123456789') *)
Definition strippable (c : N) : bool := N.eqb c EQUALS || isdigit c.
Fixpoint lstripw (f : N -> bool) (s : pystr) : pystr := match s with c :: r => if f c then lstripw f r else s | [] => [] end.
Definition rstripw (f : N -> bool) (s : pystr) : pystr := rev (lstripw f (rev s)).
(** str.isdigit: not for the empty string *)
Definition isdigits (s : pystr) : bool := match s with [] => false | _ => forallb isdigit s end.
(** treebank.py:232-242, a label: the label and source[FUNC] *)
Definition readlabel (remove : bool) (label : pystr) : pystr * pystr :=
  let '(l, f) := match find HYPHEN label with
    | Some (S x) =>
      let rest := skipn (S (S x)) label in
      ((if remove then firstn (S x) label else label), if isdigits rest then NOTAG else rstripw strippable rest)
    | _ => (label, NOTAG)
    end in
  ((if remove then cut EQUALS l else l), f).
Fixpoint readlabels (remove : bool) (t : ft) : ft :=
  match t with
  | FL i => FL i
  | FN l _ ch => let '(l', f) := readlabel remove l in FN l' (Some f) (map (readlabels remove) ch)
  end.

(** ** Function tags of a node *)
(** treebanktransforms.py:1699-1703 *)
Definition function (func : option pystr) : pystr := match func with None => [] | Some f => before HYPHEN f end.
(** treebanktransforms.py:1706-1712 *)
Definition functions (func : option pystr) : list pystr :=
  match func with None => [] | Some f => if eqs f NOTAG || match f with [] => true | _ => false end then [] else splitc HYPHEN f end.

(** ** Morphology *)
(** .replace('(', '[').replace(')', ']').replace(' ', '_') *)
Definition morphchar (c : N) : N := if N.eqb c 40 then 91%N else if N.eqb c 41 then 93%N else if N.eqb c 32 then 95%N else c.
Definition escapemorph (s : pystr) : pystr := map morphchar s.
Inductive maction := MNo | MAdd | MReplace | MBetween.
(** a preterminal: its label and the number of its word; [FN] is used for the result *)
Definition setword (sent : list pystr) (i : nat) (f : pystr -> pystr) : list pystr :=
  map (fun nw => if fst nw =? i then f (snd nw) else snd nw) (combine (seq 0 (length sent)) sent).
(** treebank.py:967-1007; [func]: the source of the preterminal, set afterwards *)
Definition handlemorphology (action lemmaaction : maction) (label : pystr) (i : nat) (morph lemma : pystr) (func : option pystr) (sent : list pystr) : ft * list pystr :=
  let m := escapemorph morph in
  let lem := match escapemorph lemma with [] => NOTAG | l => l end in
  let sent' := match lemmaaction with
    | MAdd => setword sent i (fun w => w ++ SLASH :: lem)
    | MReplace => setword sent i (fun _ => lem)
    | _ => sent
    end in
  let child := match lemmaaction with MBetween => FN lem None [FL i] | _ => FL i end in
  (match action with
   | MNo => FN label func [child]
   | MAdd => FN (label ++ SLASH :: m) func [child]
   | MReplace => FN m func [child]
   | MBetween => FN label func [FN m None [child]]
   end, sent').
(** treebanktransforms.py:1666-1676; source[MORPH], None: no source *)
Definition bracketchar (c : N) : N := if N.eqb c 40 then 91%N else if N.eqb c 41 then 93%N else c.
Definition morphfeats (morph : option pystr) : list pystr :=
  match morph with
  | None => []
  | Some m =>
    let m := map bracketchar m in
    match find 91 m, find 93 m with
    | Some a, Some b => splitc 44 (map (fun c => if N.eqb c 46 then 44%N else c) (firstn (b - S a) (skipn (S a) m)))
    | _, _ => []
    end
  end.
