(** Specification for C45: what can be written in export format *)
From Coq Require Import String.
From Coq Require Import List Bool Arith NArith Permutation.
From Verif Require Import PyStr TreeModel BracketModel TransformProps ExportModel.
Import ListNotations.
Open Scope list_scope.
Open Scope nat_scope.

(** a non-empty field without white space and without '%%' *)
Definition field_ok (s : pystr) : Prop := s <> [] /\ (forall c, In c s -> isspace c = false) /\ forall a b, s <> a ++ 37%N :: 37%N :: b.
Definition label_ok (s : pystr) : Prop := field_ok s /\ ~ In openb s /\ ~ In closeb s.
(** a missing field is written as '--' *)
Definition value (s : pystr) : pystr := match s with [] => str "--" | _ => s end.
Definition fields_of (o : option source) : source := match o with Some (l, m, f) => (value l, value m, value f) | None => (str "--", str "--", str "--") end.
Definition source_ok (o : option source) : Prop := let '(l, m, f) := fields_of o in field_ok l /\ field_ok m /\ field_ok f.
(** a missing or empty word is written as '...' *)
Definition wordtext (w : option pystr) : pystr := match w with Some (c :: r) => c :: r | _ => str "..." end.
(** a word must not look like the identifier of a constituent *)
Definition word_ok (s : pystr) : Prop := field_ok s /\ forall k, 500 <= k < 1000 -> s <> 35%N :: dec k.
(** all labels *)
Fixpoint labels_of {L A} (t : tree L A) : list L := match t with Leaf _ => [] | Node l ts => l :: flat_map labels_of ts end.
(** the constituents that are not preterminals *)
Fixpoint phrases {L A} (t : tree L A) : nat :=
  match t with Leaf _ => 0 | Node _ (Leaf _ :: _) => 0 | Node _ ts => S (list_sum (map phrases ts)) end.
(** the tree with all fields filled in; only preterminals have a lemma *)
Fixpoint exported (t : tree elabel nat) : tree elabel nat :=
  match t with
  | Leaf a => Leaf a
  | Node (l, o) ts =>
    let '(lemma, morph, func) := fields_of o in
    Node (l, Some (match ts with Leaf _ :: _ => lemma | _ => str "--" end, morph, func)) (map exported ts)
  end.
(** a tree and a sentence that can be written: the root is not written; all
    terminals are below preterminals of their own, every word occurs once *)
Definition exportable (t : tree elabel nat) (sent : list (option pystr)) : Prop :=
  match t with
  | Leaf _ => False
  | Node _ ts =>
    (forall c, In c ts -> ptree c) /\
    Permutation (flat_map leaves ts) (seq 0 (length sent)) /\
    (forall l o, In (l, o) (flat_map labels_of ts) -> label_ok l /\ source_ok o) /\
    (forall w, In w sent -> word_ok (wordtext w)) /\
    list_sum (map phrases ts) <= 500
  end.
(** the tree that should be read *)
Definition rooted (t : tree elabel nat) : tree elabel nat :=
  match t with Leaf a => Leaf a | Node _ ts => Node (str "ROOT", None) (map exported ts) end.
(** a comment on one line, without '%%' *)
Definition comment_ok (o : option pystr) : Prop :=
  match o with Some c => (forall x, In x c -> x <> 10%N /\ x <> 13%N) /\ forall a b, c <> a ++ 37%N :: 37%N :: b | None => True end.
(** a comment is read without white space around it; an empty one is lost *)
Definition comment_read (o : option pystr) : option pystr := match o with Some [] | None => None | Some c => Some (strip c) end.
