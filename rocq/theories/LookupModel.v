(** _grammar.pxi: Grammar.getruleno (965-973) and noderuleno (952-963) as they
    are for every production, known or not: toid.ob and rulenos are C++ maps
    (sparsepp, containers.pxd:64 and 367), whose operator[] creates an entry with
    value 0 for a key that is not there.  GrammarModel.getruleno is the lookup
    for what is in the grammar.

    Simplifications: those of GrammarModel; getyf has been applied (the second
    argument of getruleno is the encoded yield function); a tree is given by the
    label of a node and those of its children; a production without right-hand
    side (IndexError) gives [None]. *)
From Coq Require Import List Bool Arith NArith QArith Qcanon.
From Verif Require Import PyStr ConcatModel GrammarModel.
Import ListNotations.
Open Scope list_scope.
Open Scope nat_scope.

(** the grammar with other maps *)
Definition setmaps (ids : list (pystr * nat)) (nos : list (key * nat)) (g : gram) : gram :=
  mkGram ids (tolabel g) (freqmass g) (fanouts g) nos (rulecounts g) (bylhs g) (unary g) (lbinary g) (rbinary g)
    (lexical g) (lexcounts g) (lexbyword g).
(** self.toid.ob[l] *)
Definition idof (l : pystr) (g : gram) : nat * gram :=
  match lookup eqs l (toid g) with
  | Some i => (i, g)
  | None => (0, setmaps ((l, 0) :: toid g) (rulenos g) g)
  end.
(** self.rulenos[key] *)
Definition noof (k : key) (g : gram) : nat * gram :=
  match lookup key_eqb k (rulenos g) with
  | Some n => (n, g)
  | None => (0, setmaps (toid g) ((k, 0) :: rulenos g) g)
  end.
(** 965-973 *)
Definition askruleno (g : gram) (r : list pystr) (e : yfenc) : option (nat * gram) :=
  match r with
  | l :: a :: rest =>
      let (lhs, g1) := idof l g in
      let (rhs1, g2) := idof a g1 in
      let (rhs2, g3) := match rest with [] => (0, g2) | b :: _ => idof b g2 end in
      Some (noof (lhs, rhs1, rhs2, args e, lengths e) g3)
  | _ => None
  end.
(** 952-963 *)
Definition asknoderuleno (g : gram) (label : pystr) (children : list pystr) : option (nat * gram) :=
  match children with
  | [] => None
  | a :: rest =>
      let (lhs, g1) := idof label g in
      let (rhs1, g2) := idof a g1 in
      match rest with
      | b :: _ => let (rhs2, g3) := idof b g2 in Some (noof (lhs, rhs1, rhs2, 2%N, 2%N) g3)
      | [] => Some (noof (lhs, rhs1, 0, 0%N, 1%N) g2)
      end
  end.
(** a history of lookups *)
Definition query := (list pystr * yfenc)%type.
Definition ask (g : gram) (q : query) : gram :=
  match askruleno g (fst q) (snd q) with Some (_, g') => g' | None => g end.
Definition askall (g : gram) (qs : list query) : gram := fold_left ask qs g.
