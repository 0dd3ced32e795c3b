(** _grammar.pxi: Grammar.getmapping (821-917) and getrulemapping (919-950): the
    mapping of the labels and rules of a grammar to those of a coarser one.

    Simplifications: neverblockre is a predicate on labels ([blocked]; never true
    when it is None), striplabelre.sub('', label, 1) a function on labels ([strip]),
    mapping[label] a partial function ([dict]; total when it is None), str(m) a
    function ([digits]); the labels of the coarse grammar are a partial function
    ([toid], coarse.toid; with coarse = None that of the grammar itself); the
    debug message depends on [seen] only and is given as its test.  Of the two
    KeyErrors only that there is one is modelled, with the state it leaves.
    In getrulemapping, rules are records with the names of the labels looked up;
    array('L') is a list. *)
From Coq Require Import List Bool Arith NArith QArith Qcanon.
From Verif Require Import PyStr ConcatModel GrammarModel LookupModel.
Import ListNotations.
Open Scope list_scope.
Open Scope nat_scope.

(** self.mapping, self.selfmapping, self.splitmapping, self.revmap *)
Record maps := Maps { mapping : list nat; selfmapping : list nat; splitmapping : list (list nat); revmap : list (list nat) }.
(** vector.resize *)
Definition resize {A} (n : nat) (d : A) (l : list A) : list A := firstn n l ++ repeat d (n - length l).
Definition star : pystr := [42%N].

(** the local variables of the loop: result, self.splitmapping, self.revmap, seen *)
Record loopst := St { result : list nat; split : list (list nat); rev : list (list nat); seen : list nat }.

Section Getmapping.
  Variable tolabel : list pystr.             (* self.tolabel; its length is self.nonterminals *)
  Variable fanout : nat -> nat.
  Variable blocked : pystr -> bool.
  Variable strip : pystr -> pystr.
  Variable dict : pystr -> option pystr.
  Variable toid : pystr -> option nat.
  Variable digits : nat -> pystr.
  Variable selfmap splitprune markorigin : bool.

  (** self.revmap[c].push_back(n) if not selfmap *)
  Definition push (c n : nat) (r : list (list nat)) : list (list nat) :=
    if selfmap then r else upd r c (fun l => l ++ [n]).
  (** 877-883: for m in range(self.fanout[n]); [false]: KeyError *)
  Fixpoint parts (lab : pystr) (n : nat) (ms : list nat) (st : loopst) : bool * loopst :=
    match ms with
    | [] => (true, st)
    | m :: ms' =>
        match toid (lab ++ digits m) with
        | None => (false, st)
        | Some c =>
            parts lab n ms'
              (St (result st) (upd (split st) n (fun l => upd l m (fun _ => c))) (push c n (rev st)) (c :: seen st))
        end
    end.
  (** 866-894: the body of the loop *)
  Definition step (n : nat) (st : loopst) : bool * loopst :=
    let lab := nth n tolabel [] in
    if blocked lab then (true, St (upd (result st) n (fun _ => 0)) (split st) (rev st) (seen st))
    else
      match dict (strip lab) with
      | None => (false, st)
      | Some lab =>
          let multi := (1 <? fanout n) && splitprune in
          let lab := if multi then lab ++ star else lab in
          if multi && markorigin then
            parts lab n (seq 0 (fanout n))
              (St (upd (result st) n (fun _ => length tolabel)) (upd (split st) n (resize (fanout n) 0)) (rev st) (seen st))
          else
            match toid lab with
            | None => (false, st)
            | Some c => (true, St (upd (result st) n (fun _ => c)) (split st) (push c n (rev st)) (seen st))
            end
      end.
  Fixpoint loop (ns : list nat) (st : loopst) : bool * loopst :=
    match ns with
    | [] => (true, st)
    | n :: ns' => let (ok, st') := step n st in if ok then loop ns' st' else (false, st')
    end.
  (** 856-917; [ncoarse]: coarse.nonterminals.  The swap leaves an empty vector
      in the place of the mapping until the end.  Also returned: the set seen. *)
  Definition getmapping (ncoarse startidx : nat) (m : maps) : bool * maps * list nat :=
    let N := length tolabel in
    let old := if selfmap then selfmapping m else mapping m in
    let st := St (resize N 0 old)
      (if splitprune && markorigin then resize N [] (splitmapping m) else splitmapping m)
      (if selfmap then revmap m else resize ncoarse [] (revmap m)) [0] in
    let (ok, st') := loop (seq startidx (N - startidx)) st in
    let res := if ok then result st' else [] in
    (ok, Maps (if selfmap then mapping m else res) (if selfmap then res else selfmapping m) (split st') (rev st'), seen st').
  (** 897: the test for the message 'label sets are equal' *)
  Definition equalsets (ncoarse : nat) (s : list nat) : bool :=
    forallb (fun c => existsb (Nat.eqb c) s) (seq 0 ncoarse) && forallb (fun c => c <? ncoarse) s.
End Getmapping.

(** 919-950: the rules of the fine grammar in the order of bylhs: names of lhs,
    rhs1, rhs2 ('Epsilon' for a unary rule), yield function, number. *)
Record frule := FRule { flhs : pystr; frhs1 : pystr; frhs2 : pystr; fyf : yfenc; fno : nat }.
Section Getrulemapping.
  Variable strip : pystr -> pystr.
  (** 939-945; [None]: KeyError.  coarse.rulenos[key] can insert a key. *)
  Definition rulestep (r : frule) (x : gram * list (list nat)) : option (gram * list (list nat)) :=
    let (coarse, rm) := x in
    match lookup eqs (strip (flhs r)) (toid coarse), lookup eqs (strip (frhs1 r)) (toid coarse),
          lookup eqs (strip (frhs2 r)) (toid coarse) with
    | Some a, Some b, Some c =>
        let (m, coarse') := noof (a, b, c, args (fyf r), lengths (fyf r)) coarse in
        Some (coarse', upd rm m (fun l => l ++ [fno r]))
    | _, _, _ => None
    end.
  Fixpoint ruleloop (rs : list frule) (x : gram * list (list nat)) : option (gram * list (list nat)) :=
    match rs with
    | [] => Some x
    | r :: rs' => match rulestep r x with Some x' => ruleloop rs' x' | None => None end
    end.
  (** the coarse grammar afterwards, and the rule mapping *)
  Definition getrulemapping (rs : list frule) (coarse : gram) : option (gram * list (list nat)) :=
    ruleloop rs (coarse, repeat [] (numrules coarse)).
End Getrulemapping.
