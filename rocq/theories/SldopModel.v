(** disambiguation.pyx: sldop (414-483, the method 'sl-dop') and treeparsing
    (772-838), with the two pieces of grammar state they touch: the selected
    weights and the rule mask (_grammar.pxi: switch 707, setmask 765-776,
    CLEARBIT on grammar.mask, and getruleno 965, which can change the grammar).

    Simplifications: probabilities are real numbers, as in DisambModel; the
    number of steps abs(int(s / log(0.5))) is exact (in floating point it is one
    too low for most derivations of 25 steps or more); a derivation is
    identified with its string, and [recover] stands for REMOVEIDS.sub (DOP
    reduction) or recoverfragments (Double-DOP); the set of most likely trees is
    passed to treeparsing in the order of nlargest; the parser (plcfrs.parse
    followed by lazykbest) is a parameter that sees the grammar state and the
    whitelist; the fragments of the derivation are represented by the
    derivation itself. *)
From Coq Require Import String.
From Coq Require Import Reals.
From Coq Require Import List Bool Arith NArith ZArith.
From Verif Require Import PyStr ConcatModel GrammarModel LookupModel DisambModel.
Import ListNotations.

(** The state of a Grammar object: currentmodel, the mask, and the rest; mask
    [Some l]: only the rules in l are active (setmask(l)), [None]: all rules are
    (setmask(None)). *)
Record gstate := GState { currentmodel : pystr; gmask : option (list nat); ggram : gram }.
(** _grammar.pxi:707-760; only the name is kept *)
Definition gswitch (m : pystr) (st : gstate) : gstate := GState m (gmask st) (ggram st).
(** _grammar.pxi:765-776 *)
Definition gsetmask (s : option (list nat)) (st : gstate) : gstate := GState (currentmodel st) s (ggram st).
(** CLEARBIT(&(grammar.mask[0]), n) *)
Definition gclearbit (n : nat) (st : gstate) : gstate :=
  GState (currentmodel st) (match gmask st with Some l => Some (l ++ [n]) | None => None end) (ggram st).
(** grammar.toid[label] *)
Definition glabel (st : gstate) (l : pystr) : option nat := GrammarModel.lookup eqs l (toid (ggram st)).

(** A node of a tree to be parsed: its label, its leaves, and its production
    ([None]: a preterminal, whose production is not looked up). *)
Definition node := (pystr * list nat * option query)%type.

Section Sldop.
  Variable nodes : pystr -> list node.       (* zip(tree.subtrees(), lcfrsproductions(..)) *)
  Variable selfrule : nat -> list nat.       (* selfrulemapping, or [ruleno] when None *)
  (** plcfrs.parse and lazykbest: [None]: no parse; derivations with steps *)
  Variable parse : gstate -> list (nat * list nat) -> option (list (pystr * Z)).

  (** 806-830: the loop body for one node; state: grammar, whitelist. *)
  Definition tp_node (maskrules : bool) (nd : node) (x : gstate * list (nat * list nat))
      : gstate * option (list (nat * list nat)) :=
    let '(st, wl) := x in
    let '(label, leaves, rule) := nd in
    match glabel st label with
    | None => (st, None)                     (* not in grammar: return *)
    | Some l =>
        let wl' := wl ++ [(l, leaves)] in
        match (if maskrules then rule else None) with
        | None => (st, Some wl')
        | Some (r, yf) =>
            (* getruleno does not raise the KeyError that is caught in 824 *)
            match askruleno (ggram st) r yf with
            | None => (st, None)             (* a node without children; does not occur *)
            | Some (n, g') =>
                (fold_left (fun s n => gclearbit n s) (selfrule n) (GState (currentmodel st) (gmask st) g'), Some wl')
            end
        end
    end.
  Fixpoint tp_nodes (maskrules : bool) (nds : list node) (st : gstate) (wl : list (nat * list nat))
      : gstate * option (list (nat * list nat)) :=
    match nds with
    | [] => (st, Some wl)
    | nd :: nds' =>
        match tp_node maskrules nd (st, wl) with
        | (st', None) => (st', None)
        | (st', Some wl') => tp_nodes maskrules nds' st' wl'
        end
    end.
  (** 772-838; all trees after each other *)
  Definition treeparsing (maskrules : bool) (trees : list pystr) (st : gstate)
      : gstate * option (list (pystr * Z)) :=
    let st0 := if maskrules then gsetmask (Some []) st else st in
    match tp_nodes maskrules (flat_map nodes trees) st0 [] with
    | (st1, None) => (st1, None)
    | (st1, Some wl) =>
        let c := parse st1 wl in
        ((if maskrules then gsetmask None st1 else st1), c)
    end.

  Variable recover : pystr -> pystr.

  (** 434-448: collect derivations for each parse tree, sum their probabilities,
      and take the [sldop_n] most likely trees (449-450) *)
  Definition collect (ds : list (pystr * R)) : list (pystr * list (pystr * R)) :=
    fold_left (fun m '(d, p) =>
        let t := recover d in
        put t (match get t m with Some l => l | None => [] end ++ [(d, p)]) m)
      (dictof ds) [].
  Definition parsetreeprob (ds : list (pystr * R)) : list (pystr * R) :=
    map (fun '(t, l) => (t, logprobsum (map (fun x => (- snd x)%R) l))) (collect ds).
  Definition mostlikely (n : nat) (ds : list (pystr * R)) : list (pystr * R) :=
    nlargest n snd (parsetreeprob ds).

  (** 460-477: one pass over the shortest derivations *)
  Fixpoint sl_loop (n : nat) (best : list (pystr * R)) (short : list (pystr * Z))
      (result : list (pystr * ((Z * R) * pystr))) : list (pystr * ((Z * R) * pystr)) :=
    match short with
    | [] => result
    | (d, s) :: short' =>
        let t := recover d in
        match get t best with
        | Some p =>
            match get t result with
            | None =>
                let result' := put t (((- Z.abs s)%Z, p), d) result in
                if n <? length result' then result' else sl_loop n best short' result'
            | Some _ => sl_loop n best short' result
            end
        | None => sl_loop n best short' result
        end
    end.

  (** 414-483; the returned list with the grammar state afterwards *)
  Definition sldop (n : nat) (ds : list (pystr * R)) (st : gstate)
      : gstate * list (pystr * ((Z * R) * pystr)) :=
    let best := mostlikely n ds in
    let model := currentmodel st in
    match treeparsing false (map fst best) (gswitch (str "shortest"%string) st) with
    | (st1, None) => (st1, [])               (* 458-459 *)
    | (st1, Some short) => (gswitch model st1, sl_loop n best short [])
    end.
End Sldop.
