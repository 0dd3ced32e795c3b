(** Model of discodop/grammar.py:1206-1274: sumrules, sumlex, sumfrags and merge.

    A line is modelled by its fields (the split by tab, the regular expression
    RULERE and the conversion of weights are not modelled); weights are exact
    rationals and the results are not rounded by '%g'. *)
From Coq Require Import List Bool Arith NArith ZArith QArith Qcanon.
From Verif Require Import PyStr MergeModel.
Import ListNotations.
Open Scope list_scope.
Open Scope nat_scope.

Definition num (n : nat) : Qc := Q2Qc (Z.of_nat n # 1).
Section Sum.
Variable n : nat.
Definition share (w : Qc) : Qc := (w / num n)%Qc.
(** grammar.py:1252-1265 sumfrags; a line is a fragment with a weight *)
Fixpoint sumfrags_loop (prev : option pystr) (w1 : Qc) (lines : list (pystr * Qc)) : list (pystr * Qc) :=
  let out := match prev with Some p => [(p, share w1)] | None => [] end in
  match lines with
  | [] => out                                                             (* 1264-1265 *)
  | (frag, w2) :: r =>
    if match prev with Some p => eqs frag p | None => false end
    then sumfrags_loop prev (w1 + w2)%Qc r
    else out ++ sumfrags_loop (Some frag) (0 + w2)%Qc r                 (* 1258-1263 *)
  end.
Definition sumfrags (lines : list (pystr * Qc)) : list (pystr * Qc) := sumfrags_loop None 0%Qc lines.

(** grammar.py:1206-1228 sumrules: at a change of rule, the text of the NEW rule is
    written with the weight of the previous one (1216-1219).  None: for an empty
    input `match` is not assigned (1225), an UnboundLocalError. *)
Fixpoint sumrules_loop (prev : option pystr) (w1 : Qc) (rule : option pystr) (lines : list (pystr * Qc)) : option (list (pystr * Qc)) :=
  match lines with
  | [] => match rule with Some r => Some [(r, share w1)] | None => None end
  | (r, w2) :: ls =>
    if match prev with Some p => eqs r p | None => false end
    then sumrules_loop prev (w1 + w2)%Qc (Some r) ls
    else option_map (app (match prev with Some _ => [(r, share w1)] | None => [] end))
                    (sumrules_loop (Some r) (0 + w2)%Qc (Some r) ls)
  end.
Definition sumrules (lines : list (pystr * Qc)) : option (list (pystr * Qc)) := sumrules_loop None 0%Qc None lines.

(** grammar.py:1231-1249 sumlex; a line is a word with its tags and their weights.
    [tags] is a dict in insertion order. *)
Fixpoint tagadd (t : pystr) (w : Qc) (tags : list (pystr * Qc)) : list (pystr * Qc) :=
  match tags with
  | [] => [(t, (0 + w)%Qc)]
  | (t', w') :: r => if eqs t t' then (t', (w' + w)%Qc) :: r else (t', w') :: tagadd t w r
  end.
Definition tagsadd (rest tags : list (pystr * Qc)) : list (pystr * Qc) := fold_left (fun d tw => tagadd (fst tw) (snd tw) d) rest tags.
Definition lexline (prev : option pystr) (tags : list (pystr * Qc)) : list (pystr * list (pystr * Qc)) :=
  match prev, tags with
  | Some p, _ :: _ => [(p, map (fun tw => (fst tw, share (snd tw))) tags)]
  | _, _ => []
  end.
Fixpoint sumlex_loop (prev : option pystr) (tags : list (pystr * Qc)) (lines : list (pystr * list (pystr * Qc))) : list (pystr * list (pystr * Qc)) :=
  match lines with
  | [] => lexline prev tags
  | (word, rest) :: r =>
    if match prev with Some p => eqs word p | None => false end
    then sumlex_loop prev (tagsadd rest tags) r
    else lexline prev tags ++ sumlex_loop (Some word) (tagsadd rest []) r
  end.
Definition sumlex (lines : list (pystr * list (pystr * Qc))) : list (pystr * list (pystr * Qc)) := sumlex_loop None [] lines.
End Sum.

(** comparison of strings by code point *)
Fixpoint strlt (a b : pystr) : bool :=
  match a, b with
  | _, [] => false
  | [], _ :: _ => true
  | x :: a', y :: b' => N.ltb x y || (N.eqb x y && strlt a' b')
  end.
(** grammar.py:1268-1274 merge; cli.py:430-434: the key is the line without its weights *)
Definition mergefrags (files : list (list (pystr * Qc))) : list (pystr * Qc) :=
  sumfrags (length files) (merge fst strlt eqs files).
Definition mergerules (files : list (list (pystr * Qc))) : option (list (pystr * Qc)) :=
  sumrules (length files) (merge fst strlt eqs files).
Definition mergelex (files : list (list (pystr * list (pystr * Qc)))) : list (pystr * list (pystr * Qc)) :=
  sumlex (length files) (merge fst strlt eqs files).
