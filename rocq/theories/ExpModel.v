(** Model of discodop/runexp.py:546-651 doparsing, 659-670 worker, 673-720
    writeresults; discodop/eval.py:31-65 Evaluator.add and 594-601, 1016-
    scores; discodop/parser.py:914-927 readinputbitparstyle, 987-1020 doparsing.

    The parser, the evaluation of a pair of trees (TreePairResult, see
    EvalModel.v for what is added up) and the logarithm are parameters: the
    properties hold for any of them.  Log messages are not modelled.  The pool
    of worker processes (imap_unordered) is a list of arrivals: the results of
    worker for every item of the test set, in any order. *)
From Coq Require Import NArith ZArith QArith Qcanon List Bool Arith Lia.
From Verif Require Import PyStr EvalModel.
Import ListNotations.

(** dictionaries with sentence ids as keys *)
Section Dict.
Context {V : Type}.
(** dict.fromkeys *)
Definition fromkeys (ids : list nat) (v : V) : list (nat * V) := map (fun i => (i, v)) ids.
Fixpoint lookup (i : nat) (d : list (nat * V)) : option V :=
  match d with [] => None | (j, v) :: d => if j =? i then Some v else lookup i d end.
(** d[i] = v of an existing key *)
Fixpoint assign (i : nat) (v : V) (d : list (nat * V)) : list (nat * V) :=
  match d with [] => [(i, v)] | (j, w) :: d => if j =? i then (j, v) :: d else (j, w) :: assign i v d end.
End Dict.

(** result.prob: a tuple with numbers, or a float *)
Inductive num := PInt (z : Z) | PFloat (q : Qc).
Inductive prob := ProbTuple (l : list num) | ProbFloat (q : Qc) | ProbNone.
Section Exp.
Variables Tree Sent Float : Type.
(** math.log; float('nan'); 300.0 *)
Variable log : Qc -> Float.
Variables nan c300 : Float.
Record stageresult := mkRes { r_tree : Tree; r_prob : prob; r_fragments : option nat; r_numitems : nat; r_golditems : nat; r_totalgolditems : nat;
  r_elapsed : Float; r_noparse : bool }.
(** an entry of the test set: the tagged sentence, the gold tree and sentence *)
Record test := mkTest { t_sent : Sent; t_gold : Tree; t_goldsent : Sent; t_len : nat }.
(** the parser: a result for each stage *)
Variable parse : Sent -> Tree -> list stageresult.
(** TreePairResult(n, goldtree, goldsent, parsetree, sent) *)
Variable evalpair : nat -> Tree -> Sent -> Tree -> Sent -> pair.
Variable disconly : bool.
Variable cutoff : option nat.

(** eval.py:42-45, 61-65 *)
Record evaluator := mkEval { e_acc : accum; e_acc40 : option accum }.
Definition evaluator0 : evaluator := mkEval acc0 (match cutoff with Some _ => Some acc0 | None => None end).
Definition evaladd (e : evaluator) (p : pair) : evaluator :=
  mkEval (addpair disconly (e_acc e) p)
    (match cutoff, e_acc40 e with
     | Some k, Some a => Some (if p_lengpos p <=? k then addpair disconly a p else a)
     | _, x => x
     end).
(** 551-563 *)
Record stage := mkStage { s_trees : list (nat * option Tree); s_sents : list (nat * option Sent); s_logprob : list (nat * Float); s_frags : list (nat * option Z);
  s_numitems : list (nat * nat); s_golditems : list (nat * nat); s_totalgolditems : list (nat * nat); s_elapsed : list (nat * option Float);
  s_eval : evaluator; s_noparse : nat }.
Definition stage0 (ids : list nat) : stage :=
  mkStage (fromkeys ids None) (fromkeys ids None) (fromkeys ids nan) (fromkeys ids (Some 0%Z)) (fromkeys ids 0) (fromkeys ids 0) (fromkeys ids 0) (fromkeys ids None) evaluator0 0.
(** 590-593: [log(a) for a in result.prob if isinstance(a, float) and 0 < a <= 1][0] *)
Fixpoint firstfloat (l : list num) : Float :=
  match l with
  | [] => c300
  | PFloat q :: l => if (match Qccompare 0 q with Lt => true | _ => false end && match Qccompare q 1 with Gt => false | _ => true end)%bool then log q else firstfloat l
  | PInt _ :: l => firstfloat l
  end.
(** 594-595 *)
Fixpoint firstint (l : list num) : option Z :=
  match l with [] => None | PInt z :: _ => Some (Z.abs z) | PFloat _ :: l => firstint l end.
(** 588-603: log probability and number of fragments; [f0], [l0]: as they were *)
Definition scoreof (r : stageresult) (l0 : Float) (f0 : option Z) : Float * option Z :=
  let '(l, f) := match r_prob r with
    | ProbTuple p => (firstfloat p, firstint p)
    | ProbFloat q => (match Qccompare 0 q with Lt => log q | _ => c300 end, f0)
    | ProbNone => (l0, f0)
    end in
  (l, match r_fragments r with Some k => Some (Z.of_nat k) | None => f end).
Definition get {V} (d : list (nat * V)) (i : nat) (default : V) : V := match lookup i d with Some v => v | None => default end.
(** 584-614, one stage; None: AssertionError *)
Definition addresult (i : nat) (t : test) (s : stage) (r : stageresult) : option stage :=
  match lookup i (s_trees s), lookup i (s_elapsed s) with
  | Some None, Some None =>
      let '(l, f) := scoreof r (get (s_logprob s) i nan) (get (s_frags s) i None) in
      Some (mkStage (assign i (Some (r_tree r)) (s_trees s)) (assign i (Some (t_sent t)) (s_sents s)) (assign i l (s_logprob s)) (assign i f (s_frags s))
        (assign i (r_numitems r) (s_numitems s)) (assign i (r_golditems r) (s_golditems s)) (assign i (r_totalgolditems r) (s_totalgolditems s))
        (assign i (Some (r_elapsed r)) (s_elapsed s))
        (evaladd (s_eval s) (evalpair i (t_gold t) (t_goldsent t) (r_tree r) (t_sent t)))
        (if r_noparse r then S (s_noparse s) else s_noparse s))
  | _, _ => None
  end.
(** 583: for n, result in enumerate(sentresults); None: also IndexError *)
Fixpoint addresults (i : nat) (t : test) (ss : list stage) (rs : list stageresult) : option (list stage) :=
  match rs, ss with
  | [], _ => Some ss
  | r :: rs, s :: ss =>
      match addresult i t s r, addresults i t ss rs with
      | Some s, Some ss => Some (s :: ss)
      | _, _ => None
      end
  | _ :: _, [] => None
  end.
(** 659-670 worker *)
Definition arrival := (nat * list stageresult)%type.
Definition worker (it : nat * test) : arrival := (fst it, parse (t_sent (snd it)) (t_gold (snd it))).
(** 575-614: the main loop; None: also KeyError *)
Fixpoint mainloop (testset : list (nat * test)) (ss : list stage) (arrivals : list arrival) : option (list stage) :=
  match arrivals with
  | [] => Some ss
  | (i, rs) :: arrivals =>
      match lookup i testset with
      | None => None
      | Some t => match addresults i t ss rs with Some ss => mainloop testset ss arrivals | None => None end
      end
  end.
Definition doparsing (numstages : nat) (testset : list (nat * test)) (arrivals : list arrival) : option (list stage) :=
  mainloop testset (repeat (stage0 (map fst testset)) numstages) arrivals.
(** 690-696: the parse trees written for a stage *)
Definition treesfile (testset : list (nat * test)) (s : stage) : list (nat * option Tree * option Sent) :=
  map (fun it => (fst it, get (s_trees s) (fst it) None, get (s_sents s) (fst it) None)) testset.
(** 698-709: the rows of stats.tsv (stage number instead of name) *)
Definition row := (nat * nat * nat * option Float * Float * option Z * nat * nat * nat)%type.
Definition statsrow (it : nat * test) (k : nat) (s : stage) : row :=
  let i := fst it in
  (i, t_len (snd it), k, get (s_elapsed s) i None, get (s_logprob s) i nan, get (s_frags s) i None, get (s_numitems s) i 0, get (s_golditems s) i 0, get (s_totalgolditems s) i 0).
Definition stats (testset : list (nat * test)) (ss : list stage) : list row :=
  flat_map (fun it => map (fun ks => statsrow it (fst ks) (snd ks)) (combine (seq 0 (length ss)) ss)) testset.
End Exp.

(** eval.py:594-601 scores and 263-290 (summary): labeled recall, precision,
    F, exact match, tagging accuracy, leaf-ancestor and tree-distance score *)
Definition ratio (a b : nat) : option Qc := match b with O => None | _ => Some (nq a / nq b)%Qc end.
Definition diceratio (a b : option Qc) : option Qc :=
  match a, b with Some x, Some y => if Qc_eq_bool y 0 then None else Some (1 - x / y)%Qc | _, _ => None end.
Definition scores (a : accum) : list (option Qc) :=
  [recall nbeqb (goldb a) (candb a); precision nbeqb (goldb a) (candb a); f_measure nbeqb (goldb a) (candb a) (Q2Qc (1 # 2));
   ratio (exact a) (sentcount a); accuracy eqs (goldpos a) (candpos a); mean (lascores a); diceratio (dicenoms a) (dicedenoms a); Some (nq (maxlenseen a)); Some (nq (sentcount a)); Some (nq (length (goldb a))); Some (nq (length (candb a)))].

(** ** parser.py:914-927 readinputbitparstyle.  [strip]: str.strip of white space *)
Definition space (c : char) : bool := existsb (N.eqb c) [32%N; 9%N; 10%N; 13%N; 11%N; 12%N].
Fixpoint lstrip (s : pystr) : pystr := match s with c :: s' => if space c then lstrip s' else s | [] => [] end.
Definition strip (s : pystr) : pystr := rev (lstrip (rev (lstrip s))).
Fixpoint joinspace (l : list pystr) : pystr :=
  match l with [] => [] | [x] => x | x :: l => x ++ 32%N :: joinspace l end.
Fixpoint bitparloop (lines : list pystr) (sent : list pystr) : list pystr :=
  match lines with
  | [] => match sent with [] => [] | _ => [joinspace sent] end
  | line :: lines =>
      let line := strip line in
      match line with
      | [] => joinspace sent :: bitparloop lines [line]
      | _ => bitparloop lines (sent ++ [line])
      end
  end.
Definition readinputbitparstyle (lines : list pystr) : list pystr := bitparloop lines [].
(** 994-997: enumerate((line for line in infile if line.strip()), 1) *)
Definition numbered (infile : list pystr) : list (nat * pystr) :=
  let l := filter (fun line => match strip line with [] => false | _ => true end) infile in combine (seq 1 (length l)) l.
(** 944-951: the sentence a worker parses *)
Definition workerline (line : pystr) : pystr := strip line.
(** 1003-1020: pool.map returns the results in the order of the input;
    [output]: the text written for a sentence, [noparse]: without a parse *)
Definition writeparses (output : nat * pystr -> pystr) (noparse : nat * pystr -> bool) (infile : list (nat * pystr)) : pystr * nat :=
  fold_left (fun acc a => match output a with [] => acc | o => (fst acc ++ o, if noparse a then S (snd acc) else snd acc) end) infile ([], 0).
