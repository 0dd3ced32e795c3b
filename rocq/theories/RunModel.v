(** Model of discodop/runexp.py: parsing the test set of an experiment with worker
    processes, collecting and writing the results.

    Simplifications: sentence ids are numbers; parsing a sentence ([work]: the
    parser of C41/C54/C60), comparing a pair of trees ([mkpair]: eval.py
    TreePairResult) and writing a tree ([writetree]) are parameters, of which the
    first two may raise ([None]); log messages are left out, and so are the
    function tag scores. *)
From Coq Require Import List Bool Arith ZArith QArith Qcanon.
From Verif Require Import PyStr EvalModel.
Import ListNotations.
Open Scope list_scope.
Open Scope nat_scope.

(** ** dictionaries with sentence ids as keys *)
(** dict.fromkeys(testset, v) *)
Definition fromkeys {V} (keys : list nat) (v : V) : list (nat * V) := map (fun k => (k, v)) keys.
Fixpoint dget {V} (d : list (nat * V)) (k : nat) : option V :=
  match d with [] => None | (k', v) :: r => if k =? k' then Some v else dget r k end.
(** d[k] = v *)
Fixpoint dset {V} (d : list (nat * V)) (k : nat) (v : V) : list (nat * V) :=
  match d with
  | [] => [(k, v)]
  | (k', w) :: r => if k =? k' then (k', v) :: r else (k', w) :: dset r k v
  end.

Section Run.
(** trees, gold trees, words, floats, logarithms, times, lines of a tree file *)
Context {T G W F L E O : Type}.
(** 0 < a <= 1; log(a), None: ValueError *)
Variable inrange : F -> bool.
Variable logf : F -> option L.
(** float('nan'), 300.0 *)
Variables (nan l300 : L).

Inductive pval := VInt (z : Z) | VFloat (x : F).
(** result.prob: a tuple, a float, or something else *)
Inductive pprob := PTuple (l : list pval) | PFloat (x : F) | POther.
(** what the parser returns for a stage (parser.py:parse); [r_frags] is the length of
    result.fragments or None *)
Record stageres := mkSR {
  r_tree : T; r_prob : pprob; r_frags : option nat;
  r_items : nat; r_gold : nat; r_total : nat; r_time : E; r_noparse : bool }.
(** runexp.py:551-565; the results of a stage *)
Record results := mkRes {
  parsetrees : list (nat * option T); sents : list (nat * option (list W));
  logprob : list (nat * L); frags : list (nat * option Z);
  numitems : list (nat * nat); golditems : list (nat * nat); totalgolditems : list (nat * nat);
  elapsedtime : list (nat * option E);
  evacc : accum; evacc40 : option accum; noparse : nat }.

Variable disconly : bool.
(** param['CUTOFF_LEN'] *)
Variable cutoff : option nat.
(** params.testset *)
Variable testset : list (nat * (G * list W)).
Variable mkpair : nat -> G -> list W -> T -> list W -> option pair.
Variable writetree : T -> list W -> nat -> O.

(** runexp.py:551-565, eval.py:38-45 *)
Definition initial : results :=
  let keys := map fst testset in
  mkRes (fromkeys keys None) (fromkeys keys None) (fromkeys keys nan) (fromkeys keys (Some 0%Z))
    (fromkeys keys 0) (fromkeys keys 0) (fromkeys keys 0) (fromkeys keys None)
    acc0 (match cutoff with None => None | Some _ => Some acc0 end) 0.

(** [log(a) for a in prob if isinstance(a, float) and 0 < a <= 1] *)
Fixpoint logs (l : list pval) : list (option L) :=
  match l with
  | [] => []
  | VFloat x :: r => if inrange x then logf x :: logs r else logs r
  | VInt _ :: r => logs r
  end.
(** a ValueError anywhere in the list raises *)
Fixpoint allsome' {X} (l : list (option X)) : option (list X) :=
  match l with [] => Some [] | None :: _ => None | Some x :: r => option_map (cons x) (allsome' r) end.
(** [abs(a) for a in prob if isinstance(a, int)] *)
Fixpoint ints (l : list pval) : list Z :=
  match l with [] => [] | VInt z :: r => Z.abs z :: ints r | VFloat _ :: r => ints r end.

(** runexp.py:589-602 *)
Definition setlog (d : list (nat * L)) (id : nat) (p : pprob) : list (nat * L) :=
  match p with
  | PTuple l => dset d id (match allsome' (logs l) with Some (x :: _) => x | _ => l300 end)
  | PFloat x => dset d id (match logf x with Some y => y | None => l300 end)
  | POther => d
  end.
(** runexp.py:595-596, 603-604 *)
Definition setfrags (d : list (nat * option Z)) (id : nat) (r : stageres) : list (nat * option Z) :=
  let d := match r_prob r with
           | PTuple l => dset d id (match ints l with z :: _ => Some z | [] => None end)
           | _ => d
           end in
  match r_frags r with Some n => dset d id (Some (Z.of_nat n)) | None => d end.
(** eval.py:54-65 *)
Definition addeval (acc : accum) (acc40 : option accum) (p : pair) : accum * option accum :=
  (addpair disconly acc p,
   match cutoff, acc40 with
   | Some c, Some a => if p_lengpos p <=? c then Some (addpair disconly a p) else Some a
   | _, a => a
   end).
(** runexp.py:584-615: record the result of a stage for a sentence; None: an exception *)
Definition onestage (id : nat) (sent : list W) (gold : G) (goldsent : list W) (s : results) (r : stageres) : option results :=
  match dget (parsetrees s) id, dget (elapsedtime s) id with
  | Some None, Some None =>
    match mkpair id gold goldsent (r_tree r) sent with
    | None => None
    | Some p =>
      let (a, a40) := addeval (evacc s) (evacc40 s) p in
      Some (mkRes (dset (parsetrees s) id (Some (r_tree r))) (dset (sents s) id (Some sent))
        (setlog (logprob s) id (r_prob r)) (setfrags (frags s) id r)
        (dset (numitems s) id (r_items r)) (dset (golditems s) id (r_gold r)) (dset (totalgolditems s) id (r_total r))
        (dset (elapsedtime s) id (Some (r_time r)))
        a a40 (if r_noparse r then S (noparse s) else noparse s))
    end
  | _, _ => None
  end.
(** runexp.py:584: for n, result in enumerate(sentresults) *)
Fixpoint stages (id : nat) (sent : list W) (gold : G) (goldsent : list W) (ss : list results) (rs : list stageres) : option (list results) :=
  match rs with
  | [] => Some ss
  | r :: rs' =>
    match ss with
    | [] => None
    | s :: ss' =>
      match onestage id sent gold goldsent s r with
      | None => None
      | Some s' => option_map (cons s') (stages id sent gold goldsent ss' rs')
      end
    end
  end.
(** what arrives from a worker: sentid, sent, sentresults; None: the worker raised *)
Definition arrival : Type := option (nat * list W * list stageres).
(** runexp.py:576-615: one iteration of the main loop *)
Definition step (ss : list results) (a : arrival) : option (list results) :=
  match a with
  | None => None
  | Some (id, sent, rs) =>
    match dget testset id with
    | None => None
    | Some (gold, goldsent) => stages id sent gold goldsent ss rs
    end
  end.
Fixpoint loop (ss : list results) (l : list arrival) : option (list results) :=
  match l with [] => Some ss | a :: l' => match step ss a with None => None | Some ss' => loop ss' l' end end.

(** runexp.py:651-670, with the parser *)
Variable work : nat -> option (list W * list stageres).
Definition worker (id : nat) : arrival := option_map (fun p => (id, fst p, snd p)) (work id).

(** runexp.py:691-698: the tree file of a stage, None: an exception *)
Fixpoint treefile (s : results) (keys : list nat) : option (list O) :=
  match keys with
  | [] => Some []
  | k :: r =>
    match dget (parsetrees s) k, dget (sents s) k with
    | Some (Some t), Some (Some sent) => option_map (cons (writetree t sent k)) (treefile s r)
    | _, _ => None
    end
  end.
(** runexp.py:700-712: a row of stats.tsv: sentid, len, number of the stage, elapsedtime,
    logprob, frags, numitems, golditems, totalgolditems *)
Definition statrow (k : nat) (goldsent : list W) (n : nat) (s : results) :=
  (k, length goldsent, n, (dget (elapsedtime s) k, dget (logprob s) k, dget (frags s) k,
   dget (numitems s) k, dget (golditems s) k, dget (totalgolditems s) k)).
Definition stats (ss : list results) :=
  flat_map (fun e : nat * (G * list W) => map (fun ns => statrow (fst e) (snd (snd e)) (fst ns) (snd ns)) (combine (seq 0 (length ss)) ss)) testset.
(** runexp.py:546-640: numstages results, the loop over what arrives, in the order in
    which it arrives, and the files written afterwards *)
Definition doparsing (numstages : nat) (arrivals : list arrival) : option (list results) :=
  loop (repeat initial numstages) arrivals.
(** runexp.py:568-570: without worker processes *)
Definition sequential (numstages : nat) : option (list results) :=
  doparsing numstages (map (fun e => worker (fst e)) testset).

(** eval.py:595-601: lr, lp, lf, ex, tag; 238-: leaf-ancestor, longest sentence, number
    of sentences, tree-edit distance *)
Definition scores (a : accum) :=
  (recall nbeqb (goldb a) (candb a), precision nbeqb (goldb a) (candb a), f_measure nbeqb (goldb a) (candb a) (Q2Qc (1 # 2)),
   if sentcount a =? 0 then None else Some (nq (exact a) / nq (sentcount a))%Qc,
   accuracy eqs (goldpos a) (candpos a),
   (mean (lascores a), maxlenseen a, sentcount a, dicenoms a, dicedenoms a)).
End Run.
