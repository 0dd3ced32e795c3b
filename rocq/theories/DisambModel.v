(** Model of the disambiguation of derivations:
    /repo/discodop/disambiguation.pyx (marginalize 82-280, testconstraints
    282-287, sldop_simple 487-543, REMOVEIDS 50) and
    /repo/discodop/containers.pxd (logprobadd 784-808, logprobsum 811-838).

    Probabilities are real numbers of the standard library (so [exp] and [ln]
    are the mathematical functions; floating point rounding is not modelled);
    everything else is as in the code.  A derivation is an element of an
    arbitrary type D: for a DOP reduction its string, for Double-DOP its
    ranked edge. *)
From Coq Require Import Reals.
From Coq Require Import List Bool Arith NArith ZArith.
From Verif Require Import PyStr.
Import ListNotations.
Open Scope R_scope.

(** containers.pxd:811-838.  The loop of [logprobsum]: state (maxprob, result). *)
Definition lps_step (st : R * R) (prob : R) : R * R :=
  let '(maxprob, result) := st in
  if Rle_dec prob maxprob
  then (maxprob, result + exp (prob - maxprob))
  else (prob, result * exp (maxprob - prob) + 1).
Definition logprobsum (logprobs : list R) : R :=
  let '(maxprob, result) := fold_left lps_step logprobs (-800, 0) in
  exp maxprob * result.

(** containers.pxd:784-808.  Infinite arguments and overflow of exp are floating
    point notions and are not modelled. *)
Definition logprobadd (x y : R) : R :=
  if Rlt_dec x (y - 460) then y
  else if Rlt_dec y (x - 460) then x
  else x + ln (1 + exp (y - x)).

(** disambiguation.pyx:50, REMOVEIDS = '@[-0-9]+' *)
Definition idchar (c : N) : bool := N.eqb c 45 || isdigit c.
Definition at_char : N := 64.
(** REMOVEIDS.sub(repl, s); [skip] is true while inside a match. *)
Fixpoint subids (repl : pystr) (skip : bool) (s : pystr) : pystr :=
  match s with
  | [] => []
  | c :: s' =>
      if skip && idchar c then subids repl true s'
      else match s' with
           | d :: _ =>
               if N.eqb c at_char && idchar d then repl ++ subids repl true s'
               else c :: subids repl false s'
           | [] => [c]
           end
  end.
Definition removeids (repl s : pystr) : pystr := subids repl false s.

(** Python dictionaries keyed by strings, as association lists in insertion
    order.  The order of the C++ sparse_hash_map mpptrees is arbitrary; no
    theorem depends on the order of the results. *)
Fixpoint get {V} (k : pystr) (m : list (pystr * V)) : option V :=
  match m with
  | [] => None
  | (k', v) :: m' => if eqs k k' then Some v else get k m'
  end.
Fixpoint put {V} (k : pystr) (v : V) (m : list (pystr * V)) : list (pystr * V) :=
  match m with
  | [] => [(k, v)]
  | (k', v') :: m' => if eqs k k' then (k', v) :: m' else (k', v') :: put k v m'
  end.
Definition setdefault {V} (k : pystr) (v : V) (m : list (pystr * V)) :=
  match get k m with Some _ => m | None => put k v m end.

Section Marginalize.
  Context {D : Type}.

  (** disambiguation.pyx:185-187, 217-219: the branch for mpp.
      [mpptrees[treestr].push_back(-prob)]; the first derivation is recorded. *)
  Definition mpp_step (key : D -> option pystr)
      (st : list (pystr * list R) * list (pystr * D)) (x : D * R) :=
    let '(mpptrees, derivs) := st in
    let '(d, prob) := x in
    match key d with
    | None => st   (* 164-170: recoverfragments raised: skip *)
    | Some t =>
        (put t (match get t mpptrees with Some l => l | None => [] end ++ [- prob])
           mpptrees,
         setdefault t d derivs)
    end.
  (** 244-262: results = (treestr, logprobsum(probs), derivation) *)
  Definition marg_mpp (key : D -> option pystr) (ds : list (D * R))
      : list (pystr * R * option D) :=
    let '(mpptrees, derivs) := fold_left (mpp_step key) ds ([], []) in
    map (fun '(t, probs) => (t, logprobsum probs, get t derivs)) mpptrees.

  (** 181-184, 213-216: the branch for mpd. *)
  Definition mpd_step (key : D -> option pystr)
      (st : list (pystr * R) * list (pystr * D)) (x : D * R) :=
    let '(mpdtrees, derivs) := st in
    let '(d, prob) := x in
    match key d with
    | None => st
    | Some t =>
        let better := match get t mpdtrees with
                      | None => true
                      | Some old => if Rlt_dec old (- prob) then true else false
                      end in
        if better then (put t (- prob) mpdtrees, put t d derivs) else st
    end.
  (** 232-243; [final] is REMOVEIDS.sub('', .) for a DOP reduction and the
      identity for Double-DOP. *)
  Definition marg_mpd (key : D -> option pystr) (final : pystr -> pystr)
      (ds : list (D * R)) : list (pystr * R * option D) :=
    let '(mpdtrees, derivs) := fold_left (mpd_step key) ds ([], []) in
    map (fun '(t, p) => (final t, exp p, get t derivs)) mpdtrees.

  (** 146-160: filter out all derivations which are not shortest. *)
  Definition mincost (ds : list (D * R)) (c0 : R) : R :=
    fold_left (fun m x => if Rlt_dec (snd x) m then snd x else m) ds c0.
  Definition onlyshortest (ds : list (D * R)) : list (D * R) :=
    match ds with
    | [] => []
    | (_, c0) :: _ =>
        let m := mincost ds c0 in
        filter (fun x => if Req_EM_T (snd x) m then true else false) ds
    end.

  (** Python's int() on a float: truncation towards zero. *)
  Definition trunc (x : R) : Z :=
    if Rle_dec 0 x then Int_part x else (- Int_part (- x))%Z.

  Definition score_gt (a b : Z * R) : bool :=
    if Z.eq_dec (fst a) (fst b)
    then (if Rlt_dec (snd b) (snd a) then true else false)
    else if Z_lt_dec (fst b) (fst a) then true else false.

  (** 171-180 (Double-DOP: the best score is kept) and 202-212 (DOP reduction:
      the probabilities in the other model are added); [newprob d] is
      getderivprob(...), a log probability with the sign reversed. *)
  Definition shortest_step (dopreduction : bool) (key : D -> option pystr)
      (newprob : D -> R)
      (st : list (pystr * (Z * R)) * list (pystr * D)) (x : D * R) :=
    let '(derivlen, derivs) := st in
    let '(d, prob) := x in
    match key d with
    | None => st
    | Some t =>
        let score := (trunc (prob / ln (1 / 2)), exp (- newprob d)) in
        match get t derivlen with
        | None => (put t score derivlen, put t d derivs)
        | Some old =>
            if dopreduction
            then (put t (fst old, snd old + snd score) derivlen, derivs)
            else if score_gt score old
                 then (put t score derivlen, put t d derivs)
                 else st
        end
    end.
  (** 222-231 *)
  Definition marg_shortest (dopreduction : bool) (key : D -> option pystr)
      (final : pystr -> pystr) (newprob : D -> R) (ds : list (D * R))
      : list (pystr * (Z * R) * option D) :=
    let '(derivlen, derivs) :=
      fold_left (shortest_step dopreduction key newprob) (onlyshortest ds) ([], []) in
    map (fun '(t, (a, b)) => (final t, ((- a)%Z, b), get t derivs)) derivlen.
End Marginalize.

(** 275-278, 282-287: keep the trees that contain all required and no blocked
    labelled spans; [spans t] is the set of labelled spans of the tree. *)
Definition testconstraints {S : Type} (eqS : S -> S -> bool) (spans : pystr -> list S)
    (require block : list S) (t : pystr) : bool :=
  forallb (fun r => existsb (eqS r) (spans t)) require
  && forallb (fun b => negb (existsb (eqS b) (spans t))) block.
Definition constrain {S V F : Type} (eqS : S -> S -> bool) (spans : pystr -> list S)
    (require block : list S) (results : list (pystr * V * F)) :=
  match require, block with
  | [], [] => results
  | _, _ => filter (fun x => testconstraints eqS spans require block (fst (fst x))) results
  end.

(** parser.py:503, max(parsetrees, key=itemgetter(1)): the first entry with the
    largest score. *)
Fixpoint maxby {A} (x : A) (f : A -> R) (l : list A) : A :=
  match l with
  | [] => x
  | y :: l' => maxby (if Rlt_dec (f x) (f y) then y else x) f l'
  end.

(** heapq.nlargest(n, l, key=f) = sorted(l, key=f, reverse=True)[:n]: insertion
    sort, stable. *)
Fixpoint insertby {A} (f : A -> R) (x : A) (l : list A) : list A :=
  match l with
  | [] => [x]
  | y :: l' => if Rlt_dec (f x) (f y) then y :: insertby f x l' else x :: l
  end.
Definition sortby {A} (f : A -> R) (l : list A) : list A :=
  fold_right (insertby f) [] l.
Definition nlargest {A} (n : nat) (f : A -> R) (l : list A) : list A :=
  firstn n (sortby f l).

(** Number of fragments according to sldop_simple (526-529):
    deriv.count('(') - len([a for a in deriv.split() if '@' in a]).
    (The '}<' alternative concerns the Double-DOP branch, not modelled here.) *)
Definition space : N := 32.
Definition lparen : N := 40.
Fixpoint countc (c : N) (s : pystr) : nat :=
  match s with [] => O | d :: s' => (if N.eqb c d then 1 else 0) + countc c s' end.
(** number of blank-separated words of s containing '@'; [seen] tells whether the
    current word has one already. *)
Fixpoint atwords (seen : bool) (s : pystr) : nat :=
  match s with
  | [] => if seen then 1 else 0
  | c :: s' =>
      if N.eqb c space then ((if seen then 1 else 0) + atwords false s')%nat
      else atwords (seen || N.eqb c at_char) s'
  end.
Definition numfrags (deriv : pystr) : Z :=
  (Z.of_nat (countc lparen deriv) - Z.of_nat (atwords false deriv))%Z.

(** sldop_simple (487-543), DOP reduction branch (backtransform is None). *)
Definition dictof (ds : list (pystr * R)) : list (pystr * R) :=
  fold_left (fun m '(d, p) => put d p m) ds [].
(** derivsfortree: tree -> set of derivations (with their probabilities) *)
Definition derivsfortree (ds : list (pystr * R)) : list (pystr * list (pystr * R)) :=
  fold_left (fun m '(d, p) =>
      let t := removeids [] d in
      put t (match get t m with Some l => l | None => [] end ++ [(d, p)]) m)
    (dictof ds) [].
(** Lexicographic comparison of strings and min over (score, deriv). *)
Fixpoint strlt (a b : pystr) : bool :=
  match a, b with
  | [], [] => false
  | [], _ :: _ => true
  | _ :: _, [] => false
  | x :: a', y :: b' => N.ltb x y || (N.eqb x y && strlt a' b')
  end.
Definition cand_lt (a b : Z * pystr) : bool :=
  Z.ltb (fst a) (fst b) || (Z.eqb (fst a) (fst b) && strlt (snd a) (snd b)).
Fixpoint minby {A} (lt : A -> A -> bool) (x : A) (l : list A) : A :=
  match l with [] => x | y :: l' => minby lt (if lt y x then y else x) l' end.
Definition sldop_simple (sldop_n : nat) (ds : list (pystr * R))
    : list (pystr * (Z * R) * pystr) :=
  let trees := map (fun '(t, l) =>
      (t, (logprobsum (map (fun x => - snd x) l), map fst l))) (derivsfortree ds) in
  flat_map (fun '(t, (p, l)) =>
      match map (fun d => (numfrags d, d)) l with
      | [] => []
      | c :: cs => let best := minby cand_lt c cs in [(t, ((- fst best)%Z, p), snd best)]
      end)
    (nlargest sldop_n (fun x => fst (snd x)) trees).
