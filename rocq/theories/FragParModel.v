(** Model of discodop/fragments.py:342-355 worker, 364-379 exactcountworker, 382-409 workload,
    412-493 recurringfragments (indices=True), and of
    _fragments.pyx:108-215 extractfragments (the loop), 237-268 collectfragments,
    677-704 allfragments (the loop), 805-825 getsubtree.

    The key of a fragment is the string made by getsubtree and getsent; here it
    is the tree of production numbers that getsubtree walks over ([getfrag]);
    turning it into text, with labels, words and renumbered indices, is not
    modelled.  Dictionaries are lists of pairs in insertion order.  Iterating
    over the Python set [inter] gives its elements in an order that depends on
    hash values and may differ from process to process: it is a parameter
    [iter], indexed by the process and the tree number.  The processes each
    build the same node arrays (C58, C61 are functions of the trees). *)
From Coq Require Import NArith ZArith List Bool Arith Lia.
From Verif Require Import BitsModel FragModel FragSpec.
Import ListNotations.

Definition frag_eq_dec : forall f g : frag, {f = g} + {f <> g}.
Proof. decide equality; apply Z.eq_dec. Defined.

(** 0.5 * numtrees * (numtrees - 1): a float without fraction part *)
Definition totalpairs (numtrees : nat) : Z := (Z.of_nat numtrees * (Z.of_nat numtrees - 1) / 2)%Z.
(** fragments.py:400-406: the loop over n; the intervals appended, and [last] *)
Fixpoint workloop (ns : list nat) (numtrees : nat) (chunk togo goal : Z) (last : nat) : list (nat * nat) * nat :=
  match ns with
  | [] => ([], last)
  | n :: ns =>
      let togo := (togo - (Z.of_nat numtrees - Z.of_nat n))%Z in
      if (togo <=? goal)%Z then
        let '(r, last') := workloop ns numtrees chunk togo (goal - chunk) n in ((last, n) :: r, last')
      else workloop ns numtrees chunk togo goal last
  end.
(** 382-409 *)
Definition workload (numtrees mult numproc : nat) : list (nat * nat) :=
  if numproc =? 1 then [(0, numtrees)]
  else
    let total := totalpairs numtrees in
    let chunk := (total / Z.of_nat (mult * numproc) + 1)%Z in
    let '(r, last) := workloop (seq 1 (numtrees - 1)) numtrees chunk total (total - chunk) 0 in
    if last <? numtrees then r ++ [(last, numtrees)] else r.
(** 164-165 (regular, two treebanks): work = [(a, a + chunk) for a in range(0, numtrees, chunk)] *)
Fixpoint rangestep (fuel start stop step : nat) : list nat :=
  match fuel with
  | O => []
  | S f => if start <? stop then start :: rangestep f (start + step) stop step else []
  end.
Definition workload2 (numtrees mult numproc : nat) : list (nat * nat) :=
  let chunk := numtrees / (mult * numproc) + 1 in
  map (fun a => (a, a + chunk)) (rangestep numtrees 0 numtrees chunk).

(** dictionaries *)
Section Dict.
Context {V : Type}.
Fixpoint dget (f : frag) (d : list (frag * V)) : option V :=
  match d with [] => None | (g, v) :: d => if frag_eq_dec f g then Some v else dget f d end.
Fixpoint dset (f : frag) (x : V) (d : list (frag * V)) : list (frag * V) :=
  match d with [] => [(f, x)] | (g, v) :: d => if frag_eq_dec f g then (g, x) :: d else (g, v) :: dset f x d end.
(** d.update(r) *)
Definition dupdate (d r : list (frag * V)) : list (frag * V) := fold_left (fun d fx => dset (fst fx) (snd fx) d) r d.
End Dict.

(** _fragments.pyx:805-825 getsubtree *)
Fixpoint getfrag (fuel : nat) (a : list node) (bits : list N) (i : nat) : frag :=
  match fuel with
  | O => Open
  | S f =>
      if TESTBIT bits (bit i) then
        if (0 <=? left (nd a i))%Z then
          if (0 <=? right (nd a i))%Z
          then FBin (prod (nd a i)) (getfrag f a bits (kid (left (nd a i)))) (getfrag f a bits (kid (right (nd a i))))
          else FUn (prod (nd a i)) (getfrag f a bits (kid (left (nd a i))))
        else FLex (prod (nd a i))
      else Open
  end.
(** the fragment of a bitset; its tree is recorded in it *)
Definition keyof (ts : list ctree) (x : stored) : frag :=
  let '(bits, n, i) := x in let a := fst (nth n ts ([], 0)) in getfrag (S (length a)) a bits i.

(** 237-268 collectfragments, with approx=False: the first bitset is kept *)
Definition collect (ts : list ctree) (d : list (frag * stored)) (inter : list stored) : list (frag * stored) :=
  fold_left (fun d x => match dget (keyof ts x) d with None => dset (keyof ts x) x d | Some _ => d end) inter d.
(** with indices=True: fragments[frag].append(getid(bitset, SLOTS)) *)
Definition collectindices (ts : list ctree) (d : list (frag * list nat)) (inter : list stored) : list (frag * list nat) :=
  fold_left (fun d x => dset (keyof ts x) (match dget (keyof ts x) d with None => [] | Some l => l end ++ [snd (fst x)]) d) inter d.

(** 342-355 worker; 173-213 the loop over range(start1, min(end1 or len, len)) *)
Definition worker (iter : nat -> list stored -> list stored) (ts : list ctree) (w : nat * nat) : list (frag * stored) :=
  let stop := Nat.min (if snd w =? 0 then length ts else snd w) (length ts) in
  fold_left (fun d n => collect ts d (iter n (fragments_of ts ts (slots_for (maxnodes ts)) n (S n) (length ts))))
    (seq (fst w) (stop - fst w)) [].
(** 364-379 exactcountworker *)
Definition exactcountworker (ts : list ctree) (nprods : nat) (bitsets : list stored) : list (list nat) :=
  map (fun x => map fst (exactindices ts ts nprods x)) bitsets.
(** 460-463: bitsets[a:a + countchunk] for a in range(0, len(bitsets), countchunk) *)
Definition countwork {A} (bitsets : list A) (numproc : nat) : list (list A) :=
  let countchunk := length bitsets / numproc + 1 in
  map (fun a => firstn countchunk (skipn a bitsets)) (rangestep (length bitsets) 0 (length bitsets) countchunk).
(** 677-704 *)
Definition coverfragments (iter : nat -> list stored -> list stored) (ts : list ctree) (maxdepth maxfrontier : nat) : list (frag * list nat) :=
  fold_left (fun d n => collectindices ts d (iter n (allfragments (nth n ts ([], 0)) n (N.to_nat (BITNSLOTS (N.of_nat (maxnodes ts)))) maxdepth maxfrontier)))
    (seq 0 (length ts)) [].
(** 412-493.  [iter p]: the order of sets in process p; process 0 is the main
    process. *)
Definition recurringfragments (iter : nat -> nat -> list stored -> list stored) (ts : list ctree) (nprods numproc maxdepth maxfrontier : nat)
  : list (frag * list nat) :=
  let work := workload (length ts) 1 numproc in
  let results := map (fun pw => worker (iter (fst pw)) ts (snd pw)) (combine (seq 1 (length work)) work) in
  let fragments := fold_left dupdate results [] in
  let fragmentkeys := map fst fragments in
  let bitsets := map snd fragments in
  let counts := concat (map (exactcountworker ts nprods) (countwork bitsets numproc)) in
  let cover := if maxdepth =? 0 then [] else coverfragments (iter 0) ts maxdepth maxfrontier in
  let added := filter (fun fv => match dget (fst fv) fragments with None => true | Some _ => false end) cover in
  combine (fragmentkeys ++ map fst added) (counts ++ map snd added).
