(** Model of discodop/kbest.pyx:15-233, 266-300: the k-best derivations of a
    chart (Huang & Chiang 2005, algorithm 3).

    Chart items are numbers.  Negative log probabilities are natural numbers
    (any finite number of rationals can be scaled to integers); rounding of
    floating point numbers is not modelled. *)
From Coq Require Import List Bool Arith NArith Lia.
Import ListNotations.
Open Scope list_scope.
Open Scope nat_scope.

(** _containers.h:273-276 Edge with the items it points to (Chart.left and
    Chart.right, containers.pyx:88-94); [eno] is rule->no, None for a lexical
    edge (rule is NULL).  [eprob] is rule->prob; for a lexical edge it is the
    probability of the lexical rule, which kbest.pyx does not look at. *)
Record edge := Edge { eno : option nat; eprob : N; epos : nat; eleft : nat; eright : option nat }.
(** _containers.h:360-366 RankedEdge; None stands for -1 *)
Record redge := RE { re : edge; rl : option nat; rr : option nat }.
Definition eqon (a b : option nat) : bool :=
  match a, b with Some x, Some y => x =? y | None, None => true | _, _ => false end.
(** _containers.h:367-373 operator==: the rule number, the position and the
    ranks, but not the item that the edge belongs to *)
Definition req (a b : redge) : bool :=
  eqon (rl a) (rl b) && eqon (rr a) (rr b) && (epos (re a) =? epos (re b)) && eqon (eno (re a)) (eno (re b)).
Definition entry := (redge * N)%type.
(** RankedEdgeAgenda: entries in order of insertion; see C12 for the proof that
    the C++ agenda pops the best entry, the oldest one among equals. *)
Definition agenda := list entry.
Fixpoint popmin (l : agenda) : option (entry * agenda) :=
  match l with
  | [] => None
  | x :: r => match popmin r with
              | Some (y, r') => if (snd y <? snd x)%N then Some (y, x :: r') else Some (x, r)
              | None => Some (x, [])
              end
  end.
(** _containers.h:82-127 kbest_entries: entries that are equal are merged,
    keeping the best probability; then the k best are kept *)
Fixpoint addentry (l : agenda) (x : entry) : agenda :=
  match l with
  | [] => [x]
  | y :: r => if req (fst y) (fst x) then (if (snd x <? snd y)%N then x :: r else y :: r) else y :: addentry r x
  end.
Fixpoint popk (k : nat) (l : agenda) : agenda :=
  match k with
  | O => []
  | S k' => match popmin l with Some (x, r) => x :: popk k' r | None => [] end
  end.
Definition kbest_entries (l : list entry) (k : nat) : agenda := popk k (fold_left addentry l []).

Section Kbest.
Variable forest : nat -> list edge.                 (* chart.parseforest *)
Variable subtreeprob : nat -> N.                    (* Viterbi probability *)

(** kbest.pyx:15-53 getcandidates *)
Definition candidate (v : nat) (e : edge) : entry :=
  match eno e with
  | None => (RE e None None, subtreeprob v)                                           (* 34-38 *)
  | Some _ =>
    match eright e with
    | Some r => (RE e (Some 0) (Some 0), (eprob e + subtreeprob (eleft e) + subtreeprob r)%N)
    | None => (RE e (Some 0) None, (eprob e + subtreeprob (eleft e))%N)
    end
  end.
Definition getcandidates (v k : nat) : agenda := kbest_entries (map (candidate v) (forest v)) k.

Definition rankmap := nat -> list entry.             (* chart.rankededges *)
Record st := St { ranked : rankmap; cand : nat -> option agenda; explored : list redge }.
Definition put {X} (f : nat -> X) (v : nat) (x : X) : nat -> X := fun u => if u =? v then x else f u.
(** kbest.pyx:115-139 getprob; None: ValueError, or out of range *)
Definition rankprob (R : rankmap) (v : nat) (j : nat) : option N :=
  match j with O => Some (subtreeprob v) | S _ => option_map snd (nth_error (R v) j) end.
Definition getprob (R : rankmap) (x : redge) : option N :=
  match rl x with
  | None => None
  | Some i =>
    match rankprob R (eleft (re x)) i with
    | None => None
    | Some p =>
      match rr x, eright (re x) with
      | None, _ => Some (eprob (re x) + p)%N                                          (* 129-130 *)
      | Some j, Some r => match rankprob R r j with Some q => Some (eprob (re x) + p + q)%N | None => None end
      | Some _, None => None
      end
    end
  end.
Definition isexplored (s : st) (x : redge) : bool := existsb (req x) (explored s).
(** 101-109: add a neighbor, when it exists *)
Definition addneighbor (s : st) (v ei ji : nat) (x : redge) : option st :=
  if (ji <? length (ranked s ei)) && negb (isexplored s x) then
    match getprob (ranked s) x, cand s v with
    | Some p, Some c => Some (St (ranked s) (put (cand s) v (Some (c ++ [(x, p)]))) (x :: explored s))
    | _, _ => None
    end
  else Some s.
Section Next.
(** [rec]: the recursive call at 98-99, None when depthlimit is 0 *)
Variable rec : option (nat -> nat -> st -> option st).
Definition neighbor (s : st) (v ei ji : nat) (x : redge) : option st :=
  match rec with
  | None => Some s
  | Some f => match f ei (ji + 1) s with Some s' => addneighbor s' v ei ji x | None => None end
  end.
(** 83-110 the inlined lazynext *)
Definition lazynext (s : st) (v : nat) (ej : redge) : option st :=
  match rl ej with
  | None => Some s
  | Some i =>
    match neighbor s v (eleft (re ej)) (i + 1) (RE (re ej) (Some (i + 1)) (rr ej)) with
    | None => None
    | Some s1 =>
      match rr ej, eright (re ej) with
      | Some j, Some r => neighbor s1 v r (j + 1) (RE (re ej) (rl ej) (Some (j + 1)))
      | _, _ => Some s1
      end
    end
  end.
(** 65, 76-115 the loop; [inr] is inrankededges, which is updated at the start
    of an iteration; [n] bounds the number of iterations *)
Fixpoint kloop (n : nat) (inr : bool) (v k : nat) (s : st) : option st :=
  match n with
  | O => Some s
  | S n' =>
    if negb inr || (length (ranked s v) <? k) then
      let inr' := inr || negb (length (ranked s v) =? 0) in
      let s1 := if inr' then match rev (ranked s v) with [] => None | (ej, _) :: _ => lazynext s v ej end else Some s in
      match s1 with
      | None => None
      | Some s1 =>
        match cand s1 v with
        | None => None
        | Some c => match popmin c with
                    | None => Some s1                                                   (* 111-112 *)
                    | Some (x, c') => kloop n' inr' v k (St (put (ranked s1) v (ranked s1 v ++ [x])) (put (cand s1) v (Some c')) (explored s1))
                    end
        end
      end
    else Some s
  end.
End Next.
(** 56-115 lazykthbest *)
Fixpoint lazykthbest (depthlimit : nat) (k1 : nat) (v k : nat) (s : st) : option st :=
  let s0 := match cand s v with None => St (ranked s) (put (cand s) v (Some (getcandidates v k1))) (explored s) | Some _ => s end in
  kloop (match depthlimit with O => None | S d => Some (fun ei k' s' => lazykthbest d k1 ei k' s') end)
    (k + 2) (negb (length (ranked s v) =? 0)) v k s0.

(** 142-181 explorederivation; None: failed assertion or abort() *)
Definition fill (R : rankmap) (c rank : nat) : option rankmap :=
  match R c with
  | [] => if rank =? 0 then match popmin (getcandidates c 1) with Some (x, _) => Some (put R c [x]) | None => None end else None
  | _ => Some R
  end.
Fixpoint explorederivation (depthlimit : nat) (ej : redge) (R : rankmap) : option (rankmap * bool) :=
  match depthlimit with
  | O => Some (R, false)
  | S d =>
    match eno (re ej) with
    | None => Some (R, true)
    | Some _ =>
      let first := match rl ej with
        | None => Some (R, true)
        | Some i =>
          match fill R (eleft (re ej)) i with
          | None => None
          | Some R1 => match nth_error (R1 (eleft (re ej))) i with
                       | Some (x, _) => explorederivation d x R1
                       | None => None
                       end
          end
        end in
      match first with
      | None => None
      | Some (R1, false) => Some (R1, false)
      | Some (R1, true) =>
        match rr ej, eright (re ej) with
        | Some j, Some r =>
          match fill R1 r j with
          | None => None
          | Some R2 => match nth_error (R2 r) j with
                       | Some (x, _) => explorederivation d x R2
                       | None => None
                       end
          end
        | _, _ => Some (R1, true)
        end
      end
    end
  end.
(** derivation trees; a node has an edge *)
Inductive dtree := DLex (e : edge) | DUn (e : edge) (t : dtree) | DBin (e : edge) (t u : dtree).
(** 184-209 _getderiv (which writes the tree in bracket notation) *)
Fixpoint getderiv (fuel : nat) (R : rankmap) (ej : redge) : option dtree :=
  match fuel with
  | O => None
  | S f =>
    match eno (re ej) with
    | None => Some (DLex (re ej))
    | Some _ =>
      match rl ej with
      | None => None
      | Some i =>
        match nth_error (R (eleft (re ej))) i with
        | None => None
        | Some (x, _) =>
          match getderiv f R x with
          | None => None
          | Some t =>
            match rr ej, eright (re ej) with
            | None, _ => Some (DUn (re ej) t)
            | Some j, Some r =>
              match nth_error (R r) j with
              | None => None
              | Some (y, _) => match getderiv f R y with Some u => Some (DBin (re ej) t u) | None => None end
              end
            | Some _, None => None
            end
          end
        end
      end
    end
  end.
(** constants.pxi:19 *)
Definition MAX_DEPTH := 200.
(** 284-290 *)
Fixpoint explore_all (es : list entry) (R : rankmap) : option (rankmap * list entry) :=
  match es with
  | [] => Some (R, [])
  | e :: r =>
    match explorederivation MAX_DEPTH (fst e) R with
    | None => None
    | Some (R1, ok) => match explore_all r R1 with
                       | Some (R2, l) => Some (R2, if ok then e :: l else l)
                       | None => None
                       end
    end
  end.
Fixpoint mapM {X Y} (f : X -> option Y) (l : list X) : option (list Y) :=
  match l with
  | [] => Some []
  | x :: r => match f x, mapM f r with Some y, Some l' => Some (y :: l') | _, _ => None end
  end.
(** 266-297 lazykbest with derivs=True; None: an exception.  The loop at 284-290
    ends after at least one entry. *)
Definition lazykbest (root k : nat) : option (list (dtree * N)) :=
  match forest root with
  | [] => None                                                                          (* 279-280 *)
  | _ =>
    match lazykthbest MAX_DEPTH k root k (St (fun _ => []) (fun _ => None) []) with
    | None => None
    | Some s =>
      match explore_all (firstn (Nat.max 1 k) (ranked s root)) (ranked s) with
      | None => None
      | Some (R, es) => mapM (fun e => match getderiv (S MAX_DEPTH) (put R root es) (fst e) with Some t => Some (t, snd e) | None => None end) es
      end
    end
  end.
End Kbest.
