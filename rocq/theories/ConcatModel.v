(** Model of rule application in the LCFRS parser (discodop/plcfrs.pyx:945-1056)
    and of the encoding of yield functions (discodop/containers.pyx:653-665,
    discodop/_grammar.pxi:405-451, 997-1009). *)
From Coq Require Import NArith ZArith List Bool Ascii.
From Verif Require Import BitsModel.
Import ListNotations.
Local Open Scope N_scope.

(** A yield function: a list of arguments, each a list of variables;
    false = left (0), true = right (1) daughter. *)
Definition yieldfun := list (list bool).

(** struct ProbRule, fields args and lengths (containers.pxd:170-187). *)
Record yfenc := mkYf { args : N; lengths : N }.

(** containers.pyx:653-665 getyf.  [m] is the running variable index; the
    C expression 1 << (m - 1) is evaluated after each argument. *)
Fixpoint getyf_part (part : list bool) (m a : N) : N * N :=
  match part with
  | [] => (m, a)
  | x :: r => getyf_part r (m + 1) (if x then a + 2 ^ m else a)
  end.
Fixpoint getyf_loop (yf : yieldfun) (m : N) (e : yfenc) : yfenc :=
  match yf with
  | [] => e
  | part :: r =>
      let (m', a') := getyf_part part m (args e) in
      getyf_loop r m' (mkYf a' (N.lor (lengths e) (2 ^ (m' - 1))))
  end.
Definition getyf (yf : yieldfun) : yfenc := getyf_loop yf 0 (mkYf 0 0).

(** _grammar.pxi:426-451, reading a yield function in textual form
    ("010,10").  [None] = ValueError.  fanout/rhs1fanout/rhs2fanout counters
    are kept.  The check m >= 32 (8 * sizeof(args)) is included. *)
Record yfcnt := mkCnt { yc_enc : yfenc; yc_m : N; yc_fan : N; yc_r1 : N; yc_r2 : N }.
Fixpoint readyf_loop (s : list ascii) (c : yfcnt) : option yfcnt :=
  match s with
  | [] => Some c
  | ch :: r =>
      if Ascii.eqb ch ","%char then
        readyf_loop r (mkCnt (mkYf (args (yc_enc c)) (N.lor (lengths (yc_enc c)) (2 ^ (yc_m c - 1))))
                             (yc_m c) (yc_fan c + 1) (yc_r1 c) (yc_r2 c))
      else if Ascii.eqb ch "0"%char then
        readyf_loop r (mkCnt (yc_enc c) (yc_m c + 1) (yc_fan c) (yc_r1 c + 1) (yc_r2 c))
      else if Ascii.eqb ch "1"%char then
        readyf_loop r (mkCnt (mkYf (args (yc_enc c) + 2 ^ yc_m c) (lengths (yc_enc c)))
                             (yc_m c + 1) (yc_fan c) (yc_r1 c) (yc_r2 c + 1))
      else None
  end.
Definition readyf (s : list ascii) : option yfcnt :=
  match readyf_loop s (mkCnt (mkYf 0 0) 0 1 0 0) with
  | None => None
  | Some c =>
      let c' := mkCnt (mkYf (args (yc_enc c)) (N.lor (lengths (yc_enc c)) (2 ^ (yc_m c - 1))))
                      (yc_m c) (yc_fan c) (yc_r1 c) (yc_r2 c) in
      if 32 <=? yc_m c' then None else Some c'
  end.

(** _grammar.pxi:997-1009 yfstr: for n in range(32) ...; [None] = ValueError. *)
Fixpoint yfstr_loop (count : nat) (n m fan : N) (e : yfenc) : option (list ascii) :=
  match count with
  | O => None
  | S k =>
      let c := if N.testbit (args e) n then "1"%char else "0"%char in
      if N.testbit (lengths e) n then
        if m + 1 =? fan then Some [c]
        else option_map (fun s => c :: ","%char :: s) (yfstr_loop k (n + 1) (m + 1) fan e)
      else option_map (cons c) (yfstr_loop k (n + 1) m fan e)
  end.
Definition yfstr (e : yfenc) (fan : N) : option (list ascii) := yfstr_loop 32 0 0 fan e.

(** grammar.py:writegrammar / printrule: ','.join(''.join(map(str, a)) for a in yf) *)
Definition yfpart_text (part : list bool) : list ascii :=
  map (fun x : bool => if x then "1"%char else "0"%char) part.
Fixpoint yftext (yf : yieldfun) : list ascii :=
  match yf with
  | [] => []
  | [p] => yfpart_text p
  | p :: r => yfpart_text p ++ ","%char :: yftext r
  end.

(** plcfrs.pyx:979-1008 concat, SmallChartItem instance.  [k] counts the
    remaining iterations of  for n in range(bitlength(rule.lengths)). *)
Fixpoint concat_small_loop (k : nat) (n : N) (e : yfenc) (lvec rvec mask : N) : bool :=
  match k with
  | O => (lvec =? rvec) && (rvec =? 0)
  | S k' =>
      let finish lvec rvec mask :=
        (* zero out component *)
        let lvec := N.land lvec (wnot mask) in
        let rvec := N.land rvec (wnot mask) in
        if testbit (lengths e) n then
          if negb (N.land (N.lxor lvec rvec) (wadd mask 1) =? 0) then false
          else
            let mask := N.land (N.land (wnot lvec) (wsub lvec 1))
                               (N.land (wnot rvec) (wsub rvec 1)) in
            concat_small_loop k' (n + 1) e lvec rvec (wadd mask 1)
        else concat_small_loop k' (n + 1) e lvec rvec (wadd mask 1) in
      if testbit (args e) n then
        if N.land rvec mask =? 0 then false
        else
          let rvec := N.lor rvec (wsub rvec 1) in
          let mask := N.land rvec (wsub (wnot rvec) 1) in
          finish lvec rvec mask
      else
        if N.land lvec mask =? 0 then false
        else
          let lvec := N.lor lvec (wsub lvec 1) in
          let mask := N.land lvec (wsub (wnot lvec) 1) in
          finish lvec rvec mask
  end.
Definition concat_small (e : yfenc) (lvec rvec : N) : bool :=
  if negb (N.land lvec rvec =? 0) then false
  else
    let mask := if testbit (args e) 0 then rvec else lvec in
    concat_small_loop (N.to_nat (bitlength (lengths e))) 0 e lvec rvec mask.

(** plcfrs.pyx:1009-1056 concat, FatChartItem instance.  The number of slots is
    the length of the arrays (SLOTS = 2 in constants.pxi). *)
Fixpoint concat_fat_loop (k : nat) (n : N) (e : yfenc) (alvec arvec : list N) (lpos rpos : Z) : bool :=
  match k with
  | O => (lpos =? rpos)%Z && (rpos =? -1)%Z
  | S k' =>
      if testbit (args e) n then
        if (rpos =? -1)%Z || (negb (lpos =? -1)%Z && (lpos <=? rpos)%Z) then false
        else
          let rpos := anextunset arvec (Z.to_N rpos) in
          if negb (lpos =? -1)%Z && (lpos <? rpos)%Z then false
          else if (if testbit (lengths e) n then TESTBIT alvec (Z.to_N rpos)
                   else negb (TESTBIT alvec (Z.to_N rpos))) then false
          else concat_fat_loop k' (n + 1) e alvec arvec lpos (anextset arvec (Z.to_N rpos))
      else
        if (lpos =? -1)%Z || (negb (rpos =? -1)%Z && (rpos <=? lpos)%Z) then false
        else
          let lpos := anextunset alvec (Z.to_N lpos) in
          if negb (rpos =? -1)%Z && (rpos <? lpos)%Z then false
          else if (if testbit (lengths e) n then TESTBIT arvec (Z.to_N lpos)
                   else negb (TESTBIT arvec (Z.to_N lpos))) then false
          else concat_fat_loop k' (n + 1) e alvec arvec (anextset alvec (Z.to_N lpos)) rpos
  end.
Fixpoint overlap (a b : list N) : bool :=
  match a, b with
  | x :: a', y :: b' => if negb (N.land x y =? 0) then true else overlap a' b'
  | _, _ => false
  end.
Definition concat_fat (e : yfenc) (alvec arvec : list N) : bool :=
  if overlap alvec arvec then false
  else concat_fat_loop (N.to_nat (bitlength (lengths e))) 0 e alvec arvec
         (anextset alvec 0) (anextset arvec 0).

(** plcfrs.pyx:920-943 combine_item: vec of the result (small: xor; fat: union). *)
Definition combine_small (lvec rvec : N) : N := N.lxor lvec rvec.
Definition combine_fat (lvec rvec : list N) : list N := setunion lvec rvec.
