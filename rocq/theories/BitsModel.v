(** Model of discodop/bit.pyx, discodop/bit.pxd, discodop/macros.h and
    discodop/bitcount.h.  A uint64_t is an [N] below 2^64; C arithmetic that can
    wrap is written with an explicit reduction.  An array of words is a list. *)
From Coq Require Import NArith ZArith List Bool.
Import ListNotations.
Local Open Scope N_scope.

(** macros.h:2 BITSIZE *)
Definition BITSIZE : N := 64.
(** ~0UL *)
Definition ones64 : N := 18446744073709551615.
(** 2^64, the modulus of uint64_t arithmetic *)
Definition two64 : N := 18446744073709551616.
(** C: ~v on uint64_t *)
Definition wnot (v : N) : N := N.lxor v ones64.
(** C: v << n on uint64_t *)
Definition wshl (v n : N) : N := N.land (N.shiftl v n) ones64.
(** C: a - b on uint64_t (wraps) *)
Definition wsub (a b : N) : N := (a + two64 - b) mod two64.
(** C: a + b on uint64_t (wraps) *)
Definition wadd (a b : N) : N := (a + b) mod two64.

(** bitcount.h:50-62 bit_ctz = __builtin_ctzl: number of trailing zero bits.
    Undefined for 0 in C; no caller below passes 0. *)
Fixpoint pctz (p : positive) : N :=
  match p with xO q => N.succ (pctz q) | _ => 0 end.
Definition ctz (v : N) : N := match v with 0 => 64 | Npos p => pctz p end.

(** bitcount.h:37-48 bit_clz = __builtin_clzl: number of leading zero bits
    of a 64-bit word; undefined for 0. *)
Definition clz (v : N) : N := 63 - N.log2 v.

(** bitcount.h:65-73 bit_popcount = __builtin_popcountl. *)
Fixpoint ppop (p : positive) : N :=
  match p with xO q => ppop q | xI q => N.succ (ppop q) | xH => 1 end.
Definition popcount (v : N) : N := match v with 0 => 0 | Npos p => ppop p end.

(** bit.pyx:7-16 pyintbitcount: while a: a &= a - 1; count += 1.
    Fuel: the number of bits of [a]. *)
Fixpoint pyintbitcount_loop (fuel : nat) (a count : N) : N :=
  match fuel with
  | O => count
  | S f => if a =? 0 then count
           else pyintbitcount_loop f (N.land a (a - 1)) (count + 1)
  end.
Definition pyintbitcount (a : N) : N :=
  pyintbitcount_loop (S (N.size_nat a)) a 0.

(** bit.pyx:19-24 bitcount *)
Definition bitcount (vec : N) : N := popcount vec.

(** bit.pyx:27-39 pyintnextset.  [mask] is the all-ones 64-bit word. *)
Fixpoint pyintnextset_loop (fuel : nat) (a pos : N) : Z :=
  match fuel with
  | O => (-2)%Z  (* out of fuel: shown unreachable *)
  | S f => if N.land a ones64 =? 0
           then pyintnextset_loop f (N.shiftr a 64) (pos + 64)
           else Z.of_N (pos + ctz (N.land a ones64))
  end.
Definition pyintnextset (a pos : N) : Z :=
  let a := N.shiftr a pos in
  if a =? 0 then (-1)%Z else pyintnextset_loop (S (N.size_nat a)) a pos.

(** bit.pyx:42-66 fanout.  First path (argument below 2^63 - 1):
    while vec: vec >>= ctz(vec); vec >>= ctz(~vec); result += 1 *)
Fixpoint fanout_word_loop (fuel : nat) (vec result : N) : N :=
  match fuel with
  | O => result
  | S f => if vec =? 0 then result
           else let vec := N.shiftr vec (ctz vec) in
                let vec := N.shiftr vec (ctz (wnot vec)) in
                fanout_word_loop f vec (result + 1)
  end.
(** Second path (Python big integers), also tree.py:34-43 bitfanout:
    while arg: arg &= arg - 1; if ((prev - arg) << 1) & prev == 0: result += 1;
    prev = arg *)
Fixpoint fanout_big_loop (fuel : nat) (arg prev result : N) : N :=
  match fuel with
  | O => result
  | S f => if arg =? 0 then result
           else let arg' := N.land arg (arg - 1) in
                let result' := if N.land (N.shiftl (prev - arg') 1) prev =? 0
                               then result + 1 else result in
                fanout_big_loop f arg' arg' result'
  end.
Definition bitfanout (arg : N) : N :=
  fanout_big_loop (S (N.size_nat arg)) arg arg 0.
Definition fanout (arg : N) : N :=
  if arg <? 9223372036854775807  (* (1 << 63) - 1 *)
  then fanout_word_loop (S (N.size_nat arg)) arg 0
  else bitfanout arg.

(** bit.pxd:60-75 testbit, uint64_t instance *)
Definition testbit (vec pos : N) : bool := negb (N.land vec (wshl 1 pos) =? 0).

(** bit.pxd:78-90 nextset (pos < 64) *)
Definition nextset (vec pos : N) : Z :=
  if N.shiftr vec pos =? 0 then (-1)%Z
  else Z.of_N (pos + ctz (N.shiftr vec pos)).

(** bit.pxd:93-102 nextunset (pos < 64) *)
Definition nextunset (vec pos : N) : Z :=
  let x := N.land (wnot vec) (wshl ones64 pos) in
  if x =? 0 then 64%Z else Z.of_N (ctz x).

(** bit.pxd:105-112 bitlength *)
Definition bitlength (vec : N) : N := if vec =? 0 then 0 else 64 - clz vec.

(** bit.pxd:115-121 abitcount; [vec] is the array restricted to its slots *)
Definition abitcount (vec : list N) : N :=
  fold_left (fun result v => result + popcount v) vec 0.

(** bit.pxd:124-133 abitlength: scan from the last slot down.
    [rvec] is the reversed prefix of slots still to be inspected. *)
Fixpoint abitlength_loop (rvec : list N) : N :=
  match rvec with
  | [] => 0
  | v :: rest => if v =? 0 then abitlength_loop rest
                 else N.of_nat (length rvec) * 64 - clz v
  end.
Definition abitlength (vec : list N) : N := abitlength_loop (rev vec).

(** bit.pxd:136-148 anextset.  [rest] holds the slots after slot [a]. *)
Fixpoint anextset_loop (rest : list N) (a x : N) : Z :=
  if x =? 0 then
    match rest with
    | [] => (-1)%Z
    | v :: rest' => anextset_loop rest' (a + 1) v
    end
  else Z.of_N (a * 64 + ctz x).
Definition anextset (vec : list N) (pos : N) : Z :=
  let a := pos / 64 in
  match skipn (N.to_nat a) vec with
  | [] => (-1)%Z                          (* a >= slots *)
  | v :: rest => anextset_loop rest a (N.land v (wshl ones64 (pos mod 64)))
  end.

(** bit.pxd:151-163 anextunset.  BITMASK(pos) - 1 = 2^(pos mod 64) - 1. *)
Fixpoint anextunset_loop (rest : list N) (a x : N) : Z :=
  if x =? ones64 then
    match rest with
    | [] => Z.of_N ((a + 1) * 64)
    | v :: rest' => anextunset_loop rest' (a + 1) v
    end
  else Z.of_N (a * 64 + ctz (wnot x)).
Definition anextunset (vec : list N) (pos : N) : Z :=
  let a := pos / 64 in
  match skipn (N.to_nat a) vec with
  | [] => Z.of_N (a * 64)                 (* a >= slots *)
  | v :: rest => anextunset_loop rest a (N.lor v (wshl 1 (pos mod 64) - 1))
  end.

(** bit.pxd:166-194 iteratesetbits.  The iterator state (cur, idx) plus the
    array; [rest] holds the slots after slot [idx].  Returns the index (or -1)
    and the new state. *)
Record iterst := mkIter { it_cur : N; it_idx : N; it_rest : list N }.
Fixpoint iter_skip (rest : list N) (cur idx : N) : option iterst :=
  if cur =? 0 then
    match rest with
    | [] => None                          (* idx >= slots: return -1 *)
    | v :: rest' => iter_skip rest' v (idx + 1)
    end
  else Some (mkIter cur idx rest).
Definition iteratesetbits (s : iterst) : Z * iterst :=
  match iter_skip (it_rest s) (it_cur s) (it_idx s) with
  | None => ((-1)%Z, s)
  | Some s' =>
      let tmp := ctz (it_cur s') in
      (Z.of_N (it_idx s' * 64 + tmp),
       mkIter (N.lxor (it_cur s') (wshl 1 tmp)) (it_idx s') (it_rest s'))
  end.
(** Initial state: idx = 0, cur = vec[0]. *)
Definition iter_init (vec : list N) : iterst :=
  match vec with [] => mkIter 0 0 [] | v :: rest => mkIter v 0 rest end.
(** Callers loop  n = iteratesetbits(...); while n != -1: ...  (e.g.
    kbest.pyx, _fragments.pyx).  [n] bounds the number of calls. *)
Fixpoint iter_collect (n : nat) (s : iterst) : list Z :=
  match n with
  | O => []
  | S n' => let (r, s') := iteratesetbits s in
            if (r =? -1)%Z then [] else r :: iter_collect n' s'
  end.
(** bit.pxd:197-210 iterateunsetbits: same code on the complemented slots. *)
Definition iterunset_init (vec : list N) : iterst := iter_init (map wnot vec).

(** bit.pxd:213-248 set operations, slot by slot *)
Fixpoint map2 (f : N -> N -> N) (a b : list N) : list N :=
  match a, b with
  | x :: a', y :: b' => f x y :: map2 f a' b'
  | _, _ => []
  end.
Definition setintersect (src1 src2 : list N) : list N := map2 N.land src1 src2.
Definition setunion (src1 src2 : list N) : list N := map2 N.lor src1 src2.
Definition setintersectinplace (dest src : list N) : list N := map2 N.land dest src.
Definition setunioninplace (dest src : list N) : list N := map2 N.lor dest src.

(** bit.pxd:251-259 subset *)
Fixpoint subset (vec1 vec2 : list N) : bool :=
  match vec1, vec2 with
  | x :: a, y :: b => if negb (N.land x y =? x) then false else subset a b
  | _, _ => true
  end.

(** macros.h:4-9 SETBIT / CLEARBIT / TESTBIT / TOGGLEBIT on arrays *)
Fixpoint updslot (f : N -> N) (k : nat) (vec : list N) : list N :=
  match vec, k with
  | [], _ => []
  | v :: r, O => f v :: r
  | v :: r, S k' => v :: updslot f k' r
  end.
Definition SETBIT (a : list N) (b : N) : list N :=
  updslot (fun v => N.lor v (wshl 1 (b mod 64))) (N.to_nat (b / 64)) a.
Definition CLEARBIT (a : list N) (b : N) : list N :=
  updslot (fun v => N.land v (wnot (wshl 1 (b mod 64)))) (N.to_nat (b / 64)) a.
Definition TOGGLEBIT (a : list N) (b : N) : list N :=
  updslot (fun v => N.lxor v (wshl 1 (b mod 64))) (N.to_nat (b / 64)) a.
(** Reading past the array is undefined in C; the model reads 0 there, and
    the theorems that use it assume or prove the index to be in range. *)
Definition TESTBIT (a : list N) (b : N) : bool :=
  negb (N.land (nth (N.to_nat (b / 64)) a 0) (wshl 1 (b mod 64)) =? 0).
(** macros.h:10 BITNSLOTS *)
Definition BITNSLOTS (nb : N) : N := (nb + 64 - 1) / 64.

(** bitcount.h:120-143 bit_ctz_general, the portable fallback.
    One binary-search step: i = (v & m) + m; i = ((i & b) ^ b) >> s;
    c += i; v >>= i. *)
Definition ctz_step (m b s : N) (cv : N * N) : N * N :=
  let (c, v) := cv in
  let i := wadd (N.land v m) m in
  let i := N.shiftr (N.lxor (N.land i b) b) s in
  (c + i, N.shiftr v i).
Definition bit_ctz_general (v : N) : N :=
  let i := wnot v in
  let c := N.shiftr (N.land (N.lxor i (wadd i 1)) i) 63 in
  let cv := ctz_step 0xffffffff 0x100000000 27 (c, v) in
  let cv := ctz_step 0xffff 0x10000 12 cv in
  let cv := ctz_step 0xff 0x100 5 cv in
  let cv := ctz_step 0xf 0x10 2 cv in
  let cv := ctz_step 3 4 1 cv in
  let (c, v) := cv in
  c + N.lxor (N.land v 1) 1.

(** bitcount.h:76-118 bit_clz_general.
    One step: i = (v >> sh) + m; i = ((i & b) ^ b) >> s; c += i; v <<= i. *)
Definition clz_step (sh m b s : N) (cv : N * N) : N * N :=
  let (c, v) := cv in
  let i := wadd (N.shiftr v sh) m in
  let i := N.shiftr (N.lxor (N.land i b) b) s in
  (c + i, wshl v i).
Definition bit_clz_general (v : N) : N :=
  let i := wnot v in
  let c := N.shiftr (N.land (N.lxor i (wadd i 1)) i) 63 in
  let cv := clz_step 32 0xffffffff 0x100000000 27 (c, v) in
  let cv := clz_step 48 0xffff 0x10000 12 cv in
  let cv := clz_step 56 0xff 0x100 5 cv in
  let cv := clz_step 60 0xf 0x10 2 cv in
  let cv := clz_step 62 3 4 1 cv in
  let (c, v) := cv in
  c + N.lxor (N.shiftr v 63) 1.

(** bitcount.h:145-151 bit_popcount_general. *)
Definition bit_popcount_general (v : N) : N :=
  let v := wsub v (N.land (N.shiftr v 1) 0x5555555555555555) in
  let v := wadd (N.land v 0x3333333333333333)
                (N.land (N.shiftr v 2) 0x3333333333333333) in
  let v := N.land (wadd v (N.shiftr v 4)) 0x0F0F0F0F0F0F0F0F in
  N.shiftr ((v * 0x0101010101010101) mod two64) 56.
