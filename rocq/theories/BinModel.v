(** Model of Grammar.tobinfile and Grammar.frombinfile (_grammar.pxi:115-310):
    the binary cache of a grammar, byte by byte.

    Simplifications.  As in GrammarModel, fabs(log(p)) is left out and weights
    are exact rationals; how a weight is stored in 8 bytes is a parameter
    [encw] / [decw].  Labels and words are the byte strings kept in the C++
    object.  Hash maps are association lists.  Padding bytes of LexicalRule are
    zero.  The pickled tblabelmapping at the end is a string of bytes.  Reading
    past the end of the file is [None]. *)
From Coq Require Import List Bool Arith NArith QArith Qcanon.
From Verif Require Import PyStr BitsModel ConcatModel GrammarModel.
Import ListNotations.
Open Scope list_scope.
Open Scope nat_scope.

(** little-endian integers of k bytes *)
Fixpoint le (k : nat) (n : N) : list N :=
  match k with O => [] | S k' => (n mod 256)%N :: le k' (n / 256)%N end.
Fixpoint unle (bs : list N) : N :=
  match bs with [] => 0%N | b :: r => (b + 256 * unle r)%N end.

Section Bin.
Variable encw : Qc -> list N.
Variable decw : list N -> Qc.

(** struct ProbRule (_containers.h:203-211), 32 bytes *)
Definition encrule (r : prule) (w : Qc) : list N :=
  let '(l, r1, r2, a, ls) := r_key r in
  encw w ++ le 4 (N.of_nat l) ++ le 4 (N.of_nat r1) ++ le 4 (N.of_nat r2) ++ le 4 a ++ le 4 ls ++ le 4 (N.of_nat (r_no r)).
(** struct LexicalRule (_containers.h:241-244), 16 bytes *)
Definition enclex (lhs : nat) (w : Qc) : list N := encw w ++ le 4 (N.of_nat lhs) ++ [0; 0; 0; 0]%N.

(** _grammar.pxi:115-178 tobinfile *)
Definition tobin (g : gram) (pickled : list N) : list N :=
  (le 8 (N.of_nat (length (tolabel g))) ++ le 8 (N.of_nat (numrules g))
   ++ le 8 (N.of_nat (length (lexical g))) ++ le 8 (N.of_nat (length (lexbyword g))))  (* 137-140 *)
  ++ flat_map encw (freqmass g)                                                        (* 142-145 *)
  ++ flat_map (fun r => encrule r (get (rulecounts g) (r_no r))) (bylhs g)             (* 146-151 *)
  ++ flat_map (fun p => enclex (fst (snd p)) (get (lexcounts g) (fst p)))
       (combine (seq 0 (length (lexical g))) (lexical g))                              (* 152-159 *)
  ++ flat_map (fun l => l ++ [0%N]) (tolabel g)                                        (* 160-163 *)
  ++ flat_map (fun e => fst e ++ [0%N]) (lexbyword g)                                  (* 164-168 *)
  ++ flat_map (fun e => le 4 (N.of_nat (length (snd e))) ++ flat_map (fun n => le 4 (N.of_nat n)) (snd e))
       (lexbyword g)                                                                   (* 169-175 *)
  ++ pickled.                                                                          (* 177 *)
(** 123-130: the size of the buffer that is allocated; 176 asserts that it is
    the number of bytes written *)
Definition buflen (g : gram) : nat :=
  4 * 8 + list_sum (map (fun l => length l + 1) (tolabel g)) + length (freqmass g) * 8
  + numrules g * 32 + length (lexical g) * 16
  + list_sum (map (fun e => length (fst e) + 1 + (length (snd e) + 1) * 4) (lexbyword g)).

(** reading k bytes; a NUL-terminated string; n items *)
Definition take (k : nat) (bs : list N) : option (list N * list N) :=
  if length bs <? k then None else Some (firstn k bs, skipn k bs).
Definition rint (k : nat) (bs : list N) : option (N * list N) :=
  match take k bs with Some (x, r) => Some (unle x, r) | None => None end.
Fixpoint cstr (bs : list N) : option (list N * list N) :=
  match bs with
  | [] => None
  | b :: r => if N.eqb b 0 then Some ([], r)
              else match cstr r with Some (s, r') => Some (b :: s, r') | None => None end
  end.
Fixpoint many {A} (rd : list N -> option (A * list N)) (n : nat) (bs : list N) : option (list A * list N) :=
  match n with
  | O => Some ([], bs)
  | S n' => match rd bs with
            | None => None
            | Some (x, r) => match many rd n' r with Some (xs, r') => Some (x :: xs, r') | None => None end
            end
  end.
Definition rweight (bs : list N) : option (Qc * list N) :=
  match take 8 bs with Some (x, r) => Some (decw x, r) | None => None end.
Definition rrule (bs : list N) : option (prule * list N) :=
  match rweight bs with None => None | Some (w, bs) =>
  match rint 4 bs with None => None | Some (l, bs) =>
  match rint 4 bs with None => None | Some (r1, bs) =>
  match rint 4 bs with None => None | Some (r2, bs) =>
  match rint 4 bs with None => None | Some (a, bs) =>
  match rint 4 bs with None => None | Some (ls, bs) =>
  match rint 4 bs with None => None | Some (no, bs) =>
    Some (mkRule (N.to_nat l, N.to_nat r1, N.to_nat r2, a, ls) (N.to_nat no) w, bs)
  end end end end end end end.
Definition rlex (bs : list N) : option ((nat * Qc) * list N) :=
  match rweight bs with None => None | Some (w, bs) =>
  match rint 4 bs with None => None | Some (l, bs) =>
  match take 4 bs with None => None | Some (_, bs) => Some ((N.to_nat l, w), bs) end end end.
Definition rwordrules (bs : list N) : option (list nat * list N) :=
  match rint 4 bs with None => None | Some (n, bs) =>
  match many (rint 4) (N.to_nat n) bs with Some (ns, r) => Some (map N.to_nat ns, r) | None => None end end.

Variable sortr : (prule -> prule -> bool) -> list prule -> list prule.
Definition keylengths (k : key) : N := let '(_, _, _, _, ls) := k in ls.
(** 181-310 frombinfile: the grammar and the pickled part *)
Definition frombin (bs : list N) : option (gram * list N) :=
  match rint 8 bs with None => None | Some (nl, bs) =>
  match rint 8 bs with None => None | Some (nr, bs) =>
  match rint 8 bs with None => None | Some (nx, bs) =>
  match rint 8 bs with None => None | Some (nw, bs) =>
  match many rweight (N.to_nat nl) bs with None => None | Some (mass, bs) =>         (* 220-223 *)
  match many rrule (N.to_nat nr) bs with None => None | Some (rules, bs) =>          (* 224-228 *)
  match many rlex (N.to_nat nx) bs with None => None | Some (lex, bs) =>             (* 252-256 *)
  match many cstr (N.to_nat nl) bs with None => None | Some (labels, bs) =>          (* 261-267 *)
  match many cstr (N.to_nat nw) bs with None => None | Some (words, bs) =>           (* 269-272 *)
  match many rwordrules (N.to_nat nw) bs with None => None | Some (wrules, bs) =>    (* 273-283 *)
    let counts := fold_left (fun c r => upd c (r_no r) (fun _ => r_prob r)) rules
                    (repeat 0%Qc (N.to_nat nr)) in                                   (* 230 *)
    let rs := map (fun r => mkRule (r_key r) (r_no r) (r_prob r / get mass (r_lhs r))%Qc) rules in  (* 231-232 *)
    let fan := fold_left (fun f r => upd f (r_lhs r) (fun _ => popcount (keylengths (r_key r)))) rules
                 (0%N :: repeat 1%N (N.to_nat nl - 1)) in                            (* 216-217, 233-234 *)
    let un := filter (fun r => negb (negb (r_rhs2 r =? 0)) && negb (r_rhs1 r =? 0)) rs in           (* 241-243 *)
    let bin := filter (fun r => negb (r_rhs2 r =? 0)) rs in                          (* 237-240 *)
    if negb (length rules =? length un + length bin) then None                       (* 244 *)
    else
    Some (mkGram (map (fun p => (snd p, fst p)) (rev (combine (seq 0 (length labels)) labels)))     (* 265 *)
            labels mass fan
            (map (fun r => (r_key r, r_no r)) rs) counts
            (resort sortr lt0 (length rules) rs) (resort sortr lt1 0 un)
            (resort sortr lt1 0 bin) (resort sortr lt2 0 bin)                        (* 297-300 *)
            (map (fun x => (fst x, (snd x / get mass (fst x))%Qc)) lex)              (* 258-259 *)
            (map snd lex) (combine words wrules), bs)                                (* 257, 279-283 *)
  end end end end end end end end end end.
End Bin.
