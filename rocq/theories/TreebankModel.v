(** Model of discodop/grammar.py:100-115 treebankgrammar (without extrarules),
    677-696 sortgrammar, and 1060-1098 writegrammar (bitpar=False): from
    productions to the lines read by the Grammar object. *)
From Coq Require Import String.
From Coq Require Import List Bool Arith NArith ZArith QArith Qcanon Ascii.
From Verif Require Import PyStr TreeModel BracketModel ConcatModel LcfrsModel GrammarModel.
Import ListNotations.
Open Scope list_scope.
Open Scope nat_scope.

Fixpoint eqll {A} (eqb : A -> A -> bool) (a b : list A) : bool :=
  match a, b with [], [] => true | x :: a', y :: b' => eqb x y && eqll eqb a' b' | _, _ => false end.
(** equality of production tuples; a lexical and a phrasal tuple differ in the
    type of the yield function *)
Definition prod_eqb (p q : prod) : bool :=
  match p, q with
  | Lexical l w, Lexical l' w' => eqs l l' && eqs w w'
  | Frontier l, Frontier l' => eqs l l'
  | Phrasal l r y, Phrasal l' r' y' => eqs l l' && eqll eqs r r' && eqll (eqll Nat.eqb) y y'
  | _, _ => false
  end.
(** collections.Counter: counts in the order of first occurrence; grammar.py:108-109 *)
Fixpoint count1 (p : prod) (c : list (prod * N)) : list (prod * N) :=
  match c with
  | [] => [(p, 1%N)]
  | (p', n) :: r => if prod_eqb p p' then (p', (n + 1)%N) :: r else (p', n) :: count1 p r
  end.
Definition counter (ps : list prod) : list (prod * N) := fold_left (fun c p => count1 p c) ps [].

(** '%g' % w for an integer: six significant digits, round half to even; the
    weight is given as the number that is read back *)
Definition round6 (n : N) (e : N) : N :=
  let d := (10 ^ e)%N in let qt := (n / d)%N in let r := (n mod d)%N in
  (match (2 * r ?= d) with Lt => qt | Gt => qt + 1 | Eq => if N.even qt then qt else qt + 1 end * d)%N.
Fixpoint fmt_g_loop (fuel : nat) (n e : N) : N :=
  match fuel with
  | O => n
  | S k => if (n <? 1000000 * 10 ^ e)%N then (if (e =? 0)%N then n else round6 n e) else fmt_g_loop k n (e + 1)
  end.
Definition fmt_g (n : N) : Qc := Q2Qc (Z.of_N (fmt_g_loop (N.to_nat (N.log2 n) + 1) n 0) # 1).

(** grammar.py:1089: ','.join(''.join(map(str, a)) for a in yf).  Daughters are
    numbered 0 or 1 in a binarized grammar; others (one digit) are kept as such
    and rejected on reading *)
Definition digit (n : nat) : ascii := ascii_of_nat (48 + n).
Fixpoint yftextn (yf : list (list nat)) : list ascii :=
  match yf with
  | [] => []
  | [p] => map digit p
  | p :: r => map digit p ++ ","%char :: yftextn r
  end.
(** grammar.py:1079-1091: lines for phrasal rules.  A Frontier production does
    not occur (lcfrsproductions is called with frontiers=False). *)
Definition rule_lines (c : list (prod * N)) : list rline :=
  flat_map (fun pn => match fst pn with Phrasal l rhs yf => [(l :: rhs, yftextn yf, fmt_g (snd pn))] | _ => [] end) c.
(** lexical.setdefault(yf[0], []).append((r[0], w)), 1082-1083 *)
Fixpoint setdefault_append (d : list (pystr * list (pystr * Qc))) (word : pystr) (x : pystr * Qc) : list (pystr * list (pystr * Qc)) :=
  match d with
  | [] => [(word, [x])]
  | (w, l) :: r => if eqs word w then (w, l ++ [x]) :: r else (w, l) :: setdefault_append r word x
  end.
Definition lexical_dict (c : list (prod * N)) : list (pystr * list (pystr * Qc)) :=
  fold_left (fun d pn => match fst pn with Lexical l w => setdefault_append d w (l, fmt_g (snd pn)) | _ => d end) c [].
(** 1092-1096; unescape gives None for '' and '#FRONTIER#', and ''.join fails *)
Fixpoint all_some {A} (l : list (option A)) : option (list A) :=
  match l with [] => Some [] | Some x :: r => option_map (cons x) (all_some r) | None :: _ => None end.
Definition lex_lines (c : list (prod * N)) : option (list lline) :=
  all_some (map (fun e => option_map (fun w => (w, snd e)) (unescape (fst e))) (lexical_dict c)).
(** grammar.py:103-108: the productions of all trees (an error for one tree is an error) *)
Fixpoint treebank_prods (tb : list (tree pystr nat * list (option pystr))) : option (list prod) :=
  match tb with
  | [] => Some []
  | (t, sent) :: r =>
    match lcfrsproductions t sent false, treebank_prods r with
    | PRules ps, Some qs => Some (ps ++ qs)
    | _, _ => None
    end
  end.
