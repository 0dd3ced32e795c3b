(** Model of the Grammar object (discodop/_grammar.pxi:27-35, 60-112, 312-763,
    965-980): reading rules and a lexicon, assigning numbers to labels and rules, adding up
    weights, normalizing, and indexing the rules by label.

    Simplifications.  Weights and probabilities are exact rationals ([Qc]) and
    not doubles; fabs(log(p)), applied to each probability when logprob is on,
    is left out: the model keeps p.  A line of the text format is given after
    splitting into fields and parsing of the weight (readfields,
    convertweight); bitpar format is not modelled.  An exception is [None]; the
    state of the half-updated object is not modelled.  Integers do not
    overflow.  std::sort is a parameter about which nothing but its contract is
    assumed; hash maps are association lists.  The sentinel at the end of the
    arrays is put there by [index], not stored. *)
From Coq Require Import List Bool Arith NArith QArith Qcanon Ascii.
From Verif Require Import PyStr ConcatModel.
Import ListNotations.
Open Scope list_scope.
Open Scope nat_scope.

(** class Rule (_containers.h:214-): lhs, rhs1, rhs2, args, lengths *)
Definition key := (nat * nat * nat * N * N)%type.
Definition key_eqb (a b : key) : bool :=
  let '(l, r, s, x, y) := a in let '(l', r', s', x', y') := b in
  (l =? l') && (r =? r') && (s =? s') && N.eqb x x' && N.eqb y y'.
(** struct ProbRule (_containers.h:203-211) *)
Record prule := mkRule { r_key : key; r_no : nat; r_prob : Qc }.
Definition k_lhs (k : key) : nat := let '(l, _, _, _, _) := k in l.
Definition k_rhs1 (k : key) : nat := let '(_, r, _, _, _) := k in r.
Definition k_rhs2 (k : key) : nat := let '(_, _, s, _, _) := k in s.
Definition r_lhs (r : prule) := k_lhs (r_key r).
Definition r_rhs1 (r : prule) := k_rhs1 (r_key r).
Definition r_rhs2 (r : prule) := k_rhs2 (r_key r).

(** the object; toid, rulenos and lexicalbyword are maps *)
Record gram := mkGram {
  toid : list (pystr * nat); tolabel : list pystr; freqmass : list Qc; fanouts : list N;
  rulenos : list (key * nat); rulecounts : list Qc;
  bylhs : list prule; unary : list prule; lbinary : list prule; rbinary : list prule;
  lexical : list (nat * Qc); lexcounts : list Qc; lexbyword : list (pystr * list nat) }.
Definition numrules (g : gram) : nat := length (unary g) + length (lbinary g).

Fixpoint lookup {K V} (eqb : K -> K -> bool) (k : K) (l : list (K * V)) : option V :=
  match l with [] => None | (k', v) :: r => if eqb k k' then Some v else lookup eqb k r end.
(** l[n] += w and l[n] = x *)
Fixpoint upd {A} (l : list A) (n : nat) (f : A -> A) : list A :=
  match l, n with
  | [], _ => []
  | x :: r, O => f x :: r
  | x :: r, S n' => x :: upd r n' f
  end.
Definition get (l : list Qc) (n : nat) : Qc := nth n l 0%Qc.

(** _grammar.pxi:100-111: Epsilon gets ID 0, the start symbol ID 1 *)
Definition Epsilon : pystr := map N_of_ascii ["E"%char; "p"%char; "s"%char; "i"%char; "l"%char; "o"%char; "n"%char].
Definition empty (start : pystr) : gram :=
  mkGram [(start, 1); (Epsilon, 0)] [Epsilon; start] [0%Qc; 0%Qc] [0%N; 1%N] [] [] [] [] [] [] [] [] [].

(** 467-474, 482-491, 499-508: a new label gets the next ID *)
Definition intern (g : gram) (l : pystr) (fan : N) : nat * gram :=
  match lookup eqs l (toid g) with
  | Some i => (i, g)
  | None => (length (tolabel g),
      mkGram ((l, length (tolabel g)) :: toid g) (tolabel g ++ [l]) (freqmass g ++ [0%Qc]) (fanouts g ++ [fan])
        (rulenos g) (rulecounts g) (bylhs g) (unary g) (lbinary g) (rbinary g) (lexical g) (lexcounts g) (lexbyword g))
  end.
(** 467-481: the left-hand side; an ID that exists must have the same fan-out *)
Definition intern_lhs (g : gram) (l : pystr) (fan : N) : option (nat * gram) :=
  match lookup eqs l (toid g) with
  | Some i => if N.eqb (nth i (fanouts g) 0%N) fan then Some (i, g) else None
  | None => Some (intern g l fan)
  end.
(** if w <= 0 *)
Definition nonpos (w : Qc) : bool := Qle_bool (this w) 0.
(** 526-555: add the weight to a new or existing rule *)
Definition addrule (g : gram) (k : key) (w : Qc) : gram :=
  match lookup key_eqb k (rulenos g) with
  | None =>
    let n := length (bylhs g) in
    let cur := mkRule k n w in
    mkGram (toid g) (tolabel g) (upd (freqmass g) (k_lhs k) (Qcplus w)) (fanouts g)
      ((k, n) :: rulenos g) (rulecounts g ++ [w]) (bylhs g ++ [cur])
      (if k_rhs2 k =? 0 then unary g ++ [cur] else unary g)
      (if k_rhs2 k =? 0 then lbinary g else lbinary g ++ [cur])
      (if k_rhs2 k =? 0 then rbinary g else rbinary g ++ [cur])
      (lexical g) (lexcounts g) (lexbyword g)
  | Some m =>
    mkGram (toid g) (tolabel g) (upd (freqmass g) (k_lhs k) (Qcplus w)) (fanouts g)
      (rulenos g) (upd (rulecounts g) m (Qcplus w)) (bylhs g) (unary g) (lbinary g) (rbinary g)
      (lexical g) (lexcounts g) (lexbyword g)
  end.
(** one line: labels, yield function as text, weight *)
Definition rline := (list pystr * list ascii * Qc)%type.
(** 406-556, one line of the rules *)
Definition convertrule (g : gram) (line : rline) : option gram :=
  let '(rule, yf, w) := line in
  match readyf yf with                                             (* 423-452 *)
  | None => None
  | Some c =>
    match rule with
    | [l; a] =>
      if N.eqb (yc_r1 c) 0 || negb (N.eqb (yc_r2 c) 0) then None   (* 453-457 *)
      else match intern_lhs g l (yc_fan c) with
      | None => None
      | Some (lhs, g) =>
        let (rhs1, g) := intern g a (yc_r1 c) in
        if (lhs =? 0) || (rhs1 =? 0) then None                     (* 492-495 *)
        else if rhs1 =? 1 then None                                (* 519-521 *)
        else if nonpos w then None                                 (* 522-525 *)
        else Some (addrule g (lhs, rhs1, 0, args (yc_enc c), lengths (yc_enc c)) w)
      end
    | [l; a; b] =>
      if N.eqb (yc_r1 c) 0 || N.eqb (yc_r2 c) 0 then None          (* 458-462 *)
      else match intern_lhs g l (yc_fan c) with
      | None => None
      | Some (lhs, g) =>
        let (rhs1, g) := intern g a (yc_r1 c) in
        if (lhs =? 0) || (rhs1 =? 0) then None
        else let (rhs2, g) := intern g b (yc_r2 c) in
        if rhs2 =? 0 then None                                     (* 509-512 *)
        else if (rhs1 =? 1) || (rhs2 =? 1) then None
        else if nonpos w then None
        else Some (addrule g (lhs, rhs1, rhs2, args (yc_enc c), lengths (yc_enc c)) w)
      end
    | _ => None                                                    (* 513-518 *)
    end
  end.
Fixpoint fold_opt {A B} (f : A -> B -> option A) (a : A) (bs : list B) : option A :=
  match bs with [] => Some a | b :: r => match f a b with Some a' => fold_opt f a' r | None => None end end.
(** 391-566 *)
Definition convertrules (g : gram) (lines : list rline) : option gram :=
  match fold_opt convertrule g lines with
  | Some g => if numrules g =? 0 then None else Some g             (* 565-566 *)
  | None => None
  end.

(** LexCmp (_containers.h): compares the lhs of two lexical rules *)
Definition lexlt (g : gram) (a b : nat) : bool := fst (nth a (lexical g) (0, 0%Qc)) <? fst (nth b (lexical g) (0, 0%Qc)).
(** std::inplace_merge, as a stable merge of two lists *)
Fixpoint imerge {A} (lt : A -> A -> bool) (a b : list A) : list A :=
  let fix go (b : list A) : list A :=
    match a, b with
    | [], _ => b
    | _, [] => a
    | x :: a', y :: b' => if lt y x then y :: go b' else x :: imerge lt a' b
    end
  in go b.
(** lexicalbyword[word], creating an empty entry when there is none; and its update *)
Definition wordrules (g : gram) (word : pystr) : list nat :=
  match lookup eqs word (lexbyword g) with Some l => l | None => [] end.
Fixpoint setword {V} (l : list (pystr * V)) (word : pystr) (v : V) : list (pystr * V) :=
  match l with
  | [] => [(word, v)]
  | (w, x) :: r => if eqs word w then (w, v) :: r else (w, x) :: setword r word v
  end.
(** 599-645, one tag of a word *)
Definition converttag (word : pystr) (g : gram) (tw : pystr * Qc) : option gram :=
  let '(tag, w) := tw in
  match intern_lhs g tag 1 with                                    (* 607-621 *)
  | None => None
  | Some (lhs, g) =>
    if nonpos w then None                                          (* 622-626 *)
    else match find (fun n => fst (nth n (lexical g) (0, 0%Qc)) =? lhs) (wordrules g word) with
    | Some n =>                                                    (* 627-635 *)
      Some (mkGram (toid g) (tolabel g) (upd (freqmass g) lhs (Qcplus w)) (fanouts g) (rulenos g) (rulecounts g)
        (bylhs g) (unary g) (lbinary g) (rbinary g) (lexical g) (upd (lexcounts g) n (Qcplus w)) (lexbyword g))
    | None =>                                                      (* 636-642 *)
      Some (mkGram (toid g) (tolabel g) (upd (freqmass g) lhs (Qcplus w)) (fanouts g) (rulenos g) (rulecounts g)
        (bylhs g) (unary g) (lbinary g) (rbinary g) (lexical g ++ [(lhs, w)]) (lexcounts g ++ [w])
        (setword (lexbyword g) word (wordrules g word ++ [length (lexical g)])))
    end
  end.

(** 27-36 lt0, lt1, lt2.  The code compares the stored numbers, which are negated logs of
    probabilities for rules already normalized; the model compares p itself, so that the order
    among rules with the same rhs2 (on which nothing depends) is not that of the code. *)
Definition Qc_ltb (a b : Qc) : bool := negb (Qle_bool (this b) (this a)).
Definition lt0 (a b : prule) : bool := if r_lhs a =? r_lhs b then r_no a <? r_no b else r_lhs a <? r_lhs b.
Definition lt1 (a b : prule) : bool := if r_rhs1 a =? r_rhs1 b then r_lhs a <? r_lhs b else r_rhs1 a <? r_rhs1 b.
Definition lt2 (a b : prule) : bool := if r_rhs2 a =? r_rhs2 b then Qc_ltb (r_prob a) (r_prob b) else r_rhs2 a <? r_rhs2 b.

Section Sort.
(** std::sort on rules and on rule numbers *)
Variable sortr : (prule -> prule -> bool) -> list prule -> list prule.
Variable sortn : (nat -> nat -> bool) -> list nat -> list nat.

(** a line of the lexicon: word, tags and weights *)
Definition lline := (pystr * list (pystr * Qc))%type.
(** 582-653, one line *)
Definition convertword (checkdup : bool) (g : gram) (line : lline) : option gram :=
  let '(word, tags) := line in
  match tags with
  | [] => None                                                     (* 590-592 *)
  | _ =>
    if checkdup && (match lookup eqs word (lexbyword g) with Some _ => true | None => false end) then None
    else let g := mkGram (toid g) (tolabel g) (freqmass g) (fanouts g) (rulenos g) (rulecounts g) (bylhs g) (unary g)
        (lbinary g) (rbinary g) (lexical g) (lexcounts g) (setword (lexbyword g) word (wordrules g word)) in
    let orig := length (wordrules g word) in                       (* 598 *)
    match fold_opt (converttag word) g tags with
    | None => None
    | Some g =>
      let l := wordrules g word in
      let l' := imerge (lexlt g) (firstn orig l) (sortn (lexlt g) (skipn orig l)) in   (* 644-651 *)
      Some (mkGram (toid g) (tolabel g) (freqmass g) (fanouts g) (rulenos g) (rulecounts g) (bylhs g) (unary g)
        (lbinary g) (rbinary g) (lexical g) (lexcounts g) (setword (lexbyword g) word l'))
    end
  end.
(** 568-653 *)
Definition convertlexicon (checkdup : bool) (g : gram) (lines : list lline) : option gram :=
  match fold_opt (convertword checkdup) g lines with
  | Some g => match lexical g with [] => None | _ => Some g end    (* 652-653 *)
  | None => None
  end.

(** 685-688: sort the new rules, merge them with the old ones *)
Definition resort (lt : prule -> prule -> bool) (orig : nat) (rs : list prule) : list prule :=
  imerge lt (firstn orig rs) (sortr lt (skipn orig rs)).

(** 329-344: init: normalize the weight stored in each rule *)
Definition normalize (g : gram) : gram :=
  let f := map (fun r => mkRule (r_key r) (r_no r) (r_prob r / get (freqmass g) (r_lhs r))%Qc) in
  mkGram (toid g) (tolabel g) (freqmass g) (fanouts g) (rulenos g) (rulecounts g)
    (f (bylhs g)) (f (unary g)) (f (lbinary g)) (f (rbinary g))
    (map (fun x => (fst x, (snd x / get (freqmass g) (fst x))%Qc)) (lexical g)) (lexcounts g) (lexbyword g).
(** the rule with number n; 373-375: revrulemap gives its position *)
Definition byno (rs : list prule) (n : nat) : option prule := find (fun r => r_no r =? n) rs.
(** 707-742: switch('default'): normalize the counts, copy to the other arrays.
    This is what is done when the current model is not already 'default' with the
    same logprob setting (712-713): the call is a no-op otherwise. *)
Definition switch (g : gram) : gram :=
  let rs := map (fun r => mkRule (r_key r) (r_no r) (get (rulecounts g) (r_no r) / get (freqmass g) (r_lhs r))%Qc) (bylhs g) in
  let f := map (fun r => mkRule (r_key r) (r_no r) (match byno rs (r_no r) with Some r' => r_prob r' | None => r_prob r end)) in
  mkGram (toid g) (tolabel g) (freqmass g) (fanouts g) (rulenos g) (rulecounts g)
    rs (f (unary g)) (f (lbinary g)) (f (rbinary g))
    (map (fun p => (fst (snd p), (get (lexcounts g) (fst p) / get (freqmass g) (fst (snd p)))%Qc)) (combine (seq 0 (length (lexical g))) (lexical g)))
    (lexcounts g) (lexbyword g).
(** 361-366: each label but Epsilon is the lhs of some rule *)
Definition allseen (g : gram) : bool :=
  forallb (fun i => existsb (fun r => r_lhs r =? i) (bylhs g) || existsb (fun x => fst x =? i) (lexical g))
    (seq 1 (length (tolabel g) - 1)).
(** 312-389 addrules *)
Definition addrules (init : bool) (g0 : gram) (rules : list rline) (lexicon : list lline) : option gram :=
  match convertrules g0 rules with
  | None => None
  | Some g =>
    match convertlexicon init g lexicon with
    | None => None
    | Some g =>
      let g := if init then normalize g else g in
      if negb (allseen g) then None
      else
      let g := mkGram (toid g) (tolabel g) (freqmass g) (fanouts g) (rulenos g) (rulecounts g)
        (resort lt0 (numrules g0) (bylhs g)) (resort lt1 (length (unary g0)) (unary g))
        (resort lt1 (length (lbinary g0)) (lbinary g)) (resort lt2 (length (lbinary g0)) (rbinary g))
        (lexical g) (lexcounts g) (lexbyword g) in
      Some (if init then g else switch g)
    end
  end.

(** Grammar(...), followed by calls of addrules *)
Fixpoint history (g : gram) (calls : list (list rline * list lline)) : option gram :=
  match calls with
  | [] => Some g
  | (rules, lexicon) :: r => match addrules false g rules lexicon with Some g' => history g' r | None => None end
  end.
Definition grammar (start : pystr) (rules : list rline) (lexicon : list lline) (calls : list (list rline * list lline)) : option gram :=
  match addrules true (empty start) rules lexicon with Some g => history g calls | None => None end.
End Sort.

(** 655-705: dest; the last array element is the sentinel, dest an offset for each label.
    [field] is lhs, rhs1, or rhs2.  prev starts as self.nonterminals. *)
Definition index_loop (field : prule -> nat) : list prule -> nat -> nat -> list nat -> list nat :=
  fix loop (rs : list prule) (n prev : nat) (dest : list nat) : list nat :=
  match rs with
  | [] => dest
  | r :: rest => loop rest (S n) (field r) (if field r =? prev then dest else upd dest (field r) (fun _ => n))
  end.
Definition index (field : prule -> nat) (nonterminals : nat) (rs : list prule) : list nat :=
  index_loop field rs 0 nonterminals (repeat 0 nonterminals).
(** the array with the sentinel (705): only its label matters *)
Definition fields (field : prule -> nat) (nonterminals : nat) (rs : list prule) : list nat := map field rs ++ [nonterminals].
(** How the parsers go through the rules of a label (e.g. plcfrs.pyx:503-505):
    for n in range(numrules): rule = dest[label][n]; if rule.field != label: break.
    Yields positions in the array; [None] is reading past the end. *)
Fixpoint scan (arr : list nat) (label pos fuel : nat) : option (list nat) :=
  match fuel with
  | O => Some []
  | S k => match nth_error arr pos with
    | None => None
    | Some l => if l =? label then option_map (cons pos) (scan arr label (S pos) k) else Some []
    end
  end.

(** 965-973 getruleno; [None] = the rule or a label does not exist (the C++
    map's operator[] then creates an entry: see LookupModel.v, C96) *)
Definition getruleno (g : gram) (r : list pystr) (e : yfenc) : option nat :=
  match r with
  | [l; a] => match lookup eqs l (toid g), lookup eqs a (toid g) with
    | Some i, Some j => lookup key_eqb (i, j, 0, args e, lengths e) (rulenos g) | _, _ => None end
  | [l; a; b] => match lookup eqs l (toid g), lookup eqs a (toid g), lookup eqs b (toid g) with
    | Some i, Some j, Some m => lookup key_eqb (i, j, m, args e, lengths e) (rulenos g) | _, _, _ => None end
  | _ => None
  end.
(** 975-980 incrementrulecount *)
Definition incrementrulecount (g : gram) (n : nat) (w : Qc) : option gram :=
  match byno (bylhs g) n with
  | None => None
  | Some r => Some (mkGram (toid g) (tolabel g) (upd (freqmass g) (r_lhs r) (Qcplus w)) (fanouts g) (rulenos g)
      (upd (rulecounts g) n (Qcplus w)) (bylhs g) (unary g) (lbinary g) (rbinary g) (lexical g) (lexcounts g) (lexbyword g))
  end.
