(** Model of discodop/lexicon.py: unknown word models, replacement of rare
    words in training and test sentences, smoothing of the lexicon, and of the
    way runexp.py / parser.py put these together. *)
From Coq Require Import String.
From Coq Require Import List Arith NArith Bool QArith.
From Verif Require Import PyStr TreeModel BracketModel McpModel.
Import ListNotations.
Open Scope nat_scope.
Open Scope list_scope.

Notation word := pystr (only parsing).
Notation tag := pystr (only parsing).
Definition tagsents := list (list (word * tag)).

(** membership in a set / dict of strings *)
Definition ins (w : pystr) (l : list pystr) : bool := existsb (eqs w) l.

(** lexicon.py:33 UNK *)
Definition UNK : pystr := str "_UNK".

(** Python's [$] also matches just before a final newline *)
Definition chop (w : pystr) : pystr :=
  match rev w with
  | c :: r => if N.eqb c 10 then rev r else w
  | [] => w
  end.
(** lexicon.py:35 YEARRE = ^(?:19|20)[0-9]{2}$ *)
Definition year_core (w : pystr) : bool :=
  match w with
  | [a; b; c; d] => (eqs [a; b] (str "19") || eqs [a; b] (str "20")) && isdigit c && isdigit d
  | _ => false
  end.
Definition yearre (w : pystr) : bool := year_core w || year_core (chop w).
(** lexicon.py:34 NUMBERRE = ^(?:[0-9]*[,.'])?[0-9]+$ *)
Definition digits1 (w : pystr) : bool := negb (eqs w []) && forallb isdigit w.
Definition numsep (c : char) : bool := ins [c] [str ","; str "."; str "'"].
Fixpoint sepdigits (w : pystr) : bool :=
  match w with
  | [] => false
  | c :: r => (numsep c && digits1 r) || (isdigit c && sepdigits r)
  end.
Definition num_core (w : pystr) : bool := digits1 w || sepdigits w.
Definition numberre (w : pystr) : bool := num_core w || num_core (chop w).

(** collections.Counter: keys in order of first occurrence *)
Section Counter.
  Context {K : Type}.
  Variable eqb : K -> K -> bool.
  Definition incr (d : list (K * nat)) (k : K) : list (K * nat) :=
    dput eqb k (match dget eqb k d with Some n => n | None => 0 end + 1) d.
  Definition counter (l : list K) : list (K * nat) := fold_left incr l [].
End Counter.
Definition paireqb (a b : pystr * pystr) : bool := eqs (fst a) (fst b) && eqs (snd a) (snd b).

(** number of distinct elements: len({...}) *)
Fixpoint dedup (l : list pystr) : list pystr :=
  match l with
  | [] => []
  | x :: r => if ins x r then dedup r else x :: dedup r
  end.
Definition distinct (l : list pystr) : nat := length (dedup l).

(** enumerate *)
Definition enum {A} (l : list A) : list (nat * A) := combine (seq 0 (length l)) l.

Section Lex.
(** str.lower: left abstract *)
Variable lower : pystr -> pystr.
(** REMOVESTATESPLITS.match(tag).group(2) (_grammar.pxi:19-24), None when the
    pattern does not match: left abstract *)
Variable basetag : tag -> option tag.
(** the signature function [unknownword(word, n, lexicon)] *)
Variable unknownword : word -> nat -> list word -> word.

Record lexmodel := {
  lm_sigs : list (pystr * nat);
  lm_words : list (word * nat);
  lm_lexicon : list word;
  lm_closed : list word;
  lm_tags : list (tag * nat);
  lm_wordtags : list ((word * tag) * nat) }.

(** lexicon.py:63-73: the occurrences, and wordsfortag[tag] (a set; the list
    may repeat a word, only its distinct elements are looked at) *)
Definition occs (sents : tagsents) : list (word * tag) := flat_map (fun s => s) sents.
Definition wordsfortag (sents : tagsents) (t : tag) : list word :=
  map fst (filter (fun wt => eqs (snd wt) t) (occs sents)).
(** lexicon.py:77-82 wordsforcollapsedtags[tag1] *)
Definition wordsforcollapsed (sents : tagsents) (b : tag) : list word :=
  map (fun wt => lower (fst wt))
    (filter (fun wt => match basetag (snd wt) with Some b' => eqs b' b | None => false end) (occs sents)).
(** lexicon.py:83-90: tag in openclasstags *)
Definition isopen (sents : tagsents) (openclassthreshold : nat) (t : tag) : bool :=
  match basetag t with
  | None => openclassthreshold <=? distinct (map lower (wordsfortag sents t))
  | Some b => openclassthreshold <=? distinct (wordsforcollapsed sents b)
  end.
(** lexicon.py:50-118 getunknownwordmodel.  The message is not modelled, except
    that building it reads wordsforcollapsedtags, which is only bound when
    openclassthreshold is non-zero: with 0 the call raises UnboundLocalError
    ([None] here). *)
Definition getunknownwordmodel (sents : tagsents) (unknownthreshold openclassthreshold : nat) : option lexmodel :=
  let words := counter eqs (map fst (occs sents)) in
  let tags := counter eqs (map snd (occs sents)) in
  let wordtags := counter paireqb (occs sents) in
  let common := map fst (filter (fun wf => unknownthreshold <? snd wf) words) in
  if openclassthreshold =? 0 then None
  else
    let closedtags := filter (fun t => negb (isopen sents openclassthreshold t)) (map fst tags) in
    let closed := flat_map (fun t => wordsfortag sents t) closedtags in
    let lexicon := common ++ closed in
    let sigs := counter eqs
      (flat_map (fun sent =>
         flat_map (fun nwt => if ins (fst (snd nwt)) lexicon then []
                              else [unknownword (fst (snd nwt)) (fst nwt) lexicon])
           (enum sent)) sents) in
    Some {| lm_sigs := sigs; lm_words := words; lm_lexicon := lexicon;
            lm_closed := closed; lm_tags := tags; lm_wordtags := wordtags |}.

(** lexicon.py:121-134 replaceraretrainwords *)
Definition trainrepl (lexicon : list word) (n : nat) (w : word) : word :=
  if yearre w then str "1970"
  else if numberre w then str "000"
  else if negb (ins w lexicon) then unknownword w n lexicon
  else w.
Definition replaceraretrainwords (sents : tagsents) (lexicon : list word) : list (list word) :=
  map (fun sent => map (fun nwt => trainrepl lexicon (fst nwt) (fst (snd nwt))) (enum sent)) sents.

(** lexicon.py:137-157 replaceraretestwords *)
Definition testrepl (lexicon sigs : list word) (n : nat) (w : word) : word :=
  if yearre w then str "1970"
  else if numberre w then str "000"
  else if ins w lexicon then w
  else if ins (lower w) lexicon then lower w
  else let sig := unknownword w n lexicon in if ins sig sigs then sig else UNK.
Definition replaceraretestwords (sent : list word) (lexicon sigs : list word) : list word :=
  map (fun nw => testrepl lexicon sigs (fst nw) (snd nw)) (enum sent).

(** lexicon.py:160-180 simplesmoothlexicon; the rule
    [(tag, 'Epsilon'), (w, )] is the key [(tag, w)] *)
Definition simplesmoothlexicon (m : lexmodel) (epsilon : Q) : list ((tag * word) * Q) :=
  let rare := fold_left (fun d e =>
      let '((w, t), n) := e in
      if ins w (lm_lexicon m) then d
      else dput paireqb (t, escape (Some w)) (inject_Z (Z.of_nat n)) d)
    (lm_wordtags m) [] in
  fold_left (fun d e => dput paireqb (fst e, UNK) epsilon d) (lm_tags m) rare.

(** grammar.py:64 (lexical productions hold [escape(word)]), 100-113
    (extrarules added), 1087-1088 (writegrammar writes [unescape(word)]):
    the words of the lexicon file, i.e. the keys of Grammar.lexicalbyword.
    Every occurrence is taken to be a terminal of its tree. *)
Definition grammarwords (trainsents : list (list word)) (extra : list ((tag * word) * Q)) : list word :=
  flat_map (fun w => match unescape w with Some u => [u] | None => [] end)
    (map (fun w => escape (Some w)) (concat trainsents) ++ map (fun e => snd (fst e)) extra).

(** runexp.py:266-283 getposmodel followed by 364-365: the training sentences
    given to the grammar extraction, and the known words and signatures the
    parser of the same run uses.  (The parser gets [lexicon=allwords], so all
    training words, not only the frequent ones.) *)
Definition getposmodel (sents : tagsents) (unkthr openthr : nat) :
    option (lexmodel * list (list word) * (list word * list word)) :=
  match getunknownwordmodel sents unkthr openthr with
  | None => None
  | Some m => Some (m, replaceraretrainwords sents (lm_lexicon m),
                    (map fst (lm_words m), map fst (lm_sigs m)))
  end.
(** parser.py:800-805: a parser read back from files splits the words of the
    grammar into known words and signatures *)
Definition loadedmodel (gwords : list word) : list word * list word :=
  (filter (fun w => negb (startswith w UNK)) gwords, filter (fun w => startswith w UNK) gwords).
(** parser.py:267-275 (without PTBbrackets): what the parser looks up *)
Definition parsersent (sent : list word) (model : list word * list word) : list word :=
  replaceraretestwords (map (fun w => escape (Some w)) sent) (fst model) (snd model).
End Lex.

(** ---- signature functions ---- *)
Section Sigs.
Variable lower : pystr -> pystr.
(** \d of a str pattern: any Unicode decimal digit *)
Variable unidigit : char -> bool.
(** the character classes HASUPPER/HASLOWER of lexicon.py:192-195 also list
    accented letters; membership is left abstract *)
Variable isupper : char -> bool.
Variable islower : char -> bool.

Definition hasdigit (w : pystr) := existsb unidigit w.
Definition hasnondigit (w : pystr) := existsb (fun c => negb (unidigit c)) w.
(** lexicon.py:190 HASDASH *)
Definition isdash (c : char) : bool := N.eqb c 45 || N.eqb c 8208 || N.eqb c 8209.
Definition endswith (w s : pystr) : bool := startswith (rev w) (rev s).
Definition haschar (s : string) (w : pystr) : bool := existsb (N.eqb (ch s)) w.

(** lexicon.py:207-239 unknownword6 *)
Definition unknownword6 (w : word) (loc : nat) (lexicon : list word) : word :=
  let numcaps := length (filter isupper w) in
  let lowered := lower w in
  let sig := UNK ++
    (if 1 <? numcaps then str "-CAPS"
     else if 0 <? numcaps then
       if loc =? 0 then str "-INITC" ++ (if ins lowered lexicon then str "-KNOWNLC" else [])
       else str "-CAP"
     else if existsb islower w then str "-LC" else []) in
  let sig := sig ++ (if hasdigit w then str "-NUM" else []) in
  let sig := sig ++ (if existsb isdash w then str "-DASH" else []) in
  if endswith lowered (str "s") && (3 <=? length w) then
    if ins [nth 1 (rev lowered) 0%N] [str "s"; str "i"; str "u"] then sig else sig ++ str "-s"
  else if (5 <=? length w) && negb (existsb isdash w) && negb (hasdigit w && (0 <? numcaps)) then
    sig ++ match find (fun a => endswith lowered a)
                 (map str ["ed"; "ing"; "ion"; "er"; "est"; "ly"; "ity"; "y"; "al"]%string) with
           | Some a => str "-" ++ a
           | None => []
           end
  else sig.

(** [word[-2:]] *)
Definition last2 (w : pystr) : pystr := rev (firstn 2 (rev w)).
(** lexicon.py:275-277, 307-309 *)
Definition suffixpart (w : word) : pystr :=
  if 3 <? length w then
    match rev w with
    | c :: _ => if isupper c || islower c then str "-" ++ lower (last2 w) else []
    | [] => []
    end
  else [].
Definition digitpart (w : word) : pystr :=
  if hasdigit w then if hasnondigit w then str "-n" else str "-N" else [].

(** lexicon.py:242-278 unknownword4 (HASLETTER = HASLOWER or HASUPPER) *)
Definition unknownword4 (w : word) (loc : nat) (lexicon : list word) : word :=
  UNK ++
  (if match w with c :: _ => isupper c | [] => false end then
     if negb (existsb islower w) then str "-AC"
     else if loc =? 0 then str "-SC" else str "-C"
   else if existsb islower w then str "-L"
   else if existsb (fun c => islower c || isupper c) w then str "-U"
   else str "-S") ++
  digitpart w ++
  (if haschar "-" w then str "-H" else []) ++
  (if haschar "." w then str "-P" else []) ++
  (if haschar "," w then str "-C" else []) ++
  suffixpart w.

(** lexicon.py:281-310 unknownwordbase; the empty word raises IndexError in
    Python (here: treated as not starting with a capital) *)
Definition unknownwordbase (w : word) (loc : nat) (lexicon : list word) : word :=
  UNK ++
  (if match w with c :: _ => isupper c | [] => false end then str "-C" else str "-c") ++
  digitpart w ++
  (if haschar "-" w then str "-H" else []) ++
  (if eqs w (str ".") then str "-P" else []) ++
  (if eqs w (str ",") then str "-C" else []) ++
  suffixpart w.

(** lexicon.py:331-358 unknownwordftb; the suffix patterns and the
    punctuation classes are abstract *)
Variables advsuffix verbsuffix nounsuffix adjsuffix possibleplural ispunc haspunc : word -> bool.
Definition unknownwordftb (w : word) (loc : nat) (lexicon : list word) : word :=
  UNK ++
  (if advsuffix w then str "-ADV" else if verbsuffix w then str "-VB"
   else if nounsuffix w then str "-NN" else []) ++
  (if adjsuffix w then str "-ADV" else []) ++
  (if hasdigit w then str "-NUM" else []) ++
  (if possibleplural w then str "-PL" else []) ++
  (if ispunc w then str "-ISPUNC" else if haspunc w then str "-HASPUNC" else []) ++
  (if (0 <? loc) && match w with c :: _ => isupper c | [] => false end then str "-UP" else []).
End Sigs.
