(** Model of the search functions of discodop/treesearch.py: the line index and
    queries of RegexSearcher, the caches, and highlighting.

    A file is a list of bytes.  A RoaringBitmap is the sorted list of its elements
    (files below 4 GB).  A compiled pattern is a function from the searched bytes
    to the spans of the matches; decoding UTF-8 is a parameter ([None]: error). *)
From Coq Require Import String.
From Coq Require Import List Bool Arith NArith.
From Verif Require Import PyStr.
Import ListNotations.
Open Scope list_scope.
Open Scope nat_scope.

(** ---- 1217-1227 _indexfile ---- *)
Definition NL : N := 10%N.
(** `for line in tmp`: the lines with their newline *)
Fixpoint lines (s : list N) : list (list N) :=
  match s with
  | [] => []
  | c :: r => if N.eqb c NL then [c] :: lines r else match lines r with [] => [[c]] | l :: ls => (c :: l) :: ls end
  end.
(** bytes.isspace *)
Definition isspacec (c : N) : bool := existsb (N.eqb c) [32; 9; 10; 11; 12; 13]%N.
Definition isspace (l : list N) : bool := match l with [] => false | _ => forallb isspacec l end.
Fixpoint index (off : nat) (ls : list (list N)) : list nat :=
  match ls with
  | [] => [off]
  | l :: r => if isspace l then index (off + length l) r else off :: index (off + length l) r
  end.
Definition indexfile (file : list N) : list nat := index 0 (lines file).

(** RoaringBitmap.select, rank *)
Definition select (idx : list nat) (k : nat) : option nat := nth_error idx k.
Definition rank (idx : list nat) (x : nat) : nat := length (filter (fun i => i <=? x) idx).

(** ---- 1202-1214 _getoffsets ---- *)
Fixpoint back (data : list N) (n : nat) : nat :=
  match n with O => O | S m => if N.eqb (nth m data 0%N) NL then back data m else n end.
Definition getoffsets (lineno : nat) (idx : list nat) (data : option (list N)) : option (nat * nat) :=
  if (1 <=? lineno) && (lineno <? length idx) then
    match select idx (lineno - 1), select idx lineno with
    | Some o, Some n => Some (o, match data with Some d => back d n | None => n end)
    | _, _ => None
    end
  else None.
(** data[a:b], s.rstrip(b'\n') *)
Definition slice {A} (a b : nat) (s : list A) : list A := firstn (b - a) (skipn a s).
Fixpoint dropnl (s : list N) : list N := match s with c :: r => if N.eqb c NL then dropnl r else s | [] => [] end.
Definition rstripnl (s : list N) : list N := rev (dropnl (rev s)).
(** 1018-1036 extract, one line number *)
Definition extract (inmemory : bool) (file : list N) (idx : list nat) (lineno : nat) : option (list N) :=
  if inmemory then match getoffsets lineno idx (Some file) with Some (a, b) => Some (slice a b file) | None => None end
  else match getoffsets lineno idx None with Some (a, b) => Some (rstripnl (slice a b file)) | None => None end.

(** ---- 1085-1152 _regex_run_query ---- *)
Section Query.
Variable finditer : list N -> list (nat * nat).
Variable dec : list N -> option pystr.
(** the part of the file that is searched, and its offset; [None]: an exception (mmap of an empty file) *)
Inductive window := Nothing | Window (chunkoffset : nat) (data : list N).
Definition getwindow (file : list N) (idx : list nat) (start end_ : option nat) : option window :=
  let n := length idx in
  let lastline := match end_ with None => true | Some e => n - 1 <? e end in     (* 1100 *)
  let e := match end_ with Some e => if lastline then n - 1 else e | None => n - 1 end in
  let st := match start with Some s => s | None => 0 end in
  if n <? st then Some Nothing                                                   (* 1103-1104 *)
  else
    match select idx (st - 1), select idx e with                                 (* 1105-1106 *)
    | Some si, Some ei =>
      if (si =? 0) && lastline then                                              (* 1108-1110 *)
        match file with
        | [] => None
        | _ => Some (if n <=? st then Nothing else Window 0 (firstn ei file))
        end
      else                                                                       (* 1111-1115 *)
        Some (if n <=? st then Nothing else Window si (firstn (ei - si) (skipn si file)))
    | _, _ => None
    end.
Definition spans (maxresults : option nat) (data : list N) : list (nat * nat) :=
  match maxresults with None => finditer data | Some m => firstn m (finditer data) end.
(** 1118-1136: with sentences *)
Definition result := (nat * pystr * nat * nat)%type.
Definition onesent (idx : list nat) (off : nat) (data : list N) (m : nat * nat) : option result :=
  let lineno := rank idx (fst m + off) in
  match getoffsets lineno idx None with
  | None => None
  | Some (a, b) =>
    match dec (rstripnl (slice (a - off) (b - off) data)), dec (slice (a - off) (fst m) data), dec (slice (a - off) (snd m) data) with
    | Some sent, Some x, Some y => Some (lineno, sent, length x, length y)
    | _, _, _ => None
    end
  end.
Fixpoint allsome {A} (l : list (option A)) : option (list A) :=
  match l with [] => Some [] | x :: r => match x, allsome r with Some x, Some r => Some (x :: r) | _, _ => None end end.
Definition querysents (file : list N) (idx : list nat) (start end_ maxresults : option nat) : option (list result) :=
  match getwindow file idx start end_ with
  | None => None
  | Some Nothing => Some []
  | Some (Window off data) => allsome (map (onesent idx off data) (spans maxresults data))
  end.
(** indices only *)
Definition queryindices (file : list N) (idx : list nat) (start end_ maxresults : option nat) : option (list nat) :=
  match getwindow file idx start end_ with
  | None => None
  | Some Nothing => Some []
  | Some (Window off data) => Some (map (fun m => rank idx (fst m + off)) (spans maxresults data))
  end.
(** 1142-1146: the number of matches *)
Definition querycount (file : list N) (idx : list nat) (start end_ maxresults : option nat) : option nat :=
  match getwindow file idx start end_ with
  | None => None
  | Some Nothing => Some 0
  | Some (Window off data) => Some (Nat.max (length (finditer data)) (match maxresults with Some m => m | None => 0 end))
  end.
End Query.

(** ---- 875-886: the stored index (modification time, indices), the files sorted by
    name, and the time of the last modification of a file ---- *)
Definition openindex (stored : option (nat * list (list nat))) (maxmtime : nat) (files : list (list N)) : list (list nat) :=
  match stored with
  | Some (mtime, tmp) => if (length tmp =? length files) && (maxmtime <? mtime) then tmp else map indexfile files
  | None => map indexfile files
  end.

(** ---- 1241-1256 FIFOOrederedDict: the keys in order of insertion ---- *)
Section Cache.
Context {K V : Type}.
Variable keqb : K -> K -> bool.
Notation cache := (list (K * V)) (only parsing).
Fixpoint cget (k : K) (c : cache) : option V := match c with [] => None | (k', v) :: r => if keqb k k' then Some v else cget k r end.
Definition cdel (k : K) (c : cache) : cache := filter (fun e => negb (keqb k (fst e))) c.
Definition cset (limit : nat) (k : K) (v : V) (c : cache) : cache :=
  if limit =? 0 then c
  else match cget k c with
    | Some _ => cdel k c ++ [(k, v)]
    | None => (if limit <=? length c then tl c else c) ++ [(k, v)]
    end.
End Cache.

(** ---- counts (906-932, 609-651): the files of one call that are not in the cache
    are submitted, and stored when they are completed, in any order ---- *)
Section Counts.
Context {Q F R : Type}.
Variable qeqb : Q -> Q -> bool.
Variable feqb : F -> F -> bool.
Variable run : Q -> F -> R.
Definition kqf (a b : Q * F) : bool := qeqb (fst a) (fst b) && feqb (snd a) (snd b).
(** [q]: all that the key contains besides the file; [done]: the order in which jobs are completed *)
Definition cached (q : Q) (files : list F) (c : list (Q * F * R)) : list (F * R) :=
  flat_map (fun f => match cget kqf (q, f) c with Some v => [(f, v)] | None => [] end) files.
Definition jobs (q : Q) (files : list F) (c : list (Q * F * R)) : list F :=
  filter (fun f => match cget kqf (q, f) c with Some _ => false | None => true end) files.
Definition counts (limit : nat) (q : Q) (files done : list F) (c : list (Q * F * R)) : list (F * R) * list (Q * F * R) :=
  (cached q files c ++ map (fun f => (f, run q f)) done, fold_left (fun c f => cset kqf limit (q, f) (run q f) c) done c).
End Counts.

(** ---- sents, trees (670-772, 934-967): the cache has the results and the maximum
    number of results that was asked for ---- *)
Section Sents.
Context {Q R : Type}.
Variable qeqb : Q -> Q -> bool.
Variable run : Q -> option nat -> list R.
Definition truthy (m : option nat) : bool := match m with None | Some O => false | _ => true end.
(** [key']: the key under which the results are stored, given the results.  [None]: TypeError
    (a number compared with None) *)
Definition sents (key' : Q -> list R -> Q) (limit : nat) (q : Q) (maxresults : option nat) (c : list (Q * (list R * option nat))) : option (list R * list (Q * (list R * option nat))) :=
  let '(x, m2) := match cget qeqb q c with Some e => e | None => ([], Some 0) end in
  match (if truthy maxresults then match maxresults, m2 with Some m, Some m2 => Some (m2 <? m) | _, _ => None end else Some true) with
  | None => None
  | Some true => let x := run q maxresults in Some (x, cset qeqb limit (key' q x) (x, maxresults) c)
  | Some false => Some (match maxresults with Some m => firstn m x | None => x end, c)
  end.
End Sents.

(** ---- 1267-1281 charindices: the indices of the characters of the n'th token ---- *)
Fixpoint charranges (cur : nat) (sent : list pystr) : list (list nat) :=
  match sent with
  | [] => []
  | [a] => [seq cur (length a)]
  | a :: r => seq cur (length a + 1) :: charranges (cur + length a + 1) r
  end.
(** a set of indices is a list; [None]: KeyError *)
Fixpoint charindices (sent : list pystr) (indices : list nat) : option (list nat) :=
  match indices with
  | [] => Some []
  | n :: r => match nth_error (charranges 0 sent) n, charindices sent r with Some l, Some m => Some (l ++ m) | _, _ => None end
  end.
(** ---- 1292-1324 applyhighlight: the output, as text and escape codes ---- *)
Inductive piece := Text (s : pystr) | Color (c : nat) | Reset.
Record hst := mkH { h_cur : option nat; h_start : nat; h_out : list piece }.
Definition curis (cur : option nat) (c : nat) : bool := match cur with Some c' => c =? c' | None => false end.
Definition hstep (high1 high2 : nat -> bool) (c1 c2 : nat) (reset : bool) (sent : pystr) (st : hst) (n : nat) : hst :=
  let change c := if curis (h_cur st) c then st
    else mkH (Some c) n (h_out st ++ [Text (slice (h_start st) n sent)] ++ (if reset then [Reset] else []) ++ [Color c]) in
  if high1 n then change c1
  else if high2 n then change c2
  else match h_cur st with
    | None => st
    | Some _ => mkH None n (h_out st ++ [Text (slice (h_start st) n sent); Reset])
    end.
Definition applyhighlight (high1 high2 : nat -> bool) (c1 c2 : nat) (reset : bool) (sent : pystr) : list piece :=
  let st := fold_left (hstep high1 high2 c1 c2 reset sent) (seq 0 (length sent)) (mkH None 0 []) in
  h_out st ++ [Text (skipn (h_start st) sent)] ++ match h_cur st with None => [] | Some _ => [Reset] end.
