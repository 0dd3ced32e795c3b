(** Model of discodop/containers.pyx:668-914 Vocabulary: numbering of
    productions, labels and words; serialization.

    Labels and words are given as their UTF-8 encoding, lists of bytes; str.encode
    and decode are not modelled.  A darray is the list of its elements (the
    growth of its capacity is not modelled); dictionaries are lists of key-value
    pairs in insertion order. *)
From Coq Require Import List Bool Arith NArith Lia.
From Verif Require Import ConcatModel.
Import ListNotations.
Open Scope N_scope.

Definition bytes := list N.
Fixpoint beq (a b : bytes) : bool :=
  match a, b with
  | [], [] => true
  | x :: a, y :: b => (x =? y) && beq a b
  | _, _ => false
  end.
(** b'Epsilon' *)
Definition epsilon : bytes := [69; 112; 115; 105; 108; 111; 110].

(** a uint32_t in memory (little endian) *)
Definition le32 (n : N) : bytes := [n mod 256; n / 256 mod 256; n / 65536 mod 256; n / 16777216 mod 256].
Definition get32 (b : bytes) : N :=
  match b with a :: b :: c :: d :: _ => a + 256 * b + 65536 * c + 16777216 * d | _ => 0 end.
(** slices of a buffer *)
Definition slice (b : bytes) (start stop : N) : bytes := firstn (N.to_nat (stop - start)) (skipn (N.to_nat start) b).

Definition dict := list (bytes * N).
Fixpoint lookup (k : bytes) (d : dict) : option N :=
  match d with [] => None | (k', v) :: r => if beq k k' then Some v else lookup k r end.
(** d[k] = v *)
Fixpoint assign (k : bytes) (v : N) (d : dict) : dict :=
  match d with [] => [(k, v)] | (k', v') :: r => if beq k k' then (k', v) :: r else (k', v') :: assign k v r end.
Definition size {A} (l : list A) : N := N.of_nat (length l).

Record vocab := Vocab { prods : dict; labels : dict; prodbuf : bytes; labelbuf : bytes; labelidx : list N }.

(** containers.pyx:710-720 *)
Definition init : vocab := Vocab [] [(epsilon, 0)] [] epsilon [0; size epsilon].

(** 753-758 _getlabelid *)
Definition getlabelid (v : vocab) (l : bytes) : N * vocab :=
  match lookup l (labels v) with
  | Some n => (n, v)
  | None =>
      let n := size (labels v) in
      let buf := labelbuf v ++ l in
      (n, Vocab (prods v) (assign l n (labels v)) (prodbuf v) buf (labelidx v ++ [size buf mod 2 ^ 32]))
  end.
(** 744-751 _getprodid *)
Definition getprodid (v : vocab) (p : bytes) : N * vocab :=
  match lookup p (prods v) with
  | Some n => (n, v)
  | None =>
      let n := size (prods v) in
      (n, Vocab (assign p n (prods v)) (labels v) (prodbuf v ++ p) (labelbuf v) (labelidx v))
  end.

(** A production: the tuple of labels, and the tuple of the yield function (or
    of words) *)
Inductive yieldarg := YWords (w : bytes) | YVars (yf : list (list bool)).
Definition production := (list bytes * yieldarg)%type.

(** containers.pxd:181-186 struct Rule in memory, 5 * 4 bytes *)
Definition rulebytes (lhs rhs1 rhs2 a l : N) : bytes := le32 lhs ++ le32 rhs1 ++ le32 rhs2 ++ le32 a ++ le32 l.
Definition rulesize : N := 20.

(** 729-742 getprod.  [None]: an exception. *)
Definition getprod (v : vocab) (p : production) : option (N * vocab) :=
  let (r, yf) := p in
  match r with
  | [] => None
  | r0 :: rest =>
      let (lhs, v) := getlabelid v r0 in
      let (rhs1, v) := match rest with r1 :: _ => getlabelid v r1 | [] => (0, v) end in
      let (rhs2, v) := match rest with _ :: r2 :: _ => getlabelid v r2 | _ => (0, v) end in
      if (rhs1 =? 0) && negb (match rest with [] => true | _ => false end) then
        match yf with
        | YWords w => let (a, v) := getlabelid v w in Some (getprodid v (rulebytes lhs rhs1 rhs2 a 0))
        | YVars _ => None
        end
      else
        match yf with
        | YVars y => Some (getprodid v (rulebytes lhs rhs1 rhs2 (args (getyf y)) (lengths (getyf y))))
        | YWords _ => None
        end
  end.

(** 760-762 idtolabel *)
Definition idtolabel (v : vocab) (i : N) : bytes :=
  slice (labelbuf v) (nth (N.to_nat i) (labelidx v) 0) (nth (N.to_nat i + 1) (labelidx v) 0).
(** the fields of struct Rule at prodno *)
Definition field (v : vocab) (prodno k : N) : N := get32 (skipn (N.to_nat (prodno * rulesize + 4 * k)) (prodbuf v)).
(** 764-771 getlabel, for prodno >= 0 *)
Definition getlabel (v : vocab) (prodno : N) : bytes := idtolabel v (field v prodno 0).
(** 773-782 getword *)
Definition getword (v : vocab) (prodno : N) : option bytes :=
  if field v prodno 3 =? 0 then None else Some (idtolabel v (field v prodno 3)).
(** 784-790 islexical *)
Definition islexical (v : vocab) (prodno : N) : bool := negb (field v prodno 3 =? 0) && (field v prodno 4 =? 0).

(** 825-844 tofile (896-914 __getstate__ gives the same bytes) *)
Definition tofile (v : vocab) : bytes :=
  le32 (size (prods v)) ++ le32 (size (labels v) + 1) ++ le32 (size (labelbuf v))
  ++ prodbuf v ++ flat_map le32 (labelidx v) ++ labelbuf v.

(** {key(n): n for n in range(num)} *)
Definition comprehension (num : N) (key : N -> bytes) : dict :=
  fold_left (fun d n => assign (key (N.of_nat n)) (N.of_nat n) d) (seq 0 (N.to_nat num)) [].
Fixpoint get32s (k : nat) (b : bytes) : list N := match k with O => [] | S k => get32 b :: get32s k (skipn 4 b) end.
(** 845-894 fromfile; [None]: IOError (file too short) *)
Definition fromfile (f : bytes) : option vocab :=
  if size f <? 12 then None
  else
    let nprods := get32 f in
    let nidx := get32 (skipn 4 f) in
    let nbuf := get32 (skipn 8 f) in
    let f := skipn 12 f in
    if size f <? nprods * rulesize + 4 * nidx + nbuf then None
    else
      let pbuf := slice f 0 (nprods * rulesize) in
      let idx := get32s (N.to_nat nidx) (skipn (N.to_nat (nprods * rulesize)) f) in
      let lbuf := slice f (nprods * rulesize + 4 * nidx) (nprods * rulesize + 4 * nidx + nbuf) in
      Some (Vocab
        (comprehension (size pbuf / rulesize) (fun n => slice pbuf (n * rulesize) ((n + 1) * rulesize)))
        (comprehension (nidx - 1) (fun n => slice lbuf (nth (N.to_nat n) idx 0) (nth (N.to_nat n + 1) idx 0)))
        pbuf lbuf idx).

(** a history of calls of getprod, with the numbers returned *)
Fixpoint getprods (v : vocab) (ps : list production) : option (list N * vocab) :=
  match ps with
  | [] => Some ([], v)
  | p :: ps =>
      match getprod v p with
      | None => None
      | Some (n, v) => match getprods v ps with None => None | Some (ns, v) => Some (n :: ns, v) end
      end
  end.
