(** Model of the control flow of Parser.parse (discodop/parser.py:244-533), of
    Parser.noparse (561-574) and of probmult (818-824): how the stages of the
    parser depend on each other, which tree is reported, the partial parses of
    sentences which cannot be parsed, and the fallbacks.

    Not modelled here but taken as arguments: the parser itself with its coarse
    to fine pruning ([parsechart]; C06, C41, C54, C60), the truth value of a
    chart ([ok]: it has a complete parse), chart.bestsubtree ([best], C42), the
    disambiguation ([marg]: marginalize, C40, C65, C66), the re-rankers
    ([rerank]), the postprocessing ([post]; C23, C24, C25, C83, C85) and
    dobinarization ([binar]; C20).  These may raise an exception (None).
    Simplifications: a raw tree is a tree and not the string of a tree; the
    escaping of the words, the options require and block, the gold tree, the
    timing and the messages are left out; so is the saving of heads in the tree
    that is reported.  A stage is referred to by its number, not by its name;
    its mode is a parser (pcfg or plcfrs) or a re-ranker; probabilities are
    rationals. *)
From Coq Require Import String.
From Coq Require Import List Bool Arith QArith.
From Verif Require Import PyStr TreeModel PartitionModel.
Import ListNotations.
Open Scope nat_scope.

(** what a generator that is consumed with list(...) does: it gives its values
    or raises an exception; [Fuel]: the recursion of parse is too deep *)
Inductive out {A : Type} := Val (a : A) | Exc | Fuel.
Arguments out : clear implicits.
Definition bind {A B} (x : out A) (f : A -> out B) : out B :=
  match x with Val a => f a | Exc => Exc | Fuel => Fuel end.
Definition lift {A} (x : option A) : out A := match x with Some a => Val a | None => Exc end.

(** a probability: a number, or for the objective "shortest" a pair of the
    (negated) number of subtrees and a probability *)
Inductive prob := Plain (q : Q) | Pair (k q : Q).
(** parser.py:818-824 probmult.  Line 823 adds prob2[1]; the case of a plain
    number that is not 1 and a pair raises an exception, and does not occur. *)
Definition probmult (a b : prob) : prob :=
  match a, b with
  | Plain x, _ =>
    if Qeq_bool x 1 then b else match b with Plain y => Plain (x * y) | Pair _ _ => b end
  | Pair k x, Pair _ y => Pair (k + y) (x * y)
  | Pair _ x, Plain y => Plain (x * y)
  end.
(** the order of Python on numbers and on pairs *)
Definition Qltb (a b : Q) : bool := negb (Qle_bool b a).
Definition probltb (a b : prob) : bool :=
  match a, b with
  | Plain x, Plain y => Qltb x y
  | Pair k x, Pair l y => Qltb k l || (Qeq_bool k l && Qltb x y)
  | _, _ => false
  end.

Notation T := (tree pystr nat) (only parsing).
(** max(parsetrees, key=itemgetter(1)): the first maximal element (502-503, 473-474) *)
Definition argmax (l : list (T * prob)) : option (T * prob) :=
  match l with
  | [] => None
  | x :: r => Some (fold_left (fun m y => if probltb (snd m) (snd y) then y else m) r x)
  end.

(** parser.py:477-479: in each node whose first child is a word, that child is
    shifted *)
Fixpoint shift (a : nat) (t : T) : T :=
  match t with
  | Leaf i => Leaf i
  | Node l ts =>
    Node l (match ts with
            | Leaf i :: r => Leaf (i + a) :: map (shift a) r
            | _ => map (shift a) ts
            end)
  end.
(** tree.subtrees() has no node without children (505) *)
Fixpoint noempty (t : T) : bool :=
  match t with
  | Leaf _ => true
  | Node _ ts => match ts with [] => false | _ => forallb noempty ts end
  end.
(** sent[a:b] *)
Definition slice {A} (l : list A) (a b : nat) : list A := firstn (b - a) (skipn a l).

Record stage := { prune : option nat; split : bool; reranker : bool; start : pystr }.
(** the items of the DictObj (528-532) that are not statistics *)
Record res := { restree : T; resprob : prob; restrees : list (T * prob); resnoparse : bool }.

Section Parse.
Context {W Chart : Type}.
Variable ok : Chart -> bool.
Variable best : Chart -> nat -> nat -> option pystr.
Variable parsechart : nat -> list W -> option (list pystr) -> option pystr -> option Chart -> option Chart.
Variable marg : nat -> Chart -> list W -> option (list (T * prob)).
Variable rerank : nat -> list (T * prob) -> list W -> option (list (T * prob)).
Variable post : nat -> T -> list W -> option T.
Variable binar : T -> list W -> option T.
Variable rr : bool.
Variable stages : list stage.

Definition okc (c : option Chart) : bool := match c with Some x => ok x | None => false end.

(** the variables that live from one stage to the next: 290-294.  [charts] has
    the chart and the parse trees of each stage that is done (494-496). *)
Record state := { charts : list (option Chart * list (T * prob)); chart : option Chart;
                  lastgood : option T; partialparse : bool }.
Definition initial : state := {| charts := []; chart := None; lastgood := None; partialparse := false |}.

(** grammar.py:1035 and parser.py:567-570 *)
Definition tagsof (sent : list W) (tags : option (list pystr)) : list pystr :=
  match tags with
  | Some (x :: r) => x :: r
  | _ => map (fun _ => str "NN") sent
  end.
Definition defaulttree (sg : stage) (sent : list W) (tags : option (list pystr)) : T :=
  let l := tagsof sent tags in
  Node (start sg) [Node (str "NOPARSE") (map (fun p => Node (fst p) [Leaf (snd p)]) (combine l (seq 0 (length l))))].
(** 561-574 noparse *)
Definition noparse (n : nat) (sg : stage) (sent : list W) (tags : option (list pystr)) (last : option T) : option T :=
  match last with
  | Some t => post n t sent
  | None => Some (defaulttree sg sent tags)
  end.

(** 463-486: the loop over the segments of the partition *)
Section Partial.
Variable rec : list W -> option (list pystr) -> option pystr -> out (list res).
Fixpoint pieces (sent : list W) (tags : option (list pystr)) (l : list (option pystr * nat * nat)) (p : prob) : out (list T * prob) :=
  match l with
  | [] => Val ([], p)
  | (None, a, _) :: r =>                                                      (* 465-466 *)
    bind (pieces sent tags r p) (fun x => Val (Node (str "NN") [Leaf a] :: fst x, snd x))
  | (Some label, a, b) :: r =>
    bind (rec (slice sent a b)
              (match tags with Some (x :: y) => Some (slice (x :: y) a b) | _ => None end)
              (Some label))                                                    (* 468-471 *)
      (fun parts =>
       bind (lift (last (map Some parts) None)) (fun part =>                   (* 472 *)
       bind (lift (argmax (restrees part))) (fun m =>                          (* 473-474 *)
       bind (pieces sent tags r (probmult p (snd m))) (fun x =>                (* 475 *)
       Val (shift a (fst m) :: fst x, snd x)))))                               (* 476-480 *)
  end.
(** 459-492 *)
Definition partial (c : Chart) (sent : list W) (tags : option (list pystr)) : out (list (T * prob)) :=
  bind (lift (partition (best c) (length sent) 0 (length sent))) (fun parts =>
  bind (pieces sent tags parts (Plain 1)) (fun x =>
  bind (lift (binar (Node (str "ROOT") (fst x)) sent)) (fun t => Val [(t, snd x)]))).

(** 314: is the stage performed?  charts[stage.prune] must exist. *)
Definition runs (sent : list W) (sg : stage) (st : state) : out bool :=
  match sent, prune sg with
  | [], _ => Val false
  | _, None => Val true
  | _, Some j => bind (lift (nth_error (charts st) j)) (fun x => Val (okc (fst x)))
  end.
(** 324-362: the chart of this stage; when the stage is not performed, and for a
    re-ranker, the variable keeps the chart of an earlier stage *)
Definition newchart (n : nat) (sg : stage) (st : state) (go : bool) sent tags root : out (option Chart) :=
  if go && negb (reranker sg) then
    let pc := match prune sg with
              | Some j => match nth_error (charts st) j with Some (c, _) => c | None => None end
              | None => None
              end in
    bind (lift (parsechart n sent tags root pc)) (fun c => Val (Some c))
  else Val (chart st).
(** 363-372: the parse trees of a re-ranker *)
Definition reranked (n : nat) (sg : stage) (st : state) (go : bool) sent : out (list (T * prob)) :=
  if go && reranker sg then
    match prune sg with
    | None => Exc                                         (* prevparsetrees[None] *)
    | Some j =>
      bind (lift (nth_error (charts st) j)) (fun x =>
      match snd x with [] => Val [] | l => lift (rerank n l sent) end)
    end
  else Val [].
(** 402-493: the parse trees of this stage, and whether these are a partial parse *)
Definition forest (n : nat) (sg : stage) (st : state) (c : option Chart) (pre : list (T * prob)) sent tags : out (list (T * prob) * bool) :=
  match sent with
  | [] => Val (pre, false)
  | _ =>
    if negb (reranker sg) && negb (rr && split sg) then
      match c with
      | None => if partialparse st then Val (pre, false) else Exc
      | Some x =>
        if ok x then bind (lift (marg n x sent)) (fun l => Val (l, false))
        else if partialparse st then Val (pre, false)
        else bind (partial x sent tags) (fun l => Val (l, true))
      end
    else Val (pre, false)
  end.
(** 501-510: the best tree after postprocessing, if there are no objections *)
Definition valid (n : nat) (t : T) (sent : list W) : option T :=
  match post n t sent with
  | Some u => if noempty u && (length (leaves u) =? length sent) then Some u else None
  | None => None
  end.
(** 499-525: the result of the stage and the new value of lastsuccessfulparse *)
Definition report (n : nat) (sg : stage) (last : option T) (trees : list (T * prob)) sent tags : out (res * option T) :=
  match argmax trees with
  | Some (raw, p) =>
    match valid n raw sent with
    | Some u => Val ({| restree := u; resprob := p; restrees := trees; resnoparse := false |}, Some raw)
    | None =>
      bind (lift (noparse n sg sent tags last)) (fun u =>
      Val ({| restree := u; resprob := Plain 1; restrees := trees; resnoparse := true |}, last))
    end
  | None =>
    bind (lift (noparse n sg sent tags last)) (fun u =>
    let raw := match last with Some t => t | None => u end in
    Val ({| restree := u; resprob := Plain 1; restrees := [(raw, Plain 1)]; resnoparse := true |}, last))
  end.
(** one round of the loop 296-532 *)
Definition step (sent : list W) tags root (n : nat) (sg : stage) (st : state) : out (res * state) :=
  bind (runs sent sg st) (fun go =>
  bind (newchart n sg st go sent tags root) (fun c =>
  bind (reranked n sg st go sent) (fun pre =>
  bind (forest n sg st c pre sent tags) (fun f =>
  bind (report n sg (lastgood st) (fst f) sent tags) (fun r =>
  Val (fst r, {| charts := charts st ++ [(c, fst f)]; chart := c; lastgood := snd r;
                 partialparse := partialparse st || snd f |})))))).
Fixpoint loop sent tags root (n : nat) (l : list stage) (st : state) : out (list res) :=
  match l with
  | [] => Val []
  | sg :: r =>
    bind (step sent tags root n sg st) (fun x =>
    bind (loop sent tags root (S n) r (snd x)) (fun rs => Val (fst x :: rs)))
  end.
End Partial.

(** parser.py:244 parse *)
Fixpoint parse (fuel : nat) (sent : list W) (tags : option (list pystr)) (root : option pystr) : out (list res) :=
  match fuel with
  | O => Fuel
  | S f => loop (parse f) sent tags root 0 stages initial
  end.
End Parse.
