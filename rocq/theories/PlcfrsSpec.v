(** Specification for C54: derivations of an LCFRS over a sentence. *)
From Coq Require Import List NArith.
From Verif Require Import BitsSpec ConcatSpec.
From Verif Require Import PlcfrsModel.
Import ListNotations.
Open Scope nat_scope.

Section Spec.
Variable vec : Type.                  (* sets of positions in the sentence *)
Variable single : nat -> vec.
(** the yield function puts the spans of the daughters together to a span *)
Variable join : list (list bool) -> vec -> vec -> vec -> Prop.
Variable allowed : nat -> vec -> Prop.  (* the whitelist *)
Variables (rules : list prule) (mask : nat -> bool).
Variable daughter : nat -> vec -> Prop. (* items that may be used as daughters *)
Variable sent : list word.

(** the first entry for [x] *)
Definition first_entry (l : list (nat * N)) (x : nat) (c : N) : Prop :=
  exists l1 l2, l = l1 ++ (x, c) :: l2 /\ forall d, ~ In (x, d) l1.
(** the possible tags of word i: the allowed ones of the lexicon; if there are
    none, the given tags *)
Inductive tagged (i x : nat) (c : N) : Prop :=
| t_lexicon : forall w, nth_error sent i = Some w -> first_entry (entries w) x c -> allowed x (single i) -> tagged i x c
| t_gold : forall w, nth_error sent i = Some w ->
    (forall y d, In (y, d) (entries w) -> ~ allowed y (single i)) -> In x (goldlabels w) -> c = 0%N -> tagged i x c.

Definition usable (r : prule) : Prop := In r rules /\ mask (pno r) = false.
(** label x derives the words in v with negative log probability c, using only
    allowed items, and only certain items as daughters *)
Inductive derives : nat -> vec -> N -> Prop :=
| d_word : forall i x c, tagged i x c -> derives x (single i) c
| d_unary : forall r v c, usable r -> prhs2 r = 0 -> derives (prhs1 r) v c -> daughter (prhs1 r) v ->
    allowed (plhs r) v -> derives (plhs r) v (pprob r + c)
| d_binary : forall r v1 v2 v a b, usable r -> prhs2 r <> 0 ->
    derives (prhs1 r) v1 a -> daughter (prhs1 r) v1 -> derives (prhs2 r) v2 b -> daughter (prhs2 r) v2 ->
    join (ryf r) v1 v2 v -> allowed (plhs r) v -> derives (plhs r) v (pprob r + a + b).
Definition derivable x v := exists c, derives x v c.
Definition best x v p := derives x v p /\ forall c, derives x v c -> (p <= c)%N.
(** the edges that belong in the chart at item (x, v): a rule and the span of the
    left daughter, or a word *)
Inductive valid_edge (x : nat) (v : vec) : option (prule * vec) * nat -> Prop :=
| v_word : forall i c, tagged i x c -> v = single i -> valid_edge x v (None, i + 1)
| v_unary : forall r, usable r -> plhs r = x -> prhs2 r = 0 -> derivable (prhs1 r) v -> daughter (prhs1 r) v ->
    allowed x v -> valid_edge x v (Some (r, v), 0)
| v_binary : forall r v1 v2, usable r -> plhs r = x -> prhs2 r <> 0 ->
    derivable (prhs1 r) v1 -> daughter (prhs1 r) v1 -> derivable (prhs2 r) v2 -> daughter (prhs2 r) v2 ->
    join (ryf r) v1 v2 v -> allowed x v -> valid_edge x v (Some (r, v1), 0).
End Spec.

(** Putting together sets of positions given as the bits of a number. *)
Definition set_join (yf : list (list bool)) (l r v : N) : Prop :=
  exists L R, components l L /\ components r R /\ combines yf L R /\
    forall i, member v i <-> member l i \/ member r i.

(** The parser uses the goal item (the start symbol over the whole sentence) only
    at the root. *)
Definition not_goal {vec} (goal : nat * vec) (x : nat) (v : vec) : Prop := (x, v) <> goal.
Definition anywhere {vec} (x : nat) (v : vec) : Prop := True.
