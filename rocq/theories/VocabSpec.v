(** Productions of binarized trees, for C61 *)
From Coq Require Import List Bool Arith NArith.
From Verif Require Import ConcatSpec VocabModel.
Import ListNotations.

Inductive wfprod : production -> Prop :=
  | wf_frontier : forall l, wfprod ([l], YVars [])
  | wf_lexical : forall l w, w <> epsilon -> wfprod ([l; epsilon], YWords w)
  | wf_unary : forall l r1 yf, r1 <> epsilon -> wf_yf yf -> (length (concat yf) <= 32)%nat -> wfprod ([l; r1], YVars yf)
  | wf_binary : forall l r1 r2 yf, r1 <> epsilon -> r2 <> epsilon -> wf_yf yf -> (length (concat yf) <= 32)%nat -> wfprod ([l; r1; r2], YVars yf).
Definition lhs_of (p : production) : bytes := hd [] (fst p).
(** the buffers do not exceed the range of 32-bit integers *)
Definition fits (v : vocab) : Prop := (size (labels v) + 1 < 2 ^ 32 /\ size (labelbuf v) < 2 ^ 32 /\ size (prods v) < 2 ^ 32)%N.
(** [ns] are the numbers returned by the calls of getprod on [ps], in this
    order, on a new vocabulary, and [v] is its state afterwards *)
Definition history (ps : list production) (ns : list N) (v : vocab) : Prop := getprods init ps = Some (ns, v).
