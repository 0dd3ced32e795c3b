(** What C64 says: a Double-DOP grammar is an encoding of the tree-substitution
    grammar (TSG) that consists of the fragments. *)
From Coq Require Import String.
From Coq Require Import List Bool Arith NArith ZArith QArith Qcanon.
From Verif Require Import PyStr TreeModel BracketModel LcfrsModel DopModel DDopModel.
Import ListNotations.
Open Scope list_scope.

Definition total (l : list N) : N := fold_right N.add 0%N l.
(** ** the tree-substitution grammar.  A sentence assigns a word to each
    position.  A derivation: a fragment, and for each frontier node and
    terminal of it, from left to right, a derivation to substitute or the
    position of the word. *)
Inductive tsgderiv := Word (i : nat) | Use (f : frag) (subs : list tsgderiv).
Section TSG.
Variable fragments : list (frag * N).   (* with their frequencies *)
Variable sent : nat -> pystr.
(** relative frequency of a fragment among those with the same root *)
Definition relfreq (l : pystr) (n : N) : Qc := (Nq n / Nq (total (map snd (filter (fun x => eqs (flabel (fst x)) l) fragments))))%Qc.
(** [Valid l d p]: [d] is a derivation of a tree with root [l], and [p] is the
    product of the relative frequencies of its fragments *)
Inductive Valid : pystr -> tsgderiv -> Qc -> Prop :=
| v_use : forall f n subs q, In (f, n) fragments -> Subs (sites f) subs q -> Valid (flabel f) (Use f subs) (relfreq (flabel f) n * q)%Qc
with Subs : list frag -> list tsgderiv -> Qc -> Prop :=
| s_nil : Subs [] [] 1%Qc
| s_word : forall l i w j ls ds q, sent j = w -> Subs ls ds q -> Subs (Term l i w :: ls) (Word j :: ds) q
| s_site : forall l idx d ls ds p q, Valid l d p -> Subs ls ds q -> Subs (Site l idx :: ls) (d :: ds) (p * q)%Qc.
End TSG.
(** the tree: [graft f ts] replaces the frontier nodes of [f], and the words
    below its preterminals, by [ts]; also what is left of [ts] *)
Fixpoint graft (f : frag) (ts : list (tree pystr nat)) : tree pystr nat * list (tree pystr nat) :=
  match f with
  | Site _ _ => (hd (Leaf 0) ts, tl ts)
  | Term l _ _ => (Node l [hd (Leaf 0) ts], tl ts)
  | Inner l fs =>
      let '(rs, ts) := (fix grafts (fs : list frag) (ts : list (tree pystr nat)) :=
        match fs with
        | [] => ([], ts)
        | f :: fs => let '(t, ts) := graft f ts in let '(rs, ts) := grafts fs ts in (t :: rs, ts)
        end) fs ts in (Node l rs, ts)
  end.
Fixpoint derived (d : tsgderiv) : tree pystr nat :=
  match d with Word i => Leaf i | Use f subs => fst (graft f (map derived subs)) end.

(** ** derivations with the rules of a grammar; the probability of a rule is
    its relative frequency among the rules with the same left-hand side *)
Section Der.
Variable grammar : list (rule * N).
Variable sent : nat -> pystr.
Definition ruleprob (r : rule) (n : N) : Qc := (Nq n / Nq (total (map snd (filter (fun x => eqs (lhs (fst x)) (lhs r)) grammar))))%Qc.
Inductive Der : pystr -> deriv -> Qc -> Prop :=
| d_lex : forall l i n, In (([l; str "Epsilon"], PWord (sent i)), n) grammar -> Der l (DLex l i) (ruleprob ([l; str "Epsilon"], PWord (sent i)) n)
| d_un : forall l a yf n d p, In (([l; a], PYf yf), n) grammar -> Der a d p -> Der l (DUn ([l; a], PYf yf) d) (ruleprob ([l; a], PYf yf) n * p)%Qc
| d_bin : forall l a b yf n d1 d2 p1 p2, In (([l; a; b], PYf yf), n) grammar -> Der a d1 p1 -> Der b d2 p2 ->
    Der l (DBin ([l; a; b], PYf yf) d1 d2) (ruleprob ([l; a; b], PYf yf) n * (p1 * p2))%Qc.
End Der.
(** the positions of the words, from left to right *)
Fixpoint positions (d : deriv) : list nat :=
  match d with DLex _ i => [i] | DUn _ d => positions d | DBin _ d1 d2 => positions d1 ++ positions d2 end.

(** ** fragments.  Labels do not contain '@' or '}<', words do not contain
    '}<' or brackets; the indices of a fragment are all different. *)
Definition has (p w : pystr) : Prop := exists l r, w = l ++ p ++ r.
Definition oklabel (l : pystr) : Prop := l <> [] /\ ~ In (ch "@") l /\ ~ has (str "}<") l.
Definition okword (w : pystr) : Prop := w <> [] /\ escape (Some w) = w /\ ~ has (str "}<") w.
Inductive oknode : frag -> Prop :=
| ok_site : forall l idx, oklabel l -> idx <> [] -> oknode (Site l idx)
| ok_term : forall l i w, oklabel l -> okword w -> oknode (Term l i w)
| ok_inner : forall l fs, oklabel l -> fs <> [] -> Forall oknode fs -> oknode (Inner l fs).
Definition okfrag (f : frag) : Prop :=
  oknode f /\ NoDup (flat_map fidx (sites f)) /\ match f with Site _ _ => False | Term _ i _ => i = 0 | Inner _ _ => True end.
Definition okfragments (fs : list (frag * N)) : Prop := NoDup (map fst fs) /\ forall f n, In (f, n) fs -> okfrag f /\ n <> 0%N.
(** fragments without discontinuity: the n-th frontier node or terminal from
    the left has the single index n *)
Definition continuous (f : frag) : Prop := map fidx (sites f) = map (fun n => [n]) (seq 0 (length (sites f))).
(** ** ambiguous binarization: a label of a binarized node with two rules *)
Definition unambiguous (G : list (rule * N)) : Prop := forall r n r' n', In (r, n) G -> In (r', n') G -> has (str "}<") (lhs r) -> lhs r = lhs r' -> r = r'.
(** two fragments with the same sequence of labels, as far as commas can tell *)
Definition joinable (fs : list (frag * N)) : Prop := forall f n f' n' P P' more more', In (f, n) fs -> In (f', n') fs -> map wlabel (sites f) = P ++ more -> map wlabel (sites f') = P' ++ more' -> join (str ",") P = join (str ",") P' -> P = P'.
