(** Python strings as the modelled code uses them: sequences of code points,
    compared pointwise.  These definitions model the Python runtime (str, int,
    %d), not /repo; they are shared by the models of discodop's functions. *)
From Coq Require Import List Bool Arith NArith Lia Ascii String Decimal DecimalNat.
Import ListNotations.
Open Scope list_scope.

Notation char := N (only parsing).
Notation pystr := (list N).
(** literals *)
Definition str (s : string) : pystr := map N_of_ascii (list_ascii_of_string s).
Definition ch (s : string) : char := hd 0%N (str s).

Fixpoint eqs (a b : pystr) : bool :=
  match a, b with
  | [], [] => true
  | x :: a', y :: b' => N.eqb x y && eqs a' b'
  | _, _ => false
  end.
Lemma eqs_eq : forall a b, eqs a b = true <-> a = b.
Proof.
  induction a as [|x a IH]; destruct b as [|y b]; cbn; split; intros H; try discriminate; auto.
  - apply andb_prop in H. destruct H as [H1 H2]. apply N.eqb_eq in H1. apply IH in H2. now subst.
  - inversion H; subst. rewrite N.eqb_refl. now apply IH.
Qed.
Lemma eqs_refl : forall a, eqs a a = true.
Proof. intros. now apply eqs_eq. Qed.
Lemma eqs_neq : forall a b, eqs a b = false <-> a <> b.
Proof. intros. rewrite <- eqs_eq. destruct (eqs a b); split; congruence. Qed.
Lemma eqs_dec : forall a b : pystr, {a = b} + {a <> b}.
Proof. intros. destruct (eqs a b) eqn:E; [left; now apply eqs_eq|right; now apply eqs_neq]. Qed.

(** '%d' % n for a non-negative integer, and int(s) for a string of ASCII digits *)
Fixpoint uint_chars (u : uint) : pystr :=
  match u with
  | Nil => []
  | D0 u => 48%N :: uint_chars u | D1 u => 49%N :: uint_chars u
  | D2 u => 50%N :: uint_chars u | D3 u => 51%N :: uint_chars u
  | D4 u => 52%N :: uint_chars u | D5 u => 53%N :: uint_chars u
  | D6 u => 54%N :: uint_chars u | D7 u => 55%N :: uint_chars u
  | D8 u => 56%N :: uint_chars u | D9 u => 57%N :: uint_chars u
  end.
Definition dec (n : nat) : pystr := uint_chars (Nat.to_uint n).
Definition isdigit (c : char) : bool := (N.leb 48 c && N.leb c 57)%bool.
Definition digit_of (c : char) : uint -> uint :=
  match (c - 48)%N with
  | 0%N => D0 | 1%N => D1 | 2%N => D2 | 3%N => D3 | 4%N => D4
  | 5%N => D5 | 6%N => D6 | 7%N => D7 | 8%N => D8 | _ => D9
  end.
Fixpoint chars_uint (s : pystr) : uint :=
  match s with [] => Nil | c :: t => digit_of c (chars_uint t) end.
(** None for the empty string and strings with other characters *)
Definition undec (s : pystr) : option nat :=
  match s with
  | [] => None
  | _ => if forallb isdigit s then Some (Nat.of_uint (chars_uint s)) else None
  end.

Lemma chars_uint_chars : forall u, chars_uint (uint_chars u) = u.
Proof. induction u; cbn [uint_chars chars_uint]; rewrite ?IHu; reflexivity. Qed.
Lemma uint_chars_digits : forall u, forallb isdigit (uint_chars u) = true.
Proof. induction u; cbn; auto. Qed.
Lemma dec_digits : forall n, forallb isdigit (dec n) = true.
Proof. intros. apply uint_chars_digits. Qed.
Lemma dec_nonempty : forall n, dec n <> [].
Proof.
  intros n H. unfold dec in H.
  assert (E : Nat.to_uint n = Nil) by (destruct (Nat.to_uint n); cbn in H; congruence).
  pose proof (DecimalNat.Unsigned.of_to n) as O. rewrite E in O. cbn in O. subst n. discriminate.
Qed.
Lemma undec_dec : forall n, undec (dec n) = Some n.
Proof.
  intros n. unfold undec. pose proof (dec_nonempty n). destruct (dec n) eqn:E; [congruence|].
  rewrite <- E, dec_digits. unfold dec. now rewrite chars_uint_chars, DecimalNat.Unsigned.of_to.
Qed.
Lemma dec_inj : forall n m, dec n = dec m -> n = m.
Proof. intros n m H. apply (f_equal undec) in H. rewrite !undec_dec in H. congruence. Qed.

(** s.startswith(p), p in s *)
Fixpoint startswith (s p : pystr) : bool :=
  match p, s with
  | [], _ => true
  | x :: p', y :: s' => N.eqb x y && startswith s' p'
  | _ :: _, [] => false
  end.
Fixpoint contains (s p : pystr) : bool :=
  startswith s p || match s with [] => false | _ :: s' => contains s' p end.
Lemma startswith_iff : forall p s, startswith s p = true <-> exists t, s = p ++ t.
Proof.
  induction p as [|x p IH]; intros s; cbn [startswith].
  { split; [exists s; reflexivity|]. intros _. destruct s; reflexivity. }
  destruct s as [|y s]; cbn.
  - split; intros H; [discriminate H|]. destruct H as [t H]. discriminate H.
  - rewrite andb_true_iff, N.eqb_eq, IH. split.
    + intros [-> [t ->]]. now exists t.
    + intros [t H]. inversion H; subst. eauto.
Qed.
Lemma contains_iff : forall s p, contains s p = true <-> exists a b, s = a ++ p ++ b.
Proof.
  induction s as [|y s IH]; intros p; cbn [contains]; rewrite orb_true_iff, startswith_iff.
  - split.
    + intros [[t H]|H]; [|discriminate]. exists [], t. exact H.
    + intros (a & b & H). destruct a; [left; now exists b|discriminate].
  - rewrite IH. split.
    + intros [[t H]|(a & b & ->)]; [now exists [], t|now exists (y :: a), b].
    + intros (a & b & H). destruct a as [|z a]; [left; now exists b|right].
      inversion H; subst. eauto.
Qed.
