(** C98: yield functions of binarized nodes. *)
From Coq Require Import String.
From Coq Require Import List Bool Arith NArith Lia.
From Verif Require Import PyStr GetyfModel.
Import ListNotations.
Open Scope nat_scope.

(** ** Specification *)
(** Scanning the positions from s on: the run that starts at s (empty if s is
    not in the set), and the maximal runs after it. *)
Fixpoint scan (p : nat -> bool) (s k : nat) : list nat * list (list nat) :=
  match k with
  | 0 => ([], [])
  | S k' =>
      let (r, a) := scan p (S s) k' in
      if p s then (s :: r, a) else ([], match r with [] => a | _ => r :: a end)
  end.
(** the maximal runs of consecutive positions in [s, s + k) *)
Definition runs (p : nat -> bool) (s k : nat) : list (list nat) :=
  let (r, a) := scan p s k in match r with [] => a | _ => r :: a end.
Definition setruns (b : N) : list (list nat) := runs (bit b) 0 (bitlength b).

(** What a yield function means: '0' and '1' stand for the next run of the left
    and of the right child, a comma separates the runs of the node; all runs of
    the children must be used up. *)
Fixpoint apply (yf : pystr) (L R : list (list nat)) (acc : list nat) : option (list (list nat)) :=
  match yf with
  | [] => match L, R with [], [] => Some [acc] | _, _ => None end
  | c :: yf' =>
      if N.eqb c c0 then match L with [] => None | x :: L' => apply yf' L' R (acc ++ x) end
      else if N.eqb c c1 then match R with [] => None | x :: R' => apply yf' L R' (acc ++ x) end
      else if N.eqb c comma then option_map (cons acc) (apply yf' L R [])
      else None
  end.

(** ** Proofs *)
Lemma bit_above : forall b n, bitlength b <= n -> bit b n = false.
Proof.
  intros b n H. unfold bit, bitlength in *. destruct b as [|b]; [apply N.bits_0|]. apply N.bits_above_log2. lia.
Qed.
Lemma bit_top : forall b, b <> 0%N -> bit b (bitlength b - 1) = true.
Proof.
  intros b H. unfold bit, bitlength. destruct b as [|b]; [contradiction|].
  replace (N.of_nat (S (N.to_nat (N.log2 (N.pos b))) - 1)) with (N.log2 (N.pos b)) by lia. now apply N.bit_log2.
Qed.
Lemma bitlength_0 : forall b, bitlength b = 0 <-> b = 0%N.
Proof. intros [|b]; cbn; split; intros H; try reflexivity; discriminate. Qed.
Lemma bitlength_lor : forall a b, bitlength (N.lor a b) = Nat.max (bitlength a) (bitlength b).
Proof.
  intros [|a] [|b]; try reflexivity.
  unfold bitlength. destruct (N.lor (N.pos a) (N.pos b)) as [|c] eqn:E; [apply N.lor_eq_0_iff in E; destruct E; discriminate|].
  rewrite <- E, N.log2_lor. lia.
Qed.
Lemma bit_lor : forall a b n, bit (N.lor a b) n = bit a n || bit b n.
Proof. intros. apply N.lor_spec. Qed.

Lemma runs_step : forall p s k, runs p s (S k) =
  if p s then (s :: fst (scan p (S s) k)) :: snd (scan p (S s) k) else runs p (S s) k.
Proof.
  intros p s k. unfold runs. cbn [scan]. destruct (scan p (S s) k) as [r a]. destruct (p s); reflexivity.
Qed.
Lemma fst_step : forall p s k, fst (scan p s (S k)) = if p s then s :: fst (scan p (S s) k) else [].
Proof. intros p s k. cbn [scan]. destruct (scan p (S s) k) as [r a]. now destruct (p s). Qed.
Lemma snd_step : forall p s k, snd (scan p s (S k)) = if p s then snd (scan p (S s) k) else runs p (S s) k.
Proof. intros p s k. unfold runs. cbn [scan]. destruct (scan p (S s) k) as [r a]. now destruct (p s). Qed.

Section Yf.
  Variables l r : N.
  Hypothesis disjoint : N.land l r = 0%N.
  Let u := N.lor l r.
  Lemma excl : forall n, bit l n = true -> bit r n = false.
  Proof.
    intros n H. destruct (bit r n) eqn:E; [|reflexivity]. exfalso.
    assert (X : N.testbit (N.land l r) (N.of_nat n) = true) by (rewrite N.land_spec; unfold bit in *; now rewrite H, E).
    rewrite disjoint, N.bits_0 in X. discriminate.
  Qed.
  Lemma yf_spec : forall k s, (0 < k -> bit u (s + k - 1) = true) ->
    (exists y, yfloop l (Some r) (seq s k) c0 = Some y /\ forall acc,
       apply y (snd (scan (bit l) s k)) (runs (bit r) s k) (acc ++ fst (scan (bit l) s k))
       = Some ((acc ++ fst (scan (bit u) s k)) :: snd (scan (bit u) s k)))
    /\ (exists y, yfloop l (Some r) (seq s k) c1 = Some y /\ forall acc,
       apply y (runs (bit l) s k) (snd (scan (bit r) s k)) (acc ++ fst (scan (bit r) s k))
       = Some ((acc ++ fst (scan (bit u) s k)) :: snd (scan (bit u) s k)))
    /\ (exists y, yfloop l (Some r) (seq s k) comma = Some y /\ (0 < k ->
       apply y (runs (bit l) s k) (runs (bit r) s k) [] = Some (runs (bit u) s k))).
  Proof.
    induction k as [|k IH]; intros s T.
    - split; [|split]; (exists []; split; [reflexivity|]).
      + intros acc. reflexivity.
      + intros acc. reflexivity.
      + intros H. inversion H.
    - destruct (IH (S s)) as ((y0 & E0 & A0) & (y1 & E1 & A1) & (yc & Ec & Ac)).
      { intros K. replace (S s + k - 1) with (s + S k - 1) by lia. apply T. lia. }
      cbn [seq yfloop]. rewrite E0, E1, Ec.
      assert (K0 : bit l s = false -> bit r s = false -> 0 < k).
      { intros L R. destruct k as [|k]; [|lia]. exfalso. replace (s + 1 - 1) with s in T by lia.
        specialize (T ltac:(lia)). unfold u in T. rewrite bit_lor, L, R in T. discriminate. }
      rewrite !runs_step, !fst_step, !snd_step. unfold u in *. rewrite !bit_lor.
      destruct (bit l s) eqn:L; [rewrite (excl s L)|destruct (bit r s) eqn:R]; cbn [orb].
      + split; [|split].
        * exists y0. split; [reflexivity|]. intros acc.
          specialize (A0 (acc ++ [s])). rewrite <- !app_assoc in A0. exact A0.
        * exists (c0 :: y0). split; [reflexivity|]. intros acc. cbn [apply N.eqb c0 Pos.eqb tl hd]. rewrite app_nil_r.
          specialize (A0 (acc ++ [s])). rewrite <- !app_assoc in A0. exact A0.
        * exists (c0 :: y0). split; [reflexivity|]. intros _. cbn [apply N.eqb c0 Pos.eqb tl hd]. exact (A0 [s]).
      + split; [|split].
        * exists (c1 :: y1). split; [reflexivity|]. intros acc. cbn [apply N.eqb c0 c1 Pos.eqb tl hd]. rewrite app_nil_r.
          specialize (A1 (acc ++ [s])). rewrite <- !app_assoc in A1. exact A1.
        * exists y1. split; [reflexivity|]. intros acc.
          specialize (A1 (acc ++ [s])). rewrite <- !app_assoc in A1. exact A1.
        * exists (c1 :: y1). split; [reflexivity|]. intros _. cbn [apply N.eqb c0 c1 Pos.eqb tl hd]. exact (A1 [s]).
      + specialize (Ac (K0 eq_refl eq_refl)). split; [|split].
        * exists (comma :: yc). split; [reflexivity|]. intros acc. cbn [apply N.eqb c0 c1 comma Pos.eqb]. now rewrite !app_nil_r, Ac.
        * exists (comma :: yc). split; [reflexivity|]. intros acc. cbn [apply N.eqb c0 c1 comma Pos.eqb]. now rewrite !app_nil_r, Ac.
        * exists yc. split; [reflexivity|]. intros _. exact Ac.
  Qed.
End Yf.
Lemma runs_more : forall b k s j, bitlength b <= s + k -> scan (bit b) s (k + j) = scan (bit b) s k.
Proof.
  intros b. induction k as [|k IH]; intros s j H.
  - cbn [Nat.add]. revert s H. induction j as [|j IHj]; intros s H; [reflexivity|].
    cbn [scan]. rewrite IHj by lia. cbn [scan]. now rewrite bit_above by lia.
  - cbn [Nat.add scan]. rewrite IH by lia. reflexivity.
Qed.
Lemma setruns_more : forall b K, bitlength b <= K -> runs (bit b) 0 K = setruns b.
Proof.
  intros b K H. unfold setruns, runs. replace K with (bitlength b + (K - bitlength b)) by lia. now rewrite runs_more by lia.
Qed.

(** The yield function of two children with disjoint words builds the maximal
    runs of their parent from the maximal runs of the children. *)
Theorem C98_getyf : forall l r, N.land l r = 0%N -> N.lor l r <> 0%N ->
  exists yf, getyf l (Some r) = Some (semi :: yf) /\ apply yf (setruns l) (setruns r) [] = Some (setruns (N.lor l r)).
Proof.
  intros l r D NE. unfold getyf. set (K := Nat.max (bitlength l) (bitlength r)).
  assert (KB : bitlength (N.lor l r) = K) by apply bitlength_lor.
  destruct (yf_spec l r D K 0) as (_ & _ & y & E & A).
  { intros _. rewrite <- KB. now apply bit_top. }
  rewrite E. exists y. split; [reflexivity|].
  rewrite !(setruns_more _ K) in A by (unfold K; lia).
  apply A.
  rewrite <- KB. destruct (bitlength (N.lor l r)) eqn:Z; [apply bitlength_0 in Z; contradiction|lia].
Qed.
(** Without a right child (documented by "right is not None") it fails unless the
    words of the node are the first words of the sentence. *)
Theorem C98_unary : forall l, getyf l None =
  if forallb (bit l) (seq 0 (bitlength l)) then Some (semi :: match l with 0%N => [] | _ => [c0] end) else None.
Proof.
  assert (X : forall l ns cur, yfloop l None ns cur =
    if forallb (bit l) ns then Some (match ns with [] => [] | _ => if N.eqb cur c0 then [] else [c0] end) else None).
  { intros l. induction ns as [|n ns IH]; intros cur; [reflexivity|]. cbn [yfloop forallb]. destruct (bit l n); [|reflexivity].
    cbn [andb]. rewrite IH. destruct (forallb (bit l) ns).
    - unfold emit. destruct (N.eqb cur c0); destruct ns; reflexivity.
    - unfold emit. now destruct (N.eqb cur c0). }
  intros l. unfold getyf. rewrite X. destruct (forallb _ _); [|reflexivity]. destruct l as [|l]; reflexivity.
Qed.
Theorem C98_unary_refuted : exists l, l <> 0%N /\ getyf l None = None.
Proof. exists 2%N. split; [discriminate|reflexivity]. Qed.

(** Concrete cases *)
Example ex_getyf : N.land 25%N 38%N = 0%N /\ getyf 25%N (Some 38%N) = Some (str ";0101"%string)
  /\ getyf 9%N (Some 32%N) = Some (str ";0,0,1"%string) /\ setruns 25%N = [[0]; [3; 4]].
Proof. repeat split. Qed.
