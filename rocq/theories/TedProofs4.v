(** Proofs for C47 (4): the tables of Zhang & Shasha *)
From Coq Require Import List Bool Arith NArith Lia Permutation Sorted.
From Verif Require Import PyStr TransformModel SortProofs TedModel TedSpec TedProofs TedProofs2 TedProofs3.
Import ListNotations.
Open Scope list_scope.
Open Scope nat_scope.

Definition ND (t : ltree) (i : nat) : ltree := nth i (post t) (T [] []).
Definition LM (t : ltree) (i : nat) : nat := nth i (lmdlist (post t) 0) 0.
Definition KR (t : ltree) : list nat := sort Nat.leb (map snd (krs (post t) 0 [])).
Lemma lmdlist_nth : forall us i k u, nth_error us k = Some u -> nth_error (lmdlist us i) k = Some (i + k + 1 - tsize u).
Proof.
  induction us as [|v us IH]; intros i k u E; [destruct k; discriminate|]. destruct k as [|k]; cbn in *.
  - injection E as ->. now rewrite Nat.add_0_r.
  - rewrite (IH (S i) k u E). f_equal. lia.
Qed.
Lemma nd_some : forall t i, i < tsize t -> nth_error (post t) i = Some (ND t i).
Proof. intros t i L. unfold ND. apply nth_error_nth'. rewrite post_length. exact L. Qed.
Lemma lm_some : forall t i, i < tsize t -> nth_error (lmdlist (post t) 0) i = Some (LM t i).
Proof. intros t i L. unfold LM. apply nth_error_nth'. rewrite lmdlist_length, post_length. exact L. Qed.
Lemma lm_at : forall t i, i < tsize t -> tsize (ND t i) <= i + 1 /\ LM t i = i + 1 - tsize (ND t i).
Proof.
  intros t i L. assert (N := nd_some t i L). split.
  - destruct (node_at [t] i) as (u & U1 & U2 & _); [unfold fsize; cbn; lia|]. rewrite posts_one in U1. congruence.
  - assert (E := lmdlist_nth _ 0 _ _ N). rewrite (lm_some t i L) in E. injection E as E. exact E.
Qed.
Lemma lm_le : forall t i, i < tsize t -> LM t i <= i /\ i - LM t i + 1 = tsize (ND t i).
Proof. intros t i L. destruct (lm_at t i L) as [A B]. assert (P := tsize_pos (ND t i)). lia. Qed.
Lemma nd_inner : forall t i k, i < tsize t -> k < tsize (ND t i) -> exists a, ND t (LM t i + k) = a /\ LM t i + k < tsize t /\ tsize a <= k + 1 /\ LM t (LM t i + k) = LM t i + (k + 1 - tsize a) /\
  prefs [ND t i] (k + 1) = prefs [ND t i] (k + 1 - tsize a) ++ [a] /\ prefs [ND t i] k = prefs [ND t i] (k + 1 - tsize a) ++ kids a.
Proof.
  intros t i k L K. destruct (lm_at t i L) as [A B]. destruct (node_at [ND t i] k) as (a & U1 & U2 & U3 & U4); [unfold fsize; cbn; lia|]. rewrite posts_one in U1.
  assert (SG := segment [t] i (ND t i)). rewrite posts_one in SG. specialize (SG (nd_some t i L) k K). rewrite <- B, U1 in SG.
  assert (LT : LM t i + k < tsize t) by (rewrite <- post_length; apply nth_error_Some; congruence). assert (N := nd_some t _ LT). rewrite SG in N. injection N as N. exists a. split; auto. split; auto. split; auto. split; [|auto].
  destruct (lm_at t _ LT) as [A' B']. rewrite B', <- N. lia.
Qed.
Lemma nd_laminar : forall t i p, i < tsize t -> LM t i <= p <= i -> LM t i <= LM t p.
Proof.
  intros t i p L P. destruct (lm_le t i L) as [A B]. destruct (nd_inner t i (p - LM t i) L) as (a & N & L2 & S1 & E & _); [lia|]. replace (LM t i + (p - LM t i)) with p in * by lia. lia.
Qed.

Lemma kr_in : forall t i, In i (KR t) <-> (i < tsize t /\ forall w, i < w < tsize t -> LM t w <> LM t i).
Proof.
  intros t i. unfold KR. rewrite sort_In. destruct (krs_spec (post t)) as [ND1 SP]. rewrite in_map_iff. split.
  - intros ([k v] & E & H). cbn in E. subst v. apply SP in H. destruct H as [H1 H2].
    assert (L : i < tsize t) by (rewrite <- post_length, <- (lmdlist_length (post t) 0); apply nth_error_Some; congruence). split; auto. intros w W Q. rewrite (lm_some t i L) in H1. injection H1 as H1. apply (H2 w); [lia|]. rewrite (lm_some t w) by lia. congruence.
  - intros [L H]. exists (LM t i, i). split; auto. apply SP. split; [now apply lm_some|]. intros w W Q.
    assert (L2 : w < tsize t) by (rewrite <- post_length, <- (lmdlist_length (post t) 0); apply nth_error_Some; congruence). rewrite (lm_some t w L2) in Q. injection Q as Q. apply (H w); auto.
Qed.
Lemma krs_keys : forall us k, In k (lmdlist us 0) -> In k (map fst (krs us 0 [])).
Proof.
  induction us as [|u us IH] using rev_ind; intros k H; [destruct H|]. rewrite lmdlist_app in H. rewrite krs_app. cbn [krs lmdlist] in *. apply kput_keys. apply in_app_or in H. destruct H as [H|[H|[]]]; auto.
Qed.
Lemma kr_of : forall t p, p < tsize t -> exists i, In i (KR t) /\ LM t i = LM t p /\ p <= i.
Proof.
  intros t p L. assert (H : In (LM t p) (lmdlist (post t) 0)) by (eapply nth_error_In; apply lm_some; auto). apply krs_keys in H. apply in_map_iff in H. destruct H as ([k i] & E & H). cbn in E. subst k. exists i.
  assert (HI : In i (KR t)) by (unfold KR; rewrite sort_In; change i with (snd (LM t p, i)); now apply in_map). split; auto. apply krs_spec in H. destruct H as [H1 H2]. apply kr_in in HI. destruct HI as [L2 H3]. rewrite (lm_some t i L2) in H1. injection H1 as H1. split; auto.
  destruct (le_lt_dec p i); auto. exfalso. apply (H3 p); auto.
Qed.
Lemma kr_sorted : forall t, StronglySorted lt (KR t).
Proof.
  intros t. assert (SS : StronglySorted (fun x y => Nat.leb x y = true) (KR t)) by (apply sort_sorted; [apply leb_total|apply leb_trans]).
  assert (N : NoDup (KR t)).
  { apply (Permutation_NoDup (sort_perm Nat.leb (map snd (krs (post t) 0 [])))). destruct (krs_spec (post t)) as [N1 SP]. assert (INJ : forall a b, In a (krs (post t) 0 []) -> In b (krs (post t) 0 []) -> snd a = snd b -> a = b).
    { intros [a1 a2] [b1 b2] H1 H2 E. cbn in E. subst b2. apply SP in H1, H2. destruct H1 as [H1 _], H2 as [H2 _]. congruence. }
    apply NoDup_map_inv in N1. clear SP. induction (krs (post t) 0 []) as [|a r IH]; cbn; constructor.
    - inversion N1; subst. intros Q. apply in_map_iff in Q. destruct Q as (b & E & Hb). assert (a = b) by (apply INJ; [now left|now right|auto]). subst. contradiction.
    - apply IH; [now inversion N1|]. intros a' b' H1 H2. apply INJ; now right. }
  revert SS N. generalize (KR t). induction l as [|x r IH]; intros SS N; constructor.
  - apply IH; [now inversion SS|now inversion N].
  - inversion SS as [|? ? S1 S2]; inversion N as [|? ? N1 N2]; subst. apply Forall_forall. intros y Y. rewrite Forall_forall in S2. specialize (S2 y Y). apply Nat.leb_le in S2. assert (x <> y) by (intros ->; contradiction). lia.
Qed.

Lemma fold_seq_inv : forall (S : Type) (P : nat -> S -> Prop) (f : S -> nat -> S) n a s, P a s -> (forall k s, a <= k < a + n -> P k s -> P (k + 1) (f s k)) -> P (a + n) (fold_left f (seq a n) s).
Proof.
  intros S P f. induction n as [|n IH]; intros a s H1 H2; cbn [seq fold_left]; [now rewrite Nat.add_0_r|]. replace (a + Datatypes.S n) with (Datatypes.S a + n) by lia. apply IH.
  - replace (Datatypes.S a) with (a + 1) by lia. apply H2; [lia|auto].
  - intros k s' K. apply H2. lia.
Qed.
Lemma fold_sorted_inv : forall (S : Type) (P : (nat -> Prop) -> S -> Prop) (f : S -> nat -> S) l s, StronglySorted lt l ->
  (forall (D D' : nat -> Prop) s, (forall x, D' x -> D x) -> P D s -> P D' s) ->
  P (fun _ => False) s -> (forall k s, In k l -> P (fun x => In x l /\ x < k) s -> P (fun x => In x l /\ x <= k) (f s k)) -> P (fun x => In x l) (fold_left f l s).
Proof.
  intros S P f l s SS MONO H0 ST. assert (G : forall r d s, l = d ++ r -> P (fun x => In x d) s -> P (fun x => In x l) (fold_left f r s)).
  { induction r as [|k r IH]; intros d s' E H; cbn [fold_left].
    - rewrite app_nil_r in E. subst d. exact H.
    - assert (LT : forall x, In x l -> (In x d <-> x < k)).
      { clear - SS E. subst l. induction d as [|y d IHd]; cbn [app] in *.
        - intros x X. split; [intros []|]. intros Q. destruct X as [<-|X]; [lia|]. inversion SS as [|? ? S1 S2]; subst. rewrite Forall_forall in S2. specialize (S2 x X). lia.
        - inversion SS as [|? ? S1 S2]; subst. rewrite Forall_forall in S2. assert (YK : y < k) by (apply S2; apply in_or_app; right; now left). intros x [<-|X]; [split; [lia|now left]|]. rewrite <- (IHd S1 x X). split; [intros [<-|Q]; auto|now right]. specialize (S2 y X). lia. }
      apply (IH (d ++ [k])); [rewrite <- app_assoc; exact E|]. assert (KL : In k l) by (rewrite E; apply in_or_app; right; now left). apply (MONO (fun x => In x l /\ x <= k)).
      + intros x X. apply in_app_or in X. destruct X as [X|[<-|[]]]; [|split; [auto|lia]]. assert (XL : In x l) by (rewrite E; apply in_or_app; now left). split; auto. apply (LT x XL) in X. lia.
      + apply ST; auto. apply (MONO (fun x => In x d)); auto. intros x [X1 X2]. now apply (LT x X1). }
  apply (G l []); auto.
Qed.

Section Pair.
Variables s t : ltree.
Let a1 := Ann (post s) (lmdlist (post s) 0) (KR s).
Let a2 := Ann (post t) (lmdlist (post t) 0) (KR t).
Definition tdok (td : table) (p q : nat) : Prop := least [ND s p] [ND t q] (td p q).
Section Key.
Variables i j : nat.
Hypothesis Li : i < tsize s.
Hypothesis Lj : j < tsize t.
Variable td0 : table.
Hypothesis PRE : forall p q, LM s i <= p <= i -> LM t j <= q <= j -> ~ (LM s p = LM s i /\ LM t q = LM t j) -> tdok td0 p q.
Let M := tsize (ND s i).
Let N := tsize (ND t j).
Definition tabok (tab : table) (x y : nat) : Prop := least (prefs [ND s i] x) (prefs [ND t j] y) (tab x y).
Definition inv (x y : nat) (st : table * table) : Prop :=
  (forall p q, tdok td0 p q -> tdok (snd st) p q) /\
  (forall x' y', x' <= M -> y' <= N -> (x' = 0 \/ y' = 0 \/ x' < x \/ (x' = x /\ y' < y)) -> tabok (fst st) x' y') /\
  (forall x' y', 1 <= x' <= M -> 1 <= y' <= N -> (x' < x \/ (x' = x /\ y' < y)) -> LM s (LM s i + x' - 1) = LM s i -> LM t (LM t j + y' - 1) = LM t j -> tdok (snd st) (LM s i + x' - 1) (LM t j + y' - 1)).
Lemma entry_inv : forall x y st, 1 <= x <= M -> 1 <= y <= N -> inv x y st -> inv x (y + 1) (entry a1 a2 i j x st y).
Proof using Li Lj PRE.
  intros x y [tab td] X Y (I1 & I2 & I3). cbn [fst snd] in *. unfold entry. change (lmd1 a1) with (LM s). change (lmd2 a2) with (LM t).
  destruct (nd_inner s i (x - 1) Li) as (a & NA & LA & SA & EA & PA & PA'); [fold M; lia|]. destruct (nd_inner t j (y - 1) Lj) as (b & NB & LB & SB & EB & PB & PB'); [fold N; lia|].
  replace (LM s i + (x - 1)) with (LM s i + x - 1) in * by lia. replace (LM t j + (y - 1)) with (LM t j + y - 1) in * by lia. replace (x - 1 + 1) with x in * by lia. replace (y - 1 + 1) with y in * by lia.
  set (xi := LM s i + x - 1) in *. set (yj := LM t j + y - 1) in *. change (label1 a1 xi) with (label (ND s xi)). change (label2 a2 yj) with (label (ND t yj)). rewrite NA, NB.
  assert (TA := tsize_pos a). assert (TB := tsize_pos b). assert (LI := lm_le s i Li). assert (LJ := lm_le t j Lj).
  assert (XM : x <= tsize (ND s i)) by apply X. assert (YN : y <= tsize (ND t j)) by apply Y.
  assert (D1 : least (prefs [ND s i] (x - tsize a) ++ kids a) (prefs [ND t j] (y - tsize b) ++ [b]) (tab (x - 1) y)) by (rewrite <- PA', <- PB; apply I2; lia).
  assert (D2 : least (prefs [ND s i] (x - tsize a) ++ [a]) (prefs [ND t j] (y - tsize b) ++ kids b) (tab x (y - 1))) by (rewrite <- PA, <- PB'; apply I2; lia).
  assert (UPD : forall v x' y', least (prefs [ND s i] x) (prefs [ND t j] y) v -> x' <= M -> y' <= N -> (x' = 0 \/ y' = 0 \/ x' < x \/ (x' = x /\ y' < y + 1)) -> tabok (tput tab x y v) x' y').
  { intros v x' y' V A B C. unfold tabok, tput. destruct (Nat.eqb_spec x' x) as [->|], (Nat.eqb_spec y' y) as [->|]; cbn [andb]; auto; apply I2; auto; lia. }
  destruct (Nat.eqb_spec (LM s i) (LM s xi)) as [Q1|Q1], (Nat.eqb_spec (LM t j) (LM t yj)) as [Q2|Q2]; cbn [andb].
  { assert (Z1 : x - tsize a = 0) by lia. assert (Z2 : y - tsize b = 0) by lia. rewrite Z1, prefs_zero in *. rewrite Z2, prefs_zero in *. cbn [app] in *.
    assert (D3 : least (kids a) (kids b) (tab (x - 1) (y - 1))) by (rewrite <- PA', <- PB'; apply I2; lia).
    assert (V := least_both [] [] a b _ _ _ _ D1 D2 D3 least_nil). rewrite Nat.add_0_r in V. cbn [app] in V. set (v := Nat.min _ _) in *.
    assert (TD : forall p q, tdok td p q \/ (p = xi /\ q = yj) -> tdok (tput td xi yj v) p q).
    { intros p q H. unfold tdok, tput. destruct (Nat.eqb_spec p xi) as [->|], (Nat.eqb_spec q yj) as [->|]; cbn [andb]; [rewrite NA, NB; exact V|destruct H as [H|[? ?]]; [exact H|lia]..]. }
    split; [|split]; cbn [fst snd].
    - intros p q H. apply TD. left. auto.
    - intros x' y' A B C. apply UPD; auto. rewrite PA, PB. exact V.
    - intros x' y' A B C E1 E2. destruct (Nat.eq_dec x' x) as [->|]; [destruct (Nat.eq_dec y' y) as [->|]|]; apply TD; auto; left; apply I3; auto; lia. }
  all: assert (D3 : least [a] [b] (td xi yj)) by (rewrite <- NA, <- NB; apply (I1 xi yj); apply PRE; [unfold xi; lia|unfold yj; lia|intros [? ?]; lia]).
  all: assert (D4 : least (prefs [ND s i] (x - tsize a)) (prefs [ND t j] (y - tsize b)) (tab (LM s xi - LM s i) (LM t yj - LM t j))) by (replace (LM s xi - LM s i) with (x - tsize a) by lia; replace (LM t yj - LM t j) with (y - tsize b) by lia; apply I2; lia).
  all: assert (V := least_trees _ _ a b _ _ _ _ D1 D2 D3 D4); rewrite <- PA, <- PB in V.
  all: (split; [|split]; cbn [fst snd]; [exact I1|intros x' y' A B C; now apply UPD|intros x' y' A B C E1 E2; apply I3; auto; destruct C as [C|[-> C]]; auto; right; split; auto; destruct (Nat.eq_dec y' y) as [->|]; [exfalso; fold xi in E1; fold yj in E2; lia|lia]]).
Qed.
Lemma keypair_ok : (forall p q, tdok td0 p q -> tdok (keypair a1 a2 i td0 j) p q) /\
  (forall p q, p <= i -> q <= j -> LM s p = LM s i -> LM t q = LM t j -> tdok (keypair a1 a2 i td0 j) p q).
Proof using Li Lj PRE.
  unfold keypair. change (lmd1 a1) with (LM s). change (lmd2 a2) with (LM t). destruct (lm_le s i Li) as [B1 C1]. destruct (lm_le t j Lj) as [B2 C2]. replace (i - LM s i + 2 - 1) with M by (unfold M; lia). replace (j - LM t j + 2 - 1) with N by (unfold N; lia).
  set (t1 := fold_left (fun t x => tput t x 0 (t (x - 1) 0 + 1)) (seq 1 M) (fun _ _ => 0)). set (t2 := fold_left (fun t y => tput t 0 y (t 0 (y - 1) + 1)) (seq 1 N) t1).
  assert (T1 : forall x', x' < 1 + M -> least (prefs [ND s i] x') [] (t1 x' 0)).
  { apply (fold_seq_inv table (fun x tab => forall x', x' < x -> least (prefs [ND s i] x') [] (tab x' 0))).
    - intros x' L. replace x' with 0 by lia. rewrite prefs_zero. apply least_nil.
    - intros x tab X I x' L. unfold tput. destruct (Nat.eqb_spec x' x) as [->|]; cbn [andb Nat.eqb]; [|apply I; lia]. destruct (nd_inner s i (x - 1) Li) as (a & NA & LA & SA & EA & PA & PA'); [fold M; lia|]. replace (x - 1 + 1) with x in * by lia. rewrite PA. apply least_del. rewrite <- PA'. apply I. lia. }
  assert (T2 : (forall y', y' < 1 + N -> least [] (prefs [ND t j] y') (t2 0 y')) /\ forall x', 0 < x' -> t2 x' 0 = t1 x' 0).
  { apply (fold_seq_inv table (fun y tab => (forall y', y' < y -> least [] (prefs [ND t j] y') (tab 0 y')) /\ forall x', 0 < x' -> tab x' 0 = t1 x' 0)).
    - split; auto. intros y' L. replace y' with 0 by lia. rewrite prefs_zero. assert (H := T1 0 ltac:(lia)). rewrite prefs_zero in H. exact H.
    - intros y tab Y [I J]. split.
      + intros y' L. unfold tput. cbn [andb Nat.eqb]. destruct (Nat.eqb_spec y' y) as [->|]; [|apply I; lia]. destruct (nd_inner t j (y - 1) Lj) as (b & NB & LB & SB & EB & PB & PB'); [fold N; lia|]. replace (y - 1 + 1) with y in * by lia. rewrite PB. apply least_ins. rewrite <- PB'. apply I. lia.
      + intros x' P. unfold tput. destruct (Nat.eqb_spec x' 0); [lia|]. cbn [andb]. auto. }
  destruct T2 as [T2 T3].
  assert (MP : 0 < M) by apply tsize_pos. assert (NP : 0 < N) by apply tsize_pos.
  assert (I0 : inv 1 1 (t2, td0)).
  { split; [|split]; cbn [fst snd]; auto; [|intros; lia]. intros x' y' A B C. unfold tabok. destruct (Nat.eq_dec x' 0) as [->|]; [rewrite prefs_zero; apply T2; lia|]. replace y' with 0 by lia. rewrite T3 by lia. rewrite prefs_zero. apply T1. lia. }
  assert (E : inv (1 + M) 1 (fold_left (fun s x => fold_left (entry a1 a2 i j x) (seq 1 N) s) (seq 1 M) (t2, td0))).
  { apply (fold_seq_inv (table * table) (fun x => inv x 1)); auto. intros x st X I. assert (G : inv x (1 + N) (fold_left (entry a1 a2 i j x) (seq 1 N) st)).
    - apply (fold_seq_inv (table * table) (fun y => inv x y)); auto. intros y st' Y I'. apply entry_inv; auto; lia.
    - destruct G as (G1 & G2 & G3). split; auto. split; [intros x' y' A B C; apply G2; auto; lia|intros x' y' A B C; apply G3; auto; lia]. }
  set (st := fold_left (fun s x => fold_left (entry a1 a2 i j x) (seq 1 N) s) (seq 1 M) (t2, td0)) in *. destruct E as (E1 & E2 & E3). split; [exact E1|]. intros p q P Q LP LQ. assert (Lp := lm_le s p ltac:(lia)). assert (Lq := lm_le t q ltac:(lia)).
  assert (H := E3 (p - LM s i + 1) (q - LM t j + 1)). replace (LM s i + (p - LM s i + 1) - 1) with p in H by lia. replace (LM t j + (q - LM t j + 1) - 1) with q in H by lia. apply H; auto; unfold M, N; lia.
Qed.
End Key.
Definition doneP (i j : nat) (td : table) : Prop := forall p q, p < tsize s -> q < tsize t -> LM s p = LM s i -> LM t q = LM t j -> tdok td p q.
Lemma keyloop_ok : forall p q, p < tsize s -> q < tsize t -> tdok (keyloop a1 a2) p q.
Proof.
  intros p q P Q. destruct (kr_of s p P) as (i & Hi & Ei & _). destruct (kr_of t q Q) as (j & Hj & Ej & _).
  assert (G : forall i, In i (KR s) -> forall j, In j (KR t) -> doneP i j (keyloop a1 a2)); [|apply (G i Hi j Hj p q); auto].
  unfold keyloop. change (akeyroots a1) with (KR s). change (akeyroots a2) with (KR t).
  apply (fold_sorted_inv table (fun D td => forall i, D i -> forall j, In j (KR t) -> doneP i j td)); [apply kr_sorted|intros; auto|intros ? []|].
  clear i j Hi Hj Ei Ej p q P Q. intros i td Hi IO. assert (Ki := Hi). apply kr_in in Ki. destruct Ki as [Li Ki].
  assert (G : (forall i', (In i' (KR s) /\ i' < i) -> forall j, In j (KR t) -> doneP i' j (fold_left (keypair a1 a2 i) (KR t) td)) /\ (forall j, In j (KR t) -> doneP i j (fold_left (keypair a1 a2 i) (KR t) td))).
  { apply (fold_sorted_inv table (fun D td => (forall i', (In i' (KR s) /\ i' < i) -> forall j, In j (KR t) -> doneP i' j td) /\ (forall j, D j -> doneP i j td))); [apply kr_sorted| |split; [exact IO|intros ? []]|].
    - intros D D' s' M [A B]. split; auto.
    - intros j td' Hj [A B]. assert (Kj := Hj). apply kr_in in Kj. destruct Kj as [Lj Kj].
      destruct (keypair_ok i j Li Lj td') as [R1 R2].
      { intros p q P Q NE. destruct (kr_of s p ltac:(lia)) as (i' & Hi' & Ei' & Pi'). destruct (kr_of t q ltac:(lia)) as (j' & Hj' & Ej' & Pj').
        assert (Li' : i' < tsize s) by (apply kr_in in Hi'; tauto). assert (Lj' : j' < tsize t) by (apply kr_in in Hj'; tauto).
        assert (I1 : LM s i <= LM s p) by (apply nd_laminar; auto). assert (J1 : LM t j <= LM t q) by (apply nd_laminar; auto).
        destruct (Nat.eq_dec (LM s p) (LM s i)) as [Q1|Q1].
        - assert (J2 : j' < j). { destruct (le_lt_dec j j') as [L|]; auto. exfalso. assert (LM t j' <= LM t j); [|apply NE; split; [auto|lia]]. apply nd_laminar; auto. split; auto. rewrite Ej'. assert (X := lm_le t q ltac:(lia)). lia. }
          apply (B j'); auto; lia.
        - assert (I2 : i' < i). { destruct (le_lt_dec i i') as [L|]; auto. exfalso. assert (LM s i' <= LM s i); [|lia]. apply nd_laminar; auto. split; auto. rewrite Ei'. assert (X := lm_le s p ltac:(lia)). lia. }
          apply (A i' (conj Hi' I2) j'); auto; lia. }
      split.
      + intros i' Hi' j' Hj' p q P Q E1 E2. apply R1. apply (A i' Hi' j' Hj'); auto.
      + intros j' [Hj' Lt] p q P Q E1 E2. destruct (Nat.eq_dec j' j) as [->|].
        * apply R2; auto; [destruct (le_lt_dec p i) as [|W]; auto; exfalso; apply (Ki p); auto|destruct (le_lt_dec q j) as [|W]; auto; exfalso; apply (Kj q); auto].
        * apply R1. apply (B j'); auto. split; auto. lia. }
  destruct G as [G1 G2]. intros i' [Hi' L] j Hj. destruct (Nat.eq_dec i' i) as [->|]; [apply G2; auto|apply G1; auto]. split; auto. lia.
Qed.
Theorem lastdist_ok : least [s] [t] (lastdist a1 a2).
Proof.
  unfold lastdist. cbn [anodes a1 a2]. rewrite !post_length. assert (P1 := tsize_pos s). assert (P2 := tsize_pos t). assert (H := keyloop_ok (tsize s - 1) (tsize t - 1) ltac:(lia) ltac:(lia)). unfold tdok in H.
  assert (R : forall u, ND u (tsize u - 1) = u). { intros u. unfold ND. rewrite post_kids, app_nth2; rewrite posts_length, tsize_kids; [|lia]. replace (S (fsize (kids u)) - 1 - fsize (kids u)) with 0 by lia. reflexivity. }
  rewrite !R in H. exact H.
Qed.
End Pair.
