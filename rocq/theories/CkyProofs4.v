(** Proofs for C41 (4): with the priorities of the sparse chart no edge is added twice *)
From Coq Require Import List Bool Arith NArith ZArith Lia Permutation.
From Verif Require Import CkyModel CkySpec CkyProofs CkyProofs2 CkyProofs3.
Import ListNotations.
Open Scope list_scope.
Open Scope nat_scope.

Lemma set_in : forall ag x p z v, NoDup (map fst ag) -> In (z, v) (setifbetter ag x p) ->
  (z = x /\ v = p) \/ (z = x /\ In (x, v) ag /\ ltp p v = false) \/ (z <> x /\ In (z, v) ag).
Proof.
  induction ag as [|[y q] ag IH]; intros x p z v ND H; cbn in H.
  - destruct H as [E|[]]. injection E as <- <-. auto.
  - inversion ND as [|? ? N1 N2]; subst. cbn in N1. destruct (Nat.eqb_spec y x) as [->|NE].
    + destruct (ltp p q) eqn:L.
      * destruct H as [E|H]; [injection E as <- <-; auto|]. right. right. split; [intros ->; apply N1; exact (in_map fst _ _ H)|now right].
      * destruct H as [E|H]; [injection E as <- <-; right; left; split; auto; split; auto; now left|]. right. right. split; [intros ->; apply N1; exact (in_map fst _ _ H)|now right].
    + destruct H as [E|H]; [injection E as <- <-; right; right; split; auto; now left|]. destruct (IH x p z v N2 H) as [?|[(? & ? & ?)|(? & ?)]]; auto; right; [left|right]; repeat (split; auto); now right.
Qed.
Lemma nodup_snoc : forall {X} (l : list X) a, NoDup l -> ~ In a l -> NoDup (l ++ [a]).
Proof. intros X l a H N. apply (Permutation_NoDup (l := a :: l)); [apply Permutation_cons_append|now constructor]. Qed.
Lemma lep_refl : forall a, lep a a.
Proof. intros [a|]; unfold lep; cbn; auto. apply N.ltb_irrefl. Qed.
Lemma lep_trans : forall a b c, lep a b -> lep b c -> lep a c.
Proof. intros [a|] [b|] [c|]; unfold lep; cbn; auto; try discriminate. rewrite !N.ltb_ge. lia. Qed.

Section Once.
Variables (rules : list rule) (mask : nat -> bool).
Hypothesis ND : NoDup rules.
Variables left right : nat.
Notation here := (fun x => (left, right, x)).
Notation unary := (unary rules).
Notation relax := (relax mask left right).
Definition is_unary (r : rule) : Prop := rhs2 r = 0.
Record dinv (P : list nat) (s : ustate) : Prop := {
  d_keys : NoDup (map fst (snd s));
  d_fin : forall x v, In (x, v) (snd s) -> v <> None;
  d_prio : forall x v, In (x, v) (snd s) -> v = prob (fst (fst s)) (here x);
  d_popped : forall y, In y P -> ~ In y (map fst (snd s));
  d_order : forall y x v, In y P -> In (x, v) (snd s) -> lep (prob (fst (fst s)) (here y)) v;
  d_nodup : forall it, NoDup (edges (fst (fst s)) it);
  d_edges : forall x r, In (Some r, right) (edges (fst (fst s)) (here x)) -> is_unary r -> In (rhs1 r) P }.
(** while the rules for label x are applied *)
Record rinv (P : list nat) (x : nat) (p : N) (todo : list rule) (s : ustate) : Prop := {
  r_keys : NoDup (map fst (snd s));
  r_fin : forall x v, In (x, v) (snd s) -> v <> None;
  r_prio : forall y v, In (y, v) (snd s) -> v = prob (fst (fst s)) (here y);
  r_popped : forall y, In y (x :: P) -> ~ In y (map fst (snd s)) /\ lep (prob (fst (fst s)) (here y)) (Some p);
  r_order : forall y v, In (y, v) (snd s) -> lep (Some p) v;
  r_nodup : forall it, NoDup (edges (fst (fst s)) it);
  r_edges : forall y r, In (Some r, right) (edges (fst (fst s)) (here y)) -> is_unary r -> In (rhs1 r) P \/ (rhs1 r = x /\ ~ In r todo) }.
Lemma relax_once : forall P x p r todo s, ~ In x P -> NoDup (r :: todo) -> In r (unary x) -> rinv P x p (r :: todo) s -> rinv P x p todo (relax (Some p) s r).
Proof using.
  intros P x p r todo [[ch m] ag] NX NT HR [K1 K0 K2 K3 K4 K5 K6]. apply in_unary in HR. destruct HR as (HR1 & HR2 & HR3). assert (T12 : ~ In r todo /\ NoDup todo) by (inversion NT; auto). destruct T12 as [T1 T2]. subst x. cbn [fst snd] in *. destruct (mask (rno r)) eqn:MK.
  { unfold CkyModel.relax. rewrite MK. constructor; cbn [fst snd]; auto. intros y t H1 H2. destruct (K6 y t H1 H2) as [?|[? N]]; auto. right. split; auto. intros Q. apply N. now right. }
  destruct (relax_cases mask left right p ch m ag r MK) as (ch1 & ag1 & -> & EE & CASES).
  assert (E5 : forall it, NoDup (edges (addedge ch1 (here (lhs r)) right (Some r)) it)).
  { intros it. cbn [edges addedge]. unfold iput. destruct (ieqb it (here (lhs r))) eqn:Q; rewrite EE; auto. apply ieqb_eq in Q. subst it. apply nodup_snoc; auto. intros H. destruct (K6 _ _ H HR3) as [?|[_ N]]; [contradiction|]. apply N. now left. }
  assert (E6 : forall y t, In (Some t, right) (edges (addedge ch1 (here (lhs r)) right (Some r)) (here y)) -> is_unary t -> In (rhs1 t) P \/ (rhs1 t = rhs1 r /\ ~ In t todo)).
  { intros y t H1 H2. cbn [edges addedge] in H1. unfold iput in H1. assert (C : In (Some t, right) (edges ch (here y)) \/ t = r). { destruct (ieqb (here y) (here (lhs r))) eqn:Q; rewrite EE in H1; auto. apply ieqb_eq in Q. injection Q as ->. apply in_app_or in H1. destruct H1 as [H1|[H1|[]]]; auto. injection H1 as <-. auto. }
    destruct C as [C| ->]; [|auto]. destruct (K6 y t C H2) as [?|[? N]]; auto. right. split; auto. intros Q. apply N. now right. }
  destruct CASES as [(L & PE & _ & ->)|([B1 B2] & -> & _)].
  - constructor; cbn [fst snd addedge prob]; rewrite ?PE; auto.
  - assert (PO : forall y, y <> lhs r -> prob ch1 (here y) = prob ch (here y)). { intros y Hy. rewrite B1. destruct (item_dec (here y) (here (lhs r))) as [Q|Q]; auto. injection Q as ->. contradiction. }
    assert (PS : prob ch1 (here (lhs r)) = Some (rprob r + p)%N). { rewrite B1. destruct (item_dec (here (lhs r)) (here (lhs r))); congruence. }
    assert (NP : ~ In (lhs r) (rhs1 r :: P)). { intros H. destruct (K3 _ H) as [_ LE]. unfold lep in LE. destruct (prob ch (left, right, lhs r)) as [q|]; cbn in *; [|discriminate]. apply N.ltb_ge in LE. apply N.ltb_lt in B2. lia. }
    constructor; cbn [fst snd addedge prob]; auto.
    + now apply set_nodup.
    + intros y v H. apply set_in in H; auto. destruct H as [[-> ->]|[(-> & H & L)|[N H]]]; [discriminate|exact (K0 _ _ H)|exact (K0 _ _ H)].
    + intros y v H. apply set_in in H; auto. destruct H as [[-> ->]|[(-> & H & L)|[N H]]]; [now rewrite PS| |rewrite PO; auto]. rewrite (K2 _ _ H) in L. congruence.
    + intros y Hy. assert (y <> lhs r) by (intros ->; contradiction). rewrite PO by auto. destruct (K3 y Hy) as [A B]. split; auto. rewrite set_keys. tauto.
    + intros y v H. apply set_in in H; auto. destruct H as [[-> ->]|[(-> & H & L)|[N H]]]; [|apply (K4 _ _ H)|apply (K4 _ _ H)]. unfold lep. cbn. apply N.ltb_ge. lia.
Qed.
Lemma relaxes_once : forall P x p todo s, ~ In x P -> NoDup todo -> (forall r, In r todo -> In r (unary x)) -> rinv P x p todo s -> rinv P x p [] (fold_left (relax (Some p)) todo s).
Proof using.
  intros P x p. induction todo as [|r todo IH]; intros s NX NT HT R; auto. cbn [fold_left]. inversion NT as [|? ? T1 T2]; subst. apply IH; auto; [intros; apply HT; now right|]. apply relax_once; auto. apply HT. now left.
Qed.
Lemma uloop_once : forall fuel P s ch m, dinv P s -> uloop rules mask left right fuel s = Some (ch, m) -> forall it, NoDup (edges ch it).
Proof using ND.
  induction fuel as [|fuel IH]; intros P [[ch0 m0] ag] ch m D E; [discriminate|]. cbn [uloop] in E. destruct (popmin ag) as [[[x v] ag']|] eqn:PM; [|injection E as <- <-; apply D]. destruct D as [K1 K0 K2 K3 K4 K5 K6]. cbn [fst snd] in *.
  destruct (popmin_perm _ _ _ PM) as [PE LE]. assert (HX : In (x, v) ag) by (eapply Permutation_in; [symmetry; exact PE|now left]). assert (PX := K2 x v HX). cbn beta in PX. assert (FX := K0 x v HX). destruct (prob ch0 (left, right, x)) as [p|] eqn:EP; [|contradiction]. subst v.
  assert (SUB : forall e, In e ag' -> In e ag) by (intros e He; eapply Permutation_in; [symmetry; exact PE|now right]).
  assert (K1' : NoDup (map fst ((x, Some p) :: ag'))) by (eapply Permutation_NoDup; [apply Permutation_map; exact PE|exact K1]). cbn in K1'. inversion K1' as [|? ? N1 N2]; subst.
  assert (NXP : ~ In x P) by (intros Q; apply (K3 x Q); exact (in_map fst _ _ HX)).
  assert (UND : NoDup (unary x)) by now apply NoDup_filter.
  assert (R0 : rinv P x p (unary x) (ch0, m0, ag')).
  { constructor; cbn [fst snd]; auto.
    - intros y v Hv. apply (K0 y v). now apply SUB.
    - intros y [<-|Hy]; [rewrite EP; split; auto; apply lep_refl|]. split; [intros Q; apply (K3 y Hy); apply in_map_iff in Q; destruct Q as (e & <- & Q); now apply in_map, SUB|]. exact (K4 y x (Some p) Hy HX).
    - intros y v Hv. exact (LE _ Hv).
    - intros y t H1 H2. left. exact (K6 y t H1 H2). }
  assert (R := relaxes_once P x p (unary x) _ NXP UND (fun r Hr => Hr) R0). destruct R as [R1 RF R2 R3 R4 R5 R6].
  refine (IH (x :: P) _ ch m _ E). constructor; auto.
  - intros y Hy. apply (R3 y Hy).
  - intros y z v Hy Hz. eapply lep_trans; [apply (R3 y Hy)|apply (R4 z v Hz)].
  - intros y r H1 H2. destruct (R6 y r H1 H2) as [?|[-> _]]; [now right|now left].
Qed.
(** the agenda to begin with *)
Lemma initagenda_sparse : forall ch pre new, items ch = pre ++ map here new -> (forall x, In x new -> prob ch (here x) <> None) ->
  NoDup (map fst (initagenda sparseprio ch (length pre))) /\ forall x v, In (x, v) (initagenda sparseprio ch (length pre)) -> v <> None /\ v = prob ch (here x).
Proof using.
  intros ch pre new E F. unfold initagenda.
  assert (G : forall ks ag, (forall k, In k ks -> length pre <= k) -> NoDup (map fst ag) -> (forall x v, In (x, v) ag -> v <> None /\ v = prob ch (here x)) ->
    let ag' := fold_left (fun ag n => match nth_error (items ch) n with Some it => setifbetter ag (snd it) (sparseprio ch n it) | None => ag end) ks ag in
    NoDup (map fst ag') /\ (forall x v, In (x, v) ag' -> v <> None /\ v = prob ch (here x))).
  { induction ks as [|k ks IH]; intros ag HK N A; cbn; auto. assert (HK' := fun y Hy => HK y (or_intror Hy)). destruct (nth_error (items ch) k) as [it|] eqn:Z; [|apply IH; auto]. apply IH; auto; [now apply set_nodup|].
    rewrite E in Z. rewrite nth_error_app2 in Z by (apply HK; now left). apply nth_error_In in Z. apply in_map_iff in Z. destruct Z as (y & <- & Hy). cbn [snd]. unfold sparseprio.
    intros x v H. apply set_in in H; auto. destruct H as [[-> ->]|[(-> & H & _)|[_ H]]]; auto. }
  apply G; [|constructor|intros x v []]. intros k Hk. apply in_seq in Hk. lia.
Qed.
Lemma applyunary_once : forall fuel ch m pre new s', items ch = pre ++ map here new -> (forall x, In x new -> prob ch (here x) <> None) -> (forall it, NoDup (edges ch it)) ->
  (forall x r, In (Some r, right) (edges ch (here x)) -> rhs2 r <> 0) ->
  applyunary rules mask left right sparseprio fuel (length pre) (ch, m) = Some s' -> forall it, NoDup (edges (fst s') it).
Proof using ND.
  intros fuel ch m pre new [ch' m'] E F N U A. cbn [fst]. unfold applyunary in A. cbn [fst snd] in A. destruct (initagenda_sparse ch pre new E F) as [G1 G2]. refine (uloop_once fuel [] _ _ _ _ A). constructor; cbn [fst snd].
  - exact G1.
  - intros x v H. apply (G2 x v H).
  - intros x v H. apply (G2 x v H).
  - intros y [].
  - intros y x v [].
  - exact N.
  - intros x r H1 H2. destruct (U x r H1 H2).
Qed.
End Once.

Section Nodup.
Variables (rules : list rule) (nts : nat) (mask : nat -> bool).
Variables (lexrules : nat -> list (nat * N)) (tag : nat -> option (nat -> bool)) (lexicallhs : list nat).
Hypothesis HL : forall r, In r rules -> 1 <= lhs r < nts.
Hypothesis ND : NoDup rules.
Hypothesis NL : forall i, NoDup (map fst (lexrules i)).
Hypothesis NLL : NoDup lexicallhs.
Variable n : nat.
Notation inv := (inv rules mask lexrules tag lexicallhs n).
Notation base := (base rules mask lexrules tag lexicallhs n).
Definition once (s : chart * midfilter) : Prop := forall it, NoDup (edges (fst s) it).
Lemma nodup_app : forall {X} (a b : list X), NoDup a -> NoDup b -> (forall x, In x a -> ~ In x b) -> NoDup (a ++ b).
Proof using.
  clear. induction a as [|x a IH]; intros b Ha Hb D; auto. inversion Ha as [|? ? N1 N2]; subst. cbn. constructor; [|apply IH; auto; intros y Hy; apply D; now right]. rewrite in_app_iff. intros [?|Q]; [contradiction|]. exact (D x (or_introl eq_refl) Q).
Qed.
Lemma allinst_nodup : forall l r ch x, NoDup (map snd (allinst rules mask l r ch x)).
Proof using ND.
  clear HL NL NLL. intros l r ch x. unfold allinst. assert (N : NoDup (bylhs rules x)) by now apply NoDup_filter. induction (bylhs rules x) as [|rl rs IH]; [constructor|]. inversion N as [|? ? N1 N2]; subst. cbn [flat_map]. rewrite map_app. apply nodup_app; [|auto|].
  - unfold instances. destruct (_ || _); [constructor|]. rewrite map_map. cbn [snd]. apply FinFun.Injective_map_NoDup; [intros a b E; congruence|]. apply NoDup_filter, seq_NoDup.
  - intros [o k] H1 H2. apply in_map_iff in H1, H2. destruct H1 as ([c1 e1] & E1 & H1), H2 as ([c2 e2] & E2 & H2). cbn in E1, E2. subst e1 e2. apply in_flat_map in H2. destruct H2 as (r2 & Hr2 & H2). unfold instances in H1, H2. destruct (_ || _) in H1; [destruct H1|]. destruct (_ || _) in H2; [destruct H2|]. apply in_map_iff in H1, H2. destruct H1 as (k1 & E1 & _), H2 as (k2 & E2 & _). injection E1 as _ <- _. injection E2 as _ E2 _. subst r2. contradiction.
Qed.
Lemma unary_base_edges : forall l r s0 s1, base l r s0 s1 -> forall x rl, In (Some rl, r) (edges (fst s1) (l, r, x)) -> rhs2 rl <> 0.
Proof using.
  clear. intros l r s0 s1 B x rl H. apply (ba_edges _ _ _ _ _ _ _ _ _ _ B) in H. destruct H as [(E & _)|(r2 & k & _ & E & _ & _ & R3 & _)]; [discriminate|]. injection E as -> _. exact R3.
Qed.
Lemma close_once : forall l r s0 s1 fuel s', base l r s0 s1 -> once s1 -> applyunary rules mask l r sparseprio fuel (length (items (fst s0))) s1 = Some s' -> once s'.
Proof using ND.
  clear HL NL NLL. intros l r s0 [c1 m1] fuel s' B O A. assert (UB := unary_base_edges l r s0 _ B). destruct (ba_items _ _ _ _ _ _ _ _ _ _ B) as (new & E1 & E2). cbn [fst] in *. unfold once. eapply applyunary_once; [exact ND|exact E1|intros x Hx; now apply E2|exact O|exact UB|exact A].
Qed.
Lemma binary_once : forall done l r s0, inv done s0 -> free done l r -> r <= n -> once s0 -> once (binary rules nts mask l r s0).
Proof using ND.
  clear HL NL NLL. intros done l r [c0 m0] IN FR RN O. destruct FR as (LR & FR1 & FR2). destruct IN as [I1 I2 I3 I4 I5 I6 I7 I8]. cbn [fst snd] in *.
  assert (B := binary_ok rules mask l r LR n RN c0 m0 (fun x => I1 l r x FR1) I7 (fun i j x H _ => I8 i j x H) (seq 1 (nts - 1)) (seq_NoDup _ _)). unfold binary. destruct (fold_left _ (seq 1 (nts - 1)) (c0, m0)) as [c1 m1]. cbn [fst snd] in B. destruct B as [B1 B2 B3 B4 B5 B6 B7].
  intros [[i j] x]. cbn [fst]. destruct (pair_dec i j l r) as [[-> ->]|NE].
  - rewrite B3. destruct (in_dec _ _ _); [apply allinst_nodup|constructor].
  - destruct (B1 _ (cell_eq i j l r x NE)) as [_ ->]. apply O.
Qed.
Lemma wordtags_nodup : forall i, NoDup (map fst (wordtags lexrules tag lexicallhs i)).
Proof using NL NLL.
  clear HL ND. intros i. assert (F : forall (t : nat -> bool) (l : list (nat * N)), NoDup (map fst l) -> NoDup (map fst (filter (fun e => t (fst e)) l))).
  { clear. intros t. induction l as [|[x c] l IH]; cbn; intros H; [constructor|]. inversion H as [|? ? N1 N2]; subst. destruct (t x); auto. cbn. constructor; auto. intros Q. apply N1. apply in_map_iff in Q. destruct Q as (e & <- & Q). apply filter_In in Q. apply in_map. tauto. }
  unfold wordtags. destruct (tag i) as [t|]; auto. specialize (F t (lexrules i) (NL i)). destruct (filter _ (lexrules i)) as [|e l]; auto. rewrite map_map. cbn [fst]. rewrite map_id. now apply NoDup_filter.
Qed.
Lemma addtag_once : forall i l s, NoDup (map fst l) -> (forall x c, In (x, c) l -> edges (fst s) (i, i + 1, x) = []) -> once s -> once (fold_left (addtag i) l s).
Proof using.
  clear. intros i. induction l as [|[x c] l IH]; intros s N EM O; auto. cbn [fold_left]. cbn in N. inversion N as [|? ? N1 N2]; subst. unfold addtag at 2. cbn [fst snd].
  change (addedge (updateprob (fst s) (i, i + 1, x) c) (i, i + 1, x) (i + 1) None) with (push (i, i + 1, x) (fst s) (c, (None, i + 1))). apply IH; auto.
  - intros y d Hy. cbn [fst]. rewrite push_edges. destruct (item_dec (i, i + 1, y) (i, i + 1, x)) as [Q|Q]; [|apply (EM y d); now right]. exfalso. injection Q as ->. apply N1. exact (in_map fst _ _ Hy).
  - intros it. cbn [fst]. rewrite push_edges. destruct (item_dec it (i, i + 1, x)); [|apply O]. rewrite (EM x c (or_introl eq_refl)). cbn. repeat constructor. intros [].
Qed.
Lemma cell_once : forall done l r s0 fuel s', inv done s0 -> free done l r -> r <= n -> l + 1 < r -> once s0 -> cell rules nts mask sparseprio fuel s0 l r = Some s' -> once s' /\ inv (upd done l r) s'.
Proof using HL ND.
  clear NL NLL. intros done l r s0 fuel s' I F RN SP O E. split.
  - unfold cell in E. eapply close_once; [|eapply binary_once; eauto|exact E]. eapply binary_base; eauto.
  - destruct (cell_ok rules nts mask sparseprio lexrules tag lexicallhs HL n done l r s0 I F RN SP) as (G & s2 & H1 & H2). specialize (H1 (G + fuel) ltac:(lia)). unfold cell, applyunary in *. apply (uloop_fuel _ _ _ (G + fuel)) in E; [|lia]. rewrite E in H1. injection H1 as ->. exact H2.
Qed.
Lemma word_once : forall done i s0 fuel s', inv done s0 -> free done i (i + 1) -> once s0 -> word rules mask sparseprio lexrules tag lexicallhs fuel s0 i = Some (true, s') -> once s' /\ inv (upd done i (i + 1)) s'.
Proof using ND NL NLL.
  clear HL. intros done i s0 fuel s' I F O E. split.
  - unfold word in E. destruct (wordtags lexrules tag lexicallhs i) as [|e t] eqn:W; [discriminate|]. rewrite <- W in E. destruct (applyunary _ _ _ _ _ _ _ _) as [s2|] eqn:A; [|discriminate]. injection E as <-. eapply close_once; [|eapply addtag_once|exact A]; [eapply word_base; eauto|apply wordtags_nodup| |exact O]. intros x c _. apply (i_empty _ _ _ _ _ _ _ _ I). apply F.
  - destruct (word_ok rules mask sparseprio lexrules tag lexicallhs n done i s0 I F) as (G & b & s2 & H1 & H2 & _). specialize (H1 (G + fuel) ltac:(lia)). apply (word_fuel _ _ _ _ _ _ _ (G + fuel)) in E; [|lia]. rewrite E in H1. injection H1 as <- ->. auto.
Qed.
Lemma populatepos_once : forall m k s0 fuel s', k + m = n -> inv (words_done k) s0 -> once s0 -> populatepos rules mask sparseprio lexrules tag lexicallhs fuel (seq k m) s0 = Some (true, s') -> once s' /\ inv (words_done n) s'.
Proof using ND NL NLL.
  clear HL. induction m as [|m IH]; intros k s0 fuel s' E I O H; cbn in H.
  - injection H as <-. split; auto. eapply inv_ext; [|exact I]. intros i j. unfold words_done. lia.
  - destruct (word rules mask sparseprio lexrules tag lexicallhs fuel s0 k) as [[[|] s1]|] eqn:W; try discriminate. apply (word_once (words_done k)) in W; auto; [|split; [lia|]; split; [intros [? ?]; lia|]; intros i j [? ?]; lia]. destruct W as [O1 I1]. apply (IH (S k) s1 fuel s'); auto; [lia|]. eapply inv_ext; [|exact I1]. intros i j. unfold upd, words_done. lia.
Qed.
Lemma span_once : forall s m l s0 fuel s', 2 <= s -> s <= n -> l + m = n - s + 1 -> inv (cells_done n s l) s0 -> once s0 -> cells rules nts mask sparseprio fuel (map (fun left => (left, left + s)) (seq l m)) s0 = Some s' -> once s' /\ inv (cells_done n (s + 1) 0) s'.
Proof using HL ND.
  clear NL NLL. intros s. induction m as [|m IH]; intros l s0 fuel s' S2 SN E I O H; cbn in H.
  - injection H as <-. split; auto. eapply inv_ext; [|exact I]. intros i j. unfold cells_done. lia.
  - destruct (cell rules nts mask sparseprio fuel s0 l (l + s)) as [s1|] eqn:C; [|discriminate]. apply (cell_once (cells_done n s l)) in C; auto; try lia; [|unfold free, cells_done; split; [lia|]; split; [lia|]; intros i j Q; lia]. destruct C as [O1 I1]. apply (IH (S l) s1 fuel s'); auto; [lia|]. eapply inv_ext; [|exact I1]. intros i j. unfold upd, cells_done. lia.
Qed.
Lemma spans_once : forall m s s0 fuel s', 2 <= s -> s + m = n + 1 -> inv (cells_done n s 0) s0 -> once s0 -> cells rules nts mask sparseprio fuel (flat_map (spancells n) (seq s m)) s0 = Some s' -> once s'.
Proof using HL ND.
  clear NL NLL. induction m as [|m IH]; intros s s0 fuel s' S2 E I O H.
  - cbn in H. injection H as <-. auto.
  - cbn [seq flat_map] in H. rewrite cells_app in H. destruct (cells rules nts mask sparseprio fuel (spancells n s) s0) as [s1|] eqn:C; [|discriminate]. apply (span_once s (n - s + 1) 0) in C; auto; try lia. destruct C as [O1 I1]. apply (IH (S s) s1 fuel s'); auto; try lia. replace (S s) with (s + 1) by lia. auto.
Qed.
Theorem parse_once : forall fuel ch, parse rules nts mask sparseprio lexrules tag lexicallhs fuel n = Some (true, ch) -> forall it, NoDup (edges ch it).
Proof using HL ND NL NLL.
  intros fuel ch E. unfold parse in E. destruct (populatepos _ _ _ _ _ _ _ _ _) as [[[|] s1]|] eqn:A; try discriminate. apply populatepos_once in A; auto; [|apply inv_start|intros it; constructor]. destruct A as [O I].
  destruct (Nat.leb_spec n 1) as [L|L].
  - replace (n - 1) with 0 in E by lia. cbn in E. injection E as <-. exact O.
  - destruct (cells _ _ _ _ _ _ _) as [s2|] eqn:B; [|discriminate]. injection E as <-. apply spans_once in B; auto; try lia. eapply inv_ext; [|exact I]. intros i j. unfold words_done, cells_done. lia.
Qed.
End Nodup.
