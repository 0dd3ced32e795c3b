(** Proofs for C41 (3): cells and the whole chart *)
From Coq Require Import List Bool Arith NArith ZArith Lia Permutation.
From Verif Require Import CkyModel CkySpec CkyProofs CkyProofs2.
Import ListNotations.
Open Scope list_scope.
Open Scope nat_scope.

(** ---- whatever is preserved by the two operations on charts ---- *)
Section Pres.
Variables (rules : list rule) (nts : nat) (mask : nat -> bool) (prio : chart -> nat -> item -> option N).
Variables (lexrules : nat -> list (nat * N)) (tag : nat -> option (nat -> bool)) (lexicallhs : list nat).
Variable P : chart -> Prop.
Hypothesis Pu : forall ch it p, P ch -> P (updateprob ch it p).
Hypothesis Pa : forall ch it k r, P ch -> P (addedge ch it k r).
Lemma fold_pres : forall {S B} (g : S -> chart) (f : S -> B -> S), (forall s b, P (g s) -> P (g (f s b))) -> forall l s, P (g s) -> P (g (fold_left f l s)).
Proof using. intros S B g f H. induction l as [|b l IH]; intros s Hs; cbn; auto. Qed.
Lemma binary_pres : forall l r s, P (fst s) -> P (fst (binary rules nts mask l r s)).
Proof using Pu Pa.
  intros l r s H. unfold binary. apply fold_pres; auto. intros [ch m] x H'. cbn [fst] in *. apply (fold_pres (fun c => c)); auto. intros c rl Hc. unfold binrule. apply (fold_pres (fun c => c)); auto. intros c' k Hc'. unfold binmid. destruct (prob c' _); auto. destruct (prob c' _); auto.
Qed.
Lemma uloop_pres : forall fuel l r s s', P (fst (fst s)) -> uloop rules mask l r fuel s = Some s' -> P (fst s').
Proof using Pu Pa.
  induction fuel as [|f IH]; intros l r [[ch m] ag] s' H E; [discriminate|]. cbn in E. destruct (popmin ag) as [[[x v] ag']|]; [|injection E as <-; exact H]. refine (IH _ _ _ _ _ E). apply (fold_pres (fun s : ustate => fst (fst s))); auto. intros [[c m'] a] rl Hc. cbn [fst] in *. unfold relax. destruct (mask _); auto. destruct (option_map _ _) as [q|]; cbn [fst]; auto. destruct (ltp _ _); cbn [fst]; auto.
Qed.
Lemma populatepos_pres : forall fuel ws s b s', P (fst s) -> populatepos rules mask prio lexrules tag lexicallhs fuel ws s = Some (b, s') -> P (fst s').
Proof using Pu Pa.
  intros fuel. induction ws as [|i ws IH]; intros s b s' H E; cbn in E; [injection E as <- <-; auto|]. destruct (word rules mask prio lexrules tag lexicallhs fuel s i) as [[b1 s1]|] eqn:W; [|discriminate].
  assert (P (fst s1)).
  { unfold word in W. destruct (wordtags lexrules tag lexicallhs i) as [|e l]; [injection W as <- <-; auto|]. destruct (applyunary _ _ _ _ _ _ _ _) as [s2|] eqn:A; [|discriminate]. injection W as <- <-. unfold applyunary in A. eapply uloop_pres; [|exact A]. cbn [fst]. apply fold_pres; auto. intros s3 e3 H3. unfold addtag. cbn [fst]. auto. }
  destruct b1; [eauto|injection E as <- <-; auto].
Qed.
Lemma cells_pres : forall fuel cs s s', P (fst s) -> cells rules nts mask prio fuel cs s = Some s' -> P (fst s').
Proof using Pu Pa.
  intros fuel. induction cs as [|[l r] cs IH]; intros s s' H E; cbn in E; [injection E as <-; auto|]. destruct (cell rules nts mask prio fuel s l r) as [s1|] eqn:C; [|discriminate]. refine (IH _ _ _ E). unfold cell, applyunary in C. eapply uloop_pres; [|exact C]. cbn [fst]. now apply binary_pres.
Qed.
Lemma parse_pres : forall fuel n b ch, P emptychart -> parse rules nts mask prio lexrules tag lexicallhs fuel n = Some (b, ch) -> P ch.
Proof using Pu Pa.
  intros fuel n b ch H E. unfold parse in E. destruct (populatepos _ _ _ _ _ _ _ _ _) as [[b1 s1]|] eqn:A; [|discriminate]. apply populatepos_pres in A; auto. destruct b1; [|injection E as <- <-; auto]. destruct (cells _ _ _ _ _ _ _) as [s2|] eqn:B; [|discriminate]. injection E as <- <-. eapply cells_pres; eauto.
Qed.
End Pres.
Definition items_ok (ch : chart) : Prop := NoDup (items ch) /\ forall it, In it (items ch) <-> prob ch it <> None.
Lemma items_ok_update : forall ch it p, items_ok ch -> items_ok (updateprob ch it p).
Proof.
  intros ch it p [H1 H2]. split.
  - rewrite update_items. destruct (prob ch it) eqn:E; [now rewrite app_nil_r|]. apply (Permutation_NoDup (l := it :: items ch)); [apply Permutation_cons_append|]. constructor; auto. rewrite H2. congruence.
  - intros u. rewrite update_items, in_app_iff, update_prob, H2. destruct (item_dec u it) as [->|N].
    + unfold minp. destruct (prob ch it) eqn:E; cbn; [|intuition congruence]. split; [intros _; discriminate|left; discriminate].
    + destruct (prob ch it); cbn; intuition congruence.
Qed.
(** ---- more fuel does not change the outcome ---- *)
Section Fuel.
Variables (rules : list rule) (nts : nat) (mask : nat -> bool) (prio : chart -> nat -> item -> option N).
Variables (lexrules : nat -> list (nat * N)) (tag : nat -> option (nat -> bool)) (lexicallhs : list nat).
Lemma uloop_fuel : forall f f' l r s s', f <= f' -> uloop rules mask l r f s = Some s' -> uloop rules mask l r f' s = Some s'.
Proof.
  induction f as [|f IH]; intros f' l r [[ch m] ag] s' L E; [discriminate|]. destruct f' as [|f']; [lia|]. cbn in *. destruct (popmin ag) as [[[x v] ag']|]; auto. apply IH; auto. lia.
Qed.
Lemma word_fuel : forall f f' s i x, f <= f' -> word rules mask prio lexrules tag lexicallhs f s i = Some x -> word rules mask prio lexrules tag lexicallhs f' s i = Some x.
Proof.
  intros f f' s i x L E. unfold word in *. destruct (wordtags _ _ _ _); auto. destruct (applyunary rules mask i (i + 1) prio f _ _) as [s2|] eqn:A; [|discriminate]. unfold applyunary in *. erewrite uloop_fuel; eauto.
Qed.
Lemma populatepos_fuel : forall f f' ws s x, f <= f' -> populatepos rules mask prio lexrules tag lexicallhs f ws s = Some x -> populatepos rules mask prio lexrules tag lexicallhs f' ws s = Some x.
Proof.
  intros f f'. induction ws as [|i ws IH]; intros s x L E; auto. cbn in *. destruct (word _ _ _ _ _ _ f s i) as [[b s1]|] eqn:W; [|discriminate]. rewrite (word_fuel f f' s i _ L W). destruct b; auto.
Qed.
Lemma cells_fuel : forall f f' cs s x, f <= f' -> cells rules nts mask prio f cs s = Some x -> cells rules nts mask prio f' cs s = Some x.
Proof.
  intros f f'. induction cs as [|[l r] cs IH]; intros s x L E; auto. cbn in *. destruct (cell _ _ _ _ f s l r) as [s1|] eqn:C; [|discriminate]. unfold cell, applyunary in *. rewrite (uloop_fuel f f' _ _ _ _ L C). auto.
Qed.
Lemma parse_fuel : forall f f' n x, f <= f' -> parse rules nts mask prio lexrules tag lexicallhs f n = Some x -> parse rules nts mask prio lexrules tag lexicallhs f' n = Some x.
Proof.
  intros f f' n x L E. unfold parse in *. destruct (populatepos _ _ _ _ _ _ f _ _) as [[b s1]|] eqn:A; [|discriminate]. rewrite (populatepos_fuel f f' _ _ _ L A). destruct b; auto. destruct (cells _ _ _ _ f _ _) as [s2|] eqn:B; [|discriminate]. now rewrite (cells_fuel f f' _ _ _ L B).
Qed.
End Fuel.

Lemma initagenda_keys : forall (prio : chart -> nat -> item -> option N) ch pre l r new y, items ch = pre ++ map (fun x => (l, r, x)) new ->
  In y (map fst (initagenda prio ch (length pre))) <-> In y new.
Proof.
  intros prio ch pre l r new y E. unfold initagenda. rewrite E, app_length, map_length. replace (length pre + length new - length pre) with (length new) by lia.
  set (f := fun ag k => match nth_error (pre ++ map (fun x => (l, r, x)) new) k with Some it => setifbetter ag (snd it) (prio ch k it) | None => ag end).
  assert (G : forall m k ag, k + m = length pre + length new -> length pre <= k -> In y (map fst (fold_left f (seq k m) ag)) <-> In y (map fst ag) \/ In y (skipn (k - length pre) new)).
  { induction m as [|m IH]; intros k ag H1 H2.
    - cbn. replace (k - length pre) with (length new) by lia. rewrite skipn_all. cbn. tauto.
    - cbn [seq fold_left]. rewrite IH by lia. unfold f at 1. rewrite nth_error_app2 by lia. rewrite nth_error_map. destruct (nth_error new (k - length pre)) as [z|] eqn:Z; [|apply nth_error_None in Z; lia]. cbn [option_map snd]. rewrite set_keys.
      apply nth_error_split in Z. destruct Z as (a & b & Z1 & Z2). replace (S k - length pre) with (S (k - length pre)) by lia. rewrite <- Z2, Z1.
      assert (S1 : skipn (length a) (a ++ z :: b) = z :: b) by (rewrite skipn_app, skipn_all, Nat.sub_diag; reflexivity).
      assert (S2 : skipn (S (length a)) (a ++ z :: b) = b) by (clear; induction a; cbn in *; auto).
      rewrite S1, S2. cbn. intuition. }
  etransitivity; [apply (G (length new) (length pre) []); lia|]. rewrite Nat.sub_diag. cbn. tauto.
Qed.

Section Tags.
Variables (lexrules : nat -> list (nat * N)) (tag : nat -> option (nat -> bool)) (lexicallhs : list nat).
Lemma in_wordtags : forall i x c, In (x, c) (wordtags lexrules tag lexicallhs i) <-> tagged lexrules tag lexicallhs i x c.
Proof.
  intros i x c. unfold wordtags. destruct (tag i) as [t|] eqn:T.
  - destruct (filter (fun e => t (fst e)) (lexrules i)) as [|e0 l0] eqn:F.
    + assert (NO : forall y d, In (y, d) (lexrules i) -> t y = false). { intros y d H. destruct (t y) eqn:E; auto. assert (K : In (y, d) (filter (fun e => t (fst e)) (lexrules i))) by (apply filter_In; auto). rewrite F in K. destruct K. }
      rewrite in_map_iff. split.
      * intros (y & E & H). injection E as -> <-. apply filter_In in H. destruct H. eapply t_only_gold; eauto.
      * intros [E|t' E H1 H2|t' E H1 H2 H3 ->]; [congruence|rewrite T in E; injection E as <-; rewrite (NO _ _ H2) in H1; discriminate|]. rewrite T in E. injection E as <-. exists x. split; auto. apply filter_In. auto.
    + rewrite <- F, filter_In. cbn [fst]. split.
      * intros [H1 H2]. eapply t_gold; eauto.
      * intros [E|t' E H1 H2|t' E H1 H2 H3 ->]; [congruence|rewrite T in E; injection E as <-; auto|]. exfalso. rewrite T in E. injection E as <-. destruct e0 as [y d]. assert (K : In (y, d) (filter (fun e => t (fst e)) (lexrules i))) by (rewrite F; now left). apply filter_In in K. cbn in K. rewrite (H2 y d) in K; [|tauto]. destruct K; discriminate.
  - split; [intros H; now apply t_lexicon|]. intros [E H|t' E|t' E]; [auto|congruence|congruence].
Qed.
End Tags.
Section Chart.
Variables (rules : list rule) (nts : nat) (mask : nat -> bool) (prio : chart -> nat -> item -> option N).
Variables (lexrules : nat -> list (nat * N)) (tag : nat -> option (nat -> bool)) (lexicallhs : list nat).
Hypothesis HL : forall r, In r rules -> 1 <= lhs r < nts.
Variable n : nat.
Notation tagged := (tagged lexrules tag lexicallhs).
Notation derives := (derives rules mask lexrules tag lexicallhs).
(** the edges of a cell, in terms of the chart *)
Definition edge_ok (ch : chart) (i j x : nat) (e : option rule * nat) : Prop :=
  (e = (None, j) /\ j = i + 1 /\ exists c, tagged i x c) \/
  (exists r, e = (Some r, j) /\ In r rules /\ mask (rno r) = false /\ rhs2 r = 0 /\ lhs r = x /\ prob ch (i, j, rhs1 r) <> None) \/
  (exists r k, i < k < j /\ e = (Some r, k) /\ In r rules /\ mask (rno r) = false /\ rhs2 r <> 0 /\ lhs r = x /\ prob ch (i, k, rhs1 r) <> None /\ prob ch (k, j, rhs2 r) <> None).
Record inv (done : nat -> nat -> Prop) (s : chart * midfilter) : Prop := {
  i_empty : forall i j x, ~ done i j -> prob (fst s) (i, j, x) = None /\ edges (fst s) (i, j, x) = [];
  i_sound : forall i j x p, prob (fst s) (i, j, x) = Some p -> derives i j x p;
  i_word : forall i x c, done i (i + 1) -> tagged i x c -> exists p, prob (fst s) (i, i + 1, x) = Some p /\ (p <= c)%N /\ In (None, i + 1) (edges (fst s) (i, i + 1, x));
  i_unary : forall i j r p, done i j -> In r rules -> mask (rno r) = false -> rhs2 r = 0 -> prob (fst s) (i, j, rhs1 r) = Some p ->
    exists q, prob (fst s) (i, j, lhs r) = Some q /\ (q <= rprob r + p)%N /\ In (Some r, j) (edges (fst s) (i, j, lhs r));
  i_binary : forall i k j r a b, done i j -> i < k < j -> In r rules -> mask (rno r) = false -> rhs2 r <> 0 -> prob (fst s) (i, k, rhs1 r) = Some a -> prob (fst s) (k, j, rhs2 r) = Some b ->
    exists q, prob (fst s) (i, j, lhs r) = Some q /\ (q <= rprob r + a + b)%N /\ In (Some r, k) (edges (fst s) (i, j, lhs r));
  i_edges : forall i j x e, In e (edges (fst s) (i, j, x)) -> edge_ok (fst s) i j x e;
  i_sane : sane n (snd s);
  i_covers : forall i j x, prob (fst s) (i, j, x) <> None -> covers (snd s) i j x }.

(** the state before the unary rules are applied in cell (l, r) *)
Record base (l r : nat) (s0 s1 : chart * midfilter) : Prop := {
  ba_agree : agree l r (fst s1) (fst s0);
  ba_sound : forall x p, prob (fst s1) (l, r, x) = Some p -> derives l r x p;
  ba_items : exists new, items (fst s1) = items (fst s0) ++ map (fun x => (l, r, x)) new /\ forall x, In x new <-> prob (fst s1) (l, r, x) <> None;
  ba_word : forall x c, r = l + 1 -> tagged l x c -> exists p, prob (fst s1) (l, r, x) = Some p /\ (p <= c)%N /\ In (None, r) (edges (fst s1) (l, r, x));
  ba_binary : forall k rl a b, l < k < r -> In rl rules -> mask (rno rl) = false -> rhs2 rl <> 0 -> prob (fst s0) (l, k, rhs1 rl) = Some a -> prob (fst s0) (k, r, rhs2 rl) = Some b ->
    exists q, prob (fst s1) (l, r, lhs rl) = Some q /\ (q <= rprob rl + a + b)%N /\ In (Some rl, k) (edges (fst s1) (l, r, lhs rl));
  ba_edges : forall x e, In e (edges (fst s1) (l, r, x)) ->
    (e = (None, r) /\ r = l + 1 /\ exists c, tagged l x c) \/
    (exists rl k, l < k < r /\ e = (Some rl, k) /\ In rl rules /\ mask (rno rl) = false /\ rhs2 rl <> 0 /\ lhs rl = x /\ prob (fst s0) (l, k, rhs1 rl) <> None /\ prob (fst s0) (k, r, rhs2 rl) <> None);
  ba_sane : sane n (snd s1);
  ba_wider : wider (snd s0) (snd s1);
  ba_covers : forall x, prob (fst s1) (l, r, x) <> None -> covers (snd s1) l r x }.

Definition upd (done : nat -> nat -> Prop) (l r : nat) : nat -> nat -> Prop := fun i j => done i j \/ (i = l /\ j = r).
(** a new cell may not be a part of an earlier one *)
Definition free (done : nat -> nat -> Prop) (l r : nat) : Prop := l < r /\ ~ done l r /\ forall i j, done i j -> ~ (l = i /\ r < j) /\ ~ (r = j /\ i < l).
Lemma cell_eq : forall i j l r x, (i, j) <> (l, r) -> other l r (i, j, x).
Proof. intros i j l r x N y E. apply N. congruence. Qed.
Lemma pair_dec : forall i j l r : nat, (i = l /\ j = r) \/ (i, j) <> (l, r).
Proof. intros i j l r. destruct (Nat.eq_dec i l) as [->|N]; [destruct (Nat.eq_dec j r) as [->|N]; [auto|]|]; right; congruence. Qed.
Lemma close_cell : forall done l r s0 s1, inv done s0 -> free done l r -> base l r s0 s1 ->
  exists F s', (forall fuel, F <= fuel -> applyunary rules mask l r prio fuel (length (items (fst s0))) s1 = Some s') /\ inv (upd done l r) s'.
Proof using.
  intros done l r [c0 m0] [c1 m1] IN FR B. destruct FR as (LR & FR1 & FR2). destruct B as [B1 B2 (new & B3a & B3b) B4 B5 B6 B7 B8 B9]. cbn [fst snd] in *.
  destruct (uloop_ok rules mask l r LR n (derives l r) (fun rl c H1 H2 H3 H4 => d_unary _ _ _ _ _ l r rl c H1 H2 H3 H4) c1 m1 (c1, m1, initagenda prio c1 (length (items c0)))) as (F & ch & m & H1 & U).
  { constructor; cbn [fst snd]; auto.
    - apply agree_refl.
    - intros x q Hq. exists q. split; auto. lia.
    - intros x rl N _ _ _ p Hp. exfalso. apply N. rewrite (initagenda_keys prio c1 (items c0) l r new x B3a). apply B3b. congruence.
    - intros x Hx. rewrite (initagenda_keys prio c1 (items c0) l r new x B3a) in Hx. now apply B3b.
    - apply wider_refl. }
  exists F, (ch, m). split; [exact H1|]. destruct U as [U1 U2 U3 U4 U5 U6 _ U7 U8 U9]. destruct IN as [I1 I2 I3 I4 I5 I6 I7 I8]. cbn [fst snd] in *.
  assert (OP : forall i j x, (i, j) <> (l, r) -> prob ch (i, j, x) = prob c0 (i, j, x) /\ edges ch (i, j, x) = edges c0 (i, j, x)).
  { intros i j x N. destruct (U1 _ (cell_eq i j l r x N)) as [-> ->]. exact (B1 _ (cell_eq i j l r x N)). }
  assert (GR : forall i j x, prob c0 (i, j, x) <> None -> prob ch (i, j, x) <> None).
  { intros i j x N. destruct (pair_dec i j l r) as [[-> ->]|NE]; [exfalso; apply N; apply I1; auto|]. destruct (OP i j x NE) as [-> _]. auto. }
  assert (SP : forall i j k, i < k < j -> (i, j) = (l, r) \/ done i j -> (i, k) <> (l, r) /\ (k, j) <> (l, r)).
  { intros i j k K [Q|Q]; [split; intros E; injection Q as -> ->; injection E as ->; lia|]. destruct (FR2 i j Q) as [F1 F2]. split; intros E; injection E as -> ->; [apply F1; lia|apply F2; lia]. }
  constructor; cbn [fst snd]; auto.
  - intros i j x N. assert (NE : (i, j) <> (l, r)) by (intros E; apply N; right; split; congruence). destruct (OP i j x NE) as [-> ->]. apply I1. intros D. apply N. left. exact D.
  - intros i j x p Hp. destruct (pair_dec i j l r) as [[-> ->]|NE]; [auto|]. destruct (OP i j x NE) as [E _]. rewrite E in Hp. auto.
  - intros i x c D T. destruct (pair_dec i (i + 1) l r) as [[-> R1]|NE].
    + symmetry in R1. destruct (B4 x c R1 T) as (p & P1 & P2 & P3). destruct (U3 x p P1) as (p' & P4 & P5). rewrite <- R1. exists p'. split; auto. split; [lia|auto].
    + destruct D as [D|[-> D]]; [|exfalso; apply NE; congruence]. destruct (OP i (i + 1) x NE) as [-> ->]. auto.
  - intros i j rl p D R1 R2 R3 Hp. destruct (pair_dec i j l r) as [[-> ->]|NE].
    + destruct (U4 (rhs1 rl) rl) with (p := p) as (q & Q1 & Q2 & Q3); auto; [apply in_unary; auto|]. exists q. auto.
    + destruct D as [D|[-> ->]]; [|congruence]. destruct (OP i j (rhs1 rl) NE) as [E _]. rewrite E in Hp. destruct (OP i j (lhs rl) NE) as [-> ->]. eauto.
  - intros i k j rl a b D K R1 R2 R3 Ha Hb. assert (SP' := SP i j k K). destruct (pair_dec i j l r) as [[-> ->]|NE].
    + destruct (SP' (or_introl eq_refl)) as [N1 N2]. destruct (OP l k (rhs1 rl) N1) as [E1 _]. destruct (OP k r (rhs2 rl) N2) as [E2 _]. rewrite E1 in Ha. rewrite E2 in Hb. destruct (B5 k rl a b K R1 R2 R3 Ha Hb) as (p & P1 & P2 & P3). destruct (U3 _ p P1) as (p' & P4 & P5). exists p'. split; auto. split; [lia|auto].
    + destruct D as [D|[-> ->]]; [|congruence]. destruct (SP' (or_intror D)) as [N1 N2]. destruct (OP i k (rhs1 rl) N1) as [E1 _]. destruct (OP k j (rhs2 rl) N2) as [E2 _]. rewrite E1 in Ha. rewrite E2 in Hb. destruct (OP i j (lhs rl) NE) as [-> ->]. eauto.
  - intros i j x e He. destruct (pair_dec i j l r) as [[-> ->]|NE].
    + destruct (U5 x e He) as [H|(rl & R1 & R2 & R3 & R4 & R5 & R6)]; [|right; left; exists rl; auto 10]. destruct (B6 x e H) as [?|(rl & k & K & R1 & R2 & R3 & R4 & R5 & R6 & R7)]; [left; auto|]. right. right. exists rl, k. repeat (split; auto).
    + destruct (OP i j x NE) as [_ E]. rewrite E in He. destruct (I6 i j x e He) as [?|[(rl & R1 & R2 & R3 & R4 & R5 & R6)|(rl & k & K & R1 & R2 & R3 & R4 & R5 & R6 & R7)]]; [left; auto|right; left; exists rl|right; right; exists rl, k]; repeat (split; auto).
  - intros i j x H. destruct (pair_dec i j l r) as [[-> ->]|NE]; [auto|]. destruct (OP i j x NE) as [E _]. rewrite E in H. apply U8, B8, I8, H.
Qed.

Lemma in_allinst : forall l r ch x c e, In (c, e) (allinst rules mask l r ch x) <->
  exists rl k a b, e = (Some rl, k) /\ c = (a + b + rprob rl)%N /\ In rl rules /\ lhs rl = x /\ rhs2 rl <> 0 /\ mask (rno rl) = false /\ l < k < r /\ prob ch (l, k, rhs1 rl) = Some a /\ prob ch (k, r, rhs2 rl) = Some b.
Proof using.
  clear HL. intros l r ch x c e. unfold allinst. rewrite in_flat_map. split.
  - intros (rl & H1 & H2). unfold bylhs in H1. apply filter_In in H1. destruct H1 as [H1 H3]. apply Nat.eqb_eq in H3. unfold instances in H2. destruct (Nat.eqb_spec (rhs2 rl) 0) as [Z|Z]; [destruct H2|]. destruct (mask (rno rl)) eqn:MK; [destruct H2|]. cbn [orb] in H2. apply in_map_iff in H2. destruct H2 as (k & E & H2). injection E as <- <-. apply filter_In in H2. destruct H2 as [H2 B]. apply in_seq in H2. unfold both in B. apply andb_true_iff in B. destruct B as [Ba Bb]. unfold inst_cost. destruct (prob ch (l, k, rhs1 rl)) as [a|] eqn:PA; [|discriminate]. destruct (prob ch (k, r, rhs2 rl)) as [b|] eqn:PB; [|discriminate].
    exists rl, k, a, b. repeat (split; auto); lia.
  - intros (rl & k & a & b & -> & -> & R1 & R2 & R3 & R4 & K & PA & PB). exists rl. split; [apply filter_In; split; auto; now apply Nat.eqb_eq|]. unfold instances. apply Nat.eqb_neq in R3. rewrite R3, R4. cbn [orb]. apply in_map_iff. exists k. split; [unfold inst_cost; now rewrite PA, PB|]. apply filter_In. split; [apply in_seq; lia|]. unfold both. now rewrite PA, PB.
Qed.
Lemma binary_base : forall done l r s0, inv done s0 -> free done l r -> r <= n -> l + 1 < r -> base l r s0 (binary rules nts mask l r s0).
Proof using HL.
  intros done l r [c0 m0] IN FR RN SP. destruct FR as (LR & FR1 & FR2). destruct IN as [I1 I2 I3 I4 I5 I6 I7 I8]. cbn [fst snd] in *.
  assert (B := binary_ok rules mask l r LR n RN c0 m0 (fun x => I1 l r x FR1) I7 (fun i j x H _ => I8 i j x H) (seq 1 (nts - 1)) (seq_NoDup _ _)). unfold binary. destruct (fold_left _ (seq 1 (nts - 1)) (c0, m0)) as [c1 m1]. cbn [fst snd] in B. destruct B as [B1 B2 B3 B4 B5 B6 B7].
  assert (B2' : forall x, prob c1 (l, r, x) = fold_left minp (map fst (allinst rules mask l r c0 x)) None /\ edges c1 (l, r, x) = map snd (allinst rules mask l r c0 x)).
  { intros x. rewrite B2, B3. destruct (in_dec Nat.eq_dec x (rev (seq 1 (nts - 1)))) as [Q|Q]; auto. assert (E : allinst rules mask l r c0 x = []); [|now rewrite E].
    destruct (allinst rules mask l r c0 x) as [|[c e] t] eqn:E; auto. exfalso. assert (H : In (c, e) (allinst rules mask l r c0 x)) by (rewrite E; now left). apply in_allinst in H. destruct H as (rl & k & a & b & _ & _ & R1 & R2 & _). apply Q. rewrite <- in_rev. apply in_seq. specialize (HL rl R1). lia. }
  constructor; cbn [fst snd]; auto.
  - intros x p Hp. destruct (B2' x) as [E _]. rewrite E in Hp. assert (MS := minp_spec (map fst (allinst rules mask l r c0 x)) None). rewrite Hp in MS. destruct MS as ([MS|MS] & _); [discriminate|]. apply in_map_iff in MS. destruct MS as ([c e] & E1 & H). cbn in E1. subst c. apply in_allinst in H. destruct H as (rl & k & a & b & -> & -> & R1 & <- & R3 & R4 & K & PA & PB).
    replace (a + b + rprob rl)%N with (rprob rl + a + b)%N by lia. apply (d_binary _ _ _ _ _ l k r rl a b); auto.
  - intros x c E. lia.
  - intros k rl a b K R1 R2 R3 PA PB. destruct (B2' (lhs rl)) as [E1 E2]. assert (H : In ((a + b + rprob rl)%N, (Some rl, k)) (allinst rules mask l r c0 (lhs rl))) by (apply in_allinst; exists rl, k, a, b; repeat (split; auto); lia).
    assert (MS := minp_spec (map fst (allinst rules mask l r c0 (lhs rl))) None). rewrite <- E1 in MS. destruct (prob c1 (l, r, lhs rl)) as [q|].
    + destruct MS as (_ & _ & MS). exists q. split; auto. split; [specialize (MS _ (in_map fst _ _ H)); cbn in MS; lia|]. rewrite E2. exact (in_map snd _ _ H).
    + destruct MS as [_ MS]. destruct (allinst rules mask l r c0 (lhs rl)); [destruct H|discriminate].
  - intros x e He. right. destruct (B2' x) as [_ E]. rewrite E in He. apply in_map_iff in He. destruct He as ([c e'] & E1 & H). cbn in E1. subst e'. apply in_allinst in H. destruct H as (rl & k & a & b & -> & -> & R1 & R2 & R3 & R4 & K & PA & PB). exists rl, k. rewrite PA, PB. repeat (split; auto); discriminate.
Qed.
(** ---- the cells of single words ---- *)
Lemma word_base : forall done i s0, inv done s0 -> free done i (i + 1) -> base i (i + 1) s0 (fold_left (addtag i) (wordtags lexrules tag lexicallhs i) s0).
Proof using.
  clear HL. intros done i s0 IN FR. destruct FR as (LR & FR1 & _). destruct IN as [I1 I2 I3 I4 I5 I6 I7 I8].
  assert (G : forall l, (forall e, In e l -> In e (wordtags lexrules tag lexicallhs i)) -> let s1 := fold_left (addtag i) (rev l) s0 in
    agree i (i + 1) (fst s1) (fst s0) /\
    (forall x p, prob (fst s1) (i, i + 1, x) = Some p -> In (x, p) l) /\
    (exists new, items (fst s1) = items (fst s0) ++ map (fun x => (i, i + 1, x)) new /\ forall x, In x new <-> prob (fst s1) (i, i + 1, x) <> None) /\
    (forall x c, In (x, c) l -> exists p, prob (fst s1) (i, i + 1, x) = Some p /\ (p <= c)%N /\ In (None, i + 1) (edges (fst s1) (i, i + 1, x))) /\
    (forall x e, In e (edges (fst s1) (i, i + 1, x)) -> e = (None, i + 1) /\ exists c, In (x, c) l) /\
    sane n (snd s1) /\ wider (snd s0) (snd s1) /\ (forall x, prob (fst s1) (i, i + 1, x) <> None -> covers (snd s1) i (i + 1) x)).
  { induction l as [|[y d] l IH]; intros HT.
    - cbn. split; [apply agree_refl|]. split; [intros x p H; rewrite (proj1 (I1 i (i + 1) x FR1)) in H; discriminate|]. split; [exists []; cbn; rewrite app_nil_r; split; auto; intros x; rewrite (proj1 (I1 i (i + 1) x FR1)); split; [intros []|congruence]|]. split; [intros x c []|]. split; [intros x e H; rewrite (proj2 (I1 i (i + 1) x FR1)) in H; destruct H|]. split; auto. split; [apply wider_refl|]. intros x H. rewrite (proj1 (I1 i (i + 1) x FR1)) in H. congruence.
    - cbn [rev]. rewrite fold_left_app. cbn [fold_left]. specialize (IH (fun e He => HT e (or_intror He))). cbn zeta in *. destruct (fold_left (addtag i) (rev l) s0) as [c1 m1]. destruct IH as (H1 & H2 & (new & H3a & H3b) & H4 & H5 & H6 & H7 & H8). unfold addtag. cbn [fst snd] in *.
      change (addedge (updateprob c1 (i, i + 1, y) d) (i, i + 1, y) (i + 1) None) with (push (i, i + 1, y) c1 (d, (None, i + 1))).
      assert (PO : forall x, x <> y -> prob (push (i, i + 1, y) c1 (d, (None, i + 1))) (i, i + 1, x) = prob c1 (i, i + 1, x)). { intros x N. rewrite push_prob. destruct (item_dec _ _) as [Q|Q]; [exfalso; apply N; congruence|auto]. }
      assert (EO : forall x, x <> y -> edges (push (i, i + 1, y) c1 (d, (None, i + 1))) (i, i + 1, x) = edges c1 (i, i + 1, x)). { intros x N. rewrite push_edges. destruct (item_dec _ _) as [Q|Q]; [exfalso; apply N; congruence|auto]. }
      assert (PS : prob (push (i, i + 1, y) c1 (d, (None, i + 1))) (i, i + 1, y) = minp (prob c1 (i, i + 1, y)) d) by (rewrite push_prob; destruct (item_dec _ _); [auto|congruence]).
      assert (ES : edges (push (i, i + 1, y) c1 (d, (None, i + 1))) (i, i + 1, y) = edges c1 (i, i + 1, y) ++ [(None, i + 1)]) by (rewrite push_edges; destruct (item_dec _ _); [auto|congruence]).
      split; [now apply agree_push|]. split.
      { intros x p H. destruct (Nat.eq_dec x y) as [->|N]; [|rewrite PO in H by auto; right; auto]. rewrite PS in H. unfold minp in H. destruct (prob c1 (i, i + 1, y)) as [q|] eqn:Q; [|injection H as <-; now left]. destruct (d <? q)%N; injection H as <-; [now left|right; auto]. }
      split.
      { rewrite push_items, H3a. exists (new ++ if prob c1 (i, i + 1, y) then [] else [y]). split; [rewrite <- app_assoc, map_app; destruct (prob c1 (i, i + 1, y)); auto|]. intros x. rewrite in_app_iff, H3b. destruct (Nat.eq_dec x y) as [->|N].
        - rewrite PS. unfold minp. destruct (prob c1 (i, i + 1, y)); split; try discriminate; auto; [left; discriminate|right; now left].
        - rewrite PO by auto. split; auto. intros [?|Q]; auto. destruct (prob c1 (i, i + 1, y)); [destruct Q|destruct Q as [Q|[]]; congruence]. }
      split.
      { intros x c H. destruct (Nat.eq_dec x y) as [->|N].
        - rewrite PS, ES. destruct H as [E|H]; [injection E as <-|].
          + unfold minp. destruct (prob c1 (i, i + 1, y)) as [q|]; eexists; (split; [reflexivity|]); (split; [|apply in_or_app; right; now left]); [|lia]. destruct (N.ltb_spec d q); lia.
          + destruct (H4 y c H) as (q & Q1 & Q2 & Q3). rewrite Q1. unfold minp. eexists. split; [reflexivity|]. split; [|apply in_or_app; auto]. destruct (N.ltb_spec d q); lia.
        - rewrite PO, EO by auto. destruct H as [E|H]; [congruence|]. auto. }
      split.
      { intros x e H. destruct (Nat.eq_dec x y) as [->|N].
        - rewrite ES in H. apply in_app_or in H. destruct H as [H|[<-|[]]]; [destruct (H5 y e H) as (-> & c & ?); split; auto; exists c; now right|]. split; auto. exists d. now left.
        - rewrite EO in H by auto. destruct (H5 x e H) as (-> & c & ?). split; auto. exists c. now right. }
      split; [apply updatemid_sane; auto; lia|]. split; [eapply wider_trans; [exact H7|apply updatemid_wider]|]. intros x H. destruct (Nat.eq_dec x y) as [->|N]; [apply updatemid_covers|]. rewrite PO in H by auto. apply updatemid_wider. auto. }
  specialize (G (rev (wordtags lexrules tag lexicallhs i)) (fun e He => proj2 (in_rev _ e) He)). cbn zeta in G. rewrite rev_involutive in G. destruct G as (H1 & H2 & H3 & H4 & H5 & H6 & H7 & H8).
  constructor; auto.
  - intros x p H. apply d_word. apply in_wordtags. apply in_rev. auto.
  - intros x c _ T. apply H4. apply -> in_rev. now apply in_wordtags.
  - intros k rl a b K. lia.
  - intros x e H. left. destruct (H5 x e H) as (-> & c & Hc). split; auto. split; auto. exists c. apply in_wordtags. apply in_rev. auto.
Qed.
Lemma cell_ok : forall done l r s0, inv done s0 -> free done l r -> r <= n -> l + 1 < r -> exists F s', (forall fuel, F <= fuel -> cell rules nts mask prio fuel s0 l r = Some s') /\ inv (upd done l r) s'.
Proof using HL. intros done l r s0 I F RN SP. exact (close_cell done l r s0 _ I F (binary_base done l r s0 I F RN SP)). Qed.
Lemma word_ok : forall done i s0, inv done s0 -> free done i (i + 1) -> exists F b s', (forall fuel, F <= fuel -> word rules mask prio lexrules tag lexicallhs fuel s0 i = Some (b, s')) /\
  (b = true -> inv (upd done i (i + 1)) s') /\ (b = false -> s' = s0 /\ forall x c, ~ tagged i x c) /\ (b = true -> exists x c, tagged i x c).
Proof using.
  clear HL. intros done i s0 I F. unfold word. destruct (wordtags lexrules tag lexicallhs i) as [|[y d] t] eqn:W.
  - exists 0, false, s0. split; auto. split; [discriminate|]. split; [|discriminate]. intros _. split; auto. intros x c T. apply in_wordtags in T. rewrite W in T. destruct T.
  - rewrite <- W. destruct (close_cell done i (i + 1) s0 _ I F (word_base done i s0 I F)) as (G & s' & H1 & H2). exists G, true, s'. split; [intros fuel L; now rewrite H1|]. split; auto. split; [discriminate|]. intros _. exists y, d. apply in_wordtags. rewrite W. now left.
Qed.
Lemma inv_ext : forall d d' s, (forall i j, d i j <-> d' i j) -> inv d s -> inv d' s.
Proof using.
  clear HL.   intros d d' s E [I1 I2 I3 I4 I5 I6 I7 I8]. constructor; auto.
  - intros i j x N. apply I1. rewrite E. auto.
  - intros i x c D. apply I3. now apply E.
  - intros i j r p D. apply I4. now apply E.
  - intros i k j r a b D. apply I5. now apply E.
Qed.
(** the words before i *)
Definition words_done (k : nat) : nat -> nat -> Prop := fun i j => i < k /\ j = i + 1.
Lemma populatepos_ok : forall m k s0, k + m = n -> inv (words_done k) s0 -> exists F b s', (forall fuel, F <= fuel -> populatepos rules mask prio lexrules tag lexicallhs fuel (seq k m) s0 = Some (b, s')) /\
  (b = true -> inv (words_done n) s') /\ (b = true <-> forall i, k <= i < n -> exists x c, tagged i x c).
Proof using.
  clear HL. induction m as [|m IH]; intros k s0 E I.
  - exists 0, true, s0. cbn. split; auto. replace k with n in * by lia. split; auto. split; auto. intros _ i Hi. lia.
  - destruct (word_ok (words_done k) k s0 I) as (F & b & s1 & H1 & H2 & H3 & H4).
    { split; [lia|]. split; [intros [? ?]; lia|]. intros i j [? ?]. lia. }
    destruct b.
    + destruct (IH (S k) s1) as (F' & b' & s' & G1 & G2 & G3); [lia| |].
      { eapply inv_ext; [|apply H2; auto]. intros i j. unfold upd, words_done. lia. }
      exists (Nat.max F F'), b', s'. split; [intros fuel L; cbn [seq populatepos]; rewrite H1 by lia; apply G1; lia|]. split; auto. rewrite G3. split; [|intros H i Hi; apply H; lia]. intros H i Hi. destruct (Nat.eq_dec i k) as [->|N]; [auto|apply H; lia].
    + exists F, false, s1. split; [intros fuel L; cbn [seq populatepos]; now rewrite H1 by lia|]. split; [discriminate|]. split; [discriminate|]. intros H. destruct (H k) as (x & c & T); [lia|]. destruct (H3 eq_refl) as [_ N]. destruct (N x c T).
Qed.
(** the cells with a span below s, and those that start before l *)
Definition cells_done (s l : nat) : nat -> nat -> Prop := fun i j => i < j /\ j <= n /\ (j - i < s \/ (j - i = s /\ i < l)).
Lemma span_ok : forall s m l s0, 2 <= s -> s <= n -> l + m = n - s + 1 -> inv (cells_done s l) s0 -> exists F s', (forall fuel, F <= fuel -> cells rules nts mask prio fuel (map (fun left => (left, left + s)) (seq l m)) s0 = Some s') /\ inv (cells_done (s + 1) 0) s'.
Proof using HL.
  intros s. induction m as [|m IH]; intros l s0 S2 SN E I.
  - exists 0, s0. split; auto. eapply inv_ext; [|exact I]. intros i j. unfold cells_done. lia.
  - destruct (cell_ok (cells_done s l) l (l + s) s0 I) as (F & s1 & H1 & H2); try lia.
    { unfold free, cells_done. split; [lia|]. split; [lia|]. intros i j H. lia. }
    destruct (IH (S l) s1) as (F' & s' & G1 & G2); auto; [lia| |].
    { eapply inv_ext; [|exact H2]. intros i j. unfold upd, cells_done. lia. }
    exists (Nat.max F F'), s'. split; auto. intros fuel L. cbn [seq map cells]. rewrite H1 by lia. apply G1. lia.
Qed.
Lemma cells_app : forall fuel a b s, cells rules nts mask prio fuel (a ++ b) s = match cells rules nts mask prio fuel a s with Some s' => cells rules nts mask prio fuel b s' | None => None end.
Proof using. intros fuel. induction a as [|[l r] a IH]; intros b s; cbn; auto. destruct (cell _ _ _ _ _ _ _ _); auto. Qed.
Lemma spans_ok : forall m s s0, 2 <= s -> s + m = n + 1 -> inv (cells_done s 0) s0 -> exists F s', (forall fuel, F <= fuel -> cells rules nts mask prio fuel (flat_map (spancells n) (seq s m)) s0 = Some s') /\ inv (cells_done (n + 1) 0) s'.
Proof using HL.
  induction m as [|m IH]; intros s s0 S2 E I.
  - exists 0, s0. split; auto. replace (n + 1) with s by lia. auto.
  - destruct (span_ok s (n - s + 1) 0 s0) as (F & s1 & H1 & H2); auto; try lia. destruct (IH (S s) s1) as (F' & s' & G1 & G2); auto; try lia; [replace (S s) with (s + 1) by lia; auto|].
    exists (Nat.max F F'), s'. split; auto. intros fuel L. cbn [seq flat_map]. rewrite cells_app. unfold spancells at 1. rewrite H1 by lia. apply G1. lia.
Qed.
Lemma inv_start : inv (words_done 0) (emptychart, initmid n).
Proof using.
  constructor; cbn [fst snd emptychart prob edges].
  - auto.
  - discriminate.
  - intros i x c [H _]. lia.
  - intros i j r p [H _]. lia.
  - intros i k j r a b [H _]. lia.
  - intros i j x e [].
  - intros i x Hi. cbn. lia.
  - congruence.
Qed.
Definition all_done : nat -> nat -> Prop := fun i j => i < j <= n.
Theorem parse_total : exists F b ch, (forall fuel, F <= fuel -> parse rules nts mask prio lexrules tag lexicallhs fuel n = Some (b, ch)) /\
  (b = true <-> forall i, i < n -> exists x c, tagged i x c) /\ (b = true -> exists m, inv all_done (ch, m)).
Proof using HL.
  destruct (populatepos_ok n 0 _ eq_refl inv_start) as (F & b & s & H1 & H2 & H3). destruct b.
  - destruct (Nat.leb_spec n 1) as [L|L].
    + exists F, true, (fst s). split; [intros fuel Hf; unfold parse; rewrite H1 by lia; replace (n - 1) with 0 by lia; reflexivity|]. split; [rewrite H3; split; intros H i Hi; apply H; lia|]. intros _. exists (snd s). rewrite <- surjective_pairing. eapply inv_ext; [|apply H2; auto]. intros i j. unfold words_done, all_done. lia.
    + destruct (spans_ok (n - 1) 2 s) as (F' & s' & G1 & G2); try lia; [eapply inv_ext; [|apply H2; auto]; intros i j; unfold words_done, cells_done; lia|].
      exists (Nat.max F F'), true, (fst s'). split; [intros fuel Hf; unfold parse; rewrite H1 by lia; rewrite G1 by lia; reflexivity|]. split; [rewrite H3; split; intros H i Hi; apply H; lia|]. intros _. exists (snd s'). rewrite <- surjective_pairing. eapply inv_ext; [|exact G2]. intros i j. unfold cells_done, all_done. lia.
  - exists F, false, (fst s). split; [intros fuel Hf; unfold parse; rewrite H1 by lia; reflexivity|]. split; [rewrite H3; split; intros H i Hi; apply H; lia|discriminate].
Qed.
(** ---- what the invariant means for the whole chart ---- *)
Lemma derives_pos : forall i j x c, derives i j x c -> i < j.
Proof using. clear HL. induction 1; lia. Qed.
Lemma inv_complete : forall ch m, inv all_done (ch, m) -> forall i j x c, derives i j x c -> j <= n -> exists p, prob ch (i, j, x) = Some p /\ (p <= c)%N.
Proof using.
  clear HL. intros ch m [I1 I2 I3 I4 I5 I6 I7 I8]. cbn [fst snd] in *. induction 1 as [i x c T|i j r c R1 R2 R3 D IH|i k j r a b R1 R2 R3 D1 IH1 D2 IH2]; intros HJ.
  - destruct (I3 i x c) as (p & P1 & P2 & _); [unfold all_done; lia|auto|]. eauto.
  - assert (K := derives_pos _ _ _ _ D). destruct (IH HJ) as (p & P1 & P2). destruct (I4 i j r p) as (q & Q1 & Q2 & _); auto; [unfold all_done; lia|]. exists q. split; auto. lia.
  - assert (K1 := derives_pos _ _ _ _ D1). assert (K2 := derives_pos _ _ _ _ D2). destruct IH1 as (p & P1 & P2); [lia|]. destruct (IH2 HJ) as (p' & P1' & P2'). destruct (I5 i k j r p p') as (q & Q1 & Q2 & _); auto; [unfold all_done; lia|]. exists q. split; auto. lia.
Qed.
Lemma inv_edges : forall ch m, inv all_done (ch, m) -> forall i j x e, i < j <= n -> In e (edges ch (i, j, x)) <-> valid_edge rules mask lexrules tag lexicallhs i j x e.
Proof using.
  clear HL. intros ch m I i j x e IJ. assert (CO := inv_complete ch m I). destruct I as [I1 I2 I3 I4 I5 I6 I7 I8]. cbn [fst snd] in *. split.
  - intros H. destruct (I6 i j x e H) as [(-> & -> & c & T)|[(r & -> & R1 & R2 & R3 & R4 & R5)|(r & k & K & -> & R1 & R2 & R3 & R4 & R5 & R6)]].
    + eapply v_word; eauto.
    + apply v_unary; auto. destruct (prob ch (i, j, rhs1 r)) as [p|] eqn:P; [|congruence]. exists p. auto.
    + apply v_binary; auto; [destruct (prob ch (i, k, rhs1 r)) as [p|] eqn:P|destruct (prob ch (k, j, rhs2 r)) as [p|] eqn:P]; try congruence; exists p; auto.
  - intros [c -> T|r R1 R2 R3 R4 (c & D)|r k R1 R2 R3 R4 (a & D1) (b & D2)].
    + destruct (I3 i x c) as (p & _ & _ & ?); auto.
    + destruct (CO _ _ _ _ D) as (p & P1 & _); [lia|]. rewrite <- R3. destruct (I4 i j r p) as (q & _ & _ & ?); auto.
    + assert (K1 := derives_pos _ _ _ _ D1). assert (K2 := derives_pos _ _ _ _ D2). destruct (CO _ _ _ _ D1) as (p & P1 & _); [lia|]. destruct (CO _ _ _ _ D2) as (p' & P1' & _); [lia|]. rewrite <- R3. destruct (I5 i k j r p p') as (q & _ & _ & ?); auto.
Qed.
End Chart.
