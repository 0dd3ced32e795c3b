(** Proofs for C41 (1): one cell *)
From Coq Require Import List Bool Arith NArith ZArith Lia Permutation.
From Verif Require Import CkyModel CkySpec.
Import ListNotations.
Open Scope list_scope.
Open Scope nat_scope.

Lemma ieqb_eq : forall a b, ieqb a b = true <-> a = b.
Proof. intros [[i j] x] [[i' j'] x']. unfold ieqb. rewrite !andb_true_iff, !Nat.eqb_eq. split; [intros [[-> ->] ->]; auto|intros E; injection E; auto]. Qed.
Lemma ieqb_refl : forall a, ieqb a a = true.
Proof. intros. now apply ieqb_eq. Qed.
Lemma ieqb_neq : forall a b, a <> b -> ieqb a b = false.
Proof. intros a b H. destruct (ieqb a b) eqn:E; auto. apply ieqb_eq in E. contradiction. Qed.
Lemma iput_same : forall {X} (f : item -> X) it x, iput f it x it = x.
Proof. intros. unfold iput. now rewrite ieqb_refl. Qed.
Lemma iput_other : forall {X} (f : item -> X) it x u, u <> it -> iput f it x u = f u.
Proof. intros. unfold iput. now rewrite ieqb_neq. Qed.
Lemma item_dec : forall a b : item, {a = b} + {a <> b}.
Proof. repeat decide equality. Defined.

(** the minimum *)
Definition minp (a : option N) (p : N) : option N := match a with None => Some p | Some q => Some (if (p <? q)%N then p else q) end.
Lemma update_prob : forall ch it p u, prob (updateprob ch it p) u = if item_dec u it then minp (prob ch it) p else prob ch u.
Proof.
  intros ch it p u. unfold updateprob, minp. destruct (item_dec u it) as [->|N]; destruct (prob ch it) as [q|] eqn:E; try destruct (p <? q)%N; cbn; rewrite ?iput_same, ?iput_other by auto; auto.
Qed.
Lemma update_edges : forall ch it p, edges (updateprob ch it p) = edges ch.
Proof. intros. unfold updateprob. destruct (prob ch it); auto. destruct (_ <? _)%N; auto. Qed.
Lemma update_items : forall ch it p, items (updateprob ch it p) = items ch ++ (if prob ch it then [] else [it]).
Proof. intros. unfold updateprob. destruct (prob ch it); cbn; rewrite ?app_nil_r; auto. destruct (_ <? _)%N; auto. Qed.
(** add an edge with its probability *)
Definition push (it : item) (ch : chart) (pe : N * (option rule * nat)) : chart :=
  addedge (updateprob ch it (fst pe)) it (snd (snd pe)) (fst (snd pe)).
Lemma push_prob : forall it ch pe u, prob (push it ch pe) u = if item_dec u it then minp (prob ch it) (fst pe) else prob ch u.
Proof. intros. unfold push. cbn. apply update_prob. Qed.
Lemma push_edges : forall it ch pe u, edges (push it ch pe) u = if item_dec u it then edges ch it ++ [snd pe] else edges ch u.
Proof. intros it ch [p [r m]] u. unfold push. cbn. rewrite !update_edges. destruct (item_dec u it) as [->|N]; [now rewrite iput_same|now rewrite iput_other]. Qed.
Lemma push_items : forall it ch pe, items (push it ch pe) = items ch ++ (if prob ch it then [] else [it]).
Proof. intros. unfold push. cbn. apply update_items. Qed.
Definition pushes (it : item) (l : list (N * (option rule * nat))) (ch : chart) : chart := fold_left (push it) l ch.
Lemma pushes_prob : forall it l ch u, prob (pushes it l ch) u = if item_dec u it then fold_left minp (map fst l) (prob ch it) else prob ch u.
Proof.
  intros it l. induction l as [|pe l IH]; intros ch u; cbn; [destruct (item_dec u it); subst; auto|]. unfold pushes in IH. rewrite IH. rewrite !push_prob. destruct (item_dec it it); [|congruence]. destruct (item_dec u it); auto.
Qed.
Lemma pushes_edges : forall it l ch u, edges (pushes it l ch) u = if item_dec u it then edges ch it ++ map snd l else edges ch u.
Proof.
  intros it l. induction l as [|pe l IH]; intros ch u; cbn; [rewrite app_nil_r; destruct (item_dec u it); subst; auto|]. unfold pushes in IH. rewrite IH. rewrite !push_edges. destruct (item_dec it it); [|congruence]. destruct (item_dec u it); auto. now rewrite <- app_assoc.
Qed.
Lemma pushes_items : forall it l ch, items (pushes it l ch) = items ch ++ (if prob ch it then [] else match l with [] => [] | _ => [it] end).
Proof.
  intros it l. induction l as [|pe l IH]; intros ch; cbn; [destruct (prob ch it); now rewrite app_nil_r|]. unfold pushes in IH. rewrite IH, push_items, push_prob. destruct (item_dec it it); [|congruence]. unfold minp. destruct (prob ch it); now rewrite <- app_assoc.
Qed.
Lemma minp_spec : forall l a, match fold_left minp l a with
  | None => a = None /\ l = []
  | Some p => (a = Some p \/ In p l) /\ (forall q, a = Some q -> (p <= q)%N) /\ (forall q, In q l -> (p <= q)%N)
  end.
Proof.
  induction l as [|x l IH]; intros a; cbn; [destruct a; cbn; auto; split; auto; split; [intros q E; injection E as <-; lia|intros q []]|].
  specialize (IH (minp a x)). destruct (fold_left minp l (minp a x)) as [p|]; [|destruct IH as [E _]; destruct a; discriminate]. destruct IH as (A & B & C). unfold minp in *. destruct a as [y|].
  - destruct (N.ltb_spec x y) as [L|L]; specialize (B _ eq_refl); (split; [destruct A as [A|A]; [injection A as <-; auto|auto]|split; [intros q E; injection E as <-; lia|intros q [<-|Hq]; [lia|auto]]]).
  - specialize (B _ eq_refl). split; [destruct A as [A|A]; [injection A as <-; auto|auto]|]. split; [discriminate|]. intros q [<-|Hq]; [lia|auto].
Qed.
Lemma minp_finite : forall l a, fold_left minp l a <> None <-> a <> None \/ l <> [].
Proof.
  intros l a. assert (H := minp_spec l a). destruct (fold_left minp l a) as [p|] eqn:E; [|destruct H as [-> ->]; split; [congruence|intros [?|?]; auto]]. split; [|discriminate]. intros _. destruct H as ([->|H] & _); [left; discriminate|right; intros ->; destruct H].
Qed.
(** ---- filters of ranges ---- *)
Lemma filter_none : forall {X} (f : X -> bool) l, (forall x, In x l -> f x = false) -> filter f l = [].
Proof. induction l as [|x l IH]; intros H; cbn; auto. rewrite (H x (or_introl eq_refl)). apply IH. intros; apply H; now right. Qed.
Lemma filter_range : forall f b m a n, b <= a -> a + n <= b + m -> (forall x, b <= x < b + m -> f x = true -> a <= x < a + n) -> filter f (seq a n) = filter f (seq b m).
Proof.
  intros f b m a n H1 H2 H. replace m with ((a - b) + (n + (m - (a - b) - n))) by lia. rewrite !seq_app, !filter_app. replace (b + (a - b)) with a by lia.
  rewrite (filter_none f (seq b (a - b))), (filter_none f (seq (a + n) _)), app_nil_r; auto; intros x Hx; apply in_seq in Hx; destruct (f x) eqn:E; auto; assert (X := H x); lapply X; [intros Y; specialize (Y E); lia|lia|intros Y; specialize (Y E); lia|lia].
Qed.
Lemma map_seq_add : forall a n, map (fun k => a + k) (seq 0 n) = seq a n.
Proof.
  intros a n. revert a. induction n as [|n IH]; intros a; cbn; auto. rewrite Nat.add_0_r. f_equal. rewrite <- (IH (S a)), <- seq_shift, map_map. apply map_ext. intros k. lia.
Qed.

(** ---- the midfilter ---- *)
Definition sane (n : nat) (m : midfilter) : Prop := forall i x, i <= n -> (Z.of_nat i < minright m i x)%Z /\ (minleft m i x < Z.of_nat i)%Z.
Definition covers (m : midfilter) (i j x : nat) : Prop :=
  (minright m i x <= Z.of_nat j <= maxright m i x)%Z /\ (maxleft m j x <= Z.of_nat i <= minleft m j x)%Z.
Definition wider (m m' : midfilter) : Prop := forall i j x, covers m i j x -> covers m' i j x.
Ltac mid_tac := unfold updatemid, put2; cbn; repeat match goal with |- context [(?a >? ?b)%Z] => destruct (Z.gtb_spec a b) | |- context [(?a <? ?b)%Z] => destruct (Z.ltb_spec a b) end.
Lemma updatemid_sane : forall n m l r x, l < r -> sane n m -> sane n (updatemid m l r x).
Proof.
  intros n m l r x H S i y HI. destruct (S i y HI) as [A B]. unfold updatemid, put2. cbn. split.
  - destruct (Z.ltb_spec (Z.of_nat r) (minright m l x)); auto. destruct ((i =? l) && (y =? x)) eqn:E; auto. apply andb_true_iff in E. destruct E as [E _]. apply Nat.eqb_eq in E. lia.
  - destruct (Z.of_nat l >? minleft m r x)%Z; auto. destruct ((i =? r) && (y =? x)) eqn:E; auto. apply andb_true_iff in E. destruct E as [E _]. apply Nat.eqb_eq in E. lia.
Qed.
Lemma updatemid_wider : forall m l r x, wider m (updatemid m l r x).
Proof.
  intros m l r x i j y [[A B] [C D]]. unfold covers, updatemid, put2. cbn.
  assert (E1 : (i =? l) && (y =? x) = true -> i = l /\ y = x) by (rewrite andb_true_iff, !Nat.eqb_eq; auto). assert (E2 : (j =? r) && (y =? x) = true -> j = r /\ y = x) by (rewrite andb_true_iff, !Nat.eqb_eq; auto).
  rewrite !Z.gtb_ltb. destruct (Z.ltb_spec (Z.of_nat r) (minright m l x)), (Z.ltb_spec (maxright m l x) (Z.of_nat r)), (Z.ltb_spec (Z.of_nat l) (maxleft m r x)), (Z.ltb_spec (minleft m r x) (Z.of_nat l)); destruct ((i =? l) && (y =? x)) eqn:F1; destruct ((j =? r) && (y =? x)) eqn:F2; try (destruct (E1 eq_refl) as [-> ->]); try (destruct (E2 eq_refl) as [-> ?]); subst; lia.
Qed.
Lemma updatemid_covers : forall m l r x, covers (updatemid m l r x) l r x.
Proof.
  intros m l r x. unfold covers, updatemid, put2. cbn. rewrite !Z.gtb_ltb. destruct (Z.ltb_spec (Z.of_nat r) (minright m l x)), (Z.ltb_spec (maxright m l x) (Z.of_nat r)), (Z.ltb_spec (Z.of_nat l) (maxleft m r x)), (Z.ltb_spec (minleft m r x) (Z.of_nat l)); rewrite ?Nat.eqb_refl; cbn; lia.
Qed.
Lemma wider_refl : forall m, wider m m.
Proof. intros m i j x H. exact H. Qed.
Lemma wider_trans : forall a b c, wider a b -> wider b c -> wider a c.
Proof. intros a b c H1 H2 i j x H. auto. Qed.

Section Cell.
Variables (rules : list rule) (nts : nat) (mask : nat -> bool).
Variables left right : nat.
Hypothesis LR : left < right.
Variable n : nat.
Hypothesis RN : right <= n.
Notation here := (fun x => (left, right, x)).
Definition other (it : item) : Prop := forall x, it <> (left, right, x).
(** ---- binary rules ---- *)
Definition both (ch : chart) (r : rule) (mid : nat) : bool := finite (prob ch (left, mid, rhs1 r)) && finite (prob ch (mid, right, rhs2 r)).
Definition inst_cost (ch : chart) (r : rule) (mid : nat) : N :=
  match prob ch (left, mid, rhs1 r), prob ch (mid, right, rhs2 r) with Some a, Some b => (a + b + rprob r)%N | _, _ => 0%N end.
Definition instances (ch : chart) (r : rule) : list (N * (option rule * nat)) :=
  if (rhs2 r =? 0) || mask (rno r) then []
  else map (fun mid => (inst_cost ch r mid, (Some r, mid))) (filter (both ch r) (seq (left + 1) (right - left - 1))).
Definition agree (ch ch0 : chart) : Prop := forall it, other it -> prob ch it = prob ch0 it /\ edges ch it = edges ch0 it.
Lemma agree_refl : forall ch, agree ch ch.
Proof. intros ch it _. auto. Qed.
Lemma agree_trans : forall a b c, agree a b -> agree b c -> agree a c.
Proof. intros a b c H1 H2 it O. destruct (H1 it O), (H2 it O). split; congruence. Qed.
Lemma agree_push : forall x pe ch ch0, agree ch ch0 -> agree (push (here x) ch pe) ch0.
Proof. intros x pe ch ch0 A it O. rewrite push_prob, push_edges. destruct (item_dec it (here x)) as [E|E]; [exfalso; exact (O x E)|apply A; auto]. Qed.
Lemma agree_pushes : forall x l ch ch0, agree ch ch0 -> agree (pushes (here x) l ch) ch0.
Proof. intros x l. induction l as [|pe l IH]; intros ch ch0 A; cbn; auto. apply IH. now apply agree_push. Qed.
Lemma other_left : forall mid x, left < mid < right -> other (left, mid, x).
Proof. intros mid x H y E. injection E as E _. lia. Qed.
Lemma other_right : forall mid x, left < mid < right -> other (mid, right, x).
Proof. intros mid x H y E. injection E as E _. lia. Qed.
Lemma binmid_eq : forall ch ch0 r mid, agree ch ch0 -> left < mid < right ->
  binmid left right r ch mid = if both ch0 r mid then push (here (lhs r)) ch (inst_cost ch0 r mid, (Some r, mid)) else ch.
Proof.
  intros ch ch0 r mid A H. unfold binmid, both, inst_cost. destruct (A _ (other_left mid (rhs1 r) H)) as [-> _]. destruct (A _ (other_right mid (rhs2 r) H)) as [-> _]. destruct (prob ch0 (left, mid, rhs1 r)); cbn; auto. destruct (prob ch0 (mid, right, rhs2 r)); auto.
Qed.
Lemma binmids_eq : forall ch0 r mids ch, agree ch ch0 -> (forall k, In k mids -> left < k < right) ->
  fold_left (binmid left right r) mids ch = pushes (here (lhs r)) (map (fun mid => (inst_cost ch0 r mid, (Some r, mid))) (filter (both ch0 r) mids)) ch.
Proof.
  intros ch0 r. induction mids as [|k mids IH]; intros ch A H; auto. cbn [fold_left filter]. rewrite (binmid_eq ch ch0) by (auto; apply H; now left). destruct (both ch0 r k).
  - cbn [map pushes fold_left]. apply IH; [apply agree_push; auto|intros; apply H; now right].
  - apply IH; auto. intros; apply H; now right.
Qed.
(** the filter does not miss a split *)
Definition covered_below (m : midfilter) (ch : chart) : Prop := forall i j x, prob ch (i, j, x) <> None -> (i, j) <> (left, right) -> covers m i j x.
Lemma midrange_in : forall m r k, sane n m -> In k (midrange mask left right m r) -> left < k < right.
Proof.
  intros m r k S H. unfold midrange in H. destruct (_ || mask (rno r)); [destruct H|]. apply in_map_iff in H. destruct H as (d & <- & Hd). apply in_seq in Hd. destruct (S left (rhs1 r) ltac:(lia)) as [A _]. destruct (S right (rhs2 r) RN) as [_ B]. lia.
Qed.
Lemma midrange_eq : forall m ch0 r, sane n m -> covered_below m ch0 -> rhs2 r <> 0 -> mask (rno r) = false ->
  filter (both ch0 r) (midrange mask left right m r) = filter (both ch0 r) (seq (left + 1) (right - left - 1)).
Proof.
  intros m ch0 r S CO R2 MK.
  assert (BO : forall k, left + 1 <= k < left + 1 + (right - left - 1) -> both ch0 r k = true -> covers m left k (rhs1 r) /\ covers m k right (rhs2 r)).
  { intros k Hk B. unfold both in B. apply andb_true_iff in B. destruct B as [B1 B2]. split; apply CO.
    - intros E. rewrite E in B1. discriminate.
    - intros E. injection E as E. lia.
    - intros E. rewrite E in B2. discriminate.
    - intros E. injection E as E. lia. }
  destruct (S left (rhs1 r) ltac:(lia)) as [A _]. destruct (S right (rhs2 r) RN) as [_ B]. unfold midrange. apply Nat.eqb_neq in R2. rewrite R2, MK. cbn [orb]. rewrite orb_false_r. rewrite Z.geb_leb.
  destruct (Z.leb_spec (Z.of_nat right) (minright m left (rhs1 r))) as [L|L]; cbn [orb].
  { symmetry. apply filter_none. intros k Hk. apply in_seq in Hk. destruct (both ch0 r k) eqn:E; auto. destruct (BO k Hk E) as [[? ?] [? ?]]. lia. }
  destruct (Z.ltb_spec (minleft m right (rhs2 r)) (minright m left (rhs1 r))) as [L2|L2]; cbn [orb].
  { symmetry. apply filter_none. intros k Hk. apply in_seq in Hk. destruct (both ch0 r k) eqn:E; auto. destruct (BO k Hk E) as [[? ?] [? ?]]. lia. }
  rewrite map_seq_add. set (mi := Z.max (minright m left (rhs1 r)) (maxleft m right (rhs2 r))). set (ma := Z.min (maxright m left (rhs1 r)) (minleft m right (rhs2 r))).
  destruct (Z_le_gt_dec mi ma) as [L3|L3].
  - apply filter_range; [lia|lia|]. intros k Hk E. destruct (BO k Hk E) as [[? ?] [? ?]]. lia.
  - replace (Z.to_nat (ma + 1 - mi)) with 0 by lia. cbn [seq filter]. symmetry. apply filter_none. intros k Hk. apply in_seq in Hk. destruct (both ch0 r k) eqn:E; auto. destruct (BO k Hk E) as [[? ?] [? ?]]. lia.
Qed.
Lemma binrule_eq : forall m ch0 ch r, agree ch ch0 -> sane n m -> covered_below m ch0 -> binrule mask left right m ch r = pushes (here (lhs r)) (instances ch0 r) ch.
Proof.
  intros m ch0 ch r A S CO. unfold binrule. rewrite (binmids_eq ch0 r _ ch A) by (intros k Hk; eapply midrange_in; eauto). unfold instances. destruct (Nat.eqb_spec (rhs2 r) 0) as [E|E]; cbn [orb].
  - unfold midrange. rewrite E. reflexivity.
  - destruct (mask (rno r)) eqn:MK; [unfold midrange; rewrite MK, orb_true_r; reflexivity|]. rewrite midrange_eq; auto.
Qed.
Lemma pushes_app : forall it l1 l2 ch, pushes it (l1 ++ l2) ch = pushes it l2 (pushes it l1 ch).
Proof. intros. unfold pushes. apply fold_left_app. Qed.
Lemma binrules_eq : forall m ch0 x rs ch, (forall r, In r rs -> lhs r = x) -> agree ch ch0 -> sane n m -> covered_below m ch0 ->
  fold_left (binrule mask left right m) rs ch = pushes (here x) (flat_map (instances ch0) rs) ch.
Proof.
  intros m ch0 x. induction rs as [|r rs IH]; intros ch HL A S CO; auto. cbn [fold_left flat_map]. rewrite (binrule_eq m ch0 ch r A S CO), (HL r (or_introl eq_refl)), pushes_app. apply IH; auto; [intros; apply HL; now right|]. now apply agree_pushes.
Qed.
Definition allinst (ch : chart) (x : nat) : list (N * (option rule * nat)) := flat_map (instances ch) (bylhs rules x).
(** the state after the binary rules for the labels in [xs] *)
Record bin_ok (ch0 : chart) (m0 : midfilter) (xs : list nat) (ch : chart) (m : midfilter) : Prop := {
  b_agree : agree ch ch0;
  b_prob : forall x, prob ch (here x) = if in_dec Nat.eq_dec x xs then fold_left minp (map fst (allinst ch0 x)) None else None;
  b_edges : forall x, edges ch (here x) = if in_dec Nat.eq_dec x xs then map snd (allinst ch0 x) else [];
  b_items : exists new, items ch = items ch0 ++ map here new /\ forall x, In x new <-> prob ch (here x) <> None;
  b_sane : sane n m;
  b_wider : wider m0 m;
  b_covers : forall x, prob ch (here x) <> None -> covers m left right x }.
Lemma binary_ok : forall ch0 m0 , (forall x, prob ch0 (here x) = None /\ edges ch0 (here x) = []) -> sane n m0 -> covered_below m0 ch0 ->
  forall xs, NoDup xs -> bin_ok ch0 m0 (rev xs) (fst (fold_left (binlhs rules mask left right) xs (ch0, m0))) (snd (fold_left (binlhs rules mask left right) xs (ch0, m0))).
Proof using LR RN.
  intros ch0 m0 EM S0 CO xs ND. rewrite <- (rev_involutive xs) at 2 3. apply NoDup_rev in ND. induction (rev xs) as [|x ys IH]; clear xs.
  - cbn. constructor; auto; [apply agree_refl|intros x; apply EM|intros x; apply EM| |apply wider_refl|intros x H; exfalso; apply H; apply EM]. exists []. cbn. rewrite app_nil_r. split; auto. intros x. split; [intros []|intros H; apply H; apply EM].
  - inversion ND as [|? ? N1 N2]; subst. specialize (IH N2). cbn [rev]. rewrite fold_left_app. cbn [fold_left]. destruct (fold_left (binlhs rules mask left right) (rev ys) (ch0, m0)) as [ch m]. cbn [fst snd] in IH. destruct IH as [A P E (new & I1 & I2) S W CV].
    unfold binlhs. assert (CB : covered_below m ch0) by (intros i j y H1 H2; apply W; auto). rewrite (binrules_eq m ch0 x (bylhs rules x) ch) by (auto; intros r Hr; apply filter_In in Hr; apply Nat.eqb_eq; tauto). fold (allinst ch0 x). cbn [fst snd].
    assert (PX : prob ch (here x) = None) by (rewrite P; destruct (in_dec Nat.eq_dec x ys); [contradiction|auto]). assert (EX : edges ch (here x) = []) by (rewrite E; destruct (in_dec Nat.eq_dec x ys); [contradiction|auto]).
    assert (PN : prob (pushes (here x) (allinst ch0 x) ch) (here x) = fold_left minp (map fst (allinst ch0 x)) None). { rewrite pushes_prob, PX. destruct (item_dec (here x) (here x)); [auto|congruence]. }
    assert (PO : forall y, y <> x -> prob (pushes (here x) (allinst ch0 x) ch) (here y) = prob ch (here y)). { intros y Hy. rewrite pushes_prob. destruct (item_dec (here y) (here x)) as [Q|Q]; [injection Q as ->; contradiction|auto]. }
    constructor.
    + now apply agree_pushes.
    + intros y. destruct (Nat.eq_dec y x) as [->|NE]; [rewrite PN; destruct (in_dec Nat.eq_dec x (x :: ys)) as [|Q]; [auto|exfalso; apply Q; now left]|]. rewrite PO, P by auto. destruct (in_dec Nat.eq_dec y ys) as [Q|Q], (in_dec Nat.eq_dec y (x :: ys)) as [Q'|Q']; auto; [exfalso; apply Q'; now right|destruct Q' as [Q'|Q']; [congruence|contradiction]].
    + intros y. rewrite pushes_edges. destruct (item_dec (here y) (here x)) as [Q|Q].
      * injection Q as ->. rewrite EX. destruct (in_dec Nat.eq_dec x (x :: ys)) as [|Q]; [auto|exfalso; apply Q; now left].
      * assert (y <> x) by congruence. rewrite E. destruct (in_dec Nat.eq_dec y ys) as [Q1|Q1], (in_dec Nat.eq_dec y (x :: ys)) as [Q2|Q2]; auto; [exfalso; apply Q2; now right|destruct Q2 as [Q2|Q2]; [congruence|contradiction]].
    + rewrite pushes_items, PX, I1. exists (match allinst ch0 x with [] => new | _ => new ++ [x] end). split.
      * destruct (allinst ch0 x); [now rewrite app_nil_r|]. now rewrite map_app, app_assoc.
      * intros y. destruct (Nat.eq_dec y x) as [->|NE].
        { rewrite PN, minp_finite. destruct (allinst ch0 x) as [|z l]; cbn [map].
          - rewrite I2, PX. split; [congruence|intros [?|?]; congruence].
          - rewrite in_app_iff. split; [intros _; right; discriminate|intros _; right; now left]. }
        { rewrite PO, <- I2 by auto. destruct (allinst ch0 x); [tauto|]. rewrite in_app_iff. cbn. split; [intros [?|[?|[]]]; auto; congruence|auto]. }
    + destruct (_ && _); [now apply updatemid_sane|auto].
    + destruct (_ && _); [eapply wider_trans; [exact W|apply updatemid_wider]|auto].
    + intros y H. rewrite PX. cbn [finite negb andb]. destruct (Nat.eq_dec y x) as [->|NE].
      * destruct (prob (pushes (here x) (allinst ch0 x) ch) (here x)); [apply updatemid_covers|congruence].
      * rewrite PO in H by auto. destruct (finite _); [apply updatemid_wider|]; auto.
Qed.
End Cell.
