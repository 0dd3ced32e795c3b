From Coq Require Import List Bool Arith NArith Lia.
From Verif Require Import BitsProofs FanoutProofs ConcatModel ConcatSpec ConcatProofs VocabModel VocabSpec VocabProofs.
Import ListNotations.
Open Scope N_scope.

(** * yield functions are told apart *)
Lemma flat_part_inj : forall p q r s, p <> [] -> q <> [] -> flat_part p ++ r = flat_part q ++ s -> p = q /\ r = s.
Proof.
  induction p as [|x [|y p] IH]; intros q r s P Q E; [congruence| |].
  - destruct q as [|a [|b q]]; [congruence| |]; [injection E as -> ->; auto|]. rewrite flat_part_cons2 in E. discriminate.
  - destruct q as [|a [|b q]]; [congruence| |]; rewrite flat_part_cons2 in E; [discriminate|]. rewrite flat_part_cons2 in E.
    cbn [app] in E. injection E as -> E. destruct (IH (b :: q) r s ltac:(discriminate) ltac:(discriminate) E) as [H ->]. split; [congruence|reflexivity].
Qed.
Lemma flat_inj : forall a b, Forall (fun p => p <> []) a -> Forall (fun p => p <> []) b -> flat a = flat b -> a = b.
Proof.
  induction a as [|p a IH]; intros [|q b] A B E; auto.
  - exfalso. inversion B; subst. unfold flat in E. cbn in E. destruct q as [|x [|y q]]; [congruence|discriminate|discriminate].
  - exfalso. inversion A; subst. unfold flat in E. cbn in E. destruct p as [|x [|y q]]; [congruence|discriminate|discriminate].
  - inversion A; inversion B; subst. unfold flat in E. cbn [flat_map] in E. apply flat_part_inj in E; auto. destruct E as [-> E]. f_equal. apply IH; auto.
Qed.
Lemma flat_length : forall y, length (flat y) = length (concat y).
Proof. induction y as [|p y IH]; auto. unfold flat in *. cbn. now rewrite !app_length, flat_part_length, IH. Qed.
Lemma getyf_top : forall y, wf_yf y -> N.testbit (lengths (getyf y)) (N.of_nat (length (flat y)) - 1) = true.
Proof.
  intros y W. destruct (getyf_spells y W) as [SP _]. destruct (flat_last y W) as (F & x & E).
  destruct (SP (length F)) as [_ S2]; [rewrite E, app_length; cbn; lia|].
  rewrite N.add_0_l in S2. rewrite E, app_length. cbn [length]. replace (N.of_nat (length F + 1) - 1) with (N.of_nat (length F)) by lia.
  rewrite S2, E, app_nth2, Nat.sub_diag by lia. reflexivity.
Qed.
Lemma flat_pos : forall y, wf_yf y -> (0 < length (flat y))%nat.
Proof. intros y W. destruct (flat_last y W) as (F & x & E). rewrite E, app_length. cbn. lia. Qed.
Lemma getyf_len_le : forall a b, wf_yf a -> wf_yf b -> lengths (getyf a) = lengths (getyf b) -> (length (flat a) <= length (flat b))%nat.
Proof.
  intros a b A B E. pose proof (getyf_top a A) as T. destruct (getyf_spells b B) as [_ [_ AB]]. rewrite E in T. pose proof (flat_pos a A).
  destruct (Nat.le_gt_cases (length (flat a)) (length (flat b))) as [C|C]; auto. rewrite lt_pow2_bits in AB. rewrite AB in T by lia. discriminate.
Qed.
Lemma getyf_inj : forall a b, wf_yf a -> wf_yf b -> args (getyf a) = args (getyf b) -> lengths (getyf a) = lengths (getyf b) -> a = b.
Proof.
  intros a b A B EA EL. assert (L : length (flat a) = length (flat b)) by (apply Nat.le_antisymm; apply getyf_len_le; auto).
  apply flat_inj; [apply A|apply B|]. apply (nth_ext _ _ (false, false) (false, false) L). intros i Hi.
  destruct (getyf_spells a A) as [SA _]. destruct (getyf_spells b B) as [SB _]. destruct (SA i Hi) as [A1 A2]. destruct (SB i ltac:(lia)) as [B1 B2].
  rewrite (surjective_pairing (nth i (flat a) _)), (surjective_pairing (nth i (flat b) _)). congruence.
Qed.
Lemma getyf_nonzero : forall y, wf_yf y -> lengths (getyf y) <> 0.
Proof. intros y W Z. pose proof (getyf_top y W) as T. rewrite Z, N.bits_0 in T. discriminate. Qed.
Lemma getyf_small : forall y, wf_yf y -> (length (concat y) <= 32)%nat -> args (getyf y) < 2 ^ 32 /\ lengths (getyf y) < 2 ^ 32.
Proof.
  intros y W L. destruct (getyf_spells y W) as [_ [A B]]. rewrite flat_length in A, B.
  assert (2 ^ N.of_nat (length (concat y)) <= 2 ^ 32) by (apply N.pow_le_mono_r; lia). lia.
Qed.

(** * keys are told apart *)
Lemma key_inj : forall names p q, nth_error names 0 = Some epsilon -> size names < 2 ^ 32 -> wfprod p -> wfprod q -> named names p -> named names q ->
  key names p = key names q -> p = q.
Proof.
  intros names p q E SZ WP WQ [P1 P2] [Q1 Q2] K.
  assert (B : forall l, In l names -> pos l names < 2 ^ 32) by (intros l Hl; apply pos_lt in Hl; lia).
  assert (Z : 0 < 2 ^ 32) by reflexivity.
  assert (NE : forall l, In l names -> l <> epsilon -> pos l names <> 0) by (intros l Hl Hn X; apply Hn; now apply (pos_eps names l E Hl)).
  assert (R : forall a b c d e a' b' c' d' e',
    a < 2 ^ 32 -> b < 2 ^ 32 -> c < 2 ^ 32 -> d < 2 ^ 32 -> e < 2 ^ 32 -> a' < 2 ^ 32 -> b' < 2 ^ 32 -> c' < 2 ^ 32 -> d' < 2 ^ 32 -> e' < 2 ^ 32 ->
    rulebytes a b c d e = rulebytes a' b' c' d' e' -> a = a' /\ b = b' /\ c = c' /\ d = d' /\ e = e') by exact rule_inj.
  assert (In0 : forall l (r : list bytes), In l (l :: r)) by (intros; now left).
  assert (In1 : forall a l (r : list bytes), In l (a :: l :: r)) by (intros; right; now left).
  assert (In2 : forall a b l (r : list bytes), In l (a :: b :: l :: r)) by (intros; right; right; now left).
  destruct WP as [l|l w Hw|l r1 yf H1 Hy HL|l r1 r2 yf H1 H2 Hy HL];
  destruct WQ as [l'|l' w' Hw'|l' r1' yf' H1' Hy' HL'|l' r1' r2' yf' H1' H2' Hy' HL']; cbn [key fst snd] in *;
  try (pose proof (getyf_small _ Hy HL) as [? ?]); try (pose proof (getyf_small _ Hy' HL') as [? ?]);
  apply R in K; try assumption; try (apply B; auto; fail); destruct K as (K1 & K2 & K3 & K4 & K5).
  - apply pos_inj in K1; auto. congruence.
  - exfalso. apply (NE w'); auto.
  - exfalso. apply (NE r1'); auto.
  - exfalso. apply (NE r1'); auto.
  - exfalso. apply (NE w); auto.
  - apply pos_inj in K1; auto. apply pos_inj in K4; auto. congruence.
  - exfalso. apply (NE r1'); auto.
  - exfalso. apply (NE r1'); auto.
  - exfalso. apply (NE r1); auto.
  - exfalso. apply (NE r1); auto.
  - apply pos_inj in K1; auto. apply pos_inj in K2; auto. apply getyf_inj in K5; auto. congruence.
  - exfalso. apply (NE r2'); auto.
  - exfalso. apply (NE r1); auto.
  - exfalso. apply (NE r1); auto.
  - exfalso. apply (NE r2); auto.
  - apply pos_inj in K1; auto. apply pos_inj in K2; auto. apply pos_inj in K3; auto. apply getyf_inj in K5; auto. congruence.
Qed.

(** * histories *)
Lemma getprods_ok : forall ps v names keys, Inv v names keys -> Forall wfprod ps -> exists ns v' names' keys',
  getprods v ps = Some (ns, v') /\ Inv v' names' keys' /\ (exists e, names' = names ++ e) /\ (exists e, keys' = keys ++ e) /\
  Forall (named names') ps /\ Forall (fun p => In (key names' p) keys') ps /\ ns = map (fun p => pos (key names' p) keys') ps /\
  (forall k, In k keys' <-> In k keys \/ In k (map (key names') ps)).
Proof.
  induction ps as [|p ps IH]; intros v names keys IV W.
  - exists [], v, names, keys. split; [reflexivity|]. split; [exact IV|]. split; [exists []; now rewrite app_nil_r|]. split; [exists []; now rewrite app_nil_r|].
    split; [constructor|]. split; [constructor|]. split; [reflexivity|]. cbn. tauto.
  - inversion W as [|? ? WP WPS]; subst. destruct (getprod_ok v names keys p IV WP) as (n & v1 & n1 & k1 & G1 & I1 & (e1 & E1) & (f1 & F1) & NA1 & M1 & P1 & A1 & _).
    destruct (IH v1 n1 k1 I1 WPS) as (ns & v2 & n2 & k2 & G2 & I2 & (e2 & E2) & (f2 & F2) & NA2 & M2 & P2 & A2).
    assert (KE : key n2 p = key n1 p) by (subst n2; now apply key_ext).
    exists (n :: ns), v2, n2, k2. cbn [getprods map]. rewrite G1, G2. split; [reflexivity|]. split; [exact I2|].
    split; [exists (e1 ++ e2); subst; now rewrite app_assoc|]. split; [exists (f1 ++ f2); subst; now rewrite app_assoc|].
    assert (M : In (key n2 p) k2) by (rewrite KE; subst k2; apply in_or_app; now left).
    split; [constructor; [subst n2; now apply named_ext|exact NA2]|]. split; [constructor; auto|].
    split; [f_equal; [|exact P2]; rewrite P1, KE; subst k2; now rewrite pos_app|].
    intros k. rewrite A2, A1, KE. cbn. intuition.
Qed.

(** * reading back *)
Lemma skipn_app2 : forall A (a b : list A) k, (length a <= k)%nat -> skipn k (a ++ b) = skipn (k - length a) b.
Proof. intros A a b k H. rewrite skipn_app, skipn_all2 by lia. reflexivity. Qed.
Lemma concat_at : forall (keys : list bytes) n k, Forall (fun k => length k = 20%nat) keys -> nth_error keys n = Some k ->
  exists r, skipn (n * 20) (concat keys) = k ++ r.
Proof.
  induction keys as [|x keys IH]; intros n k F E; [destruct n; discriminate|]. inversion F as [|? ? H1 H2]; subst. destruct n as [|n].
  - injection E as ->. exists (concat keys). reflexivity.
  - cbn [concat]. rewrite skipn_app2 by lia. destruct (IH n k H2 E) as (r & R). exists r. rewrite <- R, H1. replace (S n * 20 - 20)%nat with (n * 20)%nat by lia. reflexivity.
Qed.
Lemma ends_nth : forall names k, (k <= length names)%nat -> size (concat names) < 2 ^ 32 -> nth k (ends names) 0 = size (concat (firstn k names)).
Proof.
  intros names k H F. unfold ends. set (g := fun k => size (concat (firstn k names)) mod 2 ^ 32).
  rewrite (nth_indep _ 0 (g 0%nat)) by (rewrite map_length, seq_length; apply Nat.lt_succ_r; exact H).
  rewrite map_nth, seq_nth by (apply Nat.lt_succ_r; exact H). cbn [Nat.add]. unfold g. apply N.mod_small. rewrite <- (firstn_skipn k names), concat_app in F. unfold size in *. rewrite app_length in F. lia.
Qed.
Lemma slice_name : forall names k l, nth_error names k = Some l -> size (concat names) < 2 ^ 32 ->
  slice (concat names) (nth k (ends names) 0) (nth (k + 1) (ends names) 0) = l.
Proof.
  intros names k l E F. assert (k < length names)%nat by (apply nth_error_Some; congruence). rewrite !ends_nth by (auto; lia).
  destruct (nth_error_split names k E) as (a & b & -> & L). subst k. rewrite firstn_app, firstn_all, Nat.sub_diag. cbn [firstn]. rewrite app_nil_r.
  rewrite firstn_app. replace (length a + 1 - length a)%nat with 1%nat by lia. rewrite firstn_all2 by lia. cbn [firstn]. unfold slice, size.
  rewrite concat_app, !concat_app. cbn [concat]. rewrite app_nil_r, app_length. rewrite Nat2N.id.
  replace (N.to_nat (N.of_nat (length (concat a) + length l) - N.of_nat (length (concat a)))) with (length l) by lia.
  rewrite skipn_app, skipn_all, Nat.sub_diag. cbn [app skipn]. rewrite firstn_app, firstn_all, Nat.sub_diag. cbn. now rewrite app_nil_r.
Qed.
Lemma idtolabel_ok : forall v names keys l, Inv v names keys -> fits v -> In l names -> idtolabel v (pos l names) = l.
Proof.
  intros v names keys l IV (F1 & F2 & F3) H. unfold idtolabel. rewrite (i_lbuf _ _ _ IV), (i_idx _ _ _ IV) in *. apply slice_name; [now apply pos_nth|exact F2].
Qed.
Lemma skipn_add : forall A (l : list A) a b, skipn (a + b) l = skipn b (skipn a l).
Proof. intros A l a. revert l. induction a as [|a IH]; intros l b; [reflexivity|]. destruct l; cbn [Nat.add skipn]; [now rewrite skipn_nil|apply IH]. Qed.
Lemma fields_ok : forall v names keys n a b c d e, Inv v names keys -> nth_error keys n = Some (rulebytes a b c d e) ->
  a < 2 ^ 32 -> d < 2 ^ 32 -> e < 2 ^ 32 ->
  field v (N.of_nat n) 0 = a /\ field v (N.of_nat n) 3 = d /\ field v (N.of_nat n) 4 = e.
Proof.
  intros v names keys n a b c d e IV E A D G. destruct (concat_at keys n _ (i_len _ _ _ IV) E) as (r & R). unfold field. rewrite (i_pbuf _ _ _ IV).
  assert (X : forall k, skipn (N.to_nat (N.of_nat n * rulesize + 4 * k)) (concat keys) = skipn (4 * N.to_nat k) (rulebytes a b c d e ++ r)).
  { intros k. rewrite <- R, <- skipn_add. f_equal. unfold rulesize. lia. }
  rewrite !X. unfold rulebytes. rewrite <- !app_assoc. change (4 * N.to_nat 0)%nat with 0%nat. change (4 * N.to_nat 3)%nat with 12%nat. change (4 * N.to_nat 4)%nat with 16%nat.
  split; [now apply get_le|]. split.
  - change (skipn 12 _) with (le32 d ++ le32 e ++ r). now apply get_le.
  - change (skipn 16 _) with (le32 e ++ r). now apply get_le.
Qed.

(** * files *)
Lemma comprehension_ok : forall names key, NoDup names -> (forall k l, nth_error names k = Some l -> key (N.of_nat k) = l) ->
  comprehension (size names) key = number 0 names.
Proof.
  intros names key ND K. unfold comprehension, size. rewrite Nat2N.id.
  assert (X : forall m, (m <= length names)%nat -> fold_left (fun d n => assign (key (N.of_nat n)) (N.of_nat n) d) (seq 0 m) [] = number 0 (firstn m names)).
  { induction m as [|m IH]; intros Hm; [reflexivity|]. rewrite seq_S, fold_left_app, IH by lia. cbn [fold_left Nat.add].
    destruct (nth_error names m) as [l|] eqn:E; [|apply nth_error_None in E; lia]. rewrite (K m l E).
    destruct (nth_error_split names m E) as (a & b & EN & L). subst m.
    assert (X1 : firstn (length a) names = a) by (rewrite EN, firstn_app, firstn_all, Nat.sub_diag; cbn [firstn]; apply app_nil_r).
    assert (X2 : firstn (S (length a)) names = a ++ [l]).
    { rewrite EN, firstn_app, firstn_all2 by (apply Nat.le_succ_diag_r). rewrite Nat.sub_succ_l, Nat.sub_diag by apply Nat.le_refl. reflexivity. }
    rewrite X1, X2. rewrite EN in ND.
    pose proof (assign_new a l 0) as AN. unfold size in AN. cbn [N.add] in AN. apply AN. apply NoDup_remove_2 in ND. intros H. apply ND. apply in_or_app. now left. }
  rewrite X by lia. now rewrite firstn_all.
Qed.
Lemma get32s_ok : forall l r, Forall (fun n => n < 2 ^ 32) l -> get32s (length l) (flat_map le32 l ++ r) = l.
Proof.
  induction l as [|n l IH]; intros r F; [reflexivity|]. inversion F; subst. cbn [length get32s flat_map]. rewrite <- app_assoc. rewrite get_le by assumption.
  f_equal. change (skipn 4 (le32 n ++ flat_map le32 l ++ r)) with (flat_map le32 l ++ r). now apply IH.
Qed.
Lemma flat_le_length : forall l, length (flat_map le32 l) = (4 * length l)%nat.
Proof. induction l as [|n l IH]; [reflexivity|]. cbn [flat_map]. rewrite app_length, IH, le_length. cbn. lia. Qed.
Lemma concat_len : forall (keys : list bytes), Forall (fun k => length k = 20%nat) keys -> length (concat keys) = (20 * length keys)%nat.
Proof. induction 1 as [|k keys H F IH]; [reflexivity|]. cbn [concat length]. rewrite app_length, IH, H. lia. Qed.
Lemma file_ok : forall v names keys, Inv v names keys -> fits v -> fromfile (tofile v) = Some v.
Proof.
  intros v names keys IV (F1 & F2 & F3).
  pose proof (concat_len keys (i_len _ _ _ IV)) as LP.
  destruct v as [vp vl vpb vlb vix]. destruct IV as [H1 H2 H3 H4 H5 H6 H7 H8 H9]. cbn [labels prods labelbuf prodbuf labelidx] in *. subst vl vp vlb vpb vix.
  unfold size in F1, F3. rewrite number_length in F1, F3. fold (size names) in F1. fold (size keys) in F3.
  set (np := size keys) in *. set (ni := size names + 1) in *. set (nb := size (concat names)) in *.
  assert (LI : length (ends names) = N.to_nat ni) by (unfold ends, ni, size; rewrite map_length, seq_length; lia).
  assert (FI : Forall (fun n => n < 2 ^ 32) (ends names)).
  { unfold ends. apply Forall_forall. intros x Hx. apply in_map_iff in Hx. destruct Hx as (k & <- & _). apply N.mod_upper_bound. discriminate. }
  unfold tofile. cbn [labels prods labelbuf prodbuf labelidx]. unfold size at 1 2. rewrite !number_length. fold (size keys) (size names). fold np ni. fold nb.
  set (body := concat keys ++ flat_map le32 (ends names) ++ concat names).
  assert (LB : size body = np * rulesize + 4 * ni + nb).
  { unfold size, body, np, nb, rulesize, size. rewrite !app_length, flat_le_length, LP, LI. lia. }
  unfold fromfile.
  assert (L12 : size (le32 np ++ le32 ni ++ le32 nb ++ body) = 12 + size body) by (unfold size; rewrite !app_length, !le_length; lia).
  rewrite L12. replace (12 + size body <? 12) with false by (symmetry; apply N.ltb_ge; lia).
  rewrite (get_le np) by exact F3. change (skipn 4 (le32 np ++ le32 ni ++ le32 nb ++ body)) with (le32 ni ++ le32 nb ++ body). rewrite (get_le ni) by exact F1.
  change (skipn 8 (le32 np ++ le32 ni ++ le32 nb ++ body)) with (le32 nb ++ body). rewrite (get_le nb) by exact F2.
  change (skipn 12 (le32 np ++ le32 ni ++ le32 nb ++ body)) with body.
  rewrite LB, N.ltb_irrefl. cbv zeta.
  assert (PB : slice body 0 (np * rulesize) = concat keys).
  { unfold slice, body. change (N.to_nat 0) with 0%nat. cbn [skipn]. rewrite N.sub_0_r. replace (N.to_nat (np * rulesize)) with (length (concat keys)) by (rewrite LP; unfold np, size, rulesize; lia).
    rewrite firstn_app, firstn_all, Nat.sub_diag. cbn [firstn]. now rewrite app_nil_r. }
  assert (IB : get32s (N.to_nat ni) (skipn (N.to_nat (np * rulesize)) body) = ends names).
  { replace (N.to_nat (np * rulesize)) with (length (concat keys)) by (rewrite LP; unfold np, size, rulesize; lia). unfold body.
    rewrite skipn_app, skipn_all, Nat.sub_diag. cbn [skipn app]. rewrite <- LI. now apply get32s_ok. }
  assert (NB : slice body (np * rulesize + 4 * ni) (np * rulesize + 4 * ni + nb) = concat names).
  { unfold slice. replace (np * rulesize + 4 * ni + nb - (np * rulesize + 4 * ni)) with nb by lia.
    replace (N.to_nat (np * rulesize + 4 * ni)) with (length (concat keys ++ flat_map le32 (ends names))) by (rewrite app_length, LP, flat_le_length, LI; unfold np, size, rulesize; lia).
    unfold body. rewrite app_assoc, skipn_app, skipn_all, Nat.sub_diag. cbn [skipn app]. unfold nb, size. rewrite Nat2N.id. apply firstn_all. }
  rewrite PB, IB, NB. f_equal. f_equal.
  - replace (size (concat keys) / rulesize) with (size keys).
    + apply comprehension_ok; auto. intros k l E. destruct (concat_at keys k l H6 E) as (r & R). unfold slice.
      replace (N.to_nat (N.of_nat k * rulesize)) with (k * 20)%nat by (unfold rulesize; lia). rewrite R.
      assert (L : length l = 20%nat) by (apply nth_error_In in E; rewrite Forall_forall in H6; auto).
      replace (N.to_nat ((N.of_nat k + 1) * rulesize - N.of_nat k * rulesize)) with (length l) by (rewrite L; unfold rulesize; lia).
      rewrite firstn_app, firstn_all, Nat.sub_diag. cbn [firstn]. apply app_nil_r.
    + unfold size at 2. rewrite LP. replace (N.of_nat (20 * length keys)) with (size keys * rulesize) by (unfold size, rulesize; lia). now rewrite N.div_mul.
  - replace (ni - 1) with (size names) by (unfold ni; lia). apply comprehension_ok; auto. intros k l E. rewrite Nat2N.id. now apply slice_name.
Qed.
