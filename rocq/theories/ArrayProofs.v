From Coq Require Import NArith ZArith List Bool Lia ZifyBool ZifyN ZifyNat Sorted FinFun.
From Verif Require Import BitsModel BitsSpec BitsProofs.
Import ListNotations.
Local Open Scope N_scope.

Lemma div_lt64 : forall i, i < 64 -> i / 64 = 0 /\ i mod 64 = i.
Proof. intros. split; [apply N.div_small|apply N.mod_small]; lia. Qed.
Lemma div_ge64 : forall i, 64 <= i -> i / 64 = 1 + (i - 64) / 64 /\ i mod 64 = (i - 64) mod 64.
Proof.
  intros i H. replace i with (i - 64 + 1 * 64) at 1 3 by lia.
  rewrite N.div_add, N.mod_add by lia. split; [lia|reflexivity].
Qed.
Lemma amember_cons : forall v vec i,
  amember (v :: vec) i <-> (i < 64 /\ member v i) \/ (64 <= i /\ amember vec (i - 64)).
Proof.
  intros v vec i. unfold amember. destruct (N.lt_ge_cases i 64) as [H|H].
  - destruct (div_lt64 i H) as [-> ->]. cbn. intuition lia.
  - destruct (div_ge64 i H) as [-> ->]. replace (N.to_nat (1 + (i - 64) / 64)) with (S (N.to_nat ((i - 64) / 64))) by lia.
    cbn [nth]. intuition lia.
Qed.
Lemma amember_nil : forall i, ~ amember [] i.
Proof.
  intros i. unfold amember, member. destruct (N.to_nat (i / 64)); cbn [nth]; rewrite N.bits_0; discriminate.
Qed.
Lemma amember_lt : forall vec i, amember vec i -> i < nbits vec.
Proof.
  unfold nbits. induction vec as [|v vec IH]; intros i H; [now apply amember_nil in H|].
  apply amember_cons in H. cbn [length]. destruct H as [[H _]|[H1 H2]]; [lia|].
  apply IH in H2. lia.
Qed.
Lemma amember_skipn : forall k vec i,
  amember (skipn k vec) i <-> amember vec (i + 64 * N.of_nat k).
Proof.
  induction k as [|k IH]; intros vec i; cbn [skipn].
  - now rewrite N.mul_0_r, N.add_0_r.
  - destruct vec as [|v vec].
    + split; intros C; now apply amember_nil in C.
    + rewrite IH, amember_cons. replace (i + 64 * N.of_nat (S k) - 64) with (i + 64 * N.of_nat k) by lia.
      split; [intros H; right; split; [lia|auto]|intros [[H _]|[_ H]]; [lia|auto]].
Qed.
Lemma member_word : forall v i, v < 2 ^ 64 -> member v i -> i < 64.
Proof.
  intros v i Hv H. destruct (N.lt_ge_cases i 64); auto. unfold member in H.
  rewrite (proj1 (lt_pow2_bits v 64)) in H; auto. discriminate.
Qed.

Lemma anextset_loop_ok : forall rest a x, words (x :: rest) ->
  (anextset_loop rest a x = (-1)%Z /\ forall i, ~ amember (x :: rest) i) \/
  (exists r, anextset_loop rest a x = Z.of_N (a * 64 + r) /\ amember (x :: rest) r /\
             forall i, i < r -> ~ amember (x :: rest) i).
Proof.
  induction rest as [|v rest IH]; intros a x W; cbn [anextset_loop];
    inversion W as [|? ? Hx Wr]; subst; destruct (N.eqb_spec x 0) as [->|H0].
  - left. split; auto. intros i M. apply amember_cons in M. destruct M as [[_ M]|[_ M]].
    + unfold member in M. rewrite N.bits_0 in M. discriminate.
    + now apply amember_nil in M.
  - right. destruct (ctz_lowest x H0) as [L1 L2]. pose proof (ctz_lt x 64 H0 Hx) as L3.
    exists (ctz x). split; auto. split.
    + apply amember_cons. auto.
    + intros i Hi M. apply amember_cons in M. destruct M as [[_ M]|[M _]]; [|lia].
      unfold member in M. rewrite L2 in M by assumption. discriminate.
  - destruct (IH (a + 1) v Wr) as [[H1 H2]|(r & H1 & H2 & H3)].
    + left. split; auto. intros i M. apply amember_cons in M. destruct M as [[_ M]|[_ M]].
      * unfold member in M. rewrite N.bits_0 in M. discriminate.
      * now apply H2 in M.
    + right. exists (64 + r). split; [rewrite H1; lia|]. split.
      * apply amember_cons. right. split; [lia|]. now replace (64 + r - 64) with r by lia.
      * intros i Hi M. apply amember_cons in M. destruct M as [[_ M]|[M1 M]].
        -- unfold member in M. rewrite N.bits_0 in M. discriminate.
        -- apply H3 in M; auto. lia.
  - right. destruct (ctz_lowest x H0) as [L1 L2]. pose proof (ctz_lt x 64 H0 Hx) as L3.
    exists (ctz x). split; auto. split.
    + apply amember_cons. auto.
    + intros i Hi M. apply amember_cons in M. destruct M as [[_ M]|[M _]]; [|lia].
      unfold member in M. rewrite L2 in M by assumption. discriminate.
Qed.

Lemma words_skipn : forall k vec, words vec -> words (skipn k vec).
Proof.
  induction k; intros vec H; auto. destruct vec; auto. inversion H; subst. cbn. auto.
Qed.

Lemma anextset_ok : forall vec pos, words vec ->
  (anextset vec pos = (-1)%Z /\ has_none (amember vec) pos (nbits vec)) \/
  (exists r, anextset vec pos = Z.of_N r /\ is_least (amember vec) pos (nbits vec) r).
Proof.
  intros vec pos W. unfold anextset. cbv zeta.
  pose proof (words_skipn (N.to_nat (pos / 64)) vec W) as Ws.
  assert (Hsk : forall i, amember (skipn (N.to_nat (pos / 64)) vec) i <-> amember vec (i + 64 * (pos / 64))).
  { intros i. rewrite amember_skipn. now rewrite N2Nat.id. }
  pose proof (N.div_mod pos 64 ltac:(lia)) as DM. pose proof (N.mod_lt pos 64 ltac:(lia)) as ML.
  set (q := pos / 64) in *. set (m := pos mod 64) in *.
  destruct (skipn (N.to_nat q) vec) as [|v rest] eqn:E.
  - left. split; auto. intros i Hi M.
    assert (M' : amember [] (i - 64 * q)).
    { apply Hsk. now replace (i - 64 * q + 64 * q) with i by lia. }
    now apply amember_nil in M'.
  - pose proof (Forall_inv Ws) as Hv. pose proof (Forall_inv_tail Ws) as Wr. cbv beta in Hv.
    set (x := N.land v (wshl ones64 m)).
    assert (Hx : forall j, member x j <-> member v j /\ m <= j).
    { intros j. unfold member, x. rewrite N.land_spec, bits_wshl, bits_ones64, !andb_true_iff.
      split; [intros (H1 & (H2 & H3) & H4); split; auto; lia|].
      intros [H1 H2]. pose proof (member_word v j Hv H1). repeat split; auto; lia. }
    assert (Hxr : forall j, amember (x :: rest) j <-> amember (v :: rest) j /\ m <= j).
    { intros j. rewrite !amember_cons, Hx. intuition lia. }
    destruct (anextset_loop_ok rest q x) as [[H1 H2]|(r & H1 & H2 & H3)].
    { constructor; auto. now apply land_lt_l. }
    + left. split; auto. intros i Hi M.
      apply (H2 (i - 64 * q)). apply Hxr. split; [|lia].
      apply Hsk. now replace (i - 64 * q + 64 * q) with i by lia.
    + right. exists (q * 64 + r). split; auto. apply Hxr in H2. destruct H2 as [H2 H2'].
      apply Hsk in H2. replace (r + 64 * q) with (q * 64 + r) in H2 by lia.
      split; [|split].
      * split; [lia|]. now apply amember_lt.
      * assumption.
      * intros i Hi M. apply (H3 (i - 64 * q)); [lia|]. apply Hxr. split; [|lia].
        apply Hsk. now replace (i - 64 * q + 64 * q) with i by lia.
Qed.

(** Complement, slot by slot. *)
Lemma words_wnot : forall vec, words vec -> words (map wnot vec).
Proof.
  induction vec; cbn; intros H; inversion H; subst; constructor; auto.
  - now apply wnot_lt.
  - now apply IHvec.
Qed.
Lemma amember_wnot : forall vec i, words vec ->
  (amember (map wnot vec) i <-> i < nbits vec /\ ~ amember vec i).
Proof.
  unfold nbits. induction vec as [|v vec IH]; intros i W.
  - cbn. split; [intros H; now apply amember_nil in H|lia].
  - inversion W as [|? ? Hv Wr]; subst. cbn [map]. rewrite !amember_cons, IH by assumption.
    unfold member. rewrite bits_wnot by assumption. cbn [length].
    destruct (N.lt_ge_cases i 64) as [H|H].
    + destruct (N.ltb_spec i 64); [|lia]. cbn [andb]. destruct (N.testbit v i); cbn; split; intros; try (repeat split; [lia|]; intros ?); intuition (try lia; try congruence).
    + split.
      * intros [[? _]|[_ [H1 H2]]]; [lia|]. split; [lia|]. intros [[? _]|[_ ?]]; [lia|auto].
      * intros [H1 H2]. right. split; auto. split; [lia|]. intros C. apply H2. right. auto.
Qed.
Lemma anextunset_loop_wnot : forall rest a x, words (x :: rest) ->
  anextunset_loop rest a x =
  let r := anextset_loop (map wnot rest) a (wnot x) in
  if (r =? -1)%Z then Z.of_N ((a + 1 + N.of_nat (length rest)) * 64) else r.
Proof.
  assert (Z1 : forall x, x < 2 ^ 64 -> (wnot x =? 0) = (x =? ones64)).
  { intros x Hx. unfold wnot. destruct (N.eqb_spec x ones64) as [->|H]; [now rewrite N.lxor_nilpotent|].
    apply N.eqb_neq. intros E. apply N.lxor_eq in E. contradiction. }
  induction rest as [|v rest IH]; intros a x W; cbn [anextunset_loop map anextset_loop];
    inversion W as [|? ? Hx Wr]; subst; rewrite Z1 by assumption; destruct (N.eqb_spec x ones64) as [->|H0].
  - cbn. rewrite N.add_0_r. reflexivity.
  - cbn zeta. destruct (Z.eqb_spec (Z.of_N (a * 64 + ctz (wnot x))) (-1)); [lia|reflexivity].
  - rewrite IH by assumption. cbn zeta. destruct (_ =? -1)%Z; auto. cbn [length]. f_equal. lia.
  - cbn zeta. destruct (Z.eqb_spec (Z.of_N (a * 64 + ctz (wnot x))) (-1)); [lia|reflexivity].
Qed.
Lemma wnot_invol : forall v, wnot (wnot v) = v.
Proof. intros. unfold wnot. now rewrite N.lxor_assoc, N.lxor_nilpotent, N.lxor_0_r. Qed.
Lemma anextunset_wnot : forall vec pos, words vec -> pos < nbits vec ->
  anextunset vec pos = (let r := anextset (map wnot vec) pos in
                        if (r =? -1)%Z then Z.of_N (nbits vec) else r).
Proof.
  intros vec pos W Hp. unfold anextunset, anextset. cbv zeta.
  pose proof (words_skipn (N.to_nat (pos / 64)) vec W) as Ws.
  pose proof (N.mod_lt pos 64 ltac:(lia)) as ML.
  assert (Hl : (N.to_nat (pos / 64) < length vec)%nat).
  { unfold nbits in Hp. assert (pos / 64 < N.of_nat (length vec)); [|lia].
    apply N.div_lt_upper_bound; lia. }
  rewrite skipn_map. pose proof (skipn_length (N.to_nat (pos / 64)) vec) as SL.
  destruct (skipn (N.to_nat (pos / 64)) vec) as [|v rest] eqn:E; [cbn in SL; lia|].
  pose proof (Forall_inv Ws) as Hv. pose proof (Forall_inv_tail Ws) as Wr. cbv beta in Hv. cbn [map].
  set (m := pos mod 64) in *.
  assert (H1 : wshl 1 m - 1 = N.ones m).
  { assert (wshl 1 m = 2 ^ m).
    { apply N.bits_inj. intros i. rewrite bits_wshl1 by assumption.
      destruct (N.eqb_spec i m) as [->|]; [now rewrite N.pow2_bits_true|now rewrite N.pow2_bits_false by congruence]. }
    rewrite H, N.ones_equiv. lia. }
  rewrite H1.
  assert (Ho : N.ones m < 2 ^ 64).
  { apply lt_pow2_bits. intros i Hi. apply N.ones_spec_high. lia. }
  rewrite anextunset_loop_wnot by (constructor; [now apply lor_lt|assumption]).
  assert (Hw : wnot (N.lor v (N.ones m)) = N.land (wnot v) (wshl ones64 m)).
  { apply N.bits_inj. intros i. rewrite bits_wnot by now apply lor_lt.
    rewrite N.lor_spec, N.land_spec, bits_wnot, bits_wshl, bits_ones64, bits_ones by assumption.
    destruct (N.ltb_spec i 64), (N.leb_spec m i), (N.ltb_spec i m), (N.testbit v i), (N.ltb_spec (i - m) 64); cbn; auto; lia. }
  rewrite Hw. cbn zeta. destruct (_ =? -1)%Z; auto. unfold nbits. f_equal. cbn [length] in SL. lia.
Qed.
Lemma nbits_wnot : forall vec, nbits (map wnot vec) = nbits vec.
Proof. intros. unfold nbits. now rewrite map_length. Qed.
Lemma anextunset_ok : forall vec pos, words vec -> pos < nbits vec ->
  (anextunset vec pos = Z.of_N (nbits vec) /\ forall i, pos <= i < nbits vec -> amember vec i) \/
  (exists r, anextunset vec pos = Z.of_N r /\ pos <= r < nbits vec /\ ~ amember vec r /\
             forall i, pos <= i < r -> amember vec i).
Proof.
  intros vec pos W Hp. rewrite anextunset_wnot by assumption.
  assert (D : forall i, amember vec i \/ ~ amember vec i).
  { intros i. unfold amember, member. destruct (N.testbit _ _); auto. }
  destruct (anextset_ok (map wnot vec) pos (words_wnot vec W)) as [[H1 H2]|(r & H1 & (H2 & H3 & H4))];
    rewrite H1; cbv zeta.
  - left. split; [reflexivity|]. intros i Hi. destruct (D i) as [|Hn]; auto. exfalso.
    rewrite <- (nbits_wnot vec) in Hi. apply (H2 i Hi). apply amember_wnot; auto.
    rewrite nbits_wnot in Hi. split; [lia|auto].
  - right. exists r. destruct (Z.eqb_spec (Z.of_N r) (-1)); [lia|]. split; auto.
    rewrite nbits_wnot in H2. split; auto. apply amember_wnot in H3; auto. destruct H3 as [H3 H3'].
    split; auto. intros i Hi. destruct (D i) as [|Hn]; auto. exfalso.
    apply (H4 i Hi). apply amember_wnot; auto. split; auto. lia.
Qed.

(** * Cardinality and length *)
Fixpoint abits (vec : list N) (base : N) : list N :=
  match vec with
  | [] => []
  | v :: r => map (N.add base) (bits_of v) ++ abits r (base + 64)
  end.
Lemma abits_In : forall vec base i, words vec ->
  (In i (abits vec base) <-> base <= i /\ amember vec (i - base)).
Proof.
  induction vec as [|v vec IH]; intros base i W; cbn [abits].
  - cbn. split; [easy|]. intros [_ H]. now apply amember_nil in H.
  - inversion W as [|? ? Hv Wr]; subst. rewrite in_app_iff, in_map_iff, IH, amember_cons by assumption.
    destruct (bits_of_spec v) as [_ Hb]. split.
    + intros [(j & <- & Hj)|[H1 H2]].
      * split; [lia|]. left. apply Hb in Hj. replace (base + j - base) with j by lia.
        split; auto. now apply (member_word v).
      * split; [lia|]. right. split; [lia|]. now replace (i - base - 64) with (i - (base + 64)) by lia.
    + intros [H [[H1 H2]|[H1 H2]]].
      * left. exists (i - base). split; [lia|]. now apply Hb.
      * right. split; [lia|]. now replace (i - base - 64) with (i - (base + 64)) in H2 by lia.
Qed.
Lemma abits_sorted : forall vec base, words vec -> StronglySorted N.lt (abits vec base).
Proof.
  assert (PS : forall p k base, StronglySorted N.lt (map (N.add base) (pbits p k))).
  { induction p; intros k base; cbn [pbits map].
    - constructor; auto. apply Forall_forall. intros x Hx. apply in_map_iff in Hx.
      destruct Hx as (j & <- & Hj). apply pbits_ge in Hj. lia.
    - auto.
    - repeat constructor. }
  induction vec as [|v vec IH]; intros base W; cbn [abits]; [constructor|].
  inversion W as [|? ? Hv Wr]; subst.
  assert (SA : forall l1 l2, StronglySorted N.lt l1 -> StronglySorted N.lt l2 ->
     (forall x y, In x l1 -> In y l2 -> x < y) -> StronglySorted N.lt (l1 ++ l2)).
  { clear. induction l1 as [|x l1 IHl]; cbn; intros l2 S1 S2 H; auto.
    inversion S1; subst. constructor.
    - apply IHl; auto.
    - rewrite Forall_app. split; auto. apply Forall_forall. auto. }
  apply SA; auto.
  - destruct v; cbn; [constructor|apply PS].
  - intros x y Hx Hy. apply in_map_iff in Hx. destruct Hx as (j & <- & Hj).
    destruct (bits_of_spec v) as [_ Hb]. apply Hb in Hj. apply (member_word v) in Hj; auto.
    apply abits_In in Hy; auto. lia.
Qed.
Lemma sorted_nodup : forall l, StronglySorted N.lt l -> NoDup l.
Proof.
  induction l; intros H; constructor; inversion H; subst; auto.
  intros C. rewrite Forall_forall in H3. apply H3 in C. lia.
Qed.
Lemma abits_lists : forall vec, words vec -> lists_members (amember vec) (abits vec 0).
Proof.
  intros vec W. split; [apply sorted_nodup, abits_sorted; auto|].
  intros i. rewrite abits_In by assumption. rewrite N.sub_0_r. intuition lia.
Qed.
Lemma abitcount_acc : forall vec c base, fold_left (fun result v => result + popcount v) vec c
   = c + N.of_nat (length (abits vec base)).
Proof.
  induction vec as [|v vec IH]; intros c base; cbn [fold_left abits]; [cbn; lia|].
  rewrite (IH _ (base + 64)), app_length, map_length. rewrite <- bits_of_length. lia.
Qed.
Lemma abitcount_ok : forall vec l, words vec -> lists_members (amember vec) l ->
  abitcount vec = N.of_nat (length l).
Proof.
  intros vec l W H. unfold abitcount. rewrite (abitcount_acc vec 0 0), N.add_0_l.
  f_equal. apply (lists_members_length _ _ _ (abits_lists vec W) H).
Qed.

Lemma amember_app : forall a b i,
  amember (a ++ b) i <-> (i < nbits a /\ amember a i) \/ (nbits a <= i /\ amember b (i - nbits a)).
Proof.
  unfold nbits. induction a as [|x a IH]; intros b i; cbn [app length].
  - rewrite N.mul_0_r, N.sub_0_r. split; [right; split; [lia|auto]|]. intros [[H _]|[_ H]]; [lia|auto].
  - rewrite !amember_cons, IH.
    replace (i - 64 - 64 * N.of_nat (length a)) with (i - 64 * N.of_nat (S (length a))) by lia.
    intuition lia.
Qed.
Lemma abitlength_ok : forall vec, words vec ->
  (abitlength vec = 0 /\ forall i, ~ amember vec i) \/
  (0 < abitlength vec /\ amember vec (abitlength vec - 1) /\
   forall i, abitlength vec <= i -> ~ amember vec i).
Proof.
  intros vec W. unfold abitlength. rewrite <- (rev_involutive vec). rewrite rev_involutive.
  assert (Wr : words (rev vec)).
  { unfold words in *. rewrite Forall_forall in *. intros x Hx. apply W. now apply in_rev. }
  clear W. induction (rev vec) as [|v r IH]; cbn [abitlength_loop rev].
  - left. split; auto. apply amember_nil.
  - inversion Wr as [|? ? Hv Wr']; subst. destruct (N.eqb_spec v 0) as [->|H0].
    + assert (EQ : forall i, amember (rev r ++ [0]) i <-> amember (rev r) i).
      { intros i. rewrite amember_app, amember_cons. unfold member. rewrite N.bits_0. split.
        - intros [[_ H]|[_ [[_ H]|[_ H]]]]; auto; [discriminate|now apply amember_nil in H].
        - intros H. left. split; auto. now apply amember_lt. }
      destruct (IH Wr') as [[H1 H2]|(H1 & H2 & H3)].
      * left. split; auto. intros i. rewrite EQ. auto.
      * right. rewrite EQ. split; auto. split; auto. intros i Hi. rewrite EQ. auto.
    + right. unfold clz.
      assert (Hlog : N.log2 v < 64) by (apply N.log2_lt_pow2; lia).
      assert (Hnb : nbits (rev r) = 64 * N.of_nat (length r)) by (unfold nbits; now rewrite rev_length).
      cbn [length]. split; [lia|]. split.
      * apply amember_app. right. rewrite Hnb. split; [lia|]. apply amember_cons. left.
        replace (N.of_nat (S (length r)) * 64 - (63 - N.log2 v) - 1 - 64 * N.of_nat (length r)) with (N.log2 v) by lia.
        split; auto. now apply N.bit_log2.
      * intros i Hi C. apply amember_app in C. destruct C as [[C _]|[C1 C2]]; [lia|].
        apply amember_cons in C2. destruct C2 as [[C2 C3]|[_ C3]]; [|now apply amember_nil in C3].
        rewrite Hnb in C3. unfold member in C3. rewrite N.bits_above_log2 in C3 by lia. discriminate.
Qed.

(** * Set operations *)
Lemma map2_amember : forall f op a b i,
  (forall x y j, N.testbit (f x y) j = op (N.testbit x j) (N.testbit y j)) ->
  op false false = false -> length a = length b ->
  (amember (map2 f a b) i <->
   op (N.testbit (nth (N.to_nat (i / 64)) a 0) (i mod 64))
      (N.testbit (nth (N.to_nat (i / 64)) b 0) (i mod 64)) = true).
Proof.
  intros f op a b i Hf H0 HL. unfold amember, member. generalize (N.to_nat (i / 64)) as k.
  revert b HL. induction a as [|x a IH]; intros [|y b] HL k; cbn in HL; try discriminate.
  - cbn [map2]. destruct k; cbn [nth]; rewrite !N.bits_0, H0; reflexivity.
  - cbn [map2]. destruct k; cbn [nth]; [rewrite Hf; reflexivity|]. apply IH. lia.
Qed.
Lemma setintersect_ok : forall a b i, length a = length b ->
  (amember (setintersect a b) i <-> amember a i /\ amember b i).
Proof.
  intros. unfold setintersect. rewrite (map2_amember _ andb) by (auto; apply N.land_spec).
  unfold amember, member. apply andb_true_iff.
Qed.
Lemma setunion_ok : forall a b i, length a = length b ->
  (amember (setunion a b) i <-> amember a i \/ amember b i).
Proof.
  intros. unfold setunion. rewrite (map2_amember _ orb) by (auto; apply N.lor_spec).
  unfold amember, member. apply orb_true_iff.
Qed.
Lemma subset_word : forall x y, N.land x y = x <-> forall i, member x i -> member y i.
Proof.
  intros x y. unfold member. split.
  - intros E i Hi. rewrite <- E, N.land_spec in Hi. now apply andb_true_iff in Hi.
  - intros H. apply N.bits_inj. intros i. rewrite N.land_spec. specialize (H i).
    destruct (N.testbit x i); cbn; auto.
Qed.
Lemma subset_ok : forall a b, words a -> words b -> length a = length b ->
  (subset a b = true <-> forall i, amember a i -> amember b i).
Proof.
  induction a as [|x a IH]; intros [|y b] Wa Wb HL; cbn in HL; try discriminate.
  - cbn. split; auto.
  - inversion Wa as [|? ? Hx Wa']; inversion Wb as [|? ? Hy Wb']; subst. cbn [subset].
    destruct (N.eqb_spec (N.land x y) x) as [E|E]; cbn [negb].
    + rewrite IH by (auto; lia). rewrite subset_word in E. split.
      * intros H i Hi. apply amember_cons in Hi. apply amember_cons.
        destruct Hi as [[H1 H2]|[H1 H2]]; [left; auto|right; auto].
      * intros H i Hi. specialize (H (i + 64)). rewrite !amember_cons in H.
        replace (i + 64 - 64) with i in H by lia.
        destruct H as [[H _]|[_ H]]; auto; [right; split; [lia|auto]|lia].
    + split; [discriminate|]. intros H. exfalso. apply E. apply subset_word. intros i Hi.
      pose proof (member_word x i Hx Hi). specialize (H i). rewrite !amember_cons in H.
      destruct H as [[_ H]|[H _]]; auto. lia.
Qed.

(** * Iteration *)
Lemma iter_skip_ok : forall rest cur idx, words (cur :: rest) ->
  match iter_skip rest cur idx with
  | None => abits (cur :: rest) (idx * 64) = []
  | Some s => words (it_cur s :: it_rest s) /\ it_cur s <> 0 /\
      abits (cur :: rest) (idx * 64) = abits (it_cur s :: it_rest s) (it_idx s * 64)
  end.
Proof.
  induction rest as [|v rest IH]; intros cur idx W; cbn [iter_skip]; inversion W; subst;
    destruct (N.eqb_spec cur 0) as [->|H0].
  - reflexivity.
  - cbn. auto.
  - specialize (IH v (idx + 1) H2).
    replace ((idx + 1) * 64) with (idx * 64 + 64) in IH by lia.
    change (abits (0 :: v :: rest) (idx * 64)) with (abits (v :: rest) (idx * 64 + 64)). exact IH.
  - cbn. auto.
Qed.
Lemma bits_of_head : forall v a, lowest v a ->
  exists l, bits_of v = a :: l /\ bits_of (N.lxor v (2 ^ a)) = l.
Proof.
  intros v a L.
  assert (SS : forall w, StronglySorted N.lt (bits_of w)).
  { intros w. pose proof (size_nat_pow w).
    assert (PS : forall p k, StronglySorted N.lt (pbits p k)).
    { induction p; intros k; cbn [pbits]; auto.
      - constructor; auto. apply Forall_forall. intros x Hx. apply pbits_ge in Hx. lia.
      - repeat constructor. }
    destruct w; cbn; [constructor|apply PS]. }
  assert (UN : forall l1 l2, StronglySorted N.lt l1 -> StronglySorted N.lt l2 ->
     (forall x, In x l1 <-> In x l2) -> l1 = l2).
  { induction l1 as [|x l1 IH]; intros [|y l2] S1 S2 E; auto.
    - exfalso. apply (proj2 (E y)). now left.
    - exfalso. apply (proj1 (E x)). now left.
    - inversion S1; inversion S2; subst. rewrite Forall_forall in *.
      assert (x = y).
      { destruct (proj1 (E x) (or_introl eq_refl)) as [->|Hx]; auto.
        destruct (proj2 (E y) (or_introl eq_refl)) as [->|Hy]; auto.
        apply H2 in Hy. apply H6 in Hx. lia. }
      subst y. f_equal. apply IH; auto. intros z. split; intros Hz.
      + destruct (proj1 (E z) (or_intror Hz)) as [->|]; auto. apply H2 in Hz. lia.
      + destruct (proj2 (E z) (or_intror Hz)) as [->|]; auto. apply H6 in Hz. lia. }
  exists (bits_of (N.lxor v (2 ^ a))). split; auto.
  apply UN; auto.
  - constructor; auto. apply Forall_forall. intros x Hx.
    destruct (bits_of_spec (N.lxor v (2 ^ a))) as [_ B]. apply B in Hx. unfold member in Hx.
    rewrite N.lxor_spec in Hx. destruct L as [L1 L2].
    destruct (N.lt_trichotomy x a) as [C|[C|C]]; auto; exfalso.
    + rewrite L2, N.pow2_bits_false in Hx by lia. discriminate.
    + subst. rewrite L1, N.pow2_bits_true in Hx. discriminate.
  - intros x. destruct (bits_of_spec v) as [_ B1]. destruct (bits_of_spec (N.lxor v (2 ^ a))) as [_ B2].
    cbn [In]. rewrite B1, B2. unfold member. rewrite N.lxor_spec. destruct L as [L1 L2].
    destruct (N.eq_dec a x) as [->|Hne].
    + intuition.
    + rewrite N.pow2_bits_false by assumption. rewrite xorb_false_r. intuition.
Qed.
Lemma wshl1_pow : forall n, n < 64 -> wshl 1 n = 2 ^ n.
Proof.
  intros n H. apply N.bits_inj. intros i. rewrite bits_wshl1 by assumption.
  destruct (N.eqb_spec i n) as [->|]; [now rewrite N.pow2_bits_true|now rewrite N.pow2_bits_false by congruence].
Qed.
Lemma iteratesetbits_ok : forall s, words (it_cur s :: it_rest s) ->
  match abits (it_cur s :: it_rest s) (it_idx s * 64) with
  | [] => fst (iteratesetbits s) = (-1)%Z
  | i :: l => fst (iteratesetbits s) = Z.of_N i /\
      let s' := snd (iteratesetbits s) in
      words (it_cur s' :: it_rest s') /\ abits (it_cur s' :: it_rest s') (it_idx s' * 64) = l
  end.
Proof.
  intros s W. unfold iteratesetbits. pose proof (iter_skip_ok (it_rest s) (it_cur s) (it_idx s) W) as H.
  destruct (iter_skip (it_rest s) (it_cur s) (it_idx s)) as [s'|].
  - destruct H as (W' & H0 & ->). cbn [fst snd it_cur it_rest it_idx]. cbn [abits].
    inversion W' as [|? ? Hc Wr]; subst.
    destruct (bits_of_head _ _ (ctz_lowest _ H0)) as (l & E1 & E2).
    pose proof (ctz_lt _ 64 H0 Hc) as Hct.
    rewrite wshl1_pow by assumption.
    rewrite E1. cbn [map app]. split; [reflexivity|]. split.
    + constructor; auto. apply lt_pow2_bits. intros i Hi. rewrite N.lxor_spec.
      rewrite (proj1 (lt_pow2_bits _ 64) Hc) by assumption. rewrite N.pow2_bits_false by lia. reflexivity.
    + rewrite E2. reflexivity.
  - rewrite H. reflexivity.
Qed.
Lemma iter_collect_ok : forall n s, words (it_cur s :: it_rest s) ->
  (length (abits (it_cur s :: it_rest s) (it_idx s * 64)) < n)%nat ->
  iter_collect n s = map Z.of_N (abits (it_cur s :: it_rest s) (it_idx s * 64)).
Proof.
  induction n as [|n IH]; intros s W Hn; [lia|]. cbn [iter_collect].
  pose proof (iteratesetbits_ok s W) as H.
  destruct (abits (it_cur s :: it_rest s) (it_idx s * 64)) as [|i l] eqn:E.
  - destruct (iteratesetbits s) as [r s']. cbn in H. subst. reflexivity.
  - destruct H as (H1 & H2 & H3). destruct (iteratesetbits s) as [r s'].
    cbn [fst snd] in *. subst r. destruct (Z.eqb_spec (Z.of_N i) (-1)); [lia|].
    cbn [map]. f_equal. rewrite IH; auto.
    + now rewrite H3.
    + rewrite H3. cbn in Hn. lia.
Qed.
Lemma iter_init_abits : forall vec, words vec ->
  words (it_cur (iter_init vec) :: it_rest (iter_init vec)) /\
  abits (it_cur (iter_init vec) :: it_rest (iter_init vec)) (it_idx (iter_init vec) * 64) = abits vec 0.
Proof.
  intros [|v vec] W; cbn [iter_init it_cur it_rest it_idx].
  - split; [repeat constructor|reflexivity].
  - split; auto.
Qed.
Lemma iter_all_ok : forall vec n, words vec -> (N.to_nat (nbits vec) < n)%nat ->
  iter_collect n (iter_init vec) = map Z.of_N (abits vec 0).
Proof.
  intros vec n W Hn. destruct (iter_init_abits vec W) as [W' E].
  rewrite iter_collect_ok; auto; rewrite E; auto.
  destruct (abits_lists vec W) as [ND HI].
  assert (L : (length (abits vec 0) <= length (seq 0 (N.to_nat (nbits vec))))%nat).
  { rewrite <- (map_length N.to_nat (abits vec 0)). apply NoDup_incl_length.
    - apply Injective_map_NoDup; auto. intros x y. apply N2Nat.inj.
    - intros x Hx. apply in_map_iff in Hx. destruct Hx as (i & <- & Hi).
      apply HI in Hi. apply amember_lt in Hi. apply in_seq. lia. }
  rewrite seq_length in L. lia.
Qed.

(** * SETBIT, CLEARBIT, TESTBIT *)
Lemma nth_updslot : forall f vec k j, (k < length vec)%nat ->
  nth j (updslot f k vec) 0 = if Nat.eqb j k then f (nth k vec 0) else nth j vec 0.
Proof.
  induction vec as [|v vec IH]; intros k j H; cbn in H; [lia|].
  destruct k as [|k], j as [|j]; cbn [updslot nth Nat.eqb]; auto. apply IH. lia.
Qed.
Lemma slot_in_range : forall vec b, b < nbits vec -> (N.to_nat (b / 64) < length vec)%nat.
Proof.
  intros vec b H. unfold nbits in H. assert (b / 64 < N.of_nat (length vec)); [|lia].
  apply N.div_lt_upper_bound; lia.
Qed.
Lemma same_pos : forall i b, i / 64 = b / 64 -> i mod 64 = b mod 64 -> i = b.
Proof.
  intros i b H1 H2. rewrite (N.div_mod i 64), (N.div_mod b 64), H1, H2 by lia. reflexivity.
Qed.
Lemma upd_amember : forall f g vec b i, b < nbits vec ->
  (forall v j, v < 2 ^ 64 -> N.testbit (f v) j = if j =? b mod 64 then g (N.testbit v j) else N.testbit v j) ->
  words vec ->
  (amember (updslot f (N.to_nat (b / 64)) vec) i <->
   (if i =? b then g (N.testbit (nth (N.to_nat (i / 64)) vec 0) (i mod 64)) = true else amember vec i)).
Proof.
  intros f g vec b i Hb Hf W. unfold amember, member.
  rewrite nth_updslot by now apply slot_in_range.
  assert (Wn : nth (N.to_nat (b / 64)) vec 0 < 2 ^ 64).
  { unfold words in W. rewrite Forall_forall in W. apply W. apply nth_In. now apply slot_in_range. }
  destruct (Nat.eqb_spec (N.to_nat (i / 64)) (N.to_nat (b / 64))) as [E|E].
  - apply N2Nat.inj in E. rewrite Hf by assumption. rewrite <- E.
    destruct (N.eqb_spec (i mod 64) (b mod 64)) as [E2|E2].
    + rewrite (same_pos i b E E2), N.eqb_refl. reflexivity.
    + destruct (N.eqb_spec i b) as [->|]; [congruence|reflexivity].
  - destruct (N.eqb_spec i b) as [->|]; [congruence|reflexivity].
Qed.
Lemma SETBIT_ok : forall vec b i, words vec -> b < nbits vec ->
  (amember (SETBIT vec b) i <-> i = b \/ amember vec i).
Proof.
  intros vec b i W Hb. unfold SETBIT.
  rewrite (upd_amember _ (fun _ => true)); auto.
  - destruct (N.eqb_spec i b); intuition.
  - intros v j Hv. rewrite N.lor_spec, bits_wshl1 by (apply N.mod_lt; lia).
    destruct (j =? b mod 64); [apply orb_true_r|apply orb_false_r].
Qed.
Lemma CLEARBIT_ok : forall vec b i, words vec -> b < nbits vec ->
  (amember (CLEARBIT vec b) i <-> i <> b /\ amember vec i).
Proof.
  intros vec b i W Hb. unfold CLEARBIT.
  rewrite (upd_amember _ (fun _ => false)); auto.
  - destruct (N.eqb_spec i b); intuition discriminate.
  - intros v j Hv. rewrite N.land_spec, bits_wnot by apply wshl_lt.
    rewrite bits_wshl1 by (apply N.mod_lt; lia).
    destruct (j =? b mod 64); cbn; [now rewrite !andb_false_r|].
    destruct (N.ltb_spec j 64); [now rewrite andb_true_r|].
    rewrite (proj1 (lt_pow2_bits v 64) Hv) by assumption. reflexivity.
Qed.
Lemma TESTBIT_ok : forall vec b, TESTBIT vec b = true <-> amember vec b.
Proof.
  intros vec b. unfold TESTBIT, amember, member.
  change (negb (N.land ?v (wshl 1 ?p) =? 0)) with (testbit v p).
  rewrite testbit_ok; [reflexivity|]. apply N.mod_lt. lia.
Qed.
