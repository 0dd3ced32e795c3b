(** The search of minimalbinarization finds a minimum (C77): invariants *)
From Coq Require Import String.
From Coq Require Import List Bool Arith NArith Lia Permutation.
From Verif Require Import PyStr TreeModel TransformModel OptModel.
Import ListNotations.
Open Scope list_scope.
Open Scope nat_scope.

(** ---- the order of scores ---- *)
Definition le2 (a b : nat * nat) : Prop := fst a < fst b \/ fst a = fst b /\ snd a <= snd b.
Definition le3 (a b : nat * nat * nat) : Prop := (le2 (fst a) (fst b) /\ fst a <> fst b) \/ (fst a = fst b /\ snd a <= snd b).
Lemma lt2_spec : forall a b, lt2 a b = true <-> fst a < fst b \/ fst a = fst b /\ snd a < snd b.
Proof. intros a b. unfold lt2. rewrite orb_true_iff, andb_true_iff, !Nat.ltb_lt, Nat.eqb_eq. tauto. Qed.
Lemma lt2_false : forall a b, lt2 a b = false <-> le2 b a.
Proof.
  intros a b. unfold le2. destruct (lt2 a b) eqn:E; [apply lt2_spec in E; split; [discriminate|lia]|].
  split; [intros _|reflexivity]. assert (N : ~ (fst a < fst b \/ fst a = fst b /\ snd a < snd b)) by (intros X; apply lt2_spec in X; congruence). lia.
Qed.
Lemma le2_refl : forall a, le2 a a. Proof. intros. unfold le2. lia. Qed.
Lemma le2_trans : forall a b c, le2 a b -> le2 b c -> le2 a c. Proof. unfold le2. intros. lia. Qed.
Lemma le2_antisym : forall a b, le2 a b -> le2 b a -> a = b. Proof. unfold le2. intros [a b] [c d]. cbn. intros. f_equal; lia. Qed.
Lemma le2_total : forall a b, le2 a b \/ le2 b a. Proof. unfold le2. intros. lia. Qed.
Lemma max2_le : forall a b c, le2 (max2 a b) c <-> le2 a c /\ le2 b c.
Proof.
  intros a b c. unfold max2. destruct (lt2 a b) eqn:E; [apply lt2_spec in E|apply lt2_false in E]; unfold le2 in *; lia.
Qed.
Lemma max2_l : forall a b, le2 a (max2 a b). Proof. intros. apply (proj1 (max2_le a b _)), le2_refl. Qed.
Lemma max2_r : forall a b, le2 b (max2 a b). Proof. intros. apply (proj1 (max2_le a b _)), le2_refl. Qed.
Lemma pair2_dec : forall a b : nat * nat, a = b \/ a <> b.
Proof. intros [a b] [c d]. destruct (Nat.eq_dec a c), (Nat.eq_dec b d); subst; auto; right; congruence. Qed.
Lemma lt3_spec : forall a b, lt3 a b = true -> le3 a b.
Proof.
  intros a b. unfold lt3, le3. rewrite orb_true_iff, andb_true_iff, negb_true_iff, lt2_false, Nat.ltb_lt. intros [H|[H1 H2]].
  - apply lt2_spec in H. left. unfold le2. destruct a as [[a1 a2] a3], b as [[b1 b2] b3]. cbn in *. split; [lia|]. intros E. injection E as -> ->. lia.
  - destruct (pair2_dec (fst a) (fst b)) as [E|E]; [right; split; [exact E|lia]|left; split; assumption].
Qed.
Lemma lt3_false : forall a b, lt3 a b = false -> le3 b a.
Proof.
  intros a b. unfold lt3, le3. rewrite orb_false_iff, andb_false_iff, negb_false_iff, lt2_false, Nat.ltb_ge. intros [H1 H2].
  destruct (pair2_dec (fst b) (fst a)) as [E|E]; [|left; split; assumption]. right. split; [exact E|]. destruct H2 as [H2|H2]; [|lia].
  rewrite E in H2. apply lt2_spec in H2. lia.
Qed.
Lemma le3_refl : forall a, le3 a a. Proof. intros. right. split; [reflexivity|lia]. Qed.
Lemma le3_fst : forall a b, le3 a b -> le2 (fst a) (fst b).
Proof. intros a b [[H _]|[-> _]]; [exact H|apply le2_refl]. Qed.
Lemma le3_trans : forall a b c, le3 a b -> le3 b c -> le3 a c.
Proof.
  intros a b c [[A1 A2]|[A1 A2]] [[B1 B2]|[B1 B2]].
  - left. split; [eapply le2_trans; eauto|]. intros E. rewrite <- E in B1. apply A2. apply le2_antisym; assumption.
  - left. rewrite <- B1. auto.
  - left. rewrite A1. auto.
  - right. split; [congruence|lia].
Qed.
Lemma lt3_not : forall a b, lt3 a b = true -> ~ le3 b a.
Proof.
  intros a b. unfold lt3, le3. rewrite orb_true_iff, andb_true_iff, negb_true_iff, lt2_false, Nat.ltb_lt. intros [H|[H1 H2]] [[K1 K2]|[K1 K2]].
  - apply lt2_spec in H. unfold le2 in K1. lia.
  - rewrite K1 in H. apply lt2_spec in H. lia.
  - apply K2. apply le2_antisym; assumption.
  - lia.
Qed.

(** ---- dictionaries ---- *)
Section Dict.
Context {K V : Type}.
Variable keqb : K -> K -> bool.
Hypothesis keqb_ok : forall a b, keqb a b = true <-> a = b.
Notation dict := (list (K * V)) (only parsing).
Lemma keqb_refl : forall a, keqb a a = true. Proof using keqb_ok. intros. now apply keqb_ok. Qed.
Lemma keqb_no : forall a b, a <> b -> keqb a b = false.
Proof using keqb_ok. intros a b N. destruct (keqb a b) eqn:E; [apply keqb_ok in E; contradiction|reflexivity]. Qed.
Lemma dget_in : forall (d : dict) k v, dget keqb d k = Some v -> In (k, v) d.
Proof using keqb_ok. induction d as [|[k' v'] d IH]; cbn; [discriminate|]. intros k v. destruct (keqb k' k) eqn:Q; intros E; [injection E as ->; apply keqb_ok in Q; subst; now left|right; auto]. Qed.
Lemma in_dget : forall (d : dict) k v, NoDup (map fst d) -> In (k, v) d -> dget keqb d k = Some v.
Proof using keqb_ok.
  induction d as [|[k' v'] d IH]; cbn; [tauto|]. intros k v ND [E|I].
  - injection E as -> ->. now rewrite keqb_refl.
  - inversion ND; subst. rewrite keqb_no; [auto|]. intros ->. apply H1. apply in_map_iff. exists (k, v). auto.
Qed.
Lemma dget_app : forall (a b : dict) k, dget keqb (a ++ b) k = match dget keqb a k with Some v => Some v | None => dget keqb b k end.
Proof using. induction a as [|[k' v'] a IH]; intros b k; cbn; [reflexivity|]. destruct (keqb k' k); auto. Qed.
Lemma dget_set : forall (d : dict) k v j, dget keqb (dset keqb d k v) j = if keqb k j then Some v else dget keqb d j.
Proof using keqb_ok.
  induction d as [|[k' v'] d IH]; intros k v j; cbn; [reflexivity|]. destruct (keqb k' k) eqn:Q; cbn.
  - apply keqb_ok in Q. subst k'. destruct (keqb k j); reflexivity.
  - rewrite IH. destruct (keqb k' j) eqn:R; [|reflexivity]. apply keqb_ok in R. subst k'. rewrite keqb_no; [reflexivity|]. intros ->. rewrite keqb_refl in Q. discriminate.
Qed.
Lemma dget_del : forall (d : dict) k j, dget keqb (ddel keqb d k) j = if keqb k j then None else dget keqb d j.
Proof using keqb_ok.
  induction d as [|[k' v'] d IH]; intros k j; cbn; [destruct (keqb k j); reflexivity|]. destruct (keqb k' k) eqn:Q; cbn; rewrite IH.
  - apply keqb_ok in Q. subst k'. destruct (keqb k j); reflexivity.
  - destruct (keqb k' j) eqn:R; [|reflexivity]. apply keqb_ok in R. subst k'. rewrite keqb_no; [reflexivity|]. intros ->. rewrite keqb_refl in Q. discriminate.
Qed.
Lemma dset_keys : forall (d : dict) k v x, In x (map fst (dset keqb d k v)) -> x = k \/ In x (map fst d).
Proof using. induction d as [|[k' v'] d IH]; intros k v x; cbn; [intros [->|[]]; auto|]. destruct (keqb k' k); cbn; [tauto|]. intros [->|I]; [auto|]. apply IH in I. tauto. Qed.
Lemma dset_nodup : forall (d : dict) k v, NoDup (map fst d) -> NoDup (map fst (dset keqb d k v)).
Proof using keqb_ok.
  induction d as [|[k' v'] d IH]; intros k v ND; cbn; [constructor; [intros []|constructor]|]. inversion ND; subst. destruct (keqb k' k) eqn:Q; cbn; constructor; auto.
  intros I. apply dset_keys in I. destruct I as [->|I]; [rewrite keqb_refl in Q; discriminate|contradiction].
Qed.
Lemma ddel_keys : forall (d : dict) k x, In x (map fst (ddel keqb d k)) -> In x (map fst d).
Proof using. induction d as [|[k' v'] d IH]; intros k x; cbn; [tauto|]. destruct (keqb k' k); cbn; [intros; right; eauto|]. intros [->|I]; [auto|right; eauto]. Qed.
Lemma ddel_nodup : forall (d : dict) k, NoDup (map fst d) -> NoDup (map fst (ddel keqb d k)).
Proof using.
  induction d as [|[k' v'] d IH]; intros k ND; cbn; [constructor|]. inversion ND; subst. destruct (keqb k' k); cbn; [auto|]. constructor; auto. intros I. apply ddel_keys in I. contradiction.
Qed.
End Dict.
Lemma bt_eqb_ok : forall a b, bt_eqb a b = true <-> a = b.
Proof.
  induction a as [i|l IHl r IHr]; intros [j|l' r']; cbn; try (split; congruence).
  - rewrite Nat.eqb_eq. split; congruence.
  - rewrite andb_true_iff, IHl, IHr. split; [intros [-> ->]; reflexivity|intros E; injection E as -> ->; auto].
Qed.
Lemma dget_agset : forall a k v j, dget bt_eqb (agset a k v) j = if bt_eqb k j then Some v else dget bt_eqb a j.
Proof.
  intros a k v j. unfold agset. rewrite dget_app, (dget_del _ bt_eqb_ok). cbn. destruct (bt_eqb k j); [reflexivity|]. destruct (dget bt_eqb a j); reflexivity.
Qed.
Lemma agmin_in : forall a e, agmin a = Some e -> In e a.
Proof.
  induction a as [|x a IH]; intros e; cbn; [discriminate|]. destruct (agmin a) as [e'|]; [|intros E; injection E as ->; now left].
  destruct (lt3 (snd e') (snd x)); intros E; injection E as <-; [right; auto|now left].
Qed.
Lemma agmin_le : forall a e x, agmin a = Some e -> In x a -> le3 (snd e) (snd x).
Proof.
  induction a as [|y a IH]; intros e x E I; [contradiction|]. cbn in E. destruct (agmin a) as [e'|] eqn:M.
  - destruct (lt3 (snd e') (snd y)) eqn:Q; injection E as <-.
    + destruct I as [->|I]; [now apply lt3_spec|eapply IH; eauto].
    + apply lt3_false in Q. destruct I as [->|I]; [apply le3_refl|]. eapply le3_trans; [exact Q|]. eapply IH; eauto.
  - injection E as ->. destruct a as [|z a]; [destruct I as [->|[]]; apply le3_refl|]. cbn in M. destruct (agmin a) as [e2|]; [destruct (lt3 (snd e2) (snd z))|]; discriminate.
Qed.
Lemma agmin_none : forall a, agmin a = None -> a = [].
Proof. intros [|x a]; [reflexivity|]. cbn. destruct (agmin a) as [e|]; [destruct (lt3 (snd e) (snd x))|]; discriminate. Qed.

(** ---- sets of children ---- *)
Fixpoint mask (t : bt) : N := match t with BL i => bit i | BN l r => N.lor (mask l) (mask r) end.
Lemma bit_spec : forall i j, N.testbit (bit i) (N.of_nat j) = (i =? j).
Proof.
  intros i j. unfold bit. rewrite N.shiftl_1_l, N.pow2_bits_eqb. destruct (i =? j) eqn:E; [apply Nat.eqb_eq in E; subst; apply N.eqb_refl|apply Nat.eqb_neq in E; apply N.eqb_neq; lia].
Qed.
Lemma mask_spec : forall t j, N.testbit (mask t) (N.of_nat j) = true <-> In j (btleaves t).
Proof.
  induction t as [i|l IHl r IHr]; intros j; cbn [mask btleaves].
  - rewrite bit_spec, Nat.eqb_eq. cbn. intuition.
  - rewrite N.lor_spec, orb_true_iff, IHl, IHr, in_app_iff. tauto.
Qed.
Lemma mask_eq : forall s t, mask s = mask t <-> forall j, In j (btleaves s) <-> In j (btleaves t).
Proof.
  intros s t. split; [intros E j; rewrite <- !mask_spec, E; tauto|]. intros H. apply N.bits_inj. intros k. rewrite <- (N2Nat.id k).
  apply eq_true_iff_eq. rewrite !mask_spec. apply H.
Qed.
Lemma mask_nonempty : forall t, exists j, In j (btleaves t).
Proof. induction t as [i|l [j H] r _]; [exists i; now left|exists j; cbn; apply in_or_app; now left]. Qed.
Lemma mask_disjoint : forall s t, N.land (mask s) (mask t) = 0%N <-> forall j, In j (btleaves s) -> ~ In j (btleaves t).
Proof.
  intros s t. split.
  - intros E j A B. apply mask_spec in A, B. assert (X : N.testbit (N.land (mask s) (mask t)) (N.of_nat j) = true) by (rewrite N.land_spec, A, B; reflexivity). rewrite E, N.bits_0 in X. discriminate.
  - intros H. apply N.bits_inj. intros k. rewrite <- (N2Nat.id k), N.land_spec, N.bits_0. apply not_true_iff_false. rewrite andb_true_iff, !mask_spec. intros [A B]. exact (H _ A B).
Qed.
Lemma disjoint_sym : forall a b, N.land a b = 0%N -> N.land b a = 0%N.
Proof. intros. now rewrite N.land_comm. Qed.

(** ---- the search ---- *)
Section Search.
Variable n : nat.
Variable head : option nat.
Variable score : bt -> nat * nat.
Notation combine := (combine n head).
Notation newscore := (newscore score).
(** a partial binarization: every child at most once *)
Inductive wf : bt -> Prop :=
| wf_leaf : forall i, i < n -> wf (BL i)
| wf_node : forall l r, wf l -> wf r -> N.land (mask l) (mask r) = 0%N -> wf (BN l r).
Hypothesis score_mask : forall l r l' r', wf l -> wf r -> wf l' -> wf r' -> mask l = mask l' -> mask r = mask r' -> score (BN l r) = score (BN l' r').
Hypothesis score_sym : forall l r, wf l -> wf r -> score (BN l r) = score (BN r l).
(** [dyn]: can be taken from the agenda *)
Definition dynm (m : N) : bool := match head with None => true | Some h => N.testbit m (N.of_nat h) end.
Notation dyn t := (dynm (mask t)).
Lemma combine_shape : forall a b m m' t, combine a b m m' = Some t -> t = BN a b \/ t = BN b a.
Proof using. intros a b m m' t. unfold OptModel.combine. destruct head; [|intros E; injection E as <-; now left]. destruct (_ =? 1); [intros E; injection E as <-; now right|]. destruct (_ =? 1); [intros E; injection E as <-; now left|discriminate]. Qed.
Lemma combine_mask : forall a b t, combine a b (mask a) (mask b) = Some t -> mask t = N.lor (mask a) (mask b).
Proof using. intros a b t E. destruct (combine_shape _ _ _ _ _ E) as [->| ->]; cbn; [reflexivity|apply N.lor_comm]. Qed.
Lemma combine_wf : forall a b t, wf a -> wf b -> N.land (mask a) (mask b) = 0%N -> combine a b (mask a) (mask b) = Some t -> wf t.
Proof using. intros a b t A B D E. destruct (combine_shape _ _ _ _ _ E) as [->| ->]; constructor; auto. now apply disjoint_sym. Qed.
Lemma combine_same : forall a b a' b' t, wf a -> wf b -> wf a' -> wf b' -> mask a = mask a' -> mask b = mask b' -> combine a b (mask a) (mask b) = Some t ->
  exists t', combine a' b' (mask a') (mask b') = Some t' /\ score t' = score t.
Proof using score_mask.
  intros a b a' b' t A B A' B' E1 E2 C. unfold OptModel.combine in *. rewrite <- E1, <- E2. destruct head as [h|]; [|injection C as <-; eexists; split; [reflexivity|symmetry; auto]].
  destruct (card n (mask b) =? 1); [injection C as <-; eexists; split; [reflexivity|symmetry; auto]|]. destruct (card n (mask a) =? 1); [injection C as <-; eexists; split; [reflexivity|symmetry; auto]|discriminate].
Qed.
Lemma combine_swap : forall a b t, wf a -> wf b -> combine a b (mask a) (mask b) = Some t -> exists t', combine b a (mask b) (mask a) = Some t' /\ score t' = score t.
Proof using score_mask score_sym.
  intros a b t A B C. unfold OptModel.combine in *. destruct head as [h|]; [|injection C as <-; eexists; split; [reflexivity|auto]].
  destruct (card n (mask b) =? 1); [injection C as <-|].
  - destruct (card n (mask a) =? 1); eexists; split; [reflexivity|auto|reflexivity|auto].
  - destruct (card n (mask a) =? 1); [injection C as <-; eexists; split; [reflexivity|auto]|discriminate].
Qed.
Lemma dyn_lor : forall a b, dynm (N.lor a b) = dynm a || dynm b.
Proof using. intros a b. unfold dynm. destruct head; [apply N.lor_spec|reflexivity]. Qed.
Variable start : list (bt * (nat * nat * nat)).
Inductive deriv : bt -> nat * nat * nat -> Prop :=
| d_init : forall t x, In (t, x) start -> deriv t x
| d_comb : forall t1 x1 t2 x2 t, deriv t1 x1 -> deriv t2 x2 -> N.land (mask t1) (mask t2) = 0%N -> dyn t1 = true \/ dyn t2 = true ->
    combine t1 t2 (mask t1) (mask t2) = Some t -> deriv t (newscore t x1 x2).
Hypothesis start_wf : forall t x, In (t, x) start -> wf t.
Hypothesis start_head : forall t x h, In (t, x) start -> head = Some h -> mask t <> bit h.

Lemma deriv_wf : forall t x, deriv t x -> wf t.
Proof using start_wf. induction 1 as [t x I|t1 x1 t2 x2 t D1 I1 D2 I2 DJ DY C]; [eauto|]. exact (combine_wf _ _ _ I1 I2 DJ C). Qed.
Lemma newscore_ge : forall t x y, le3 x (newscore t x y).
Proof using.
  intros t x y. unfold le3, OptModel.newscore. cbn [fst snd].
  destruct (pair2_dec (fst x) (max2 (max2 (score t) (fst y)) (fst x))) as [E|E]; [right; split; [exact E|lia]|left; split; [apply max2_r|exact E]].
Qed.
Lemma newscore_le : forall t t' x y x' y', score t = score t' -> le2 (fst x) (fst x') -> le2 (fst y) (fst y') -> le2 (fst (newscore t x y)) (fst (newscore t' x' y')).
Proof using.
  intros t t' x y x' y' E X Y. unfold OptModel.newscore. cbn [fst]. rewrite E. rewrite !max2_le. repeat split.
  - eapply le2_trans; [apply max2_l|apply max2_l].
  - eapply le2_trans; [exact Y|]. eapply le2_trans; [apply max2_r|apply max2_l].
  - eapply le2_trans; [exact X|]. apply max2_r.
Qed.
Lemma newscore_swap : forall t t' x y, score t = score t' -> le2 (fst (newscore t x y)) (fst (newscore t' y x)).
Proof using.
  intros t t' x y E. unfold OptModel.newscore. cbn [fst]. rewrite E, !max2_le. repeat split.
  - eapply le2_trans; [apply max2_l|apply max2_l].
  - apply max2_r.
  - eapply le2_trans; [apply max2_r|apply max2_l].
Qed.

Notation ws st t := (dget bt_eqb (workingset st) t).
Notation ag st t := (dget bt_eqb (agenda st) t).
Notation nt st t := (dget bt_eqb (nonterms st) t).
Notation rv st m := (dget N.eqb (revnonterms st) m).
Definition settled (st : ost) (t : bt) (x : nat * nat * nat) : Prop := ws st t = Some x /\ ag st t = None.
Record core (st : ost) : Prop := {
  c_nodup : NoDup (map fst (workingset st));
  c_agdup : NoDup (map fst (agenda st));
  c_deriv : forall t x, ws st t = Some x -> deriv t x;
  c_nt : forall t x, ws st t = Some x -> nt st t = Some (mask t);
  c_rv : forall t x, ws st t = Some x -> rv st (mask t) = Some t;
  c_back : forall m t, rv st m = Some t -> mask t = m /\ ((exists x, ws st t = Some x) \/ exists h, head = Some h /\ m = bit h);
  c_ag : forall t x, ag st t = Some x -> ws st t = Some x /\ dyn t = true }.
(** every item of [st] has one at least as good in [st'] *)
Definition better (st st' : ost) : Prop := forall t x, ws st t = Some x -> exists t' x', ws st' t' = Some x' /\ mask t' = mask t /\ le2 (fst x') (fst x).
Lemma better_refl : forall st, better st st.
Proof using. intros st t x H. exists t, x. split; [exact H|]. split; [reflexivity|apply le2_refl]. Qed.
Lemma better_trans : forall a b c, better a b -> better b c -> better a c.
Proof using.
  intros a b c H K t x E. destruct (H t x E) as (t1 & x1 & E1 & M1 & L1). destruct (K t1 x1 E1) as (t2 & x2 & E2 & M2 & L2).
  exists t2, x2. split; [exact E2|]. split; [congruence|]. eapply le2_trans; eauto.
Qed.
Definition covered (st : ost) (t1 : bt) (x1 : nat * nat * nat) (t2 : bt) (x2 : nat * nat * nat) : Prop :=
  forall t, combine t1 t2 (mask t1) (mask t2) = Some t -> exists t' x', ws st t' = Some x' /\ mask t' = mask t /\ le2 (fst x') (fst (newscore t x1 x2)).
Lemma covered_better : forall st st' t1 x1 t2 x2, better st st' -> covered st t1 x1 t2 x2 -> covered st' t1 x1 t2 x2.
Proof using.
  intros st st' t1 x1 t2 x2 B C t E. destruct (C t E) as (t' & x' & W & M & L). destruct (B _ _ W) as (t2' & x2' & W2 & M2 & L2).
  exists t2', x2'. split; [exact W2|]. split; [congruence|]. eapply le2_trans; eauto.
Qed.
Lemma covered_swap : forall st t1 x1 t2 x2, wf t1 -> wf t2 -> covered st t1 x1 t2 x2 -> covered st t2 x2 t1 x1.
Proof using score_mask score_sym.
  intros st t1 x1 t2 x2 W1 W2 C t E. destruct (combine_swap _ _ _ W2 W1 E) as (t' & E' & S). destruct (C t' E') as (u & x & A & B & D). exists u, x. split; [exact A|].
  split; [rewrite B, (combine_mask _ _ _ E'), (combine_mask _ _ _ E); apply N.lor_comm|]. eapply le2_trans; [exact D|]. apply newscore_swap. exact S.
Qed.

(** one step of the inner loop *)
Section Inner.
Variables (p : bt) (xp : nat * nat * nat).
Hypothesis p_dyn : dyn p = true.
Record loopinv (st : ost) : Prop := {
  l_core : core st;
  l_p : settled st p xp;
  l_low : forall t z, settled st t z -> dyn t = true -> le3 z xp;
  l_high : forall t z, ag st t = Some z -> le3 xp z }.
Lemma inner_ok : forall st p1 y, loopinv st -> deriv p1 y ->
  exists st', inner n head score p xp (Some st) (p1, y) = Some st' /\ loopinv st' /\ better st st' /\
    (forall t z, settled st' t z <-> settled st t z) /\
    (settled st p1 y -> N.land (mask p) (mask p1) = 0%N -> covered st' p xp p1 y).
Proof using score_mask score_sym start_wf start_head p_dyn.
  intros st p1 y LI D1. destruct LI as [C SP LOW HIGH]. pose proof C as C0. destruct C as [ND AD CD CN CR CB CA]. destruct SP as [WP AP].
  assert (WFP : wf p) by (eapply deriv_wf, CD, WP). assert (WF1 : wf p1) by (eapply deriv_wf, D1).
  unfold inner. unfold dmem at 1. destruct (ws st p1) as [y'|] eqn:W1; cbn [negb].
  2:{ exists st. split; [reflexivity|]. split; [constructor; [exact C0|split; assumption|assumption|assumption]|]. split; [apply better_refl|]. split; [tauto|]. intros [A _]. congruence. }
  rewrite (CN _ _ WP), (CN _ _ W1). destruct (N.land (mask p) (mask p1) =? 0)%N eqn:DJ; cbn [negb].
  2:{ apply N.eqb_neq in DJ. exists st. split; [reflexivity|]. split; [constructor; [exact C0|split; assumption|assumption|assumption]|]. split; [apply better_refl|]. split; [tauto|]. intros _ A. contradiction. }
  apply N.eqb_eq in DJ. destruct (combine p p1 (mask p) (mask p1)) as [p2|] eqn:CB2.
  2:{ exists st. split; [reflexivity|]. split; [constructor; [exact C0|split; assumption|assumption|assumption]|]. split; [apply better_refl|]. split; [tauto|]. intros _ _ t E. congruence. }
  pose proof (combine_mask _ _ _ CB2) as M2. set (x2 := newscore p2 xp y). rewrite <- M2.
  assert (D2 : deriv p2 x2) by (eapply d_comb; [apply CD, WP|exact D1|exact DJ|now left|exact CB2]).
  assert (GE : le3 xp x2) by apply newscore_ge.
  assert (DY2 : dyn p2 = true) by (rewrite M2, dyn_lor, p_dyn; reflexivity).
  assert (NP : mask p2 <> mask p).
  { rewrite M2. intros E. destruct (mask_nonempty p1) as [j J]. pose proof (proj1 (mask_disjoint _ _) DJ j) as X. apply X; [|exact J]. apply mask_spec. rewrite <- E, N.lor_spec. apply orb_true_iff. right. now apply mask_spec. }
  assert (NH : forall h, head = Some h -> mask p2 <> bit h).
  { intros h E B. rewrite M2 in B. destruct (mask_nonempty p1) as [j J]. assert (X : N.testbit (bit h) (N.of_nat j) = true) by (rewrite <- B, N.lor_spec; apply orb_true_iff; right; now apply mask_spec).
    rewrite bit_spec in X. apply Nat.eqb_eq in X. subst j. apply (proj1 (mask_disjoint _ _) DJ h); [|exact J]. apply mask_spec. unfold dynm in p_dyn. rewrite E in p_dyn. exact p_dyn. }
  (* adding p2, when no item has its mask *)
  assert (ADD : forall s, core s -> settled s p xp -> (forall t z, settled s t z -> dyn t = true -> le3 z xp) -> (forall t z, ag s t = Some z -> le3 xp z) -> (forall t x, ws s t = Some x -> mask t <> mask p2) -> True -> True) by auto.
  clear ADD.
  destruct (rv st (mask p2)) as [a|] eqn:RV.
  - destruct (CB _ _ RV) as [MA [[z WA]|[h [HH HB]]]]; [|exfalso; exact (NH h HH HB)]. rewrite WA. destruct (lt3 x2 z) eqn:LT.
    2:{ (* not better *)
      apply lt3_false in LT. exists st. split; [reflexivity|]. split; [constructor; [exact C0|split; assumption|assumption|assumption]|]. split; [apply better_refl|]. split; [tauto|].
      intros _ _ t E. assert (t = p2) by congruence. subst t. exists a, z. split; [exact WA|]. split; [exact MA|]. apply le3_fst. exact LT. }
    unfold dmem. rewrite (CN _ _ WA).
    assert (AGA : ag st a = Some z).
    { destruct (ag st a) as [z'|] eqn:G; [destruct (CA _ _ G) as [G' _]; congruence|]. exfalso. assert (DA : dyn a = true) by (rewrite MA; exact DY2). specialize (LOW a z (conj WA G) DA). apply (lt3_not _ _ LT). eapply le3_trans; eauto. }
    assert (UNIQ : forall t x, ws st t = Some x -> mask t = mask p2 -> t = a) by (intros t x W M; pose proof (CR _ _ W) as R; rewrite M in R; congruence).
    assert (NPA : p <> a) by (intros ->; rewrite MA in NP; congruence).
    eexists. split; [reflexivity|]. set (st' := mkO _ _ _ _).
    assert (WS : forall t, ws st' t = if bt_eqb p2 t then Some x2 else if bt_eqb a t then None else ws st t) by (intros t; unfold st'; cbn [workingset]; rewrite (dget_set _ bt_eqb_ok), (dget_del _ bt_eqb_ok); reflexivity).
    assert (AG : forall t, ag st' t = if bt_eqb p2 t then Some x2 else if bt_eqb a t then None else ag st t) by (intros t; unfold st'; cbn [agenda]; rewrite dget_agset, (dget_del _ bt_eqb_ok); reflexivity).
    assert (NTT : forall t, nt st' t = if bt_eqb p2 t then Some (mask p2) else if bt_eqb a t then None else nt st t) by (intros t; unfold st'; cbn [nonterms]; rewrite (dget_set _ bt_eqb_ok), (dget_del _ bt_eqb_ok); reflexivity).
    assert (RVV : forall m, rv st' m = if N.eqb (mask p2) m then Some p2 else rv st m) by (intros m; unfold st'; cbn [revnonterms]; apply (dget_set _ N.eqb_eq)).
    assert (OLD : forall t, t <> p2 -> t <> a -> ws st' t = ws st t /\ ag st' t = ag st t /\ nt st' t = nt st t).
    { intros t N1 N2. rewrite WS, AG, NTT. rewrite (keqb_no _ bt_eqb_ok p2 t) by congruence. rewrite (keqb_no _ bt_eqb_ok a t) by congruence. auto. }
    assert (GONE : forall t x, ws st' t = Some x -> t <> p2 -> t <> a /\ ws st t = Some x).
    { intros t x W N1. rewrite WS in W. rewrite (keqb_no _ bt_eqb_ok p2 t) in W by congruence. destruct (bt_eqb a t) eqn:Q; [discriminate|]. split; [intros ->; rewrite (keqb_refl _ bt_eqb_ok) in Q; discriminate|exact W]. }
    assert (DECP : forall t, t = p2 \/ t <> p2) by (intros t; destruct (bt_eqb t p2) eqn:Q; [left; now apply bt_eqb_ok|right; intros ->; rewrite (keqb_refl _ bt_eqb_ok) in Q; discriminate]).
    assert (DECA : forall t, t = a \/ t <> a) by (intros t; destruct (bt_eqb t a) eqn:Q; [left; now apply bt_eqb_ok|right; intros ->; rewrite (keqb_refl _ bt_eqb_ok) in Q; discriminate]).
    assert (NP2 : p <> p2) by (intros ->; congruence).
    assert (SAME : forall t z0, settled st' t z0 <-> settled st t z0).
    { intros t z0. destruct (DECP t) as [->|N1].
      - unfold settled. rewrite AG, (keqb_refl _ bt_eqb_ok). split; [intros [_ X]; discriminate|]. intros [W G]. pose proof (UNIQ _ _ W eq_refl) as ->. congruence.
      - destruct (DECA t) as [->|N2].
        + unfold settled. rewrite WS, (keqb_no _ bt_eqb_ok p2 a), (keqb_refl _ bt_eqb_ok) by congruence. split; [intros [X _]; discriminate|intros [_ X]; congruence].
        + destruct (OLD t N1 N2) as (E1 & E2 & _). unfold settled. rewrite E1, E2. tauto. }
    assert (NEW : ws st' p2 = Some x2) by (rewrite WS, (keqb_refl _ bt_eqb_ok); reflexivity).
    split; [constructor|split; [|split; [exact SAME|]]].
    + constructor.
      * unfold st'. cbn [workingset]. apply (dset_nodup _ bt_eqb_ok). now apply ddel_nodup.
      * unfold st'. cbn [agenda]. unfold agset. rewrite map_app. cbn [map fst]. apply (Permutation_NoDup (Permutation_cons_append _ p2)). constructor; [|do 2 apply ddel_nodup; assumption].
        intros I. apply in_map_iff in I. destruct I as ([k v] & E & I). cbn in E. subst k. assert (X : dget bt_eqb (ddel bt_eqb (ddel bt_eqb (agenda st) a) p2) p2 = Some v) by (apply (in_dget _ bt_eqb_ok); [do 2 apply ddel_nodup; assumption|exact I]).
        rewrite (dget_del _ bt_eqb_ok), (keqb_refl _ bt_eqb_ok) in X. discriminate.
      * intros t x W. destruct (DECP t) as [->|N1]; [rewrite NEW in W; injection W as <-; exact D2|]. destruct (GONE _ _ W N1) as [_ W']. eauto.
      * intros t x W. destruct (DECP t) as [->|N1]; [rewrite NTT, (keqb_refl _ bt_eqb_ok); reflexivity|]. destruct (GONE _ _ W N1) as [N2 W']. destruct (OLD t N1 N2) as (_ & _ & ->). eauto.
      * intros t x W. rewrite RVV. destruct (DECP t) as [->|N1]; [rewrite N.eqb_refl; reflexivity|]. destruct (GONE _ _ W N1) as [N2 W']. destruct (N.eqb_spec (mask p2) (mask t)) as [E|E]; [|eauto]. exfalso. apply N2. eapply UNIQ; eauto.
      * intros m t R. rewrite RVV in R. destruct (N.eqb_spec (mask p2) m) as [E|E]; [injection R as <-; split; [exact E|left; eauto]|]. destruct (CB _ _ R) as [MT [[x W]|H]]; [|auto]. split; [exact MT|]. left. exists x.
        assert (N1 : t <> p2) by (intros ->; congruence). assert (N2 : t <> a) by (intros ->; congruence). destruct (OLD t N1 N2) as (-> & _). exact W.
      * intros t x G. destruct (DECP t) as [->|N1]; [rewrite AG, (keqb_refl _ bt_eqb_ok) in G; injection G as <-; auto|]. destruct (DECA t) as [->|N2].
        { rewrite AG, (keqb_no _ bt_eqb_ok p2 a), (keqb_refl _ bt_eqb_ok) in G by congruence. discriminate. }
        destruct (OLD t N1 N2) as (E1 & E2 & _). rewrite E2 in G. rewrite E1. eauto.
    + apply SAME. split; assumption.
    + intros t z0 S. apply LOW. now apply SAME.
    + intros t z0 G. destruct (DECP t) as [->|N1]; [rewrite AG, (keqb_refl _ bt_eqb_ok) in G; injection G as <-; exact GE|]. destruct (DECA t) as [->|N2].
      { rewrite AG, (keqb_no _ bt_eqb_ok p2 a), (keqb_refl _ bt_eqb_ok) in G by congruence. discriminate. }
      destruct (OLD t N1 N2) as (_ & E2 & _). rewrite E2 in G. eauto.
    + intros t x W. destruct (DECP t) as [->|N1].
      { pose proof (UNIQ _ _ W eq_refl) as ->. exists a, x2. split; [exact NEW|]. split; [reflexivity|]. rewrite WA in W. injection W as <-. apply le3_fst, lt3_spec, LT. }
      destruct (DECA t) as [->|N2].
      { exists p2, x2. split; [exact NEW|]. split; [congruence|]. rewrite WA in W. injection W as <-. apply le3_fst, lt3_spec, LT. }
      exists t, x. destruct (OLD t N1 N2) as (-> & _). split; [exact W|]. split; [reflexivity|apply le2_refl].
    + intros _ _ t E. assert (t = p2) by congruence. subst t. exists p2, x2. split; [exact NEW|]. split; [reflexivity|apply le2_refl].
  - assert (UNIQ : forall t x, ws st t = Some x -> mask t <> mask p2) by (intros t x W M; pose proof (CR _ _ W) as R; rewrite M in R; congruence).
    eexists. split; [reflexivity|]. set (st' := mkO _ _ _ _).
    assert (WS : forall t, ws st' t = if bt_eqb p2 t then Some x2 else ws st t) by (intros t; unfold st'; cbn [workingset]; apply (dget_set _ bt_eqb_ok)).
    assert (AG : forall t, ag st' t = if bt_eqb p2 t then Some x2 else ag st t) by (intros t; unfold st'; cbn [agenda]; apply dget_agset).
    assert (NTT : forall t, nt st' t = if bt_eqb p2 t then Some (mask p2) else nt st t) by (intros t; unfold st'; cbn [nonterms]; apply (dget_set _ bt_eqb_ok)).
    assert (RVV : forall m, rv st' m = if N.eqb (mask p2) m then Some p2 else rv st m) by (intros m; unfold st'; cbn [revnonterms]; apply (dget_set _ N.eqb_eq)).
    assert (NW : ws st p2 = None) by (destruct (ws st p2) as [x|] eqn:W; [exfalso; eapply UNIQ; eauto|reflexivity]).
    assert (DECP : forall t, t = p2 \/ t <> p2) by (intros t; destruct (bt_eqb t p2) eqn:Q; [left; now apply bt_eqb_ok|right; intros ->; rewrite (keqb_refl _ bt_eqb_ok) in Q; discriminate]).
    assert (OLD : forall t, t <> p2 -> ws st' t = ws st t /\ ag st' t = ag st t /\ nt st' t = nt st t).
    { intros t N1. rewrite WS, AG, NTT. rewrite (keqb_no _ bt_eqb_ok p2 t) by congruence. auto. }
    assert (NEW : ws st' p2 = Some x2) by (rewrite WS, (keqb_refl _ bt_eqb_ok); reflexivity).
    assert (SAME : forall t z0, settled st' t z0 <-> settled st t z0).
    { intros t z0. destruct (DECP t) as [->|N1].
      - unfold settled. rewrite AG, (keqb_refl _ bt_eqb_ok). split; [intros [_ X]; discriminate|]. intros [W G]. congruence.
      - destruct (OLD t N1) as (E1 & E2 & _). unfold settled. rewrite E1, E2. tauto. }
    split; [constructor|split; [|split; [exact SAME|]]].
    + constructor.
      * unfold st'. cbn [workingset]. now apply (dset_nodup _ bt_eqb_ok).
      * unfold st'. cbn [agenda]. unfold agset. rewrite map_app. cbn [map fst]. apply (Permutation_NoDup (Permutation_cons_append _ p2)). constructor; [|apply ddel_nodup; assumption].
        intros I. apply in_map_iff in I. destruct I as ([k v] & E & I). cbn in E. subst k. assert (X : dget bt_eqb (ddel bt_eqb (agenda st) p2) p2 = Some v) by (apply (in_dget _ bt_eqb_ok); [apply ddel_nodup; assumption|exact I]).
        rewrite (dget_del _ bt_eqb_ok), (keqb_refl _ bt_eqb_ok) in X. discriminate.
      * intros t x W. destruct (DECP t) as [->|N1]; [rewrite NEW in W; injection W as <-; exact D2|]. destruct (OLD t N1) as (E1 & _). rewrite E1 in W. eauto.
      * intros t x W. destruct (DECP t) as [->|N1]; [rewrite NTT, (keqb_refl _ bt_eqb_ok); reflexivity|]. destruct (OLD t N1) as (E1 & _ & E3). rewrite E1 in W. rewrite E3. eauto.
      * intros t x W. rewrite RVV. destruct (DECP t) as [->|N1]; [rewrite N.eqb_refl; reflexivity|]. destruct (OLD t N1) as (E1 & _). rewrite E1 in W. destruct (N.eqb_spec (mask p2) (mask t)) as [E|E]; [|eauto]. exfalso. eapply UNIQ; eauto.
      * intros m t R. rewrite RVV in R. destruct (N.eqb_spec (mask p2) m) as [E|E]; [injection R as <-; split; [exact E|left; eauto]|]. destruct (CB _ _ R) as [MT [[x W]|H]]; [|auto]. split; [exact MT|]. left. exists x.
        assert (N1 : t <> p2) by (intros ->; congruence). destruct (OLD t N1) as (-> & _). exact W.
      * intros t x G. destruct (DECP t) as [->|N1]; [rewrite AG, (keqb_refl _ bt_eqb_ok) in G; injection G as <-; auto|]. destruct (OLD t N1) as (E1 & E2 & _). rewrite E2 in G. rewrite E1. eauto.
    + apply SAME. split; assumption.
    + intros t z0 S. apply LOW. now apply SAME.
    + intros t z0 G. destruct (DECP t) as [->|N1]; [rewrite AG, (keqb_refl _ bt_eqb_ok) in G; injection G as <-; exact GE|]. destruct (OLD t N1) as (_ & E2 & _). rewrite E2 in G. eauto.
    + intros t x W. exists t, x. assert (N1 : t <> p2) by (intros ->; congruence). destruct (OLD t N1) as (-> & _). split; [exact W|]. split; [reflexivity|apply le2_refl].
    + intros _ _ t E. assert (t = p2) by congruence. subst t. exists p2, x2. split; [exact NEW|]. split; [reflexivity|apply le2_refl].
Qed.
End Inner.

Lemma inner_fold : forall p xp, dyn p = true -> forall L st, loopinv p xp st -> (forall p1 y, In (p1, y) L -> deriv p1 y) ->
  exists st', fold_left (inner n head score p xp) L (Some st) = Some st' /\ loopinv p xp st' /\ better st st' /\
    (forall t z, settled st' t z <-> settled st t z) /\
    (forall p1 y, In (p1, y) L -> settled st p1 y -> N.land (mask p) (mask p1) = 0%N -> covered st' p xp p1 y).
Proof using score_mask score_sym start_wf start_head.
  intros p xp PD. induction L as [|[p1 y] L IH]; intros st LI D.
  - exists st. split; [reflexivity|]. split; [exact LI|]. split; [apply better_refl|]. split; [tauto|]. intros p1 y [].
  - destruct (inner_ok p xp PD st p1 y LI (D _ _ (or_introl eq_refl))) as (st1 & E1 & LI1 & B1 & S1 & C1).
    destruct (IH st1 LI1 (fun _ _ I => D _ _ (or_intror I))) as (st2 & E2 & LI2 & B2 & S2 & C2).
    exists st2. cbn [fold_left]. rewrite E1. split; [exact E2|]. split; [exact LI2|]. split; [eapply better_trans; eauto|]. split; [intros t z; rewrite S2; apply S1|].
    intros q w [I|I] SE DJ; [injection I as <- <-; eapply covered_better; eauto|]. apply C2; auto. now apply S1.
Qed.
Record inv (st : ost) : Prop := {
  i_core : core st;
  i_mono : forall t z u w, settled st t z -> dyn t = true -> ag st u = Some w -> le3 z w;
  i_closed : forall t1 x1 t2 x2, settled st t1 x1 -> settled st t2 x2 -> N.land (mask t1) (mask t2) = 0%N -> dyn t1 = true \/ dyn t2 = true -> covered st t1 x1 t2 x2;
  i_start : forall t x, In (t, x) start -> exists t' x', ws st t' = Some x' /\ mask t' = mask t /\ le2 (fst x') (fst x);
  i_goal : forall t z, settled st t z -> mask t <> goal n }.
Lemma settle : forall st, inv st -> forall t' x', deriv t' x' -> (forall u w, ag st u = Some w -> ~ le2 (fst w) (fst x')) ->
  exists t z, settled st t z /\ mask t = mask t' /\ le2 (fst z) (fst x').
Proof using score_mask score_sym start_wf.
  intros st I t' x' D. induction D as [t x IN|t1 x1 t2 x2 t D1 IH1 D2 IH2 DJ DY CO]; intros H.
  - destruct (i_start _ I _ _ IN) as (t' & x' & W & M & L). exists t', x'. split; [|auto]. split; [exact W|]. destruct (ag st t') as [w|] eqn:G; [|reflexivity].
    exfalso. destruct (c_ag _ (i_core _ I) _ _ G) as [W' _]. apply (H _ _ G). congruence.
  - assert (LE1 : le2 (fst x1) (fst (newscore t x1 x2))) by apply le3_fst, newscore_ge.
    assert (LE2 : le2 (fst x2) (fst (newscore t x1 x2))) by (unfold OptModel.newscore; cbn [fst]; eapply le2_trans; [apply max2_r|apply max2_l]).
    destruct IH1 as (s1 & z1 & S1 & M1 & L1); [intros u w G X; apply (H u w G); eapply le2_trans; eauto|].
    destruct IH2 as (s2 & z2 & S2 & M2 & L2); [intros u w G X; apply (H u w G); eapply le2_trans; eauto|].
    assert (W1 : wf s1) by (eapply deriv_wf, (c_deriv _ (i_core _ I)), (proj1 S1)). assert (W2 : wf s2) by (eapply deriv_wf, (c_deriv _ (i_core _ I)), (proj1 S2)).
    destruct (combine_same _ _ _ _ _ (deriv_wf _ _ D1) (deriv_wf _ _ D2) W1 W2 (eq_sym M1) (eq_sym M2) CO) as (t' & CO' & SC).
    assert (DJ' : N.land (mask s1) (mask s2) = 0%N) by (rewrite M1, M2; exact DJ). assert (DY' : dyn s1 = true \/ dyn s2 = true) by (rewrite M1, M2; exact DY).
    destruct (i_closed _ I _ _ _ _ S1 S2 DJ' DY' t' CO') as (u & z & W & M & L).
    assert (LZ : le2 (fst z) (fst (newscore t x1 x2))) by (eapply le2_trans; [exact L|]; apply newscore_le; assumption).
    exists u, z. split; [split; [exact W|]|split; [|exact LZ]].
    + destruct (ag st u) as [w|] eqn:G; [|reflexivity]. exfalso. destruct (c_ag _ (i_core _ I) _ _ G) as [W' _]. apply (H _ _ G). congruence.
    + rewrite M, (combine_mask _ _ _ CO'), (combine_mask _ _ _ CO), M1, M2. reflexivity.
Qed.
Lemma mask_bound : forall t, wf t -> (mask t < 2 ^ N.of_nat n)%N.
Proof using.
  intros t W. assert (B : forall j, In j (btleaves t) -> j < n) by (induction W; cbn; [intros j [<-|[]]; assumption|intros j J; apply in_app_iff in J; destruct J; auto]).
  destruct (N.eq_dec (mask t) 0) as [->|NZ]; [apply N.neq_0_lt_0, N.pow_nonzero; discriminate|]. apply N.log2_lt_pow2; [lia|].
  pose proof (N.bit_log2 _ NZ) as X. rewrite <- (N2Nat.id (N.log2 (mask t))) in X. apply mask_spec, B in X. lia.
Qed.
Hypothesis complete : exists t x, deriv t x /\ mask t = goal n.
Theorem search_ok : forall fuel done st, inv st -> NoDup done -> (forall m, In m done -> exists t z, settled st t z /\ mask t = m) -> 2 ^ n < fuel + length done ->
  exists p x, search n head score fuel st = Found p /\ deriv p x /\ mask p = goal n /\ forall t' x', deriv t' x' -> mask t' = goal n -> le2 (fst x) (fst x').
Proof using score_mask score_sym start_wf start_head complete.
  induction fuel as [|fuel IH]; intros done st I ND DN FU.
  - exfalso. assert (L : length (map N.to_nat done) <= length (seq 0 (2 ^ n))).
    { apply NoDup_incl_length; [apply FinFun.Injective_map_NoDup; [intros a b E; now apply N2Nat.inj|exact ND]|]. intros k K. apply in_map_iff in K. destruct K as (m & <- & K). destruct (DN m K) as (t & z & S & <-).
      pose proof (mask_bound t (deriv_wf _ _ (c_deriv _ (i_core _ I) _ _ (proj1 S)))) as B. apply in_seq. split; [lia|]. assert (P : 2 ^ n = N.to_nat (2 ^ N.of_nat n)) by (rewrite N2Nat.inj_pow, Nat2N.id; reflexivity). rewrite P. lia. }
    rewrite map_length, seq_length in L. lia.
  - cbn [search]. destruct (agmin (agenda st)) as [[p x]|] eqn:MIN.
    2:{ exfalso. apply agmin_none in MIN. destruct complete as (t & z & D & G). destruct (settle st I t z D) as (u & w & S & M & _); [rewrite MIN; discriminate|]. apply (i_goal _ I _ _ S). congruence. }
    pose proof (i_core _ I) as C. assert (AP : ag st p = Some x) by (apply (in_dget _ bt_eqb_ok); [apply (c_agdup _ C)|now apply agmin_in]).
    assert (HIGH : forall u w, ag st u = Some w -> le3 x w) by (intros u w G; apply (dget_in _ bt_eqb_ok) in G; exact (agmin_le _ _ _ MIN G)).
    destruct (c_ag _ C _ _ AP) as [WP DP]. cbn [nonterms agenda workingset revnonterms]. rewrite (c_nt _ C _ _ WP). destruct (N.eqb_spec (mask p) (goal n)) as [G|G].
    + exists p, x. split; [reflexivity|]. split; [apply (c_deriv _ C), WP|]. split; [exact G|]. intros t' x' D G'. destruct (le2_total (fst x) (fst x')) as [LE|GE]; [exact LE|].
      destruct (pair2_dec (fst x') (fst x)) as [E|NE]; [rewrite E; apply le2_refl|]. exfalso. destruct (settle st I t' x' D) as (u & w & S & M & _); [|apply (i_goal _ I _ _ S); congruence].
      intros u w AU X. apply NE. apply le2_antisym; [exact GE|]. eapply le2_trans; [apply le3_fst, (HIGH _ _ AU)|exact X].
    + set (st1 := mkO _ _ _ _).
      assert (AG1 : forall t, ag st1 t = if bt_eqb p t then None else ag st t) by (intros t; unfold st1; cbn [agenda]; apply (dget_del _ bt_eqb_ok)).
      assert (AGS : forall t w, ag st1 t = Some w -> ag st t = Some w) by (intros t w E; rewrite AG1 in E; destruct (bt_eqb p t); [discriminate|exact E]).
      assert (C1 : core st1).
      { constructor; [exact (c_nodup _ C)|unfold st1; cbn [agenda]; apply ddel_nodup, (c_agdup _ C)|exact (c_deriv _ C)|exact (c_nt _ C)|exact (c_rv _ C)|exact (c_back _ C)|]. intros t w E. apply AGS in E. exact (c_ag _ C _ _ E). }
      assert (SP : settled st1 p x) by (split; [exact WP|rewrite AG1, (keqb_refl _ bt_eqb_ok); reflexivity]).
      assert (SET : forall t z, settled st1 t z -> t = p /\ z = x \/ settled st t z).
      { intros t z [W A]. rewrite AG1 in A. destruct (bt_eqb p t) eqn:Q; [apply bt_eqb_ok in Q; subst t; left; split; [reflexivity|]; change (ws st p = Some z) in W; congruence|right; split; assumption]. }
      assert (LI : loopinv p x st1).
      { constructor; [exact C1|exact SP| |intros t z E; eauto]. intros t z S D. destruct (SET _ _ S) as [[-> ->]|S']; [apply le3_refl|]. exact (i_mono _ I _ _ _ _ S' D AP). }
      destruct (inner_fold p x DP (workingset st1) st1 LI) as (st2 & E2 & LI2 & B2 & S2 & CV2).
      { intros p1 y IN. apply (c_deriv _ C). apply (in_dget _ bt_eqb_ok); [exact (c_nodup _ C)|exact IN]. }
      change (workingset st) with (workingset st1). rewrite E2.
      apply (IH (mask p :: done) st2).
      * constructor.
        -- exact (l_core _ _ _ LI2).
        -- intros t z u w S D A. eapply le3_trans; [exact (l_low _ _ _ LI2 _ _ S D)|exact (l_high _ _ _ LI2 _ _ A)].
        -- intros t1 x1 t2 x2 T1 T2 DJ DY. pose proof (proj1 (S2 _ _) T1) as T1'. pose proof (proj1 (S2 _ _) T2) as T2'.
           assert (W1 : wf t1) by (eapply deriv_wf, (c_deriv _ C1), (proj1 T1')). assert (W2 : wf t2) by (eapply deriv_wf, (c_deriv _ C1), (proj1 T2')).
           destruct (SET _ _ T1') as [[-> ->]|O1].
           { apply CV2; [apply (dget_in _ bt_eqb_ok), (proj1 T2')|exact T2'|exact DJ]. }
           destruct (SET _ _ T2') as [[-> ->]|O2].
           { apply covered_swap; auto. apply CV2; [apply (dget_in _ bt_eqb_ok), (proj1 T1')|exact T1'|now apply disjoint_sym]. }
           apply (covered_better st1); [exact B2|]. exact (i_closed _ I _ _ _ _ O1 O2 DJ DY).
        -- intros t y IN. destruct (i_start _ I _ _ IN) as (t1 & y1 & W1 & M1 & L1). destruct (B2 t1 y1 W1) as (t2 & y2 & W2 & M2 & L2). exists t2, y2. split; [exact W2|]. split; [congruence|]. eapply le2_trans; eauto.
        -- intros t z S. apply S2 in S. destruct (SET _ _ S) as [[-> ->]|O]; [exact G|]. exact (i_goal _ I _ _ O).
      * constructor; [|exact ND]. intros IN. destruct (DN _ IN) as (t & z & [W A] & M). pose proof (c_rv _ C _ _ W) as R1. pose proof (c_rv _ C _ _ WP) as R2. rewrite M in R1. rewrite R1 in R2. injection R2 as ->. congruence.
      * intros m [<-|IN]; [exists p, x; split; [apply S2; exact SP|reflexivity]|]. destruct (DN m IN) as (t & z & [W A] & M). exists t, z. split; [|exact M]. apply S2. split; [exact W|]. rewrite AG1. destruct (bt_eqb p t) eqn:Q; [reflexivity|exact A].
      * cbn [length]. lia.
Qed.
End Search.
