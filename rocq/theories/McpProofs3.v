(** Proofs for C66, part 3: sizes of spans, the order of the spans, the cells. *)
From Coq Require Import String.
From Coq Require Import List Bool Arith NArith ZArith QArith Lia Lqa Permutation Sorted.
From Verif Require Import PyStr BitsModel BitsSpec BitsProofs McpModel McpSpec McpProofs McpProofs2.
Import ListNotations.
Local Open Scope list_scope.

(** *** sizes *)
Lemma lenof_bits : forall s, lenof s = length (bits_of s).
Proof. intros. unfold lenof. rewrite pyintbitcount_ok, <- bits_of_length. apply Nat2N.id. Qed.
Lemma lenof_card : forall s l, lists_members (member s) l -> lenof s = length l.
Proof. intros. rewrite lenof_bits. apply (lists_members_length _ _ _ (bits_of_spec s) H). Qed.
Lemma lenof_pos : forall s, s <> 0%N -> (0 < lenof s)%nat.
Proof.
  intros s H. rewrite lenof_bits. destruct (bits_of_spec s) as [_ M].
  destruct (bits_of s) as [|x l]; [|cbn; lia]. exfalso. apply H. apply N.bits_inj. intros i.
  rewrite N.bits_0. destruct (N.testbit s i) eqn:E; [|reflexivity]. apply M in E. destruct E.
Qed.
Lemma lenof_split : forall s l, N.land s l = l -> lenof s = (lenof l + lenof (N.ldiff s l))%nat.
Proof.
  intros s l E. rewrite (lenof_bits l), (lenof_bits (N.ldiff s l)), <- app_length.
  apply lenof_card. destruct (bits_of_spec l) as [N1 M1], (bits_of_spec (N.ldiff s l)) as [N2 M2].
  split.
  - apply nodup_app'; auto. intros x A B. apply M1 in A. apply M2 in B. unfold member in *.
    rewrite N.ldiff_spec, A, andb_false_r in B. discriminate.
  - intros i. rewrite in_app_iff, M1, M2. unfold member. rewrite N.ldiff_spec.
    assert (S : N.testbit l i = true -> N.testbit s i = true).
    { intros T. rewrite <- E, N.land_spec in T. now apply andb_prop in T. }
    destruct (N.testbit s i), (N.testbit l i); cbn; intuition congruence.
Qed.
Lemma lenof_mono : forall s l, N.land s l = l -> (lenof l <= lenof s)%nat.
Proof. intros s l E. rewrite (lenof_split s l E). lia. Qed.
Definition below (n : nat) (s : N) : Prop := forall i, N.testbit s i = true -> (i < N.of_nat n)%N.
Lemma lenof_below : forall n s a, below n s -> (forall i, (i < N.of_nat a)%N -> N.testbit s i = false) ->
  (lenof s <= n - a)%nat.
Proof.
  intros n s a B L. rewrite lenof_bits. destruct (bits_of_spec s) as [ND M].
  replace (n - a)%nat with (length (map N.of_nat (seq a (n - a)))) by (rewrite map_length; apply seq_length).
  apply NoDup_incl_length; [exact ND|]. intros i I. apply M in I. unfold member in I.
  pose proof (B i I). apply in_map_iff. exists (N.to_nat i). split; [apply N2Nat.id|].
  apply in_seq. assert (~ (i < N.of_nat a)%N) by (intros F; rewrite (L i F) in I; discriminate). lia.
Qed.
Lemma startof_spec : forall s, s <> 0%N -> exists r, startof s = Z.of_N r /\ lowest s r.
Proof.
  intros s H. unfold startof. destruct (pyintnextset_ok s 0) as [[_ F]|(r & E & _ & M & L)].
  - exfalso. apply H. apply N.bits_inj. intros i. rewrite N.bits_0.
    destruct (N.testbit s i) eqn:T; [|reflexivity]. exfalso. apply (F i); [lia|exact T].
  - exists r. split; [exact E|]. split; [exact M|]. intros i Hi.
    destruct (N.testbit s i) eqn:T; [|reflexivity]. exfalso. apply (L i); [lia|exact T].
Qed.

(** *** generic facts about lists *)
Lemma nodup_flat_map : forall A B (g : A -> list B) ks, NoDup ks ->
  (forall k, In k ks -> NoDup (g k)) ->
  (forall k k' x, In k ks -> In k' ks -> In x (g k) -> In x (g k') -> k = k') ->
  NoDup (flat_map g ks).
Proof.
  induction ks as [|k ks IH]; intros ND H D; cbn; [constructor|]. inversion ND; subst.
  apply nodup_app'.
  - apply H. now left.
  - apply IH; auto; [intros; apply H; now right|].
    intros k1 k2 x I1 I2. apply D; now right.
  - intros x I J. apply in_flat_map in J. destruct J as (k' & I' & J).
    assert (k = k') by (eapply D; eauto; [now left|now right]). subst. contradiction.
Qed.
Lemma nodup_map_filter : forall A B (f : A -> B) p l, NoDup (map f l) -> NoDup (map f (filter p l)).
Proof.
  induction l as [|x l IH]; cbn; intros ND; [constructor|]. inversion ND; subst.
  destruct (p x); cbn; [|auto]. constructor; [|auto].
  intros I. apply H1. apply in_map_iff in I. destruct I as (y & E & I).
  apply filter_In in I. rewrite <- E. apply in_map. tauto.
Qed.
Lemma map_flat_map : forall A B C (f : B -> C) (g : A -> list B) l,
  map f (flat_map g l) = flat_map (fun x => map f (g x)) l.
Proof. induction l; cbn; [reflexivity|]. now rewrite map_app, IHl. Qed.
Lemma sorted_app : forall A (R : A -> A -> Prop) a b,
  StronglySorted R a -> StronglySorted R b -> (forall x y, In x a -> In y b -> R x y) ->
  StronglySorted R (a ++ b).
Proof.
  induction a as [|x a IH]; intros b Ha Hb H; [exact Hb|]. cbn. inversion Ha; subst.
  constructor.
  - apply IH; auto. intros; apply H; [now right|assumption].
  - apply Forall_forall. intros y I. apply in_app_or in I. destruct I as [I|I].
    + rewrite Forall_forall in H3. auto.
    + apply H; [now left|exact I].
Qed.
Lemma sorted_app_inv : forall A (R : A -> A -> Prop) a b x y,
  StronglySorted R (a ++ b) -> In x a -> In y b -> R x y.
Proof.
  induction a as [|z a IH]; intros b x y S Ix Iy; [contradiction|]. cbn in S. inversion S; subst.
  destruct Ix as [<-|Ix]; [|eauto]. rewrite Forall_forall in H2. apply H2. apply in_or_app. now right.
Qed.

Section Order.
  Variable n : nat.
  Variable tb : table.
  Hypothesis ND : NoDup (map fst tb).
  Hypothesis RANGE : forall s, In s (map fst tb) -> s <> 0%N /\ below n s.

  Lemma at_in : forall start len s c,
    In (s, c) (at_ tb start len) <-> In (s, c) tb /\ startof s = start /\ lenof s = len.
  Proof.
    clear ND RANGE.
    intros. unfold at_. rewrite filter_In. cbn [fst]. rewrite andb_true_iff, Z.eqb_eq, Nat.eqb_eq. tauto.
  Qed.
  Lemma order_in : forall s c, In (s, c) (spanorder n tb) <-> In (s, c) tb.
  Proof.
    intros s c. unfold spanorder. rewrite in_flat_map. split.
    - intros (len & _ & I). apply in_flat_map in I. destruct I as (st & _ & I). apply at_in in I. tauto.
    - intros I. assert (J : In s (map fst tb)) by (change s with (fst (s, c)); now apply in_map).
      destruct (RANGE s J) as [NZ B]. destruct (startof_spec s NZ) as (r & E & L).
      assert (LEN : (lenof s <= n - N.to_nat r)%nat).
      { apply lenof_below; [exact B|]. intros i Hi. apply L. lia. }
      pose proof (lenof_pos s NZ) as P. pose proof (B r (proj1 L)) as Rn.
      exists (lenof s). split; [apply in_seq; lia|]. apply in_flat_map. exists (N.to_nat r).
      split; [apply in_seq; lia|]. apply at_in. repeat split; auto. rewrite E. lia.
  Qed.
  Lemma order_nodup : NoDup (map fst (spanorder n tb)).
  Proof.
    unfold spanorder. rewrite map_flat_map.
    assert (X : forall st len x, In x (map fst (at_ tb st len)) -> startof x = st /\ lenof x = len).
    { intros st len x I. apply in_map_iff in I. destruct I as ([s c] & <- & I). apply at_in in I. tauto. }
    apply nodup_flat_map; [apply seq_NoDup| |].
    - intros len _. rewrite map_flat_map. apply nodup_flat_map; [apply seq_NoDup| |].
      + intros st _. unfold at_. now apply nodup_map_filter.
      + intros k k' x _ _ A B. apply X in A, B. destruct A as [A _], B as [B _]. rewrite A in B. lia.
    - intros k k' x _ _ A B. rewrite map_flat_map in A, B. apply in_flat_map in A, B.
      destruct A as (st & _ & A), B as (st' & _ & B). apply X in A, B. lia.
  Qed.
  Lemma order_sorted : StronglySorted (fun x y => (lenof (fst x) <= lenof (fst y))%nat) (spanorder n tb).
  Proof.
    clear ND RANGE.
    unfold spanorder.
    assert (G : forall k a, StronglySorted (fun x y => (lenof (fst x) <= lenof (fst y))%nat)
       (flat_map (fun spanlen => flat_map (fun start => at_ tb (Z.of_nat start) spanlen)
         (seq 0 (n - spanlen + 1))) (seq a k))
       /\ forall x, In x (flat_map (fun spanlen => flat_map (fun start => at_ tb (Z.of_nat start) spanlen)
         (seq 0 (n - spanlen + 1))) (seq a k)) -> (a <= lenof (fst x))%nat); [|apply G].
    induction k as [|k IH]; intros a; [split; [constructor|intros ? []]|].
    destruct (IH (S a)) as [S1 L1]. cbn [seq flat_map].
    assert (E : forall x, In x (flat_map (fun start => at_ tb (Z.of_nat start) a) (seq 0 (n - a + 1))) -> lenof (fst x) = a).
    { intros [s c] I. apply in_flat_map in I. destruct I as (st & _ & I). apply at_in in I. tauto. }
    split.
    - apply sorted_app; [|exact S1|].
      + revert E. generalize (flat_map (fun start => at_ tb (Z.of_nat start) a) (seq 0 (n - a + 1))).
        clear. induction l as [|x l IH]; intros E; constructor.
        * apply IH. intros; apply E; now right.
        * apply Forall_forall. intros y I. rewrite (E x), (E y); [lia|now right|now left].
      + intros x y I J. rewrite (E x I). apply L1 in J. lia.
    - intros x I. apply in_app_or in I. destruct I as [I|I]; [rewrite (E x I); lia|]. apply L1 in I. lia.
  Qed.
  Lemma order_before : forall pre s c post s', spanorder n tb = pre ++ (s, c) :: post ->
    In s' (map fst tb) -> (lenof s' < lenof s)%nat -> In s' (map fst pre).
  Proof.
    intros pre s c post s' E I L. apply in_map_iff in I. destruct I as ([s2 c'] & Q & I). cbn in Q. subst s2.
    apply order_in in I. rewrite E in I. apply in_app_or in I. destruct I as [I|I].
    - change s' with (fst (s', c')). now apply in_map.
    - exfalso. pose proof order_sorted as S. rewrite E in S.
      destruct I as [I|I]; [inversion I; subst; lia|].
      assert (Q : StronglySorted (fun x y => (lenof (fst x) <= lenof (fst y))%nat) ((s, c) :: post)).
      { clear - S. induction pre; [exact S|]. inversion S; auto. }
      inversion Q; subst. rewrite Forall_forall in H2. specialize (H2 _ I). cbn in H2. lia.
  Qed.
End Order.

(** *** filling the cells *)
Section Fill.
  Variables labda total : Q.
  Variable n : nat.
  Variable tb : table.
  Hypothesis ND : NoDup (map fst tb).
  Hypothesis RANGE : forall s, In s (map fst tb) -> s <> 0%N /\ below n s.
  Hypothesis LAB : forall s tc, In (s, tc) tb -> fst (maxlabelof tc) <> [].

  (** the value added by the best label with mass m *)
  Definition gv (m : Q) : Q :=
    let v := m / total - labda * (1 - m / total) in if Qlt_le_dec v 0 then 0 else v.
  Definition issplit (s l : N) : Prop :=
    N.land s l = l /\ startof l = startof s /\ (1 <= lenof l < lenof s)%nat.
  Definition bestok (cs : cells) (s : N) (comb : Q) (lft : option N) : Prop :=
    0 <= comb
    /\ (lft = None -> comb == 0)
    /\ (forall l, lft = Some l -> issplit s l /\ In l (map fst tb) /\ In (N.ldiff s l) (map fst tb)
          /\ exists cl cr, dget N.eqb l cs = Some cl /\ dget N.eqb (N.ldiff s l) cs = Some cr
             /\ comb = c_score cl + c_score cr /\ 0 < comb)
    /\ (forall l, issplit s l -> In l (map fst tb) -> In (N.ldiff s l) (map fst tb) ->
          exists cl cr, dget N.eqb l cs = Some cl /\ dget N.eqb (N.ldiff s l) cs = Some cr
             /\ c_score cl + c_score cr <= comb).
  Definition cellinv (cs : cells) (s : N) (c : cell) : Prop :=
    exists tc comb, In (s, tc) tb /\ bestok cs s comb (c_left c)
      /\ c_score c == comb + gv (snd (maxlabelof tc))
      /\ (c_label c = fst (maxlabelof tc)
          \/ (c_label c = NEGATIVECONSTLABEL /\ gv (snd (maxlabelof tc)) == 0 /\ (1 < lenof s < n)%nat)).
  Definition inv (cs : cells) : Prop :=
    NoDup (map fst cs) /\ forall s c, dget N.eqb s cs = Some c -> cellinv cs s c.

  Lemma label_nonempty : forall cs s c, cellinv cs s c -> c_label c <> NONCONSTLABEL.
  Proof using LAB.
    intros cs s c (tc & comb & I & _ & _ & [E|[E _]]); rewrite E; [eapply LAB; eassumption|discriminate].
  Qed.

  Definition sound (cs : cells) (s : N) (lefts : list N) (comb : Q) (lft : option N) : Prop :=
    0 <= comb
    /\ (lft = None -> comb == 0)
    /\ (forall l, lft = Some l -> In l lefts /\ N.land s l = l
          /\ exists cl cr, dget N.eqb l cs = Some cl /\ dget N.eqb (N.ldiff s l) cs = Some cr
             /\ comb = c_score cl + c_score cr /\ 0 < comb)
    /\ (forall l cl cr, In l lefts -> N.land s l = l -> dget N.eqb l cs = Some cl ->
          dget N.eqb (N.ldiff s l) cs = Some cr -> c_score cl + c_score cr <= comb).

  Lemma trysplit_loop : forall cs s lefts, inv cs ->
    (forall l, In l lefts -> In l (map fst cs)) ->
    exists comb lft, fold_left (trysplit cs s) lefts (Some (0, None)) = Some (comb, lft)
      /\ sound cs s lefts comb lft.
  Proof using LAB.
    intros cs s lefts I. induction lefts as [|l lefts IH] using rev_ind; intros SUB.
    - exists 0, None. split; [reflexivity|]. split; [lra|]. split; [reflexivity|]. split; [discriminate|].
      intros ? ? ? [].
    - destruct IH as (comb & lft & E & (S0 & S1 & S2 & S3)); [intros; apply SUB; apply in_or_app; now left|].
      rewrite fold_left_app, E. cbn [fold_left].
      assert (KEEP : (forall cl cr, N.land s l = l -> dget N.eqb l cs = Some cl ->
                        dget N.eqb (N.ldiff s l) cs = Some cr -> c_score cl + c_score cr <= comb) ->
                     sound cs s (lefts ++ [l]) comb lft).
      { intros H. split; [exact S0|]. split; [exact S1|]. split.
        - intros l' E'. destruct (S2 _ E') as (A & B). split; [apply in_or_app; now left|exact B].
        - intros l' cl cr J. apply in_app_or in J. destruct J as [J|[<-|[]]]; [now apply S3|apply H]. }
      unfold trysplit. destruct (N.eqb_spec (N.land s l) l) as [EL|NL]; cbn [negb].
      + assert (Il : In l (map fst cs)) by (apply SUB; apply in_or_app; right; now left).
        apply (dget_some _ Neqb_ok) in Il. destruct Il as [cl Gl]. rewrite Gl.
        pose proof (label_nonempty cs l cl (proj2 I _ _ Gl)) as Ll.
        apply eqs_neq in Ll. rewrite Ll.
        destruct (dget N.eqb (N.ldiff s l) cs) as [cr|] eqn:Gr.
        * pose proof (label_nonempty cs _ cr (proj2 I _ _ Gr)) as Lr.
          apply eqs_neq in Lr. rewrite Lr. cbv zeta.
          destruct (Qlt_le_dec comb (c_score cl + c_score cr)) as [B|B].
          -- exists (c_score cl + c_score cr), (Some l). split; [reflexivity|].
             split; [lra|]. split; [discriminate|]. split.
             ++ intros l' E'. inversion E'; subst. split; [apply in_or_app; right; now left|].
                split; [exact EL|]. exists cl, cr. repeat split; auto. lra.
             ++ intros l' cl' cr' J EL' G1 G2. apply in_app_or in J. destruct J as [J|[<-|[]]].
                ** specialize (S3 _ _ _ J EL' G1 G2). lra.
                ** rewrite Gl in G1. rewrite Gr in G2. inversion G1; inversion G2; subst. lra.
          -- exists comb, lft. split; [reflexivity|]. apply KEEP. intros cl' cr' _ G1 G2.
             rewrite Gl in G1. inversion G1; inversion G2; subst. exact B.
        * exists comb, lft. split; [reflexivity|]. apply KEEP. intros cl' cr' _ _ G2. congruence.
      + exists comb, lft. split; [reflexivity|]. apply KEEP. intros; contradiction.
  Qed.

  Lemma bestok_mono : forall cs s0 c0 s comb lft, ~ In s0 (map fst cs) ->
    bestok cs s comb lft -> bestok (dput N.eqb s0 c0 cs) s comb lft.
  Proof using.
    clear ND RANGE LAB.
    intros cs s0 c0 s comb lft NI (A & B & C & D).
    assert (G : forall k c, dget N.eqb k cs = Some c -> dget N.eqb k (dput N.eqb s0 c0 cs) = Some c).
    { intros k c H. rewrite (dget_put_other _ Neqb_ok); [exact H|]. intros ->.
      apply NI. apply (dget_some _ Neqb_ok). eauto. }
    split; [exact A|]. split; [exact B|]. split.
    - intros l E. destruct (C l E) as (S & I1 & I2 & cl & cr & G1 & G2 & X).
      split; [exact S|]. split; [exact I1|]. split; [exact I2|]. exists cl, cr. auto.
    - intros l S I1 I2. destruct (D l S I1 I2) as (cl & cr & G1 & G2 & X). exists cl, cr. auto.
  Qed.

  Lemma fill_step : forall cs s tc, inv cs -> In (s, tc) tb -> ~ In s (map fst cs) ->
    (forall s', In s' (map fst tb) -> (lenof s' < lenof s)%nat -> In s' (map fst cs)) ->
    (forall s', In s' (map fst cs) -> In s' (map fst tb)) ->
    exists c, fillcell labda total n tb (Some cs) (s, tc) = Some (dput N.eqb s c cs)
      /\ inv (dput N.eqb s c cs).
  Proof using LAB RANGE.
    intros cs s tc I It NI SM SUB. unfold fillcell. destruct (maxlabelof tc) as [ml ms] eqn:EM.
    assert (Is : In s (map fst tb)) by (change s with (fst (s, tc)); now apply in_map).
    unfold bestsplit. set (lefts := flat_map _ _).
    assert (LF : forall l, In l lefts <-> In l (map fst tb) /\ startof l = startof s /\ (1 <= lenof l < lenof s)%nat).
    { intros l. unfold lefts. rewrite in_flat_map. split.
      - intros (len & J & K). apply in_seq in J. apply in_map_iff in K. destruct K as ([l' c'] & <- & K).
        apply at_in in K. cbn [fst]. destruct K as (K1 & K2 & K3).
        split; [change l' with (fst (l', c')); now apply in_map|]. split; [exact K2|]. lia.
      - intros (J & K & L). exists (lenof l). split; [apply in_seq; lia|].
        apply in_map_iff in J. destruct J as ([l' c'] & Q & J). cbn in Q. subst l'.
        apply in_map_iff. exists (l, c'). split; [reflexivity|]. apply at_in. auto. }
    destruct (trysplit_loop cs s lefts I) as (comb & lft & E & (S0 & S1 & S2 & S3)).
    { intros l J. apply LF in J. apply SM; [tauto|lia]. }
    rewrite E. cbv zeta.
    assert (BO : bestok cs s comb lft).
    { split; [exact S0|]. split; [exact S1|]. split.
      - intros l El. destruct (S2 l El) as (J & EL & cl & cr & G1 & G2 & EC & P).
        apply LF in J. destruct J as (J1 & J2 & J3). split; [split; [exact EL|auto]|].
        split; [exact J1|]. split; [apply SUB; apply (dget_some _ Neqb_ok); eauto|]. exists cl, cr. auto.
      - intros l (EL & ST & LN) I1 I2.
        assert (L1 : In l (map fst cs)) by (apply SM; [exact I1|lia]).
        assert (L2 : In (N.ldiff s l) (map fst cs)).
        { apply SM; [exact I2|]. pose proof (lenof_split s l EL). lia. }
        apply (dget_some _ Neqb_ok) in L1, L2. destruct L1 as [cl G1], L2 as [cr G2].
        exists cl, cr. split; [exact G1|]. split; [exact G2|]. apply (S3 l); auto. apply LF. auto. }
    eexists. split; [reflexivity|]. split.
    - apply (dput_nodup _ Neqb_ok). exact (proj1 I).
    - intros s' c'. destruct (N.eq_dec s' s) as [->|NE].
      + rewrite (dget_put_same _ Neqb_ok). intros H. injection H as <-.
        exists tc, comb. split; [exact It|]. rewrite EM. cbn [fst snd]. unfold gv. cbv zeta.
        destruct (Qlt_le_dec (ms / total - labda * (1 - ms / total)) 0) as [B|B]; cbn [c_left c_score c_label fst snd].
        * split; [now apply bestok_mono|]. split; [lra|].
          destruct ((1 <? lenof s)%nat && (lenof s <? n)%nat)%bool eqn:T; [right|left; reflexivity].
          split; [reflexivity|]. split; [reflexivity|]. apply andb_prop in T. destruct T as [T1 T2].
          apply Nat.ltb_lt in T1, T2. lia.
        * split; [now apply bestok_mono|]. split; [lra|]. now left.
      + rewrite (dget_put_other _ Neqb_ok) by exact NE. intros H.
        destruct (proj2 I _ _ H) as (tc' & comb' & A & B & C & D). exists tc', comb'.
        split; [exact A|]. split; [now apply bestok_mono|]. auto.
  Qed.

  Lemma fill_ok : exists cs, fillcells labda total n tb = Some cs /\ inv cs
    /\ forall s, In s (map fst cs) <-> In s (map fst tb).
  Proof using ND RANGE LAB.
    unfold fillcells.
    assert (G : forall post pre, spanorder n tb = pre ++ post -> forall cs, inv cs ->
       (forall s, In s (map fst cs) <-> In s (map fst pre)) ->
       exists cs', fold_left (fillcell labda total n tb) post (Some cs) = Some cs' /\ inv cs'
         /\ forall s, In s (map fst cs') <-> In s (map fst (pre ++ post))).
    { induction post as [|[s tc] post IH]; intros pre E cs I K.
      - exists cs. split; [reflexivity|]. split; [exact I|]. now rewrite app_nil_r.
      - pose proof (order_nodup n tb ND RANGE) as NO. rewrite E in NO.
        assert (INTB : forall x, In x (pre ++ (s, tc) :: post) -> In x tb).
        { intros [x c] J. rewrite <- E in J. now apply (order_in n tb RANGE) in J. }
        destruct (fill_step cs s tc I) as (c & F & I').
        + apply INTB. apply in_or_app. right. now left.
        + rewrite K. rewrite map_app in NO. cbn in NO. apply NoDup_remove_2 in NO.
          intros J. apply NO. apply in_or_app. now left.
        + intros s' J L. apply K. now apply (order_before n tb RANGE pre s tc post s' E).
        + intros s' J. apply K in J. apply in_map_iff in J. destruct J as (x & <- & J).
          apply in_map, INTB. apply in_or_app. now left.
        + cbn [fold_left]. rewrite F.
          destruct (IH (pre ++ [(s, tc)])) with (cs := dput N.eqb s c cs) as (cs' & F' & I2 & K2).
          * now rewrite <- app_assoc.
          * exact I'.
          * intros s'. rewrite (dput_keys _ Neqb_ok), K, map_app, in_app_iff. cbn. intuition.
          * exists cs'. split; [exact F'|]. split; [exact I2|]. now rewrite <- app_assoc in K2. }
    destruct (G (spanorder n tb) [] eq_refl []) as (cs & F & I & K).
    - split; [constructor|]. intros ? ? ?. discriminate.
    - reflexivity.
    - exists cs. split; [exact F|]. split; [exact I|]. intros s. rewrite K. cbn [app].
      split; intros J; apply in_map_iff in J; destruct J as ([s' c] & Q & J); cbn in Q; subst s';
        change s with (fst (s, c)); apply in_map; now apply (order_in n tb RANGE).
  Qed.
End Fill.
