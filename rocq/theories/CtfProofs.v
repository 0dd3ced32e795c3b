(** Lossless coarse-to-fine parsing *)
From Coq Require Import List Bool Arith NArith ZArith Lia.
From Verif Require Import BitsModel BitsSpec BitsProofs FanoutProofs ConcatModel ConcatSpec ConcatProps.
From Verif Require Import PlcfrsModel PlcfrsSpec PlcfrsProofs PlcfrsProofs2 PlcfrsProps.
From Verif Require Import InOutModel InOutProofs2 CtfModel.
Import ListNotations.
Open Scope list_scope.
Open Scope nat_scope.

Definition nolist : item N -> bool := fun _ => true.
(** every rule of the fine grammar and every tag is the refinement of one of the
    coarse grammar *)
Definition refines (proj : nat -> nat) (cr : list prule) (cmask : nat -> bool) (fr : list prule) (fmask : nat -> bool) : Prop :=
  forall r, usable fr fmask r -> exists r', usable cr cmask r' /\ plhs r' = proj (plhs r) /\ prhs1 r' = proj (prhs1 r) /\
    (if prhs2 r =? 0 then prhs2 r' = 0 else prhs2 r' = proj (prhs2 r) /\ prhs2 r' <> 0) /\ ryf r' = ryf r.
Definition refines_tags (proj : nat -> nat) (csent fsent : list word) : Prop :=
  Forall2 (fun cw fw => (forall x, In x (map fst (entries fw)) -> In (proj x) (map fst (entries cw))) /\
    (entries fw = [] -> entries cw = [] /\ forall x, In x (goldlabels fw) -> In (proj x) (goldlabels cw))) csent fsent.

Lemma first_exists : forall l x, In x (map fst l) -> exists c, first_entry l x c.
Proof.
  induction l as [|[y d] l IH]; intros x H; [destruct H|]. destruct (Nat.eq_dec y x) as [->|N].
  - exists d, [], l. split; [reflexivity|]. intros d' [].
  - destruct H as [H|H]; [cbn in H; congruence|]. destruct (IH x H) as (c & l1 & l2 & -> & F). exists c, ((y, d) :: l1), l2. split; [reflexivity|].
    intros d' [E|H']; [congruence|exact (F d' H')].
Qed.
Lemma forall2_nth : forall A B (R : A -> B -> Prop) l l' i y, Forall2 R l l' -> nth_error l' i = Some y -> exists x, nth_error l i = Some x /\ R x y.
Proof.
  intros A B R l l' i y F. revert i. induction F as [|a b l l' H F IH]; intros i E; [destruct i; discriminate|].
  destruct i as [|i]; [cbn in E; injection E as <-; exists a; now split|]. exact (IH i E).
Qed.

Lemma forall2_len : forall A B (R : A -> B -> Prop) l l', Forall2 R l l' -> length l' = length l.
Proof. intros A B R l l' F. induction F; cbn; auto. Qed.

Section Ctf.
Variables (maxlog : N) (cr fr : list prule) (cmask fmask : nat -> bool) (cstart fstart : nat) (csent fsent : list word) (cfan : nat -> nat).
Variables (proj fmapping : nat -> nat).
Hypothesis LEN : length csent < 64.
Hypothesis WG : wf_grammar cfan cr.
Hypothesis WL : wf_lexicon cfan csent.
Hypothesis ND : NoDup cr.
Hypothesis TA : tags_apart nolist cr cmask csent.
Hypothesis RR : refines proj cr cmask fr fmask.
Hypothesis RT : refines_tags proj csent fsent.
Hypothesis RS : proj fstart = cstart.
(** the start symbol is not used inside of trees *)
Hypothesis NS : forall r, usable fr fmask r -> proj (prhs1 r) <> cstart /\ (prhs2 r <> 0 -> proj (prhs2 r) <> cstart).
Hypothesis MP : forall x, fmapping x = 0 \/ fmapping x = proj x.
Variable ch : PlcfrsModel.chart N.
Hypothesis PC : parse_small nolist maxlog cr cmask cstart true csent true ch.
Notation goal := (small_root cstart (length csent)).
Notation CD := (derives N word_bit set_join (on_list nolist) cr cmask (not_goal goal) csent).
Notation CE := (valid_edge N word_bit set_join (on_list nolist) cr cmask (not_goal goal) csent).
Notation FD := (derives N word_bit set_join (on_list nolist) fr fmask anywhere fsent).
Let w := prunechart ch goal fmapping.
Notation FW := (derives N word_bit set_join (on_list (allow w)) fr fmask anywhere fsent).

Lemma ctag : forall i x c, tagged N word_bit (on_list nolist) fsent i x c -> exists c', tagged N word_bit (on_list nolist) csent i (proj x) c'.
Proof.
  intros i x c T. destruct T as [fw E F A|fw E NE G Ec]; destruct (forall2_nth _ _ _ _ _ _ _ RT E) as (cw & EC & R1 & R2).
  - destruct (first_exists (entries cw) (proj x)) as (c' & F').
    + apply R1. destruct F as (l1 & l2 & -> & _). rewrite map_app. apply in_or_app. right. now left.
    + exists c'. eapply t_lexicon; eauto; reflexivity.
  - assert (entries fw = []) as EN by (destruct (entries fw) as [|[y d] es]; auto; destruct (NE y d (or_introl eq_refl)); reflexivity).
    destruct (R2 EN) as [EC0 R3]. exists 0%N. eapply t_gold; eauto. rewrite EC0. intros y d [].
Qed.
Lemma cproject : forall x v c, FD x v c -> exists c', CD (proj x) v c'.
Proof.
  intros x v c D. induction D as [i x c T|r v c U E D (c' & IH) _ A|r v1 v2 v a b U E _ (a' & IHa) _ _ (b' & IHb) _ J A].
  - destruct (ctag i x c T) as (c' & T'). exists c'. now apply d_word.
  - destruct (RR r U) as (r' & U' & E1 & E2 & E3 & E4). apply Nat.eqb_eq in E as Eb. rewrite Eb in E3. exists (pprob r' + c')%N.
    rewrite <- E1. apply d_unary; auto; rewrite ?E2; auto; try reflexivity. unfold not_goal. intros EQ. injection EQ as EQ _. apply (proj1 (NS r U)). congruence.
  - destruct (RR r U) as (r' & U' & E1 & E2 & E3 & E4). apply Nat.eqb_neq in E as Eb. rewrite Eb in E3. destruct E3 as [E3 E5]. exists (pprob r' + a' + b')%N.
    rewrite <- E1. eapply d_binary; eauto; rewrite ?E2, ?E3, ?E4; eauto; try reflexivity; unfold not_goal; intros EQ; injection EQ as EQ _.
    + apply (proj1 (NS r U)). congruence.
    + apply (proj2 (NS r U) E). congruence.
Qed.
(** coarse spans *)
Lemma cspan : forall x v c, CD x v c -> SP cfan x v.
Proof.
  intros x v c D. refine (proj1 (join_bwd N (fun i => 2 ^ N.of_nat i)%N (cjoin N concat_small combine_small) set_join (callowed N nolist) cr cmask (not_goal goal) csent (SP cfan) _ _ _ _ x v c D)).
  - intros i y d T. eapply SP_word; eauto.
  - intros r u. now apply SP_unary with (rules := cr).
  - intros r l u z. now apply SP_binary with (rules := cr).
  - intros r l u z. now apply small_same with (rules := cr) (fan := cfan).
Qed.
Notation dedges := (fun it => map (edgeitems it) (PlcfrsModel.forest N ch it)).
Lemma ieqb_eq : forall a b : item N, ieqb N N.eqb a b = true <-> a = b.
Proof using.
  clear. intros [x u] [y v]. unfold ieqb. cbn [fst snd]. rewrite andb_true_iff, Nat.eqb_eq, N.eqb_eq. split; [intros [-> ->]; reflexivity|intros E; injection E as -> ->; auto].
Qed.
Lemma c_arity : forall x e, In e (dedges x) -> (length e <= 2).
Proof using. clear. intros x e H. apply in_map_iff in H. destruct H as (e' & <- & _). unfold edgeitems. destruct (fst e') as [[r l]|]; [|cbn; lia]. destruct (prhs2 r =? 0); cbn; lia. Qed.
Lemma cedges : forall x v e, In e (PlcfrsModel.forest N ch (x, v)) <-> CE x v e.
Proof. intros x v e. exact (proj2 (C54_edges nolist maxlog cr cmask cstart csent cfan LEN WG WL ND TA ch PC x v) e). Qed.
Lemma lxor_right : forall a b, N.lxor (N.lxor a b) a = b.
Proof using. clear. intros a b. rewrite (N.lxor_comm a b), N.lxor_assoc, N.lxor_nilpotent, N.lxor_0_r. reflexivity. Qed.
(** the daughters of an edge *)
Lemma cdaughters : forall r x v1 v2 v, usable cr cmask r -> plhs r = x -> prhs2 r <> 0 -> (exists a, CD (prhs1 r) v1 a) -> (exists b, CD (prhs2 r) v2 b) ->
  set_join (ryf r) v1 v2 v -> edgeitems (x, v) (Some (r, v1), 0) = [(prhs1 r, v1); (prhs2 r, v2)].
Proof.
  intros r x v1 v2 v U E1 E2 (a & D1) (b & D2) J. unfold edgeitems. cbn [fst snd]. rewrite (proj2 (Nat.eqb_neq _ _) E2). do 2 f_equal. f_equal.
  apply cspan in D1, D2. apply (small_same cr cfan WG r v1 v2 v (proj1 U) E2 D1 D2) in J. destruct J as [_ ->]. apply lxor_right.
Qed.
Lemma cindexed : forall x v, (exists c, CD x v c) -> In (x, v) (PlcfrsModel.index N ch) /\ PlcfrsModel.forest N ch (x, v) <> [].
Proof.
  intros x v (c & D). assert (NE : PlcfrsModel.forest N ch (x, v) <> []).
  { destruct D as [i x c T|r v c U E D G A|r v1 v2 v a b U E D1 G1 D2 G2 J A].
    + intros F. assert (In (None, i + 1) (PlcfrsModel.forest N ch (x, word_bit i))) as H' by (apply cedges; eapply v_word; eauto). rewrite F in H'. destruct H'.
    + intros F. assert (In (Some (r, v), 0) (PlcfrsModel.forest N ch (plhs r, v))) as H' by (apply cedges; apply v_unary; auto; eexists; eauto). rewrite F in H'. destruct H'.
    + intros F. assert (In (Some (r, v1), 0) (PlcfrsModel.forest N ch (plhs r, v))) as H' by (apply cedges; eapply v_binary; eauto; eexists; eauto). rewrite F in H'. destruct H'. }
  split; auto. destruct (parse_inv nolist maxlog cr cmask cstart csent cfan LEN WL ND TA true ch PC) as [IV _].
  apply (m_indexed _ _ _ _ _ _ _ _ _ _ _ _ (proj1 IV)). apply (m_where _ _ _ _ _ _ _ _ _ _ _ _ (proj1 IV)). exact NE.
Qed.
Lemma cclosed : forall x e c, In x (PlcfrsModel.index N ch) -> In e (dedges x) -> In c e -> In c (PlcfrsModel.index N ch).
Proof.
  intros [x v] e c _ He Hc. apply in_map_iff in He. destruct He as (e' & <- & He). apply cedges in He.
  destruct He as [i d T E|r U E1 E2 D G A|r v1 v2 U E1 E2 D1 G1 D2 G2 J A].
  - destruct Hc.
  - unfold edgeitems in Hc. cbn [fst] in Hc. rewrite E2 in Hc. cbn [Nat.eqb] in Hc. destruct Hc as [<-|[]]. now apply cindexed.
  - rewrite (cdaughters r x v1 v2 v) in Hc; auto. destruct Hc as [<-|[<-|[]]]; now apply cindexed.
Qed.
Lemma kept : forall it, In goal (PlcfrsModel.index N ch) ->
  (In it (small w) <-> sreach (item N) dedges goal it /\ PlcfrsModel.forest N ch it <> []).
Proof.
  intros it HG. unfold w, prunechart. cbn [small].
  exact (filtereditems_ok (item N) (ieqb N N.eqb) dedges ieqb_eq c_arity (PlcfrsModel.index N ch) cclosed goal HG _ _ it).
Qed.
Lemma sreach_trans : forall a b c, sreach (item N) dedges a b -> sreach (item N) dedges b c -> sreach (item N) dedges a c.
Proof using. clear. intros a b c H. induction H; auto. intros K. eapply sreach_edge; eauto. Qed.
Lemma sreach_step : forall a b e c, sreach (item N) dedges a b -> In e (dedges b) -> In c e -> sreach (item N) dedges a c.
Proof using. clear. intros a b e c H He Hc. eapply sreach_trans; [exact H|]. eapply sreach_edge; [exact He|exact Hc|constructor]. Qed.

Lemma allowed_kept : forall x v, In (proj x, v) (small w) -> on_list (allow w) x v.
Proof.
  intros x v H. unfold on_list, allow, checkwhitelist. cbn [mapping prunechart w]. destruct (MP x) as [E|E]; rewrite E.
  - reflexivity.
  - destruct (proj x =? 0) eqn:EZ; cbn [negb]; [reflexivity|]. unfold wl_count. apply existsb_exists. exists (proj x, v). split; [exact H|now apply ieqb_eq].
Qed.
(** every item of a fine derivation of an item reachable in the coarse chart is allowed *)
Lemma nothing_lost : In goal (PlcfrsModel.index N ch) -> forall x v c, FD x v c -> sreach (item N) dedges goal (proj x, v) -> FW x v c.
Proof.
  intros HG x v c D. assert (OK : forall x v c, FD x v c -> sreach (item N) dedges goal (proj x, v) -> on_list (allow w) x v).
  { intros y u d D' R. apply allowed_kept. apply kept; auto. split; auto. destruct (cproject y u d D') as (c' & D''). apply cindexed. eauto. }
  induction D as [i x c T|r v c U E D IH G A|r v1 v2 v a b U E D1 IHa G1 D2 IHb G2 J A]; intros R.
  - apply d_word. pose proof (OK x (word_bit i) c (d_word _ _ _ _ _ _ _ _ _ _ _ T) R) as AL.
    destruct T as [fw EW F _|fw EW NE Gx Ec].
    + eapply t_lexicon; eauto.
    + eapply t_gold; eauto. intros y d Hy. destruct (NE y d Hy). reflexivity.
  - pose proof (OK _ _ _ (d_unary _ _ _ _ _ _ _ _ r v c U E D G A) R) as AL.
    destruct (RR r U) as (r' & U' & E1 & E2 & E3 & E4). apply Nat.eqb_eq in E as Eb. rewrite Eb in E3.
    apply d_unary; auto. apply IH. eapply sreach_step; [exact R| |].
    + apply in_map_iff. exists (Some (r', v), 0). split; [reflexivity|]. apply cedges. apply v_unary; [exact U'|exact E1|exact E3| | |reflexivity].
      * destruct (cproject _ _ _ D) as (c' & D'). exists c'. now rewrite E2.
      * unfold not_goal. intros EQ. injection EQ as EQ _. apply (proj1 (NS r U)). congruence.
    + unfold edgeitems. cbn [fst]. rewrite E3. cbn [Nat.eqb]. rewrite E2. now left.
  - pose proof (OK _ _ _ (d_binary _ _ _ _ _ _ _ _ r v1 v2 v a b U E D1 G1 D2 G2 J A) R) as AL.
    destruct (RR r U) as (r' & U' & E1 & E2 & E3 & E4). apply Nat.eqb_neq in E as Eb. rewrite Eb in E3. destruct E3 as [E3 E5].
    assert (X1 : exists a', CD (prhs1 r') v1 a') by (rewrite E2; eapply cproject; eauto).
    assert (X2 : exists b', CD (prhs2 r') v2 b') by (rewrite E3; eapply cproject; eauto).
    assert (ED : In [(prhs1 r', v1); (prhs2 r', v2)] (dedges (proj (plhs r), v))).
    { apply in_map_iff. exists (Some (r', v1), 0). rewrite <- E4 in J. split; [apply cdaughters; auto|]. apply cedges. apply (v_binary _ _ _ _ _ _ _ _ _ _ r' v1 v2); [exact U'|exact E1|exact E5|exact X1| |exact X2| |exact J|reflexivity].
      - unfold not_goal. intros EQ. injection EQ as EQ _. apply (proj1 (NS r U)). congruence.
      - unfold not_goal. intros EQ. injection EQ as EQ _. apply (proj2 (NS r U) E). congruence. }
    eapply d_binary; eauto.
    + apply IHa. eapply sreach_step; [exact R|exact ED|]. rewrite E2. now left.
    + apply IHb. eapply sreach_step; [exact R|exact ED|]. rewrite E3. right. now left.
Qed.
(** and nothing is gained unless tags are given *)
Lemma nothing_gained : Forall (fun fw => entries fw = [] \/ goldlabels fw = []) fsent -> forall x v c, FW x v c -> FD x v c.
Proof using.
  clear. intros NG x v c D. induction D as [i x c T|r v c U E D IH G A|r v1 v2 v a b U E D1 IHa G1 D2 IHb G2 J A].
  - apply d_word. destruct T as [fw EW F _|fw EW NE Gx Ec].
    + eapply t_lexicon; eauto; reflexivity.
    + eapply t_gold; eauto. intros y d Hy _. rewrite Forall_forall in NG. destruct (NG fw (nth_error_In _ _ EW)) as [Z|Z]; rewrite Z in *; contradiction.
  - apply d_unary; auto; reflexivity.
  - eapply d_binary; eauto; reflexivity.
Qed.
Lemma goal_length : length fsent = length csent.
Proof. exact (forall2_len _ _ _ _ _ RT). Qed.
Lemma lossless_best : Forall (fun fw => entries fw = [] \/ goldlabels fw = []) fsent -> forall p,
  best N word_bit set_join (on_list nolist) fr fmask anywhere fsent fstart (2 ^ N.of_nat (length fsent) - 1)%N p <->
  best N word_bit set_join (on_list (allow w)) fr fmask anywhere fsent fstart (2 ^ N.of_nat (length fsent) - 1)%N p.
Proof.
  intros NG p. assert (EQ : forall c, FD fstart (2 ^ N.of_nat (length fsent) - 1)%N c <-> FW fstart (2 ^ N.of_nat (length fsent) - 1)%N c).
  { intros c. split; [|now apply nothing_gained]. intros D. apply nothing_lost; auto.
    - destruct (cproject _ _ _ D) as (c' & D'). rewrite RS, goal_length in D'. apply cindexed. exists c'. exact D'.
    - rewrite RS, goal_length. constructor. }
  unfold best. rewrite EQ. split; intros [D O]; split; auto; intros c H; apply O; now apply EQ.
Qed.
End Ctf.
