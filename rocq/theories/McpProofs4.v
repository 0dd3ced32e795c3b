(** Proofs for C66, part 4: the scores of the cells and the resulting tree. *)
From Coq Require Import String.
From Coq Require Import List Bool Arith NArith ZArith QArith Lia Lqa Permutation.
From Verif Require Import PyStr BitsModel BitsSpec BitsProofs McpModel McpSpec McpProofs McpProofs2 McpProofs3.
Import ListNotations.
Local Open Scope list_scope.

(** *** the positive part *)
Definition pos (v : Q) : Q := if Qlt_le_dec v 0 then 0 else v.
Lemma pos_comp : forall a b, a == b -> pos a == pos b.
Proof. intros a b E. unfold pos. destruct (Qlt_le_dec a 0), (Qlt_le_dec b 0); lra. Qed.
Lemma pos_mono : forall a b, a <= b -> pos a <= pos b.
Proof. intros a b E. unfold pos. destruct (Qlt_le_dec a 0), (Qlt_le_dec b 0); lra. Qed.
Lemma pos_nonneg : forall a, 0 <= pos a.
Proof. intros a. unfold pos. destruct (Qlt_le_dec a 0); lra. Qed.
Lemma gv_pos : forall labda total m, gv labda total m = pos (m / total - labda * (1 - m / total)).
Proof. reflexivity. Qed.
Lemma gv_mono : forall labda total a b, 0 <= labda -> 0 < total -> a <= b ->
  gv labda total a <= gv labda total b.
Proof.
  intros labda total a b L T H. rewrite !gv_pos. apply pos_mono.
  assert (D : a / total <= b / total).
  { unfold Qdiv. apply Qmult_le_compat_r; [exact H|]. apply Qlt_le_weak. now apply Qinv_lt_0_compat. }
  nra.
Qed.
Lemma gv_comp : forall labda total a b, a == b -> gv labda total a == gv labda total b.
Proof. intros labda total a b E. rewrite !gv_pos. apply pos_comp. rewrite E. reflexivity. Qed.

Lemma qsum_comp : forall A (f g : A -> Q) l, (forall x, In x l -> f x == g x) ->
  qsum (map f l) == qsum (map g l).
Proof.
  induction l as [|x l IH]; intros H; [reflexivity|]. cbn [map]. rewrite !qsum_cons.
  rewrite (H x (or_introl eq_refl)), IH; [reflexivity|]. intros; apply H; now right.
Qed.

(** *** properties of single words and of sets of words *)
Lemma lenof_one : forall s, lenof s = 1%nat -> exists i, s = mask [i] /\ startof s = Z.of_N i.
Proof.
  intros s L. rewrite lenof_bits in L. destruct (bits_of_spec s) as [_ M].
  destruct (bits_of s) as [|i [|j r]]; try discriminate. exists i.
  assert (E : s = mask [i]).
  { apply N.bits_inj. intros k. apply eq_true_iff_eq. rewrite mask_in. symmetry. apply M. }
  split; [exact E|]. destruct (startof_spec s) as (r & Er & Lr & _).
  - intros ->. specialize (M i). destruct M as [M _]. specialize (M (or_introl eq_refl)).
    unfold member in M. rewrite N.bits_0 in M. discriminate.
  - rewrite Er. f_equal. rewrite E in Lr. apply mask_in in Lr. destruct Lr as [->|[]]. reflexivity.
Qed.
Lemma sentence_in : forall n i, In i (sentence n) <-> (i < N.of_nat n)%N.
Proof.
  intros n i. unfold sentence. rewrite in_map_iff. split.
  - intros (k & <- & I). apply in_seq in I. lia.
  - intros L. exists (N.to_nat i). split; [apply N2Nat.id|]. apply in_seq. lia.
Qed.
Lemma sentence_nodup : forall n, NoDup (sentence n).
Proof.
  intros n. unfold sentence. apply FinFun.Injective_map_NoDup; [|apply seq_NoDup].
  intros a b H. lia.
Qed.
Lemma lenof_sentence : forall n, lenof (mask (sentence n)) = n.
Proof.
  intros n. rewrite (lenof_card _ (sentence n)).
  - unfold sentence. now rewrite map_length, seq_length.
  - split; [apply sentence_nodup|]. intros i. unfold member. symmetry. apply mask_in.
Qed.
Lemma mask_split : forall a b, (forall i, In i a -> ~ In i b) ->
  N.ldiff (N.lor (mask a) (mask b)) (mask a) = mask b
  /\ N.land (N.lor (mask a) (mask b)) (mask a) = mask a.
Proof.
  intros a b D. split; apply N.bits_inj; intros i; rewrite ?N.ldiff_spec, ?N.land_spec, N.lor_spec, !testbit_mask;
    destruct (existsb (N.eqb i) a) eqn:A, (existsb (N.eqb i) b) eqn:B; cbn; try reflexivity.
  exfalso. apply existsb_exists in A, B. destruct A as (x & A & E), B as (y & B & E').
  apply N.eqb_eq in E, E'. subst. exact (D _ A B).
Qed.
Lemma mask_nonzero : forall a, a <> [] -> mask a <> 0%N.
Proof.
  intros [|i a] H; [congruence|]. intros E. assert (T : N.testbit (mask (i :: a)) i = true) by (apply mask_in; now left).
  rewrite E, N.bits_0 in T. discriminate.
Qed.
(** the two children of a node split its span *)
Lemma node_split : forall l a b, proper (BNode l a b) ->
  issplit (bitset (BNode l a b)) (bitset a)
  /\ N.ldiff (bitset (BNode l a b)) (bitset a) = bitset b.
Proof.
  intros l a b (_ & _ & D & i & Ia & Lo). cbn [bitset]. rewrite !bitset_mask.
  destruct (mask_split _ _ D) as [E1 E2]. split; [|exact E1]. split; [exact E2|].
  assert (NA : mask (words_of a) <> 0%N) by (apply mask_nonzero, words_nonempty).
  assert (NB : mask (words_of b) <> 0%N) by (apply mask_nonzero, words_nonempty).
  assert (NAB : N.lor (mask (words_of a)) (mask (words_of b)) <> 0%N).
  { rewrite <- mask_app. apply mask_nonzero. intros F. apply app_eq_nil in F. destruct F as [F _]. now apply words_nonempty in F. }
  split.
  - destruct (startof_spec _ NA) as (r1 & -> & M1 & L1), (startof_spec _ NAB) as (r2 & -> & M2 & L2).
    f_equal. rewrite N.lor_spec in M2.
    destruct (N.lt_trichotomy r1 r2) as [H|[H|H]]; [|exact H|].
    + specialize (L2 _ H). rewrite N.lor_spec, M1 in L2. discriminate.
    + rewrite (L1 _ H) in M2. cbn in M2. apply mask_in in M2. specialize (Lo _ M2).
      apply mask_in in Ia. rewrite L1 in Ia by lia. discriminate.
  - pose proof (lenof_split _ _ E2). pose proof (lenof_pos _ NA). rewrite E1 in H. pose proof (lenof_pos _ NB). lia.
Qed.

Section Result.
  Variable labda : Q.
  Variable labels : option (list pystr).
  Variable n : nat.
  Variable ds : list (bt * Q).
  Hypothesis WF : derivations_of n ds.
  Hypothesis LA : 0 <= labda.
  Let es := entries ds.
  Let tb := marginals labels ds.
  Let total := sentprob ds.
  Definition worth (l : pystr) (s : N) : Q := gv labda total (val labels l s es).

  Lemma ds_proper : Forall (fun d => proper (fst d)) ds.
  Proof. apply Forall_forall. intros [t w] I. destruct WF as [_ H]. apply H in I. tauto. Qed.
  Lemma total_pos : 0 < total.
  Proof.
    unfold total. rewrite sentprob_ok. destruct WF as [NE H].
    assert (G : forall r : list (bt * Q), (forall d w, In (d, w) r -> 0 < w) -> 0 <= qsum (map snd r)).
    { clear. induction r as [|[d w] r IH]; intros H; cbn [map]; [change (qsum []) with 0; lra|].
      rewrite qsum_cons. specialize (H d w (or_introl eq_refl)) as W. cbn [snd].
      assert (0 <= qsum (map snd r)) by (apply IH; intros; eapply H; right; eassumption). lra. }
    destruct ds as [|[d w] r]; [congruence|]. cbn [map]. rewrite qsum_cons. cbn [snd].
    destruct (H d w (or_introl eq_refl)) as [W _].
    assert (0 <= qsum (map snd r)) by (apply G; intros d' w' I; destruct (H d' w' (or_intror I)); assumption). lra.
  Qed.
  (** worth is the gain of the specification *)
  Lemma worth_gain : forall l s, gain labda (counted labels) ds (l, s) == worth l (mask s).
  Proof.
    intros l s. unfold worth. rewrite gv_pos. unfold gain. cbn [fst snd]. cbv zeta.
    fold (pos (cprob (counted labels) ds l s - labda * (1 - cprob (counted labels) ds l s))).
    apply pos_comp.
    assert (E : cprob (counted labels) ds l s == val labels l (mask s) es / total).
    { unfold cprob, val. destruct (counted labels l); [|unfold Qdiv; lra].
      unfold es, total. rewrite (emass_derivations ds l s ds_proper), sentprob_ok. reflexivity. }
    rewrite E. reflexivity.
  Qed.

  Lemma entry_inv : forall l s w, In ((l, s), w) es <->
    exists t ws, In (t, w) ds /\ In (l, ws) (constituents t) /\ s = mask ws.
  Proof.
    clear. intros l s w. unfold es, entries. rewrite in_flat_map. split.
    - intros ([t w'] & I & J). cbn [fst snd] in J. apply in_map_iff in J. destruct J as (ls & E & J).
      injection E as -> ->. rewrite subtrees_constituents in J. apply in_map_iff in J.
      destruct J as ([l' ws] & E & J). cbn [fst snd] in E. injection E as -> <-.
      exists t, ws. auto.
    - intros (t & ws & I & J & ->). exists (t, w). split; [exact I|]. cbn [fst snd]. apply in_map_iff.
      exists (l, mask ws). split; [reflexivity|]. rewrite subtrees_constituents. apply in_map_iff.
      exists (l, ws). auto.
  Qed.
  Lemma tb_ok : tableok labels es tb.
  Proof. unfold tb, es. rewrite marginals_run. apply table_ok. Qed.
  Lemma tb_in : forall s, In s (map fst tb) <->
    exists t w l ws, In (t, w) ds /\ In (l, ws) (constituents t) /\ s = mask ws.
  Proof.
    intros s. destruct tb_ok as (_ & K & _). rewrite K. split.
    - intros (l & w & I). apply entry_inv in I. destruct I as (t & ws & I). exists t, w, l, ws. exact I.
    - intros (t & w & l & ws & I). exists l, w. apply entry_inv. eauto.
  Qed.
  Lemma tb_observed : forall s, In (mask s) (map fst tb) <-> observed ds s.
  Proof.
    intros s. rewrite tb_in. unfold observed. split; intros (t & w & l & ws & I & J & E); exists t, w, l, ws;
      (split; [exact I|split; [exact J|]]); now apply mask_sameset.
  Qed.
  Lemma tb_nodup : NoDup (map fst tb).
  Proof. apply tb_ok. Qed.
  Lemma tb_range : forall s, In s (map fst tb) -> s <> 0%N /\ below n s.
  Proof.
    intros s I. apply tb_in in I. destruct I as (t & w & l & ws & I & J & ->). split.
    - apply mask_nonzero. eapply const_nonempty; eassumption.
    - intros i T. apply mask_in in T. destruct WF as [_ H]. destruct (H _ _ I) as (_ & _ & C & _).
      apply sentence_in, C. eapply const_words; eassumption.
  Qed.
  Lemma maxlabel_tb : forall s tc, In (s, tc) tb ->
    (exists w, In ((fst (maxlabelof tc), s), w) es)
    /\ snd (maxlabelof tc) == val labels (fst (maxlabelof tc)) s es
    /\ forall l, val labels l s es <= snd (maxlabelof tc).
  Proof.
    intros s tc I. destruct tb_ok as (_ & _ & C). apply (maxlabel_spec labels s es tc (C _ _ I)).
    intros l w J. apply entry_inv in J. destruct J as (t & ws & J & _). destruct WF as [_ H].
    destruct (H _ _ J) as [W _]. lra.
  Qed.
  Lemma maxlabel_ok : forall s tc, In (s, tc) tb ->
    fst (maxlabelof tc) <> [] /\ fst (maxlabelof tc) <> NEGATIVECONSTLABEL.
  Proof.
    intros s tc I. destruct (maxlabel_tb s tc I) as [[w J] _]. apply entry_inv in J.
    destruct J as (t & ws & J & K & _). destruct WF as [_ H]. destruct (H _ _ J) as (_ & _ & _ & L).
    exact (L _ _ K).
  Qed.
  Lemma cells_ok : exists cs, fillcells labda total n tb = Some cs /\ inv labda total n tb cs
    /\ forall s, In s (map fst cs) <-> In s (map fst tb).
  Proof.
    apply fill_ok; [exact tb_nodup|exact tb_range|]. intros s tc I. exact (proj1 (maxlabel_ok s tc I)).
  Qed.

  Variable cs : cells.
  Hypothesis INV : inv labda total n tb cs.
  Hypothesis KEYS : forall s, In s (map fst cs) <-> In s (map fst tb).
  Lemma cell_of : forall s, In s (map fst tb) -> exists c, dget N.eqb s cs = Some c /\ cellinv labda total n tb cs s c.
  Proof.
    intros s I. apply KEYS, (dget_some _ Neqb_ok) in I. destruct I as [c G]. exists c. split; [exact G|].
    now apply INV.
  Qed.
  (** no label is worth more than the best one *)
  Lemma worth_max : forall s tc l, In (s, tc) tb -> worth l s <= gv labda total (snd (maxlabelof tc)).
  Proof.
    intros s tc l I. destruct (maxlabel_tb s tc I) as (_ & _ & M). apply gv_mono; [exact LA|exact total_pos|apply M].
  Qed.
  Lemma worth_best : forall s tc, In (s, tc) tb ->
    gv labda total (snd (maxlabelof tc)) == worth (fst (maxlabelof tc)) s.
  Proof. intros s tc I. destruct (maxlabel_tb s tc I) as (_ & E & _). now apply gv_comp. Qed.

  (** no tree over observed spans is worth more than the score of its span *)
  Lemma upper : forall T, proper T -> (forall l s, In (l, s) (constituents T) -> observed ds s) ->
    exists c, dget N.eqb (bitset T) cs = Some c
      /\ qsum (map (fun x => worth (fst x) (mask (snd x))) (constituents T)) <= c_score c.
  Proof.
    induction T as [l i|l a IHa b IHb]; intros P OBS.
    - assert (I : In (bitset (BLeaf l i)) (map fst tb)).
      { rewrite bitset_mask. apply tb_observed. apply (OBS l). now left. }
      destruct (cell_of _ I) as (c & G & tc & comb & It & (B0 & _) & SC & _). exists c. split; [exact G|].
      cbn [constituents map fst snd]. rewrite qsum_cons. change (qsum []) with 0.
      pose proof (worth_max _ _ l It) as W. rewrite bitset_mask in W. cbn [words_of] in W. lra.
    - assert (I : In (bitset (BNode l a b)) (map fst tb)).
      { rewrite bitset_mask. apply tb_observed. apply (OBS l). now left. }
      destruct (node_split _ _ _ P) as [SP EB]. pose proof P as (Pa & Pb & _).
      destruct IHa as (ca & Ga & Sa); [exact Pa| |].
      { intros l' s' J. apply (OBS l'). right. apply in_or_app. now left. }
      destruct IHb as (cb & Gb & Sb); [exact Pb| |].
      { intros l' s' J. apply (OBS l'). right. apply in_or_app. now right. }
      destruct (cell_of _ I) as (c & G & tc & comb & It & (B0 & _ & _ & B3) & SC & _). exists c. split; [exact G|].
      destruct (B3 (bitset a) SP) as (cl & cr & G1 & G2 & LE).
      + apply KEYS. apply (dget_some _ Neqb_ok). eauto.
      + rewrite EB. apply KEYS. apply (dget_some _ Neqb_ok). eauto.
      + rewrite EB in G2. rewrite Ga in G1. rewrite Gb in G2. injection G1 as <-. injection G2 as <-.
        cbn [constituents map fst snd]. rewrite qsum_cons, map_app, qsum_app.
        pose proof (worth_max _ _ l It) as W. rewrite bitset_mask in W. lra.
  Qed.

  (** observed spans with more than one word can be split into observed spans *)
  Lemma observed_split : forall s, In s (map fst tb) -> (1 < lenof s)%nat ->
    exists l, issplit s l /\ In l (map fst tb) /\ In (N.ldiff s l) (map fst tb).
  Proof.
    intros s I L. apply tb_in in I. destruct I as (t & w & l & ws & I & J & ->).
    assert (P : proper t) by (destruct WF as [_ H]; destruct (H _ _ I) as (_ & P & _); exact P).
    assert (SUB : forall l' s', In (l', s') (constituents t) -> In (mask s') (map fst tb)).
    { intros l' s' K. apply tb_in. exists t, w, l', s'. auto. }
    clear I. revert P SUB J. induction t as [l0 i|l0 a IHa b IHb]; intros P SUB J.
    - destruct J as [J|[]]. injection J as <- <-. exfalso. rewrite (lenof_card _ [i]) in L; [cbn in L; lia|].
      split; [repeat constructor; auto|]. intros k. unfold member. symmetry. apply mask_in.
    - destruct J as [J|J].
      + injection J as <- <-. destruct (node_split _ _ _ P) as [SP EB].
        rewrite bitset_mask in SP, EB. cbn [words_of] in SP, EB. exists (bitset a). split; [exact SP|].
        assert (R : forall t0, exists l1, In (l1, words_of t0) (constituents t0)).
        { intros [l1 i1|l1 a1 b1]; exists l1; now left. }
        split.
        * rewrite bitset_mask. destruct (R a) as [l1 R1]. apply (SUB l1). right. apply in_or_app. now left.
        * rewrite EB, bitset_mask. destruct (R b) as [l1 R1]. apply (SUB l1). right. apply in_or_app. now right.
      + destruct P as (Pa & Pb & _). apply in_app_or in J. destruct J as [J|J].
        * apply IHa; [exact Pa| |exact J]. intros l' s' K. apply (SUB l'). right. apply in_or_app. now left.
        * apply IHb; [exact Pb| |exact J]. intros l' s' K. apply (SUB l'). right. apply in_or_app. now right.
  Qed.

  (** the best tag of every word is worth something *)
  Hypothesis TAGS : forall i, (i < N.of_nat n)%N -> exists l, 0 < worth l (mask [i]).
  Lemma score_positive : forall k s c, (lenof s <= k)%nat -> In s (map fst tb) ->
    dget N.eqb s cs = Some c -> 0 < c_score c.
  Proof.
    induction k as [|k IH]; intros s c L I G.
    - destruct (tb_range s I) as [NZ _]. pose proof (lenof_pos s NZ). lia.
    - destruct (INV) as [_ IV]. destruct (IV _ _ G) as (tc & comb & It & (B0 & _ & _ & B3) & SC & _).
      rewrite SC. pose proof (pos_nonneg (snd (maxlabelof tc) / total - labda * (1 - snd (maxlabelof tc) / total))) as PN.
      rewrite <- gv_pos in PN.
      destruct (le_lt_dec (lenof s) 1) as [L1|L1].
      + destruct (tb_range s I) as [NZ BL]. pose proof (lenof_pos s NZ).
        destruct (lenof_one s) as (i & E & _); [lia|].
        destruct (TAGS i) as [l W].
        { apply BL. rewrite E. apply mask_in. now left. }
        pose proof (worth_max s tc l It) as W'. rewrite E in W'. rewrite E in It. lra.
      + destruct (observed_split s I L1) as (l & SP & I1 & I2).
        destruct (B3 l SP I1 I2) as (cl & cr & G1 & G2 & LE).
        assert (LL : lenof s = (lenof l + lenof (N.ldiff s l))%nat) by (apply lenof_split; apply SP).
        destruct SP as (_ & _ & LS).
        assert (0 < c_score cl) by (apply (IH l); [lia|exact I1|exact G1]).
        assert (0 < c_score cr) by (apply (IH (N.ldiff s l)); [lia|exact I2|exact G2]). lra.
  Qed.

  Definition total_worth (ts : list otree) : Q :=
    qsum (map (fun x => worth (fst x) (mask (snd x))) (flat_map oconstituents ts)).
  Lemma gettree_ok : forall fuel s, In s (map fst tb) -> (lenof s <= fuel)%nat ->
    exists ts c, gettree fuel cs s = Some ts /\ dget N.eqb s cs = Some c
      /\ lists_members (member s) (flat_map owords ts)
      /\ total_worth ts == c_score c
      /\ (forall l ws, In (l, ws) (flat_map oconstituents ts) -> exists w, In ((l, mask ws), w) es)
      /\ (lenof s = 1%nat \/ lenof s = n -> exists t, ts = [t]).
  Proof.
    induction fuel as [|fuel IH]; intros s I L.
    - destruct (tb_range s I) as [NZ _]. pose proof (lenof_pos s NZ). lia.
    - destruct (cell_of s I) as (c & G & tc & comb & It & (B0 & B1 & B2 & B3) & SC & LB).
      cbn [gettree]. rewrite G. destruct (c_left c) as [l|] eqn:CL.
      + destruct (B2 l eq_refl) as (SP & I1 & I2 & cl & cr & G1 & G2 & EC & _).
        assert (LL : lenof s = (lenof l + lenof (N.ldiff s l))%nat) by (apply lenof_split; apply SP).
        destruct SP as (SE & _ & LS). rewrite G1.
        destruct (IH l I1) as (ta & ca & Ea & Ga & Ma & Wa & Ca & _); [lia|].
        destruct (IH (N.ldiff s l) I2) as (tb' & cb & Eb & Gb & Mb & Wb & Cb & _); [lia|].
        rewrite Ea, Eb. rewrite G1 in Ga. rewrite G2 in Gb. injection Ga as <-. injection Gb as <-.
        assert (MM : lists_members (member s) (flat_map owords (ta ++ tb'))).
        { rewrite flat_map_app. destruct Ma as [N1 M1], Mb as [N2 M2]. split.
          - apply nodup_app'; [exact N1|exact N2|]. intros x A B. apply M1 in A. apply M2 in B. unfold member in *.
            rewrite N.ldiff_spec, A, andb_false_r in B. discriminate.
          - intros i. rewrite in_app_iff, M1, M2. unfold member. rewrite N.ldiff_spec.
            assert (X : N.testbit l i = true -> N.testbit s i = true).
            { intros T. rewrite <- SE, N.land_spec in T. now apply andb_prop in T. }
            destruct (N.testbit s i), (N.testbit l i); cbn; intuition congruence. }
        assert (EMs : mask (flat_map owords (ta ++ tb')) = s).
        { apply N.bits_inj. intros i. apply eq_true_iff_eq. rewrite mask_in. destruct MM as [_ MM]. apply MM. }
        assert (WW : total_worth (ta ++ tb') == comb).
        { unfold total_worth in *. rewrite flat_map_app, map_app, qsum_app. rewrite EC. lra. }
        assert (CC : forall l0 ws, In (l0, ws) (flat_map oconstituents (ta ++ tb')) -> exists w, In ((l0, mask ws), w) es).
        { intros l0 ws J. rewrite flat_map_app in J. apply in_app_or in J. destruct J; eauto. }
        destruct (maxlabel_ok s tc It) as [LB1 LB2].
        destruct LB as [LB|(LB & GZ & LR)].
        * rewrite LB. assert (X : (eqs (fst (maxlabelof tc)) NONCONSTLABEL
               || eqs (fst (maxlabelof tc)) NEGATIVECONSTLABEL)%bool = false).
          { apply orb_false_intro; now apply eqs_neq. }
          rewrite X. exists [ONode (fst (maxlabelof tc)) (ta ++ tb')], c. split; [reflexivity|]. split; [reflexivity|].
          split; [cbn [flat_map owords]; now rewrite app_nil_r|]. split; [|split].
          -- unfold total_worth in *. cbn [flat_map oconstituents]. rewrite app_nil_r. cbn [map fst snd].
             rewrite qsum_cons, EMs. pose proof (worth_best s tc It). lra.
          -- intros l0 ws J. cbn [flat_map oconstituents] in J. rewrite app_nil_r in J. destruct J as [J|J]; [|eauto].
             injection J as <- <-. rewrite EMs. now destruct (maxlabel_tb s tc It).
          -- intros _. eauto.
        * rewrite LB. change (eqs NEGATIVECONSTLABEL NONCONSTLABEL || eqs NEGATIVECONSTLABEL NEGATIVECONSTLABEL)%bool with true.
          cbv iota. exists (ta ++ tb'), c. split; [reflexivity|]. split; [reflexivity|]. split; [exact MM|].
          split; [lra|]. split; [exact CC|]. intros [X|X]; lia.
      + assert (L1 : lenof s = 1%nat).
        { destruct (tb_range s I) as [NZ _]. pose proof (lenof_pos s NZ).
          destruct (le_lt_dec (lenof s) 1) as [L1|L1]; [lia|]. exfalso.
          destruct (observed_split s I L1) as (l & SP & I1 & I2).
          destruct (B3 l SP I1 I2) as (cl & cr & G1 & G2 & LE).
          pose proof (score_positive _ l cl (le_n _) I1 G1). pose proof (score_positive _ _ cr (le_n _) I2 G2).
          specialize (B1 eq_refl). lra. }
        destruct (lenof_one s L1) as (i & E & ES).
        assert (LB' : c_label c = fst (maxlabelof tc)) by (destruct LB as [LB|(_ & _ & LB)]; [exact LB|lia]).
        exists [OLeaf (c_label c) (startof s)], c. split; [reflexivity|]. split; [reflexivity|].
        rewrite ES. cbn [flat_map owords oconstituents app]. rewrite N2Z.id. split; [|split; [|split]].
        * rewrite E. split; [repeat constructor; auto|]. intros k. unfold member. symmetry. apply mask_in.
        * unfold total_worth. cbn [flat_map oconstituents app map fst snd]. rewrite N2Z.id, <- E, qsum_cons, LB'.
          change (qsum []) with 0. pose proof (worth_best s tc It). specialize (B1 eq_refl). lra.
        * intros l0 ws [J|[]]. injection J as <- <-. rewrite <- E, LB'. now destruct (maxlabel_tb s tc It).
        * intros _. eauto.
  Qed.
End Result.
