(** The traversal extractbitsets: every maximal pair is extracted once *)
From Coq Require Import NArith ZArith List Bool Lia Permutation Sorting.Sorted.
From Verif Require Import BitsModel BitsSpec TreeModel FragModel FragSpec FragProofs FragProofs2.
Import ListNotations.

(** * Pairs of addresses *)
Section Pairs.
Variables ta tb : btree.
Hypothesis AG : agree ta tb.
Definition eqp (u v : addr) : Prop := exists s t, sub ta u = Some s /\ sub tb v = Some t /\ bprod s = bprod t.
Definition isroot (x y : addr) : Prop :=
  eqp x y /\ ~ (exists x' y' d, x = x' ++ [d] /\ y = y' ++ [d] /\ eqp x' y').
Definition chain (x y w : addr) : Prop := forall w1 w2, w = w1 ++ w2 -> eqp (x ++ w1) (y ++ w1).
Definition rootof (x y u v : addr) : Prop := isroot x y /\ exists w, u = x ++ w /\ v = y ++ w /\ chain x y w.

Lemma eqp_dec : forall u v, eqp u v \/ ~ eqp u v.
Proof.
  intros u v. unfold eqp. destruct (sub ta u) as [s|] eqn:Es; [|right; intros (s & t & H & _); discriminate].
  destruct (sub tb v) as [t|] eqn:Et; [|right; intros (s' & t & _ & H & _); discriminate].
  destruct (Z.eq_dec (bprod s) (bprod t)) as [E|E]; [left; eauto|].
  right. intros (s' & t' & H1 & H2 & H3). congruence.
Qed.
Lemma root_self : forall u v, isroot u v -> rootof u v u v.
Proof.
  intros u v H. split; auto. exists []. rewrite !app_nil_r. split; auto. split; auto.
  intros w1 w2 E. destruct w1; [|discriminate]. rewrite !app_nil_r. apply H.
Qed.
Lemma rootof_eqp : forall x y u v, rootof x y u v -> eqp u v.
Proof. intros x y u v (_ & w & -> & -> & C). apply (C w []). now rewrite app_nil_r. Qed.
Lemma root_exists : forall u v, eqp u v -> exists x y, rootof x y u v.
Proof.
  induction u as [|d u IH] using rev_ind; intros v E.
  - exists [], v. apply root_self. split; auto. intros (x' & y' & d & H & _). destruct x'; discriminate.
  - destruct v as [|d' v _] using rev_ind.
    + exists (u ++ [d]), []. apply root_self. split; auto. intros (x' & y' & d1 & _ & H & _). destruct y'; discriminate.
    + destruct (eqp_dec u v) as [Ep|Ep]; [destruct (bool_dec d d') as [Ed|Ed]|].
      * subst d'. destruct (IH v Ep) as (x & y & R & w & -> & -> & C). exists x, y. split; auto.
        exists (w ++ [d]). rewrite !app_assoc. split; auto. split; auto.
        intros w1 w2 Ew. destruct w2 as [|d2 w2 _] using rev_ind.
        -- rewrite app_nil_r in Ew. subst w1. now rewrite !app_assoc.
        -- rewrite app_assoc in Ew. apply app_inj_tail in Ew. destruct Ew as [Ew _]. exact (C w1 w2 Ew).
      * exists (u ++ [d]), (v ++ [d']). apply root_self. split; auto.
        intros (x' & y' & d1 & H1 & H2 & _). apply app_inj_tail in H1, H2. destruct H1, H2. congruence.
      * exists (u ++ [d]), (v ++ [d']). apply root_self. split; auto.
        intros (x' & y' & d1 & H1 & H2 & H3). apply app_inj_tail in H1, H2. destruct H1 as [-> _], H2 as [-> _]. contradiction.
Qed.
(** two prefixes of an address *)
Lemma app_cmp : forall (x w x' w' : addr), x ++ w = x' ++ w' -> (exists z, x' = x ++ z /\ w = z ++ w') \/ (exists d z, x = x' ++ d :: z /\ w' = d :: z ++ w).
Proof.
  induction x as [|c x IH]; intros w x' w' E; cbn in E.
  - left. exists x'. split; auto.
  - destruct x' as [|c' x']; cbn in E.
    + right. exists c, x. split; [reflexivity|now rewrite E].
    + injection E as -> E. destruct (IH _ _ _ E) as [(z & -> & ->)|(d & z & -> & ->)]; [left; exists z|right; exists d, z]; split; reflexivity.
Qed.
Lemma app_same : forall (x x' w : addr), x ++ w = x' ++ w -> x = x'.
Proof. intros x x' w E. now apply app_inv_tail in E. Qed.
(** the root of an extended pair: not strictly above a root *)
Lemma rootof_above : forall x y u v w, isroot u v -> rootof x y (u ++ w) (v ++ w) ->
  (x = u /\ y = v) \/ exists d z, y = v ++ d :: z.
Proof.
  intros x y u v w [Ruv NP] (R & w0 & E1 & E2 & C).
  destruct (app_cmp v w y w0 E2) as [(z & -> & Hw)|(d & z & -> & Hw)].
  - destruct z as [|d z]; [|right; eauto]. rewrite app_nil_r. left. split; auto.
    cbn in Hw. subst w0. symmetry. exact (app_same _ _ _ E1).
  - exfalso. subst w0. change (d :: z ++ w) with ((d :: z) ++ w) in E1. rewrite app_assoc in E1. apply app_same in E1. subst u.
    assert (NE : d :: z <> []) by discriminate.
    destruct (exists_last NE) as (z' & d' & Ez). rewrite Ez in *. apply NP.
    exists (x ++ z'), (y ++ z'), d'. rewrite <- !app_assoc. split; auto. split; auto.
    change (d :: z ++ w) with ((d :: z) ++ w) in C. rewrite Ez in C. apply (C z' ([d'] ++ w)). now rewrite <- app_assoc.
Qed.
Lemma root_unique : forall x y x' y' u v, rootof x y u v -> rootof x' y' u v -> x = x' /\ y = y'.
Proof.
  intros x y x' y' u v H1 H2. pose proof H1 as (R1 & w & -> & -> & C1). pose proof H2 as (R2 & w' & E1 & E2 & C2).
  destruct (rootof_above x' y' x y w R1 H2) as [[-> ->]|(d & z & E)]; auto.
  rewrite E1, E2 in H1. destruct (rootof_above x y x' y' w' R2 H1) as [[-> ->]|(d' & z' & E')]; auto.
  exfalso. apply (f_equal (@length bool)) in E, E'. rewrite app_length in E, E'. cbn in E, E'. lia.
Qed.
Lemma agree_subs : forall x y s t, sub ta x = Some s -> sub tb y = Some t -> agree s t.
Proof.
  intros x y s t E1 E2 u v s' t' Eu Ev. apply (AG (x ++ u) (y ++ v)).
  - now rewrite sub_app, E1.
  - now rewrite sub_app, E2.
Qed.
(** the addresses of the largest common fragment *)
Lemma inside_chain : forall w x y s t, sub ta x = Some s -> sub tb y = Some t ->
  (inside w (mcf s t) <-> chain x y w).
Proof.
  induction w as [|d w IH]; intros x y s t Es Et.
  - assert (E0 : inside [] (mcf s t) <-> mcf s t <> Open) by (destruct (mcf s t); cbn; split; intros H; try congruence; try tauto; discriminate).
    rewrite E0. pose proof (agree_subs x y s t Es Et) as A. split.
    + intros H w1 w2 E. destruct w1; [|discriminate]. rewrite !app_nil_r. exists s, t. split; auto. split; auto.
      destruct (Z.eq_dec (bprod s) (bprod t)) as [Ez|Ez]; auto. exfalso. apply H. apply mcf_open; auto.
    + intros C H. specialize (C [] [] eq_refl). rewrite !app_nil_r in C. destruct C as (s' & t' & E1 & E2 & E3).
      rewrite Es in E1. rewrite Et in E2. injection E1 as <-. injection E2 as <-.
      apply mcf_open in H; auto. left. now apply agree_here.
  - assert (CC : chain x y (d :: w) <-> eqp x y /\ chain (x ++ [d]) (y ++ [d]) w).
    { split.
      - intros C. split.
        + specialize (C [] (d :: w) eq_refl). now rewrite !app_nil_r in C.
        + intros w1 w2 E. rewrite <- !app_assoc. apply (C (d :: w1) w2). cbn. now rewrite E.
      - intros [H1 H2] w1 w2 E. destruct w1 as [|d1 w1]; [now rewrite !app_nil_r|].
        cbn in E. injection E as <- E. specialize (H2 w1 w2 E). now rewrite <- !app_assoc in H2. }
    rewrite CC.
    assert (EQ : eqp x y <-> bprod s = bprod t).
    { split; [intros (s' & t' & E1 & E2 & E3)|intros E; exists s, t; auto]. congruence. }
    rewrite EQ.
    assert (NC : forall z, (sub s [d] = None \/ sub t [d] = None) -> ~ chain (x ++ [d]) (y ++ [d]) z).
    { intros z HN C. specialize (C [] z eq_refl). rewrite !app_nil_r in C. destruct C as (s' & t' & E1 & E2 & _).
      rewrite sub_app, Es in E1. rewrite sub_app, Et in E2. destruct HN; congruence. }
    destruct (Z.eq_dec (bprod s) (bprod t)) as [Ep|Ep].
    2:{ assert (EO : mcf s t = Open) by (apply mcf_open; auto). rewrite EO. split; [intros H; destruct (inside_open _ H)|tauto]. }
    pose proof (agree_here s t (agree_subs x y s t Es Et) Ep) as K.
    destruct s as [p i1|p s1|p s1 s2], t as [q i2|q t1|q t1 t2]; cbn [same_kind] in K; try contradiction;
      cbn [bprod] in Ep; subst q; cbn [mcf bprod]; rewrite Z.eqb_refl; destruct d; cbn [inside].
    + split; [intros []|intros [_ H]; destruct (NC w (or_introl eq_refl) H)].
    + split; [intros []|intros [_ H]; destruct (NC w (or_introl eq_refl) H)].
    + split; [intros []|intros [_ H]; destruct (NC w (or_introl eq_refl) H)].
    + rewrite (IH (x ++ [false]) (y ++ [false]) s1 t1); [tauto|now rewrite sub_app, Es|now rewrite sub_app, Et].
    + rewrite (IH (x ++ [true]) (y ++ [true]) s2 t2); [tauto|now rewrite sub_app, Es|now rewrite sub_app, Et].
    + rewrite (IH (x ++ [false]) (y ++ [false]) s1 t1); [tauto|now rewrite sub_app, Es|now rewrite sub_app, Et].
Qed.
End Pairs.

(** * The traversal *)
Section Traverse.
Variables (slots n : nat) (minterms : Z) (a b : list node) (ra rb : nat) (ta tb : btree).
Hypothesis HA : array_of a ra ta.
Hypothesis HB : array_of b rb tb.
Hypothesis AG : agree ta tb.
Hypothesis Hlen : length a <= 64 * slots.

Lemma array_nodup : forall c rc tc, array_of c rc tc -> NoDup (nodes_of c rc tc).
Proof.
  intros c rc tc (_ & P & _). apply (Permutation_NoDup (Permutation_sym P)). apply seq_NoDup.
Qed.
Lemma array_addr : forall c rc tc i, array_of c rc tc -> i < length c -> exists u, node_at c rc u = Some i.
Proof.
  intros c rc tc i (H & P & _) Hi. apply (In_nodes c tc rc i H). apply (Permutation_in _ (Permutation_sym P)).
  apply in_seq. split; [apply Nat.le_0_l|exact Hi].
Qed.
Lemma array_inj : forall c rc tc u v i, array_of c rc tc -> node_at c rc u = Some i -> node_at c rc v = Some i -> u = v.
Proof. intros c rc tc u v i H E1 E2. exact (node_inj c tc rc u v i (proj1 H) (array_nodup _ _ _ H) E1 E2). Qed.
Lemma array_node : forall c rc tc u s, array_of c rc tc -> sub tc u = Some s -> exists k, node_at c rc u = Some k /\ holds c k s.
Proof. intros c rc tc u s H E. exact (node_sub c u rc tc s (proj1 H) E). Qed.
Lemma sub_nodup : forall c rc tc u s k, array_of c rc tc -> sub tc u = Some s -> node_at c rc u = Some k -> NoDup (nodes_of c k s).
Proof.
  intros c rc tc u s k H. pose proof (array_nodup _ _ _ H) as ND. destruct H as (H & _). clear - H ND.
  revert rc tc H ND. induction u as [|d u IH]; intros rc tc H ND Es Ek.
  - cbn in Es, Ek. injection Es as <-. injection Ek as <-. exact ND.
  - destruct d, tc as [p i|p t1|p t1 t2]; cbn [sub] in Es; try discriminate; cbn [holds] in H; cbn [nodes_of] in ND; cbn [node_at] in Ek.
    + destruct H as (_ & _ & _ & Hr & _ & H2). inversion ND as [|? ? _ ND']; subst. apply nodup_app_inv in ND'.
      destruct (Z.ltb_spec (right (nd c rc)) 0); [lia|]. eapply IH; eauto. tauto.
    + destruct H as (_ & _ & Hl & _ & H2). inversion ND as [|? ? _ ND']; subst.
      destruct (Z.ltb_spec (left (nd c rc)) 0); [lia|]. eapply IH; eauto.
    + destruct H as (_ & _ & Hl & _ & H2 & _). inversion ND as [|? ? _ ND']; subst. apply nodup_app_inv in ND'.
      destruct (Z.ltb_spec (left (nd c rc)) 0); [lia|]. eapply IH; eauto. tauto.
Qed.

Local Notation eqp' := (eqp ta tb).
Local Notation isroot' := (isroot ta tb).
Local Notation rootof' := (rootof ta tb).

Definition St (m : list (list N)) (Q : addr -> addr -> Prop) : Prop :=
  wfm slots (length b) m /\
  forall i j, on m j i <-> exists u v, node_at a ra u = Some i /\ node_at b rb v = Some j /\ eqp' u v /\
                             (forall x y, rootof' x y u v -> ~ Q x y).
Lemma St_ext : forall m Q Q', (forall x y, isroot' x y -> (Q x y <-> Q' x y)) -> St m Q -> St m Q'.
Proof.
  intros m Q Q' E [W H]. split; auto. intros i j. rewrite H. split; intros (u & v & H1 & H2 & H3 & H4);
    exists u, v; (split; [exact H1|]; split; [exact H2|]; split; [exact H3|]; intros x y R HQ);
    apply (H4 x y R); apply (E x y (proj1 R)); exact HQ.
Qed.
(** a stored fragment is the one of the pair (u, v) *)
Definition repd (x : stored) (u v : addr) : Prop :=
  exists s t i bits, sub ta u = Some s /\ sub tb v = Some t /\ node_at a ra u = Some i /\ x = (bits, n, i) /\
    wfrow slots bits /\ (forall k, inrow bits k <-> In k (frag_nodes a i (mcf s t))) /\ (minterms <= codeterms (mcf s t))%Z.
Definition enough (u v : addr) : Prop :=
  exists s t, sub ta u = Some s /\ sub tb v = Some t /\ (minterms <= codeterms (mcf s t))%Z.
Definition Done (mr mr' : list (list N) * list stored) (Q Z : addr -> addr -> Prop) : Prop :=
  St (fst mr') (fun x y => Q x y \/ Z x y) /\
  (forall x, In x (snd mr') -> In x (snd mr) \/ exists u v, Z u v /\ repd x u v) /\
  (forall x, In x (snd mr) -> In x (snd mr')) /\
  (forall u v, Z u v -> enough u v -> exists x, In x (snd mr') /\ repd x u v).

Lemma set_add_In : forall x y l, In x (set_add y l) <-> x = y \/ In x l.
Proof.
  intros x y l. unfold set_add. destruct (in_dec stored_eq_dec y l) as [H|H].
  - split; auto. intros [->|]; auto.
  - rewrite in_app_iff. cbn. intuition.
Qed.

Lemma one_ok : forall mr Q u v i j, St (fst mr) Q -> isroot' u v -> ~ Q u v ->
  (forall x y d z, Q x y -> y <> v ++ d :: z) ->
  node_at a ra u = Some i -> node_at b rb v = Some j ->
  Done mr (extract_one a b n minterms slots j mr (Z.of_nat i)) Q (fun x y => x = u /\ y = v).
Proof.
  intros [m results] Q u v i j [W H] R NQ Below Eu Ev. cbn [fst] in *.
  destruct (proj1 R) as (s & t & Es & Et & Ep).
  destruct (array_node _ _ _ _ _ HA Es) as (i' & Ei & Hs). assert (i' = i) by congruence. subst i'.
  destruct (array_node _ _ _ _ _ HB Et) as (j' & Ej & Ht). assert (j' = j) by congruence. subst j'.
  assert (NDs := sub_nodup _ _ _ _ _ _ HA Es Ei). assert (NDt := sub_nodup _ _ _ _ _ _ HB Et Ej).
  assert (Hh : height s <= S (length a)).
  { pose proof (height_nodes a s i) as Hh.
    assert (Hl : length (nodes_of a i s) <= length (seq 0 (length a))).
    { apply NoDup_incl_length; auto. intros k Hk. apply (In_nodes a s i k Hs) in Hk. destruct Hk as (w & Ew).
      destruct (node_sub_inv a w i s k Hs Ew) as (s' & _ & Hk). apply holds_lt in Hk. apply in_seq. lia. }
    rewrite seq_length in Hl. lia. }
  assert (C : correct a b m i j s t).
  { intros w s' t' i' j' Hw E1 E2 E3 E4. rewrite H. 
    assert (N3 : node_at a ra (u ++ w) = Some i') by now rewrite node_at_app, Ei.
    assert (N4 : node_at b rb (v ++ w) = Some j') by now rewrite node_at_app, Ej.
    assert (S3 : sub ta (u ++ w) = Some s') by now rewrite sub_app, Es.
    assert (S4 : sub tb (v ++ w) = Some t') by now rewrite sub_app, Et.
    split.
    - intros (u' & v' & X1 & X2 & (s2 & t2 & Y1 & Y2 & Y3) & _).
      assert (u' = u ++ w) by exact (array_inj _ _ _ _ _ _ HA X1 N3). assert (v' = v ++ w) by exact (array_inj _ _ _ _ _ _ HB X2 N4).
      subst u' v'. congruence.
    - intros E. exists (u ++ w), (v ++ w). split; auto. split; auto. split; [exists s', t'; auto|].
      intros x y Ro HQ. destruct (rootof_above ta tb x y u v w R Ro) as [[-> ->]|(d & z & Ey)]; auto.
      exact (Below x y d z HQ Ey). }
  pose proof (extractat_ok slots a b Hlen (S (length a)) s t m (repeat 0%N slots) i j Hh Hs Ht NDs NDt
    (agree_subs ta tb AG u v s t Es Et) Ep W (wfrow_zero slots) C) as X.
  unfold extract_one. unfold kid. rewrite Nat2Z.id.
  destruct (extractat (S (length a)) a b m (repeat 0%N slots) i j) as [[m' scratch] terms].
  destruct X as (W' & V' & Q1 & Q2 & Q3).
  assert (Den : forall k, inrow scratch k <-> In k (frag_nodes a i (mcf s t))).
  { intros k. rewrite Q1. split; [intros [Hz|]; auto|auto]. destruct (zero_none slots _ Hz). }
  unfold Done. cbn [fst snd]. split; [split; auto|split; [|split]].
  - intros i' j'. rewrite Q2, H. split.
    + intros [(u' & v' & X1 & X2 & X3 & X4) NI]. exists u', v'. split; auto. split; auto. split; auto.
      intros x y Ro [HQ|[-> ->]]; [exact (X4 x y Ro HQ)|]. apply NI. destruct Ro as (_ & w & -> & -> & Ch).
      exists w. split; [apply (inside_chain ta tb AG w u v s t Es Et); exact Ch|].
      rewrite node_at_app, Ei in X1. rewrite node_at_app, Ej in X2. auto.
    + intros (u' & v' & X1 & X2 & X3 & X4). split.
      * exists u', v'. split; auto. split; auto. split; auto. intros x y Ro HQ. apply (X4 x y Ro). now left.
      * intros (w & I1 & E1 & E2).
        assert (u' = u ++ w) by (apply (array_inj _ _ _ u' (u ++ w) _ HA X1); now rewrite node_at_app, Ei).
        assert (v' = v ++ w) by (apply (array_inj _ _ _ v' (v ++ w) _ HB X2); now rewrite node_at_app, Ej).
        subst u' v'. apply (X4 u v).
        -- split; auto. exists w. split; auto. split; auto. apply (inside_chain ta tb AG w u v s t Es Et). exact I1.
        -- right. auto.
  - intros x Hx. destruct (Z.leb_spec minterms terms) as [L|L]; [|auto]. apply set_add_In in Hx. destruct Hx as [->|Hx]; auto.
    right. exists u, v. split; auto. exists s, t, i, scratch. rewrite <- Q3. auto 10.
  - intros x Hx. destruct (minterms <=? terms)%Z; auto. apply set_add_In. auto.
  - intros u' v' [-> ->] (s' & t' & X1 & X2 & X3). assert (s' = s) by congruence. assert (t' = t) by congruence. subst s' t'.
    destruct (Z.leb_spec minterms terms) as [L|L]; [|lia]. exists (scratch, n, i). split; [apply set_add_In; auto|].
    exists s, t, i, scratch. auto 10.
Qed.

Lemma Done_nil : forall mr Q, St (fst mr) Q -> Done mr mr Q (fun _ _ => False).
Proof.
  intros mr Q H. split; [|split; [auto|split; [auto|intros u v []]]].
  revert H. apply St_ext. intros x y _. tauto.
Qed.
Lemma Done_trans : forall mr1 mr2 mr3 Q Z1 Z2, Done mr1 mr2 Q Z1 -> Done mr2 mr3 (fun x y => Q x y \/ Z1 x y) Z2 ->
  Done mr1 mr3 Q (fun x y => Z1 x y \/ Z2 x y).
Proof.
  intros mr1 mr2 mr3 Q Z1 Z2 (A1 & A2 & A3 & A4) (B1 & B2 & B3 & B4). split; [|split; [|split]].
  - revert B1. apply St_ext. intros x y _. tauto.
  - intros x Hx. destruct (B2 x Hx) as [H|(u & v & H & R)]; [|right; exists u, v; auto].
    destruct (A2 x H) as [H'|(u & v & H' & R)]; auto. right. exists u, v. auto.
  - auto.
  - intros u v [Hz|Hz] En; [|auto]. destruct (A4 u v Hz En) as (x & Hx & R). eauto.
Qed.
Lemma Done_ext : forall mr mr' Q Z Z', (forall x y, isroot' x y -> (Z x y <-> Z' x y)) ->
  (forall x y, Z x y -> isroot' x y) -> (forall x y, Z' x y -> isroot' x y) ->
  Done mr mr' Q Z -> Done mr mr' Q Z'.
Proof.
  intros mr mr' Q Z Z' E R R' (A1 & A2 & A3 & A4). split; [|split; [|split]]; auto.
  - revert A1. apply St_ext. intros x y Hr. rewrite (E x y Hr). tauto.
  - intros x Hx. destruct (A2 x Hx) as [|(u & v & H & Rp)]; auto. right. exists u, v. split; auto. apply (E u v); auto.
  - intros u v Hz. apply A4. apply (E u v); auto.
Qed.

(** the loop over one row *)
Lemma row_fold_ok : forall l mr Q v j, St (fst mr) Q -> node_at b rb v = Some j -> NoDup l ->
  (forall i, In i l -> exists u, node_at a ra u = Some i /\ isroot' u v /\ ~ Q u v) ->
  (forall x y d z, Q x y -> y <> v ++ d :: z) ->
  Done mr (fold_left (extract_one a b n minterms slots j) (map Z.of_nat l) mr) Q
    (fun x y => y = v /\ isroot' x y /\ exists i, In i l /\ node_at a ra x = Some i).
Proof.
  induction l as [|i l IH]; intros mr Q v j HS Ev ND Hl Below.
  - cbn [map fold_left]. apply (Done_ext _ _ _ (fun _ _ => False)).
    + intros x y _. split; [intros []|]. intros (_ & _ & i & [] & _).
    + intros x y [].
    + intros x y (_ & H & _). exact H.
    + now apply Done_nil.
  - cbn [map fold_left]. inversion ND as [|? ? Hn ND']; subst.
    destruct (Hl i (or_introl eq_refl)) as (u & Eu & Ru & NQ).
    pose proof (one_ok mr Q u v i j HS Ru NQ Below Eu Ev) as D1.
    apply (Done_ext _ _ _ (fun x y => (x = u /\ y = v) \/ (y = v /\ isroot' x y /\ exists i, In i l /\ node_at a ra x = Some i))).
    + intros x y Hr. split.
      * intros [[-> ->]|(-> & _ & i' & Hi & Ei)]; (split; [reflexivity|]; split; [assumption|]); [exists i|exists i']; cbn; auto.
      * intros (-> & _ & i' & [<-|Hi] & Ei); [left; split; auto; exact (array_inj _ _ _ _ _ _ HA Ei Eu)|].
        right. split; auto. split; auto. eauto.
    + intros x y [[-> ->]|(_ & H & _)]; auto.
    + intros x y (_ & H & _). exact H.
    + eapply Done_trans; [exact D1|]. apply IH; auto.
      * exact (proj1 D1).
      * intros i' Hi'. destruct (Hl i' (or_intror Hi')) as (u' & Eu' & Ru' & NQ'). exists u'. split; auto. split; auto.
        intros [HQ|[-> _]]; auto. assert (i' = i) by congruence. subst i'. contradiction.
      * intros x y d z [HQ|[_ ->]] E; [exact (Below x y d z HQ E)|].
        apply (f_equal (@length bool)) in E. rewrite app_length in E. cbn in E. lia.
Qed.

Definition under (v : addr) (x y : addr) : Prop := isroot' x y /\ exists w, y = v ++ w.
Lemma app_neq_self : forall (v : addr) d z, v <> v ++ d :: z.
Proof. intros v d z E. apply (f_equal (@length bool)) in E. rewrite app_length in E. cbn in E. lia. Qed.

Lemma extractbitsets_ok : forall fuel t v j mr Q, height t <= fuel -> sub tb v = Some t -> node_at b rb v = Some j -> holds b j t ->
  St (fst mr) Q -> (forall x y w, Q x y -> y <> v ++ w) ->
  (forall x y d w, isroot' x y -> v = y ++ d :: w -> Q x y) ->
  Done mr (extractbitsets fuel a b n minterms slots mr j) Q (under v).
Proof.
  induction fuel as [|f IH]; intros t v j mr Q Hf Et Ej Ht HS Below Above; [destruct t; cbn in Hf; lia|].
  cbn [extractbitsets].
  destruct (rowbits_ok slots (row (fst mr) j)) as (l & El & NDl & Hl).
  { apply (wfm_row slots (length b)); [apply HS|]. exact (holds_lt _ _ _ Ht). }
  change (iter_collect (S (64 * slots)) (iter_init (row (fst mr) j))) with (rowbits slots (row (fst mr) j)). rewrite El.
  assert (HL : forall i, In i l <-> exists u, node_at a ra u = Some i /\ isroot' u v).
  { intros i. rewrite Hl. change (on (fst mr) j i <-> exists u, node_at a ra u = Some i /\ isroot' u v). rewrite (proj2 HS). split.
    - intros (u & v' & E1 & E2 & E3 & E4). assert (v' = v) by exact (array_inj _ _ _ _ _ _ HB E2 Ej). subst v'.
      exists u. split; auto. destruct (root_exists ta tb u v E3) as (x & y & Ro). pose proof Ro as (R & w & -> & Ev & _).
      destruct w as [|d w]; [rewrite !app_nil_r in *; subst y; exact R|].
      exfalso. apply (E4 x y Ro). exact (Above x y d w R Ev).
    - intros (u & E1 & R). exists u, v. split; auto. split; auto. split; [apply R|].
      intros x y Ro HQ. destruct (rootof_above ta tb x y u v [] R) as [[-> ->]|(d & z & E)].
      + now rewrite !app_nil_r.
      + apply (Below u v [] HQ). now rewrite app_nil_r.
      + exact (Below x y _ HQ E). }
  assert (D1 : Done mr (fold_left (extract_one a b n minterms slots j) (map Z.of_nat l) mr) Q (fun x y => isroot' x y /\ y = v)).
  { assert (D : Done mr (fold_left (extract_one a b n minterms slots j) (map Z.of_nat l) mr) Q
             (fun x y => y = v /\ isroot' x y /\ exists i, In i l /\ node_at a ra x = Some i)).
    { apply row_fold_ok; auto.
      - intros i Hi. apply HL in Hi. destruct Hi as (u & E1 & R). exists u. split; auto. split; auto.
        intros HQ. apply (Below u v [] HQ). now rewrite app_nil_r.
      - intros x y d z HQ. apply (Below x y _ HQ). }
    revert D. apply Done_ext.
    - intros x y R. split; [tauto|]. intros [_ ->]. split; auto. split; auto.
      destruct (proj1 R) as (s & t' & Es & _ & _). destruct (array_node _ _ _ _ _ HA Es) as (i & Ei & _).
      exists i. split; auto. apply HL. eauto.
    - tauto.
    - tauto. }
  set (mr1 := fold_left (extract_one a b n minterms slots j) (map Z.of_nat l) mr) in *. clearbody mr1. clear l El NDl Hl HL.
  destruct t as [p x|p t1|p t1 t2]; cbn [holds] in Ht.
  - destruct Ht as (_ & _ & Hl & Hr). destruct (Z.leb_spec 0 (left (nd b j))); [lia|].
    revert D1. apply Done_ext; [|tauto|unfold under; tauto]. intros x0 y R. unfold under. split.
    + intros [_ ->]. split; auto. exists []. now rewrite app_nil_r.
    + intros (_ & w & ->). split; auto. destruct (proj1 R) as (s & t' & _ & E2 & _).
      rewrite sub_app, Et in E2. destruct w as [|[|] w]; [now rewrite app_nil_r|discriminate|discriminate].
  - destruct Ht as (_ & _ & Hl & Hr & Ht1). destruct (Z.leb_spec 0 (left (nd b j))); [|lia].
    rewrite Hr. cbn [Z.leb Z.compare].
    assert (D2 : Done mr1 (extractbitsets f a b n minterms slots mr1 (kid (left (nd b j)))) (fun x y => Q x y \/ (isroot' x y /\ y = v)) (under (v ++ [false]))).
    { apply (IH t1); auto.
      - cbn in Hf. lia.
      - now rewrite sub_app, Et.
      - rewrite node_at_app, Ej. cbn [node_at]. destruct (Z.ltb_spec (left (nd b j)) 0); [lia|reflexivity].
      - exact (proj1 D1).
      - intros x y w [HQ|[_ ->]]; rewrite <- app_assoc; [apply (Below x y _ HQ)|apply app_neq_self].
      - intros x y d w R E. assert (NE : d :: w <> []) by discriminate. destruct (exists_last NE) as (w' & d' & Ew). rewrite Ew in E.
        rewrite app_assoc in E. apply app_inj_tail in E. destruct E as [E _].
        destruct w' as [|d2 w2]; [right; split; auto; now rewrite app_nil_r in E|left; exact (Above x y d2 w2 R E)]. }
    pose proof (Done_trans _ _ _ _ _ _ D1 D2) as D. revert D. apply Done_ext; [|unfold under; tauto|unfold under; tauto].
    intros x y R. unfold under. split.
    + intros [[_ ->]|(_ & w & ->)]; split; auto; [exists []; now rewrite app_nil_r|exists (false :: w); rewrite <- app_assoc; reflexivity].
    + intros (_ & w & ->). destruct (proj1 R) as (s & t' & _ & E2 & _).
      rewrite sub_app, Et in E2. destruct w as [|[|] w]; [left; split; [exact R|now rewrite app_nil_r]|discriminate|].
      right. split; auto. exists w. now rewrite <- app_assoc.
  - destruct Ht as (_ & _ & Hl & Hr & Ht1 & Ht2). destruct (Z.leb_spec 0 (left (nd b j))); [|lia].
    destruct (Z.leb_spec 0 (right (nd b j))); [|lia].
    assert (D2 : Done mr1 (extractbitsets f a b n minterms slots mr1 (kid (left (nd b j)))) (fun x y => Q x y \/ (isroot' x y /\ y = v)) (under (v ++ [false]))).
    { apply (IH t1); auto.
      - cbn in Hf. lia.
      - now rewrite sub_app, Et.
      - rewrite node_at_app, Ej. cbn [node_at]. destruct (Z.ltb_spec (left (nd b j)) 0); [lia|reflexivity].
      - exact (proj1 D1).
      - intros x y w [HQ|[_ ->]]; rewrite <- app_assoc; [apply (Below x y _ HQ)|apply app_neq_self].
      - intros x y d w R E. assert (NE : d :: w <> []) by discriminate. destruct (exists_last NE) as (w' & d' & Ew). rewrite Ew in E.
        rewrite app_assoc in E. apply app_inj_tail in E. destruct E as [E _].
        destruct w' as [|d2 w2]; [right; split; auto; now rewrite app_nil_r in E|left; exact (Above x y d2 w2 R E)]. }
    set (mr2 := extractbitsets f a b n minterms slots mr1 (kid (left (nd b j)))) in *. clearbody mr2.
    assert (D3 : Done mr2 (extractbitsets f a b n minterms slots mr2 (kid (right (nd b j))))
       (fun x y => (Q x y \/ (isroot' x y /\ y = v)) \/ under (v ++ [false]) x y) (under (v ++ [true]))).
    { apply (IH t2); auto.
      - cbn in Hf. lia.
      - now rewrite sub_app, Et.
      - rewrite node_at_app, Ej. cbn [node_at]. destruct (Z.ltb_spec (right (nd b j)) 0); [lia|reflexivity].
      - exact (proj1 D2).
      - intros x y w [[HQ|[_ ->]]|(_ & w' & ->)]; rewrite <- app_assoc; [apply (Below x y _ HQ)|apply app_neq_self|].
        rewrite <- app_assoc. intros E. apply app_inv_head in E. discriminate.
      - intros x y d w R E. assert (NE : d :: w <> []) by discriminate. destruct (exists_last NE) as (w' & d' & Ew). rewrite Ew in E.
        rewrite app_assoc in E. apply app_inj_tail in E. destruct E as [E _]. left.
        destruct w' as [|d2 w2]; [right; split; auto; now rewrite app_nil_r in E|left; exact (Above x y d2 w2 R E)]. }
    pose proof (Done_trans _ _ _ _ _ _ D1 (Done_trans _ _ _ _ _ _ D2 D3)) as D. revert D.
    apply Done_ext; [|unfold under; tauto|unfold under; tauto].
    intros x y R. unfold under. split.
    + intros [[_ ->]|[(_ & w & ->)|(_ & w & ->)]]; split; auto;
        [exists []; now rewrite app_nil_r|exists (false :: w); now rewrite <- app_assoc|exists (true :: w); now rewrite <- app_assoc].
    + intros (_ & w & ->). destruct w as [|[|] w]; [left; split; auto; now rewrite app_nil_r| |].
      * right. right. split; auto. exists w. now rewrite <- app_assoc.
      * right. left. split; auto. exists w. now rewrite <- app_assoc.
Qed.

Lemma extractfrompair_ok : forall results,
  (forall x, In x (extractfrompair a n b rb minterms slots results) -> In x results \/ exists u v, isroot' u v /\ repd x u v) /\
  (forall x, In x results -> In x (extractfrompair a n b rb minterms slots results)) /\
  (forall u v, isroot' u v -> enough u v -> exists x, In x (extractfrompair a n b rb minterms slots results) /\ repd x u v).
Proof.
  intros results. unfold extractfrompair.
  destruct HA as (HoA & PA & SA). destruct HB as (HoB & PB & SB).
  pose proof (holds_lt _ _ _ HoA) as La. pose proof (holds_lt _ _ _ HoB) as Lb.
  destruct (fasttreekernel_ok slots a b SA SB Hlen ltac:(lia) ltac:(lia)) as [W HR].
  set (m := fasttreekernel a b (repeat (repeat 0%N slots) (length b))) in *. clearbody m.
  assert (HS : St m (fun _ _ => False)).
  { split; auto. intros i j. split.
    - intros Ho. assert (Lj : j < length b).
      { destruct (Nat.lt_ge_cases j (length b)) as [|L]; auto. exfalso. unfold on, row in Ho.
        rewrite nth_overflow in Ho by (rewrite (proj1 W); lia). exact (ArrayProofs.amember_nil _ Ho). }
      apply (HR j Lj) in Ho. destruct Ho as [Li Ep].
      destruct (array_addr a ra ta i HA Li) as (u & Eu). destruct (array_addr b rb tb j HB Lj) as (v & Ev).
      exists u, v. split; auto. split; auto. split; [|auto].
      destruct (node_sub_inv a u ra ta i HoA Eu) as (s & Es & Hs). destruct (node_sub_inv b v rb tb j HoB Ev) as (t & Et & Ht).
      exists s, t. rewrite <- (holds_prod _ _ _ Hs), <- (holds_prod _ _ _ Ht). auto.
    - intros (u & v & Eu & Ev & (s & t & Es & Et & Ep) & _).
      destruct (array_node _ _ _ _ _ HA Es) as (i' & Ei & Hs). assert (i' = i) by congruence. subst i'.
      destruct (array_node _ _ _ _ _ HB Et) as (j' & Ej & Ht). assert (j' = j) by congruence. subst j'.
      apply (HR j (holds_lt _ _ _ Ht)). split; [exact (holds_lt _ _ _ Hs)|].
      now rewrite (holds_prod _ _ _ Hs), (holds_prod _ _ _ Ht). }
  assert (Hh : height tb <= S (length b)).
  { pose proof (height_nodes b tb rb) as Hh. apply Permutation_length in PB. rewrite seq_length in PB. lia. }
  pose proof (extractbitsets_ok (S (length b)) tb [] rb (m, results) (fun _ _ => False) Hh eq_refl eq_refl HoB HS
    ltac:(intros x y w []) ltac:(intros x y d w R E; destruct y; discriminate)) as (D1 & D2 & D3 & D4).
  cbn [snd] in D2, D3. split; [|split]; auto.
  - intros x Hx. destruct (D2 x Hx) as [|(u & v & U & Rp)]; auto. right. exists u, v. split; auto. apply U.
  - intros u v R En. apply D4; auto. split; auto. exists v. reflexivity.
Qed.
End Traverse.
