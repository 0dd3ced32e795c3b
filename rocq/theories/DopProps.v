(** C31, C32, C35: the DOP reduction. *)
From Coq Require Import String.
From Coq Require Import List Bool Arith NArith ZArith QArith Qcanon Permutation Lia.
From Verif Require Import PyStr TreeModel TreeProps BracketModel BinarizeModel TransformModel SortProofs TransformProps LcfrsModel LcfrsProps TreebankModel DopModel DopSpec DopProofs GoodmanProofs DopLink.
Import ListNotations.
Open Scope list_scope.
Open Scope nat_scope.

(** ---- C31 ---- *)
Lemma relab_refl : forall t, relab t t.
Proof. induction t as [a|l ts IH] using tree_ind'; constructor. induction IH; constructor; auto. Qed.
Lemma fragments_spec : forall sent t, ptree t -> words t sent -> forall f, In f (fragments sent t) <-> fragment_of sent t f.
Proof.
  intros sent t. induction t as [a|l ts IH] using tree_ind'; intros HP HW f; [inversion HP|]. rewrite (fragments_annot sent _ (Node l ts) HP HW (relab_refl _)), afrags_in. rewrite annot_node. cbn [apl ainf akids].
  destruct (isleaves ts) eqn:E.
  - destruct ts as [|[a|] [|]]; try discriminate. destruct (HW a) as [w Ew]; [cbn; auto|]. assert (I0 : inf sent [Leaf a] = PWord (escape (Some w))) by (cbn; unfold word_at; now rewrite Ew). rewrite I0. split.
    + intros (fs & -> & F). inversion F; subst. now constructor.
    + intros H. inversion H as [? ? w' Ew'|? ? yf fs Y F]; subst; [assert (w' = w) by congruence; subst; exists []; split; auto; constructor|].
      exfalso. inversion F as [|? ? ? ? [(m & us & X & _)|X] F']; subst; [discriminate|inversion X].
  - destruct (ptree_isleaves l ts HP E) as [NE HC].
    assert (Y : exists yf, yieldfunction ts = Some yf).
    { apply yieldfunction_some. destruct ts as [|c ts]; [congruence|]. cbn [flat_map]. intros X. apply app_eq_nil in X. destruct X as [X _]. apply (ptree_leaves c); auto. apply HC. now left. }
    destruct Y as [yf Y]. assert (I0 : inf sent ts = PYf yf) by (unfold inf; destruct ts as [|[a|] [|]]; try discriminate; rewrite Y; reflexivity). rewrite I0.
    assert (HWs : forall c, In c ts -> words c sent) by (intros c Hc a Ha; apply HW; cbn [leaves]; apply in_flat_map; exists c; auto).
    assert (K : forall fs, Forall2 kidfrag fs (annots sent ts ts) <-> Forall2 (fun t f => (exists m us, t = Node m us /\ f = Leaf m) \/ fragment_of sent t f) ts fs).
    { clear - IH HC HWs. induction IH as [|t ts I1 I2 IHts]; intros fs; cbn [annots]; [split; intros H; inversion H; constructor|]. fold (annots sent).
      assert (PT := HC t (or_introl eq_refl)). assert (WT := HWs t (or_introl eq_refl)). assert (K : forall f, kidfrag f (annot sent t t) <-> (exists m us, t = Node m us /\ f = Leaf m) \/ fragment_of sent t f).
      { intros f. unfold kidfrag. rewrite <- fragments_annot, I1 by auto using relab_refl. destruct (apl_annot sent t t (relab_refl t) PT) as [-> _]. destruct t as [a|m us]; [inversion PT|]. cbn [label]. split; intros [H|H]; auto; left; eauto.
        destruct H as (m' & us' & X & ->). injection X as -> ->. reflexivity. }
      assert (IHt := fun fs => IHts (fun c Hc => HC c (or_intror Hc)) (fun c Hc => HWs c (or_intror Hc)) fs). split; intros H; inversion H; subst; constructor; try (now apply K); now apply IHt. }
    split.
    + intros (fs & -> & F). apply fragment_node; auto. now apply K.
    + intros H. inversion H as [|? ? yf' fs Y' F]; subst; [discriminate|]. assert (yf' = yf) by congruence. subst. exists fs. split; auto. now apply K.
Qed.
(** the list used to count fragments has each fragment exactly once *)
Theorem C31_fragments : forall sent t, wftree (t, sent) -> NoDup (fragments sent t) /\ forall f, In f (fragments sent t) <-> fragment_of sent t f.
Proof.
  intros sent t (HP & ND & HW & HL). cbn in *. split; [|now apply fragments_spec]. rewrite (fragments_annot sent t t) by auto using relab_refl. apply afrags_nodup.
Qed.
(** the same shape: a pair of corresponding nodes *)
Definition at_node (t dt : tree pystr nat) (p : list nat) (v dv : tree pystr nat) : Prop := getpos t p = Some v /\ getpos dt p = Some dv.
Theorem C31_nodefreq : forall sent t dt fd nt, wftree (t, sent) -> relab t dt -> (forall p v dv, at_node t dt p v dv -> label dv = label v \/ addressed (label dv) = true) ->
  let '(n, fd', nt') := nodefreq t dt fd nt in
  n = N.of_nat (length (fragments sent t)) /\
  (forall A, addressed A = false -> fd' A = (fd A + N.of_nat (length (fragment_bag [(t, sent)] A)))%N).
Proof.
  intros sent t dt fd nt (HP & ND & HW & HL) R HD. cbn in HP, ND, HW, HL. destruct (nodefreq t dt fd nt) as [[n fd'] nt'] eqn:E.
  destruct (nodefreq_ok sent t dt fd nt n fd' nt') as [En (UA & _ & _)]; auto.
  - clear - HD R HP. revert dt R HD. induction t as [a|l ts IH] using tree_ind'; intros dt R HD v Hv; [inversion HP|]. inversion R as [|? dl ? dts F]; subst. rewrite annot_node in Hv. cbn [anodes] in Hv. destruct Hv as [<-|Hv].
    + cbn. specialize (HD [] (Node l ts) (Node dl dts)). cbn in HD. apply HD. split; reflexivity.
    + destruct (isleaves ts) eqn:E; [destruct Hv|]. destruct (ptree_isleaves l ts HP E) as [_ HC].
      assert (HD' : forall i c dc p v dv, nth_error ts i = Some c -> nth_error dts i = Some dc -> at_node c dc p v dv -> label dv = label v \/ addressed (label dv) = true).
      { intros i c dc p u du E1 E2 [A1 A2]. apply (HD (i :: p)). split; cbn; [rewrite E1|rewrite E2]; auto. }
      clear - Hv F IH HC HD'. induction F as [|t dt ts dts R F IHF]; [destruct Hv|]. inversion IH as [|? ? I1 I2]; subst. cbn [annots flat_map] in Hv. fold (annots sent) in Hv. apply in_app_or in Hv. destruct Hv as [Hv|Hv].
      * apply (I1 (HC t (or_introl eq_refl)) dt R); auto. intros p u du. apply (HD' 0); reflexivity.
      * apply IHF; auto; [intros; apply HC; now right|]. intros i c dc p u du. apply (HD' (S i)).
  - split; [rewrite En, (fragments_annot sent t dt) by auto; symmetry; apply afrags_length|]. intros A HA. rewrite UA by auto. f_equal. unfold fragment_bag. cbn [flat_map fst snd]. rewrite app_nil_r, (bag_annot sent A t dt) by auto.
    rewrite length_nsum, nsum_flat_map. unfold sumfor. apply nsum_ext. intros v _. now rewrite <- length_nsum, afrags_length.
Qed.

(** ---- the loop over the treebank ---- *)
Definition rootdec (t dt : tree pystr nat) : Prop := exists l ts dts, t = Node l ts /\ dt = Node l dts /\ Forall2 decorated ts dts.
Fixpoint annotall (d : decorator) (tb : list (tree pystr nat * sentence)) : list atree :=
  match tb with
  | [] => []
  | (t, sent) :: r => let '(dt, d') := decorate d t sent in anodes (annot sent t dt) ++ annotall d' r
  end.
(** the decorated trees *)
Fixpoint decorateall (d : decorator) (tb : list (tree pystr nat * sentence)) : list (tree pystr nat) :=
  match tb with
  | [] => []
  | (t, sent) :: r => let '(dt, d') := decorate d t sent in dt :: decorateall d' r
  end.
Lemma forall2_relab : forall ts dts, Forall2 decorated ts dts -> Forall2 relab ts dts.
Proof. intros ts dts F. induction F; constructor; auto. now apply decorated_relab. Qed.
Lemma rootdec_relab : forall t dt, rootdec t dt -> relab t dt.
Proof. intros t dt (l & ts & dts & -> & -> & F). constructor. now apply forall2_relab. Qed.
Definition nodefacts (l : list atree) (v : atree) : Prop :=
  (forall k, In k (akids v) -> In k l /\ addressed (adec k) = true) /\ addressed (apl v) = false /\
  (adec v = apl v \/ addressed (adec v) = true /\ strip (adec v) = apl v) /\ (forall w, ainf v = PWord w -> akids v = []).
Lemma in_annots : forall sent ts dts k, Forall2 relab ts dts -> In k (annots sent ts dts) -> exists c dc, In (c, dc) (combine ts dts) /\ k = annot sent c dc.
Proof. intros sent ts dts k F H. induction F; cbn in H; [destruct H|]. destruct H as [<-|H]; [exists x, y; cbn; auto|]. destruct (IHF H) as (c & dc & A & B). exists c, dc. cbn. auto. Qed.
Lemma forall2_combine : forall X Y (R : X -> Y -> Prop) a b x y, Forall2 R a b -> In (x, y) (combine a b) -> R x y.
Proof. intros X Y R a b x y F H. induction F; cbn in H; [destruct H|]. destruct H as [H|H]; [injection H as <- <-; auto|auto]. Qed.
Lemma inf_word : forall sent ts w, inf sent ts = PWord w -> isleaves ts = true.
Proof. intros sent ts w H. destruct ts as [|[a|] [|]]; cbn in *; try discriminate; auto. Qed.
Lemma facts_mono : forall l m v, incl l m -> nodefacts l v -> nodefacts m v.
Proof. intros l m v I0 (A & B). split; auto. intros k Hk. destruct (A k Hk). auto. Qed.
Lemma decorated_facts : forall sent t dt, ptree t -> decorated t dt -> (forall v, In v (nodes t) -> addressed (label v) = false) -> forall v, In v (anodes (annot sent t dt)) -> nodefacts (anodes (annot sent t dt)) v.
Proof.
  intros sent t. induction t as [a|l ts IH] using tree_ind'; intros dt HP D HL v Hv; [inversion HP|]. inversion D as [|? dl ? dts A E F]; subst. rewrite annot_node in Hv |- *. cbn [anodes] in Hv |- *.
  set (v0 := Node (strip dl, dl, inf sent ts) (if isleaves ts then [] else annots sent ts dts) : atree) in *. destruct Hv as [<-|Hv].
  - split; [|split; [|split]].
    + intros k Hk. cbn [akids v0] in Hk |- *. destruct (isleaves ts) eqn:E; [destruct Hk|]. destruct (ptree_isleaves _ ts HP E) as [_ HC]. destruct (in_annots sent ts dts k (forall2_relab _ _ F) Hk) as (c & dc & Hc & ->).
      assert (Dc := forall2_combine _ _ _ _ _ _ _ F Hc). assert (Pc := HC c (in_combine_l _ _ _ _ Hc)). inversion Dc as [|? dl' ? dts' A' E' F']; subst; [inversion Pc|]. split; [|exact A'].
      right. apply in_flat_map. exists (annot sent (Node (strip dl') ts0) (Node dl' dts')). split; auto. rewrite annot_node. cbn [anodes]. now left.
    + apply (HL (Node (strip dl) ts)). cbn. auto.
    + right. auto.
    + intros w Hw. cbn [ainf v0] in Hw. apply inf_word in Hw. cbn [akids v0]. now rewrite Hw.
  - destruct (isleaves ts) eqn:E; [destruct Hv|]. destruct (ptree_isleaves _ ts HP E) as [_ HC]. apply in_flat_map in Hv. destruct Hv as (k & Hk & Hv). destruct (in_annots sent ts dts k (forall2_relab _ _ F) Hk) as (c & dc & Hc & ->).
    apply (facts_mono (anodes (annot sent c dc))); [intros u Hu; right; apply in_flat_map; eauto|]. rewrite Forall_forall in IH. assert (Ic := in_combine_l _ _ _ _ Hc). apply (IH c Ic); auto.
    + apply (forall2_combine _ _ _ _ _ _ _ F Hc).
    + intros u Hu. apply HL. cbn [nodes]. right. apply in_flat_map. eauto.
Qed.
Lemma rootdec_facts : forall sent t dt, wftree (t, sent) -> rootdec t dt -> forall v, In v (anodes (annot sent t dt)) -> nodefacts (anodes (annot sent t dt)) v.
Proof.
  intros sent t dt (HP & _ & _ & HL) (l & ts & dts & -> & -> & F) v Hv. cbn in HP, HL. rewrite annot_node in Hv |- *. cbn [anodes] in Hv |- *.
  set (v0 := Node (l, l, inf sent ts) (if isleaves ts then [] else annots sent ts dts) : atree) in *. destruct Hv as [<-|Hv].
  - split; [|split; [|split]].
    + intros k Hk. cbn [akids v0] in Hk |- *. destruct (isleaves ts) eqn:E; [destruct Hk|]. destruct (ptree_isleaves _ ts HP E) as [_ HC]. destruct (in_annots sent ts dts k (forall2_relab _ _ F) Hk) as (c & dc & Hc & ->).
      assert (Dc := forall2_combine _ _ _ _ _ _ _ F Hc). assert (Pc := HC c (in_combine_l _ _ _ _ Hc)). inversion Dc as [|? dl' ? dts' A' E' F']; subst; [inversion Pc|]. split; [|exact A'].
      right. apply in_flat_map. exists (annot sent (Node (strip dl') ts0) (Node dl' dts')). split; auto. rewrite annot_node. cbn [anodes]. now left.
    + apply (HL (Node l ts)). cbn. auto.
    + left. auto.
    + intros w Hw. cbn [ainf v0] in Hw. apply inf_word in Hw. cbn [akids v0]. now rewrite Hw.
  - destruct (isleaves ts) eqn:E; [destruct Hv|]. destruct (ptree_isleaves _ ts HP E) as [_ HC]. apply in_flat_map in Hv. destruct Hv as (k & Hk & Hv). destruct (in_annots sent ts dts k (forall2_relab _ _ F) Hk) as (c & dc & Hc & ->).
    apply (facts_mono (anodes (annot sent c dc))); [intros u Hu; right; apply in_flat_map; eauto|]. assert (Ic := in_combine_l _ _ _ _ Hc). apply decorated_facts; auto.
    + apply (forall2_combine _ _ _ _ _ _ _ F Hc).
    + intros u Hu. apply HL. cbn [nodes]. right. apply in_flat_map. eauto.
Qed.

Section Loop.
Variable Inv : decorator -> Prop.
Hypothesis step : forall d t sent dt d', Inv d -> wftree (t, sent) -> decorate d t sent = (dt, d') -> rootdec t dt /\ Inv d'.
Lemma annotall_facts : forall tb d, Inv d -> Forall wftree tb -> forall v, In v (annotall d tb) -> nodefacts (annotall d tb) v.
Proof using step.
  induction tb as [|[t sent] tb IH]; intros d I0 W v Hv; [destruct Hv|]. inversion W as [|? ? W1 W2]; subst. cbn [annotall] in Hv |- *. destruct (decorate d t sent) as [dt d'] eqn:E. destruct (step _ _ _ _ _ I0 W1 E) as [R I1].
  apply in_app_or in Hv. destruct Hv as [Hv|Hv].
  - eapply facts_mono; [|eapply rootdec_facts; eauto]. intros x Hx. apply in_or_app. auto.
  - eapply facts_mono; [|apply (IH d'); auto]. intros x Hx. apply in_or_app. auto.
Qed.
Lemma addtrees_ok : forall tb s, Inv (st_dec s) -> Forall wftree tb -> exists s', addtrees s tb = Some s' /\
  st_rules s' = fold_left (fun c r => radd r c) (flat_map rulesv (annotall (st_dec s) tb)) (st_rules s) /\ updates (st_fd s) (st_fd s') (st_ntfd s) (st_ntfd s') (annotall (st_dec s) tb).
Proof using step.
  induction tb as [|[t sent] tb IH]; intros s I0 W; cbn [addtrees annotall].
  - exists s. repeat split; auto; [intros A HA; unfold sumfor; cbn; lia|intros X k HX Hk [|(u & [] & _)]; auto|intros X; unfold cnt; cbn; lia].
  - inversion W as [|? ? W1 W2]; subst. destruct (decorate (st_dec s) t sent) as [dt d'] eqn:E. destruct (step _ _ _ _ _ I0 W1 E) as [R I1]. assert (W1' := W1). destruct W1' as (HP & ND & HW & HL). cbn in HP, ND, HW, HL.
    assert (RL := rootdec_relab _ _ R). assert (HPd := relab_ptree _ _ RL HP). assert (NDd : NoDup (leaves dt)) by (now rewrite (relab_leaves _ _ RL)). assert (HWd : words dt sent) by (intros a Ha; apply HW; rewrite (relab_leaves _ _ RL) in Ha; exact Ha).
    cbn [addtree]. rewrite (lcfrs_ok t sent) by auto. rewrite E, (lcfrs_ok dt sent) by auto. destruct (nodefreq t dt (st_fd s) (st_ntfd s)) as [[n fd'] nt'] eqn:EN. rewrite (allrules_ok sent) by auto.
    destruct (nodefreq_ok sent t dt (st_fd s) (st_ntfd s) n fd' nt') as [_ U1]; auto.
    { intros v Hv. destruct (rootdec_facts sent t dt W1 R v Hv) as (_ & _ & [|[]] & _); auto. }
    set (s1 := mkSt d' fd' nt' (fold_left (fun c r => radd r c) (flat_map rulesv (anodes (annot sent t dt))) (st_rules s))).
    destruct (IH s1) as (s' & E1 & E2 & U2); auto. exists s'. split; auto. split.
    + rewrite E2. cbn [st_rules s1 st_dec]. now rewrite flat_map_app, fold_left_app.
    + eapply updates_trans; eauto.
Qed.
End Loop.
Lemma bag_annotall : forall Inv : decorator -> Prop, (forall d t sent dt d', Inv d -> wftree (t, sent) -> decorate d t sent = (dt, d') -> rootdec t dt /\ Inv d') ->
  forall tb d A, Inv d -> Forall wftree tb -> fragment_bag tb A = flat_map afrags (filter (fun v => eqs (apl v) A) (annotall d tb)).
Proof.
  intros Inv step. induction tb as [|[t sent] tb IH]; intros d A I0 W; [reflexivity|]. inversion W as [|? ? W1 W2]; subst. cbn [annotall]. unfold fragment_bag. cbn [flat_map fst snd]. fold (fragment_bag tb A).
  destruct (decorate d t sent) as [dt d'] eqn:E. destruct (step _ _ _ _ _ I0 W1 E) as [R I1]. destruct W1 as (HP & ND & HW & HL). cbn in *. rewrite filter_app, flat_map_app, (IH d') by auto. f_equal. apply bag_annot; auto. now apply rootdec_relab.
Qed.

Definition shares (l : list atree) : Prop := forall u v, In u l -> In v l -> adec u = adec v -> addressed (adec u) = true -> u = v.
Record reduced (tb : list (tree pystr nat * sentence)) (vs : list atree) (gr : dopgrammar) (G : list (rule * N)) (fd nt : dict) : Prop := mkReduced {
  red_tally : tallies G (flat_map rulesv vs);
  red_rules : dop_rules gr = map (fun rf => (fst rf, rfe_of fd rf)) G;
  red_ewe : dop_ewe gr = map (ewe_of fd nt) G;
  red_facts : forall v, In v vs -> nodefacts vs v;
  red_fd : forall v, In v vs -> addressed (adec v) = true -> fd (adec v) = nf v;
  red_fdp : forall A, addressed A = false -> fd A = sumfor A vs;
  red_nt : forall X, nt X = (cnt apl X vs + cnt adec X vs)%N;
  red_bag : forall A, fragment_bag tb A = flat_map afrags (filter (fun v => eqs (apl v) A) vs) }.
Lemma reduction_ok : forall (Inv : decorator -> Prop), (forall d t sent dt d', Inv d -> wftree (t, sent) -> decorate d t sent = (dt, d') -> rootdec t dt /\ Inv d') ->
  forall tb pk, Inv (newdecorator pk) -> Forall wftree tb -> shares (annotall (newdecorator pk) tb) -> tb <> [] ->
  exists gr G fd nt, dopreduction tb pk = Some gr /\ reduced tb (annotall (newdecorator pk) tb) gr G fd nt.
Proof.
  intros Inv step tb pk I0 W SH NE. set (vs := annotall (newdecorator pk) tb) in *. destruct (addtrees_ok Inv step tb (mkSt (newdecorator pk) dempty dempty []) I0 W) as (s' & E & ER & UA & UB & UC). cbn [st_dec st_rules st_fd st_ntfd] in *. fold vs in ER, UA, UB, UC.
  assert (T : tallies (sortgrammar (st_rules s')) (flat_map rulesv vs)).
  { eapply tallies_perm; [apply sort_perm|]. rewrite ER. change (flat_map rulesv vs) with ([] ++ flat_map rulesv vs). apply tallies_fold, tallies_nil. }
  assert (F := annotall_facts Inv step tb _ I0 W). fold vs in F.
  assert (NEs : sortgrammar (st_rules s') <> []).
  { intros Z. rewrite Z in T. destruct T as (_ & T & _). destruct tb as [|[t sent] tb]; [congruence|]. inversion W as [|? ? W1 W2]; subst. unfold vs in T. cbn [annotall] in T. destruct (decorate (newdecorator pk) t sent) as [dt d'] eqn:ED.
    destruct (step _ _ _ _ _ I0 W1 ED) as [(l & ts & dts & -> & -> & FD) _]. rewrite annot_node in T. cbn [anodes] in T. set (v := Node (l, l, inf sent ts) _ : atree) in T. rewrite flat_map_app in T. cbn [flat_map] in T.
    assert (X : In (apl v :: nil ++ map (fun o => hd [] o) (kidsyms v), ainf v) (rulesv v)).
    { apply rulesv_in. exists (apl v), (map (fun o => hd [] o) (kidsyms v)). repeat split; auto.
      - unfold opt, options. destruct (eqs (apl v) (adec v)); cbn; auto.
      - apply cart_in. assert (NZ : Forall (fun o : list pystr => o <> []) (kidsyms v)).
        { unfold kidsyms. destruct (ainf v); [repeat constructor; discriminate|]. apply Forall_map, Forall_forall. intros k _. unfold opt, options. destruct (eqs (apl k) (adec k)); discriminate. }
        induction NZ as [|o os Ho NZ IHo]; cbn [map]; constructor; auto. destruct o; [congruence|]. now left. }
    destruct (proj2 (T _) (in_or_app _ _ _ (or_introl (in_or_app _ _ _ (or_introl X))))). }
  exists (mkDop (map (fun rf => (fst rf, rfe_of (st_fd s') rf)) (sortgrammar (st_rules s'))) (map (ewe_of (st_fd s') (st_ntfd s')) (sortgrammar (st_rules s'))) (map shortest_of (sortgrammar (st_rules s'))) (map (bon_of (st_ntfd s')) (sortgrammar (st_rules s')))), (sortgrammar (st_rules s')), (st_fd s'), (st_ntfd s').
  split.
  - unfold dopreduction. rewrite E. destruct (sortgrammar (st_rules s')) as [|r rs]; [congruence|]. reflexivity.
  - split; [exact T|reflexivity|reflexivity|exact F| | | | ].
    + intros v Hv A. apply UB; auto; [intros u Hu Eu; f_equal; apply SH; auto; congruence|right; eauto].
    + intros A HA. rewrite UA by auto. reflexivity.
    + intros X. rewrite UC. reflexivity.
    + intros A. apply (bag_annotall Inv step); auto.
Qed.
Lemma reduced_goodman : forall tb vs gr G fd nt, shares vs -> reduced tb vs gr G fd nt -> forall A f ds, addressed A = false -> NoDup ds ->
  (forall d, In d ds <-> derivation (dop_rules gr) A d /\ erase d = f) ->
  qsum (map (prob (dop_rules gr)) ds) = (Nq (N.of_nat (count_occ fragment_dec (fragment_bag tb A) f)) / Nq (N.of_nat (length (fragment_bag tb A))))%Qc.
Proof.
  intros tb vs gr G fd nt SH R A f ds HA ND DS. rewrite (red_bag _ _ _ _ _ _ R). assert (RR := red_rules _ _ _ _ _ _ R). rewrite RR in DS |- *. pose proof (red_facts _ _ _ _ _ _ R) as F.
  apply (goodman vs fd) with (G := G); auto; try (now apply R); try (intros; eapply F; eauto; fail).
Qed.

(** ---- C35: addresses ---- *)
Lemma addressed_app : forall a b, addressed (a ++ b) = addressed a || addressed b.
Proof. intros. unfold addressed. apply existsb_app. Qed.
Lemma address_addressed : forall l n m, addressed (address l n m) = true.
Proof. intros. unfold address. rewrite addressed_app. apply orb_true_iff. right. reflexivity. Qed.
Lemma strip_app : forall a b, addressed a = false -> strip (a ++ ch "@" :: b) = a.
Proof.
  unfold addressed. induction a as [|c a IH]; intros b A; cbn [app]; [cbn [strip]; now rewrite N.eqb_refl|]. cbn [existsb] in A. apply orb_false_iff in A. destruct A as [A B]. cbn [strip]. rewrite N.eqb_sym, A. now rewrite IH.
Qed.
Lemma strip_address : forall l n m, addressed l = false -> strip (address l n m) = l.
Proof. intros l n m H. unfold address. apply (strip_app l _ H). Qed.
Lemma dash_split : forall (d d' e e' : pystr), forallb isdigit d = true -> forallb isdigit d' = true -> d ++ str "-" ++ e = d' ++ str "-" ++ e' -> d = d' /\ e = e'.
Proof.
  induction d as [|c d IH]; intros [|c' d'] e e' H H' E; cbn in H, H'.
  - injection E as ->. auto.
  - exfalso. cbn in E. injection E as <- _. cbn in H'. discriminate.
  - exfalso. cbn in E. injection E as -> _. cbn in H. discriminate.
  - cbn [app] in E. injection E as -> E. apply andb_true_iff in H, H'. destruct (IH d' e e') as [-> ->]; tauto.
Qed.
Lemma address_inj : forall l l' n n' m m', addressed l = false -> addressed l' = false -> address l n m = address l' n' m' -> l = l' /\ n = n' /\ m = m'.
Proof.
  intros l l' n n' m m' H H' E. assert (El : l = l') by (apply (f_equal strip) in E; now rewrite !strip_address in E). subst l'. split; auto. unfold address in E. apply app_inv_head in E. cbn [app str] in E.
  injection E as E. change (dec n ++ str "-" ++ dec m = dec n' ++ str "-" ++ dec m') in E. apply dash_split in E; try apply dec_digits. destruct E. split; now apply dec_inj.
Qed.
Lemma numbernodes_node : forall n l ts m, numbernodes n (Node l ts) m = let '(ts', m') := numberlist n ts (S m) in (Node (address l n m) ts', m').
Proof. reflexivity. Qed.
(** the labels with address in a tree *)
Definition has_address (n lo hi : nat) (s : pystr) : Prop := exists l i, addressed l = false /\ lo <= i < hi /\ s = address l n i.
Lemma has_address_weaken : forall n lo hi lo' hi' s, lo' <= lo -> hi <= hi' -> has_address n lo hi s -> has_address n lo' hi' s.
Proof. intros n lo hi lo' hi' s A B (l & i & H & R & E). exists l, i. repeat split; auto; lia. Qed.
Lemma nodup_app : forall X (a b : list X), NoDup a -> NoDup b -> (forall x, In x a -> In x b -> False) -> NoDup (a ++ b).
Proof. induction a as [|x a IH]; intros b A B D; cbn; auto. inversion A; subst. constructor; [rewrite in_app_iff; intros [H|H]; [auto|apply (D x); [now left|auto]]|apply IH; auto; intros y Hy; apply D; now right]. Qed.
Lemma has_address_apart : forall n lo hi lo' hi' s, hi <= lo' -> has_address n lo hi s -> has_address n lo' hi' s -> False.
Proof. intros n lo hi lo' hi' s A (l & i & H & R & E) (l' & i' & H' & R' & E'). rewrite E in E'. apply address_inj in E'; auto. lia. Qed.
Definition numbered (n m m' : nat) (ts dts : list (tree pystr nat)) : Prop :=
  Forall2 decorated ts dts /\ m <= m' /\ NoDup (map label (flat_map nodes dts)) /\ Forall (has_address n m m') (map label (flat_map nodes dts)).
Lemma numbernodes_ok : forall n t m t' m', (forall v, In v (nodes t) -> addressed (label v) = false) -> numbernodes n t m = (t', m') -> numbered n m m' [t] [t'].
Proof.
  intros n. induction t as [a|l ts IH] using tree_ind'; intros m t' m' HL E.
  - cbn in E. injection E as <- <-. repeat split; cbn; auto; repeat constructor.
  - rewrite numbernodes_node in E. destruct (numberlist n ts (S m)) as [ts' m1] eqn:EL. injection E as <- <-.
    assert (K : numbered n (S m) m1 ts ts').
    { assert (HLs : forall c, In c ts -> forall v, In v (nodes c) -> addressed (label v) = false) by (intros c Hc v Hv; apply HL; cbn [nodes]; right; apply in_flat_map; eauto).
      clear HL. revert ts' m1 EL. generalize (S m) as k. clear m. induction IH as [|t ts I1 I2 IHts]; intros k ts' m1 EL; cbn [numberlist] in EL.
      - injection EL as <- <-. repeat split; cbn; auto; constructor.
      - destruct (numbernodes n t k) as [c' k1] eqn:E1. destruct (numberlist n ts k1) as [r' k2] eqn:E2. injection EL as <- <-.
        destruct (I1 k c' k1 (HLs t (or_introl eq_refl)) E1) as (A1 & B1 & C1 & D1). destruct (IHts (fun c Hc => HLs c (or_intror Hc)) k1 r' k2 E2) as (A2 & B2 & C2 & D2).
        cbn [flat_map] in C1, D1. rewrite app_nil_r in C1, D1. split; [|split; [|split]].
        + constructor; auto. now inversion A1.
        + lia.
        + cbn [flat_map]. rewrite map_app. apply nodup_app; auto. intros x Hx Hy. rewrite Forall_forall in D1, D2. apply (has_address_apart n k k1 k1 k2 x); auto.
        + cbn [flat_map]. rewrite map_app. apply Forall_app. split; eapply Forall_impl; [|exact D1| |exact D2]; intros s; apply has_address_weaken; lia. }
    destruct K as (A & B & C & D). assert (Ll : addressed l = false) by (apply (HL (Node l ts)); cbn; auto). split; [|split; [|split]].
    + repeat constructor; auto; [apply address_addressed|now apply strip_address].
    + lia.
    + cbn [flat_map nodes]. rewrite app_nil_r. cbn [map label]. constructor; auto. intros F. rewrite Forall_forall in D. specialize (D _ F). destruct D as (l' & i & H & R & E). apply address_inj in E; auto. lia.
    + cbn [flat_map nodes]. rewrite app_nil_r. cbn [map label]. constructor; [exists l, m; repeat split; auto; lia|]. eapply Forall_impl; [|exact D]. intros s. apply has_address_weaken; lia.
Qed.
Lemma numberlist_ok : forall n ts m ts' m', (forall c, In c ts -> forall v, In v (nodes c) -> addressed (label v) = false) -> numberlist n ts m = (ts', m') -> numbered n m m' ts ts'.
Proof.
  intros n ts. induction ts as [|t ts IHts]; intros k ts' m1 HLs EL; cbn [numberlist] in EL.
  - injection EL as <- <-. repeat split; cbn; auto; constructor.
  - destruct (numbernodes n t k) as [c' k1] eqn:E1. destruct (numberlist n ts k1) as [r' k2] eqn:E2. injection EL as <- <-.
    destruct (numbernodes_ok n t k c' k1 (HLs t (or_introl eq_refl)) E1) as (A1 & B1 & C1 & D1). destruct (IHts k1 r' k2 (fun c Hc => HLs c (or_intror Hc)) E2) as (A2 & B2 & C2 & D2).
    cbn [flat_map] in C1, D1. rewrite app_nil_r in C1, D1. split; [|split; [|split]].
    + constructor; auto. now inversion A1.
    + lia.
    + cbn [flat_map]. rewrite map_app. apply nodup_app; auto. intros x Hx Hy. rewrite Forall_forall in D1, D2. apply (has_address_apart n k k1 k1 k2 x); auto.
    + cbn [flat_map]. rewrite map_app. apply Forall_app. split; eapply Forall_impl; [|exact D1| |exact D2]; intros s; apply has_address_weaken; lia.
Qed.
Definition plain (t : tree pystr nat) : Prop := forall v, In v (nodes t) -> addressed (label v) = false.
(** the addresses that were added: the labels of all nodes except the root *)
Definition addresses (dt : tree pystr nat) : list pystr := map label (tl (nodes dt)).
Lemma decorate_plain : forall n pg l ts sent dt d', plain (Node l ts) -> decorate (mkDec false n pg) (Node l ts) sent = (dt, d') ->
  rootdec (Node l ts) dt /\ d' = mkDec false (S n) pg /\ NoDup (addresses dt) /\ Forall (fun s => exists i l, addressed l = false /\ s = address l n i) (addresses dt).
Proof.
  intros n pg l ts sent dt d' HL E. cbn [decorate memoize dn packedgraphs] in E. injection E as <- <-. destruct (numberlist n ts 0) as [ts' m'] eqn:EN. cbn [fst].
  destruct (numberlist_ok n ts 0 ts' m') as (A & B & C & D); auto; [intros c Hc v Hv; apply HL; cbn [nodes]; right; apply in_flat_map; eauto|].
  split; [exists l, ts, ts'; auto|]. split; auto. unfold addresses. cbn [nodes tl]. split; auto. eapply Forall_impl; [|exact D]. intros s (l' & i & H & R & Es). eauto.
Qed.
(** removing the addresses *)
Fixpoint unaddress (t : tree pystr nat) : tree pystr nat := match t with Leaf a => Leaf a | Node l ts => Node (strip l) (map unaddress ts) end.
Lemma unaddress_decorated : forall t dt, decorated t dt -> unaddress dt = t.
Proof.
  induction t as [a|l ts IH] using tree_ind'; intros dt D; inversion D as [|? dl ? dts A E F]; subst; [reflexivity|]. cbn [unaddress]. f_equal. clear D A. induction F; [reflexivity|]. inversion IH; subst. cbn. f_equal; auto.
Qed.
Theorem C35_addresses_unique : forall tb n pg, Forall (fun ts => plain (fst ts) /\ exists l us, fst ts = Node l us) tb ->
  let dts := decorateall (mkDec false n pg) tb in
  NoDup (flat_map addresses dts) /\ map unaddress dts = map fst tb /\ map label dts = map (fun ts => label (fst ts)) tb /\ Forall (fun s => addressed s = true) (flat_map addresses dts).
Proof.
  intros tb n pg H. cbn zeta. enough (K : NoDup (flat_map addresses (decorateall (mkDec false n pg) tb)) /\ map unaddress (decorateall (mkDec false n pg) tb) = map fst tb /\ map label (decorateall (mkDec false n pg) tb) = map (fun ts => label (fst ts)) tb /\
    Forall (fun s => exists m i l, n <= m /\ addressed l = false /\ s = address l m i) (flat_map addresses (decorateall (mkDec false n pg) tb))).
  { destruct K as (A & B & C & D). repeat split; auto. eapply Forall_impl; [|exact D]. intros s (m & i & l & _ & _ & ->). apply address_addressed. }
  revert n. induction H as [|[t sent] tb [HP (l & us & Et)] H IH]; intros n; [cbn; repeat split; constructor|]. cbn [fst] in HP, Et. subst t. cbn [decorateall]. destruct (decorate (mkDec false n pg) (Node l us) sent) as [dt d'] eqn:E.
  destruct (decorate_plain n pg l us sent dt d' HP E) as ((l' & us' & dus & X & -> & F) & -> & ND & AD). injection X as <- <-. destruct (IH (S n)) as (A & B & C & D). cbn [flat_map map fst]. split; [|split; [|split]].
  - apply nodup_app; auto. intros x Hx Hy. rewrite Forall_forall in AD, D. destruct (AD x Hx) as (i & k & Hk & ->). destruct (D _ Hy) as (m & i' & k' & Hm & Hk' & E'). apply address_inj in E'; auto. lia.
  - rewrite B. f_equal. cbn [unaddress]. f_equal.
    + apply strip_plain. apply (HP (Node l us)). cbn. auto.
    + clear - F. induction F; cbn; f_equal; auto. now apply unaddress_decorated.
  - rewrite C. reflexivity.
  - apply Forall_app. split.
    + eapply Forall_impl; [|exact AD]. intros s (i & k & Hk & Es). exists n, i, k. auto.
    + eapply Forall_impl; [|exact D]. intros s (m & i & k & Hm & Hk & Es). exists m, i, k. repeat split; auto. lia.
Qed.

(** ---- C32 ---- *)
Lemma shares_nodup : forall vs, NoDup (filter addressed (map adec vs)) -> shares vs.
Proof.
  induction vs as [|x vs IH]; intros ND u v Hu Hv E A; [destruct Hu|]. cbn [map filter] in ND. destruct (addressed (adec x)) eqn:EX.
  - inversion ND as [|? ? N1 N2]; subst. assert (X : forall y, In y vs -> adec y = adec x -> False).
    { intros y Hy Ey. apply N1. apply filter_In. split; auto. rewrite <- Ey. now apply in_map. }
    destruct Hu as [->|Hu], Hv as [->|Hv]; auto; [exfalso; eauto|exfalso; eauto|apply IH; auto].
  - destruct Hu as [->|Hu]; [congruence|]. destruct Hv as [->|Hv]; [congruence|]. apply IH; auto.
Qed.
Lemma adec_nodes : forall sent t dt, ptree t -> relab t dt -> map adec (anodes (annot sent t dt)) = map label (nodes dt).
Proof.
  intros sent t. induction t as [a|l ts IH] using tree_ind'; intros dt HP H; [inversion HP|]. inversion H as [|? dl ? dts F]; subst. rewrite annot_node. cbn [anodes nodes map adec label]. f_equal. destruct (isleaves ts) eqn:E.
  - destruct ts as [|[a|] [|]]; try discriminate. inversion F as [|? ? ? ? R F']; subst. inversion F'; subst. inversion R; subst. reflexivity.
  - destruct (ptree_isleaves l ts HP E) as [_ HC]. clear - F IH HC. induction F as [|t dt ts dts R F IHF]; [reflexivity|]. inversion IH as [|? ? I1 I2]; subst. cbn [annots flat_map]. fold (annots sent). rewrite !map_app. f_equal; [apply I1; auto; apply HC; now left|apply IHF; auto; intros; apply HC; now right].
Qed.
Definition plaindec (d : decorator) : Prop := memoize d = false.
Lemma wf_plain : forall t sent, wftree (t, sent) -> plain t /\ exists l us, t = Node l us.
Proof. intros t sent (HP & _ & _ & HL). cbn in *. split; auto. inversion HP; subst; eauto. Qed.
Lemma plain_step : forall d t sent dt d', plaindec d -> wftree (t, sent) -> decorate d t sent = (dt, d') -> rootdec t dt /\ plaindec d'.
Proof.
  intros [mm n pg] t sent dt d' I0 W E. unfold plaindec in I0. cbn in I0. subst mm. destruct (wf_plain t sent W) as [HP (l & us & ->)]. destruct (decorate_plain n pg l us sent dt d' HP E) as (R & -> & _). split; auto. reflexivity.
Qed.
Lemma annotall_adec : forall tb d, plaindec d -> Forall wftree tb -> filter addressed (map adec (annotall d tb)) = flat_map addresses (decorateall d tb).
Proof.
  induction tb as [|[t sent] tb IH]; intros d I0 W; [reflexivity|]. inversion W as [|? ? W1 W2]; subst. cbn [annotall decorateall]. destruct (decorate d t sent) as [dt d'] eqn:E. destruct (plain_step _ _ _ _ _ I0 W1 E) as [R I1].
  rewrite map_app, filter_app, IH by auto. cbn [flat_map]. f_equal. rewrite adec_nodes; [|apply W1|now apply rootdec_relab]. destruct R as (l & us & dus & -> & -> & F). unfold addresses. cbn [nodes tl map filter label].
  destruct W1 as (HP & _ & _ & HL). cbn in HP, HL. assert (addressed l = false) as -> by (apply (HL (Node l us)); cbn; auto). clear - F. induction F as [|t dt ts dts D F IHF]; [reflexivity|]. cbn [flat_map]. rewrite map_app, filter_app, IHF. f_equal. clear - D.
  revert dt D. induction t as [a|l ts IH] using tree_ind'; intros dt D; inversion D as [|? dl ? dts A E F]; subst; [reflexivity|]. cbn [nodes map filter label]. rewrite A. f_equal. clear D A. induction F; [reflexivity|]. inversion IH; subst. cbn [flat_map]. rewrite map_app, filter_app. f_equal; auto.
Qed.
Lemma plain_shares : forall tb, Forall wftree tb -> shares (annotall (newdecorator false) tb).
Proof.
  intros tb W. apply shares_nodup. rewrite annotall_adec; [|reflexivity|auto]. apply C35_addresses_unique. eapply Forall_impl; [|exact W]. intros [t sent] H. cbn. eapply wf_plain; eauto.
Qed.
Lemma plain_reduced : forall tb, Forall wftree tb -> tb <> [] -> exists gr G fd nt, dopreduction tb false = Some gr /\ reduced tb (annotall (newdecorator false) tb) gr G fd nt.
Proof. intros tb W NE. apply (reduction_ok plaindec plain_step); auto; [reflexivity|]. now apply plain_shares. Qed.

(** well-formed treebanks are accepted *)
Theorem C32_accepted : forall tb, Forall wftree tb -> tb <> [] -> exists gr, dopreduction tb false = Some gr.
Proof. intros tb W NE. destruct (plain_reduced tb W NE) as (gr & _ & _ & _ & E & _). eauto. Qed.
Lemma dop_nonempty : forall tb pk gr, dopreduction tb pk = Some gr -> tb <> [].
Proof. intros tb pk gr E ->. cbn in E. discriminate. Qed.
(** The probability that the reduction assigns to a fragment (summed over all its
    derivations) is the relative frequency of the fragment among the fragments
    with the same root label. *)
Theorem C32_goodman : forall tb gr, Forall wftree tb -> dopreduction tb false = Some gr -> forall A f ds, addressed A = false -> NoDup ds ->
  (forall d, In d ds <-> derivation (dop_rules gr) A d /\ erase d = f) ->
  fold_right Qcplus 0%Qc (map (prob (dop_rules gr)) ds) =
  (Nq (N.of_nat (count_occ fragment_dec (fragment_bag tb A) f)) / Nq (N.of_nat (length (fragment_bag tb A))))%Qc.
Proof.
  intros tb gr W E. destruct (plain_reduced tb W (dop_nonempty _ _ _ E)) as (gr' & G & fd & nt & E' & R). rewrite E in E'. injection E' as <-. apply (reduced_goodman _ _ _ _ _ _ (plain_shares tb W) R).
Qed.
(** there are finitely many such derivations *)
Lemma derivations_list : forall vs fd G, shares vs -> (forall v, In v vs -> nodefacts vs v) -> (forall v, In v vs -> addressed (adec v) = true -> fd (adec v) = nf v) -> tallies G (flat_map rulesv vs) ->
  forall A f, exists ds, NoDup ds /\ forall d, In d ds <-> derivation (map (fun rf => (fst rf, rfe_of fd rf)) G) A d /\ erase d = f.
Proof.
  intros vs fd G SH F FD T A f. set (g := map (fun rf => (fst rf, rfe_of fd rf)) G).
  assert (closed : forall v k, In v vs -> In k (akids v) -> In k vs) by (intros v k Hv Hk; eapply F; eauto).
  assert (kid_addr : forall v k, In v vs -> In k (akids v) -> addressed (adec k) = true) by (intros v k Hv Hk; eapply (proj1 (F v Hv)); eauto).
  assert (plainok : forall v, In v vs -> addressed (apl v) = false) by (intros v Hv; apply (F v Hv)).
  assert (decok : forall v, In v vs -> adec v = apl v \/ (addressed (adec v) = true /\ strip (adec v) = apl v)) by (intros v Hv; apply (F v Hv)).
  assert (wordok : forall v w, In v vs -> ainf v = PWord w -> akids v = []) by (intros v w Hv; apply (F v Hv)).
  assert (K : forall l, incl l vs -> exists ds, forall d, In d ds <-> (derivation g A d /\ erase d = f) /\ exists v, In v l /\ In (root d) (rulesv v)).
  { induction l as [|v l IH]; intros HI; [exists []; intros d; split; [intros []|intros (_ & v & [] & _)]|]. destruct IH as (ds & Hds); [intros x Hx; apply HI; now right|]. assert (Hv := HI v (or_introl eq_refl)).
    destruct (in_dec fragment_dec f (afrags v)) as [Hf|Hf].
    - destruct (in_dec eqs_dec A (opt v)) as [HA|HA].
      + destruct (complete vs fd closed kid_addr plainok decok wordok G T v f A Hv Hf HA) as (c & es & Hc & D & E). exists (Node (A :: c, ainf v) es :: ds). intros d. cbn [In]. rewrite Hds. split.
        * intros [<-|[H1 (u & Hu & H2)]]; [|split; auto; exists u; auto]. split; auto. exists v. split; auto. cbn [root]. apply rulesv_in. exists A, c. auto.
        * intros [[D1 E1] (u & [<-|Hu] & H2)]; [|right; split; auto; eauto]. left. destruct (derivation_inv vs fd G T _ _ D1) as (u & c' & es' & Hu & HX & Hc' & -> & _). cbn [root] in H2. apply rulesv_in in H2. destruct H2 as (x & c2 & K & Hx & Hc2). injection K as <- <- Ki. rewrite Ki in *.
          symmetry. apply (unique vs fd closed kid_addr plainok decok SH wordok G T _ _ v A c' c es' es); auto. now rewrite E, E1.
      + exists ds. intros d. rewrite Hds. split; [intros [H1 (u & Hu & H2)]; split; auto; exists u; split; auto; now right|]. intros [[D1 E1] (u & [<-|Hu] & H2)]; [|split; auto; eauto]. exfalso. apply HA.
        destruct (derivation_inv vs fd G T _ _ D1) as (u & c' & es' & Hu & HX & Hc' & -> & _). cbn [root] in H2. apply rulesv_in in H2. destruct H2 as (x & c2 & K & Hx & Hc2). injection K as <- <- Ki. auto.
    - exists ds. intros d. rewrite Hds. split; [intros [H1 (u & Hu & H2)]; split; auto; exists u; split; auto; now right|]. intros [[D1 E1] (u & [<-|Hu] & H2)]; [|split; auto; eauto]. exfalso. apply Hf.
      destruct (derivation_inv vs fd G T _ _ D1) as (u & c' & es' & Hu & HX & Hc' & -> & FK). cbn [root] in H2. apply rulesv_in in H2. destruct H2 as (x & c2 & K & Hx & Hc2). injection K as <- <- Ki. rewrite Ki in *. subst f. cbn [erase]. apply afrags_in. exists (map erase es'). cbn [lhs fst hd snd]. rewrite (opt_strip vs plainok decok v A Hv Hx). split; auto.
      destruct (choices vs fd wordok G _ _ _ _ Hv Hc2 FK) as [(w & Ei & -> & -> & Ek)|(yf & Ei & Fc & Fd)]; [rewrite Ek; constructor|].
      assert (KV : forall k, In k (akids v) -> In k vs /\ addressed (adec k) = true) by (intros k Hk; split; eauto). clear - Fc Fd KV T decok plainok SH wordok FD closed kid_addr. revert es' Fd. induction Fc as [|z k c ks Hz Fc IHc]; intros es Fd; inversion Fd as [|? e ? es' He Fe]; subst; [constructor|]. cbn [map]. constructor; [|apply IHc; auto; intros; apply KV; now right].
      destruct (KV k (or_introl eq_refl)) as [Hk Ak]. destruct He as [[B D]|[B ->]].
      + pose proof (opt_addr vs plainok k z Hk Hz B) as ->. destruct (sound vs fd closed kid_addr plainok decok SH wordok FD G T _ _ D) as (u & _ & _ & Hu & HX & _ & _ & Er & _). assert (u = k) by (apply SH; auto; rewrite <- (opt_addr vs plainok u _ Hu HX B); auto). subst u. now right.
      + pose proof (opt_plain vs decok k z Hk Hz B) as ->. now left. }
  destruct (K vs (incl_refl _)) as (ds & Hds). assert (dd : forall a b : deriv, {a = b} + {a <> b}) by (apply tree_dec; [apply rule_dec|apply eqs_dec]).
  exists (nodup dd ds). split; [apply NoDup_nodup|]. intros d. rewrite nodup_In, Hds. split; [tauto|]. intros [D E]. split; auto. destruct (derivation_inv vs fd G T _ _ D) as (u & c' & es' & Hu & HX & Hc' & -> & _). exists u. split; auto. cbn [root]. apply rulesv_in. exists A, c'. auto.
Qed.
Theorem C32_derivations_finite : forall tb gr, Forall wftree tb -> dopreduction tb false = Some gr -> forall A f,
  exists ds, NoDup ds /\ forall d, In d ds <-> derivation (dop_rules gr) A d /\ erase d = f.
Proof.
  intros tb gr W E A f. destruct (plain_reduced tb W (dop_nonempty _ _ _ E)) as (gr' & G & fd & nt & E' & R). rewrite E in E'. injection E' as <-. rewrite (red_rules _ _ _ _ _ _ R). apply (derivations_list (annotall (newdecorator false) tb)); try apply R. now apply plain_shares.
Qed.
Lemma facts_hyps : forall vs, (forall v, In v vs -> nodefacts vs v) ->
  (forall v k, In v vs -> In k (akids v) -> In k vs) /\ (forall v k, In v vs -> In k (akids v) -> addressed (adec k) = true) /\ (forall v, In v vs -> addressed (apl v) = false) /\
  (forall v, In v vs -> adec v = apl v \/ (addressed (adec v) = true /\ strip (adec v) = apl v)) /\ (forall v w, In v vs -> ainf v = PWord w -> akids v = []).
Proof.
  intros vs F. repeat split; intros v; intros.
  - eapply F; eauto.
  - eapply (proj1 (F v H)); eauto.
  - now apply F.
  - now apply F.
  - eapply (F v); eauto.
Qed.
Lemma reduced_mass : forall tb vs gr G fd nt, shares vs -> reduced tb vs gr G fd nt ->
  (forall A, addressed A = false -> mass (dop_rules gr) A = N.of_nat (length (fragment_bag tb A))) /\ (forall v, In v vs -> addressed (adec v) = true -> mass (dop_rules gr) (adec v) = nf v).
Proof.
  intros tb vs gr G fd nt SH R. destruct (facts_hyps vs (red_facts _ _ _ _ _ _ R)) as (H1 & H2 & H3 & H4 & H5). rewrite (red_rules _ _ _ _ _ _ R). change (map (fun rf => (fst rf, rfe_of fd rf)) G) with (g fd G). split.
  - intros A HA. rewrite (mass_plain vs fd H1 H2 H3 H4 SH H5 (red_fd _ _ _ _ _ _ R) G (red_tally _ _ _ _ _ _ R) A HA), (red_bag _ _ _ _ _ _ R). rewrite length_nsum, nsum_flat_map. apply nsum_ext. intros v _. now rewrite <- length_nsum, afrags_length.
  - intros v Hv A. apply (mass_addr vs fd H1 H2 H3 H4 SH H5 (red_fd _ _ _ _ _ _ R) G (red_tally _ _ _ _ _ _ R) v Hv A).
Qed.
(** the weights of the rules of a label sum to its number of fragments ... *)
Theorem C32_label_mass : forall tb gr, Forall wftree tb -> dopreduction tb false = Some gr -> forall A, addressed A = false -> mass (dop_rules gr) A = N.of_nat (length (fragment_bag tb A)).
Proof.
  intros tb gr W E A HA. destruct (plain_reduced tb W (dop_nonempty _ _ _ E)) as (gr' & G & fd & nt & E' & R). rewrite E in E'. injection E' as <-. now apply (proj1 (reduced_mass _ _ _ _ _ _ (plain_shares tb W) R)).
Qed.
Lemma node_annot : forall sent t dt, ptree t -> words t sent -> relab t dt -> forall p v dv, at_node t dt p v dv -> (exists l us, v = Node l us) -> In (annot sent v dv) (anodes (annot sent t dt)) /\ relab v dv /\ ptree v /\ words v sent.
Proof.
  intros sent t. induction t as [a|l ts IH] using tree_ind'; intros dt HP HW H p v dv [A1 A2] (m & us & Ev); [inversion HP|]. inversion H as [|? dl ? dts F]; subst. destruct p as [|i p].
  - cbn in A1, A2. injection A1 as -> ->. injection A2 as <-. split; [rewrite annot_node; cbn [anodes]; now left|]. repeat split; auto.
  - cbn [getpos] in A1, A2. destruct (nth_error ts i) as [c|] eqn:E1; [|discriminate]. destruct (nth_error dts i) as [dc|] eqn:E2; [|discriminate].
    assert (Ic := nth_error_In _ _ E1). destruct (isleaves ts) eqn:E.
    + exfalso. destruct ts as [|[a|] [|]]; try discriminate. destruct Ic as [<-|[]]. destruct p; cbn in A1; discriminate.
    + destruct (ptree_isleaves l ts HP E) as [_ HC]. rewrite Forall_forall in IH. assert (R : relab c dc) by (clear - F E1 E2; revert i E1 E2; induction F; intros [|i] E1 E2; cbn in *; try discriminate; [congruence|eauto]).
      assert (Wc : words c sent) by (intros a Ha; apply HW; cbn [leaves]; apply in_flat_map; eauto).
      destruct (IH c Ic dc (HC c Ic) Wc R p (Node m us) dv) as (B1 & B2 & B3 & B4); [split; auto|eauto|]. repeat split; auto. rewrite annot_node. rewrite E. cbn [anodes]. right. apply in_flat_map. exists (annot sent c dc). split; auto.
      clear - F E1 E2. revert i E1 E2. induction F; intros [|i] E1 E2; cbn in *; try discriminate; [left; congruence|right; eauto].
Qed.
Lemma annotall_in : forall (Inv : decorator -> Prop), (forall d t sent dt d', Inv d -> wftree (t, sent) -> decorate d t sent = (dt, d') -> rootdec t dt /\ Inv d') ->
  forall tb d i t sent dt, Inv d -> Forall wftree tb -> nth_error tb i = Some (t, sent) -> nth_error (decorateall d tb) i = Some dt -> incl (anodes (annot sent t dt)) (annotall d tb) /\ rootdec t dt.
Proof.
  intros Inv step. induction tb as [|[t0 s0] tb IH]; intros d i t sent dt I0 W E1 E2; [destruct i; discriminate|]. inversion W as [|? ? W1 W2]; subst. cbn [annotall decorateall] in *. destruct (decorate d t0 s0) as [dt0 d'] eqn:E. destruct (step _ _ _ _ _ I0 W1 E) as [R I1]. destruct i as [|i].
  - cbn in E1, E2. injection E1 as <- <-. injection E2 as <-. split; auto. intros x Hx. apply in_or_app. auto.
  - destruct (IH d' i t sent dt I1 W2 E1 E2) as [A B]. split; auto. intros x Hx. apply in_or_app. auto.
Qed.
(** ... and those of a label with an address to the number of fragments of the
    node that has this address *)
Theorem C32_address_mass : forall tb gr, Forall wftree tb -> dopreduction tb false = Some gr -> forall i t sent dt, nth_error tb i = Some (t, sent) -> nth_error (decorateall (newdecorator false) tb) i = Some dt ->
  forall p v dv, at_node t dt p v dv -> p <> [] -> (exists l us, v = Node l us) -> mass (dop_rules gr) (label dv) = N.of_nat (length (fragments sent v)).
Proof.
  intros tb gr W E i t sent dt E1 E2 p v dv A NE Hv. destruct (plain_reduced tb W (dop_nonempty _ _ _ E)) as (gr' & G & fd & nt & E' & R). rewrite E in E'. injection E' as <-.
  destruct (annotall_in plaindec plain_step tb (newdecorator false) i t sent dt eq_refl W E1 E2) as [I0 RD]. assert (W1 : wftree (t, sent)) by (rewrite Forall_forall in W; apply W; eapply nth_error_In; eauto). destruct W1 as (HP & ND & HW & HL). cbn in HP, ND, HW, HL.
  destruct (node_annot sent t dt HP HW (rootdec_relab _ _ RD) p v dv A Hv) as (B1 & B2 & B3 & B4). rewrite (fragments_annot sent v dv), afrags_length by auto. destruct (apl_annot sent v dv B2 B3) as [_ <-].
  apply (proj2 (reduced_mass _ _ _ _ _ _ (plain_shares tb W) R)); [now apply I0|]. destruct (apl_annot sent v dv B2 B3) as [_ ->].
  clear - RD A NE Hv. destruct RD as (l & ts & dts & -> & -> & F). destruct p as [|j p]; [congruence|]. destruct A as [A1 A2]. cbn in A1, A2. destruct (nth_error ts j) as [c|] eqn:E1; [|discriminate]. destruct (nth_error dts j) as [dc|] eqn:E2; [|discriminate].
  assert (D : decorated c dc) by (clear - F E1 E2; revert j E1 E2; induction F; intros [|j] E1 E2; cbn in *; try discriminate; [congruence|eauto]). clear - D A1 A2 Hv. revert p dc D A1 A2. induction c as [a|m us IH] using tree_ind'; intros p dc D A1 A2.
  - destruct p; [|discriminate]. cbn in A1. injection A1 as <-. destruct Hv as (? & ? & X). discriminate.
  - inversion D as [|? dl ? dus A E F]; subst. destruct p as [|j p]; [cbn in A2; injection A2 as <-; exact A|]. cbn in A1, A2. destruct (nth_error us j) as [c|] eqn:E1; [|discriminate]. destruct (nth_error dus j) as [dc|] eqn:E2; [|discriminate].
    rewrite Forall_forall in IH. apply (IH c (nth_error_In _ _ E1) p dc); auto. clear - F E1 E2; revert j E1 E2; induction F; intros [|j] E1 E2; cbn in *; try discriminate; [congruence|eauto].
Qed.

(** ---- the alternative weights "ewe" (Bod 2003): the weights of the rules of a
    label sum to 1 / (occurrences of the label + its occurrences as root), not to
    one: nodefreq counts the label of the root twice, since it has no address ---- *)
Definition occurrences (A : pystr) (ts : list (tree pystr nat)) : nat := length (filter (fun v => eqs (label v) A) ts).
Lemma cnt_map : forall f X l, cnt f X l = N.of_nat (length (filter (fun s => eqs s X) (map f l))).
Proof. intros f X l. unfold cnt. f_equal. induction l as [|v l IH]; [reflexivity|]. cbn [map filter]. destruct (eqs (f v) X); cbn [length]; auto. Qed.
Lemma apl_nodes : forall sent t dt, ptree t -> relab t dt -> map apl (anodes (annot sent t dt)) = map label (nodes t).
Proof.
  intros sent t. induction t as [a|l ts IH] using tree_ind'; intros dt HP H; [inversion HP|]. inversion H as [|? dl ? dts F]; subst. rewrite annot_node. cbn [anodes nodes map apl label]. f_equal. destruct (isleaves ts) eqn:E.
  - destruct ts as [|[a|] [|]]; try discriminate. reflexivity.
  - destruct (ptree_isleaves l ts HP E) as [_ HC]. clear - F IH HC. induction F as [|t dt ts dts R F IHF]; [reflexivity|]. inversion IH as [|? ? I1 I2]; subst. cbn [annots flat_map]. fold (annots sent). rewrite !map_app. f_equal; [apply I1; auto; apply HC; now left|apply IHF; auto; intros; apply HC; now right].
Qed.
Lemma decorated_addressed : forall t dt, decorated t dt -> Forall (fun s => addressed s = true) (map label (nodes dt)).
Proof.
  induction t as [a|l ts IH] using tree_ind'; intros dt D; inversion D as [|? dl ? dts A E F]; subst; [constructor|]. cbn [nodes map label]. constructor; auto. clear D A. induction F; [constructor|]. inversion IH; subst. cbn [flat_map]. rewrite map_app. apply Forall_app. auto.
Qed.
Lemma cnt_annotall : forall (Inv : decorator -> Prop), (forall d t sent dt d', Inv d -> wftree (t, sent) -> decorate d t sent = (dt, d') -> rootdec t dt /\ Inv d') ->
  forall tb d A, Inv d -> Forall wftree tb -> addressed A = false -> cnt apl A (annotall d tb) = N.of_nat (occurrences A (flat_map (fun ts => nodes (fst ts)) tb)) /\ cnt adec A (annotall d tb) = N.of_nat (occurrences A (map fst tb)).
Proof.
  intros Inv step. induction tb as [|[t sent] tb IH]; intros d A I0 W HA; [split; reflexivity|]. inversion W as [|? ? W1 W2]; subst. cbn [annotall]. destruct (decorate d t sent) as [dt d'] eqn:E. destruct (step _ _ _ _ _ I0 W1 E) as [R I1]. destruct (IH d' A I1 W2 HA) as [J1 J2].
  destruct W1 as (HP & _ & _ & _). cbn in HP. rewrite !cnt_app, J1, J2. assert (RL := rootdec_relab _ _ R). rewrite !cnt_map, (apl_nodes sent t dt HP RL), (adec_nodes sent t dt HP RL).
  assert (O : forall ts, length (filter (fun s => eqs s A) (map label ts)) = occurrences A ts) by (intros ts; unfold occurrences; induction ts as [|v l IHl]; [reflexivity|]; cbn [map filter]; destruct (eqs (label v) A); cbn [length]; auto).
  assert (OA : forall a b, occurrences A (a ++ b) = occurrences A a + occurrences A b) by (intros; unfold occurrences; now rewrite filter_app, app_length). split.
  - rewrite O. cbn [flat_map fst]. rewrite OA. lia.
  - destruct R as (l & ts & dts & -> & -> & F). assert (Z : filter (fun s => eqs s A) (map label (flat_map nodes dts)) = []).
    { assert (AD : Forall (fun s => addressed s = true) (map label (flat_map nodes dts))) by (clear - F; induction F; [constructor|]; cbn [flat_map]; rewrite map_app; apply Forall_app; split; auto; eapply decorated_addressed; eauto).
      clear - AD HA. induction AD as [|s l H F IH]; [reflexivity|]. cbn [filter]. destruct (eqs s A) eqn:E; auto. apply eqs_eq in E. congruence. }
    cbn [nodes map filter label]. rewrite Z. unfold occurrences. cbn [fst map filter label]. destruct (eqs l A); cbn [length]; lia.
Qed.
Definition ewe_mass (gr : dopgrammar) (A : pystr) : Qc :=
  fold_right Qcplus 0%Qc (map snd (filter (fun re => eqs (lhs (fst (fst re))) A) (combine (dop_rules gr) (dop_ewe gr)))).
Theorem C32_ewe_mass : forall tb gr, Forall wftree tb -> dopreduction tb false = Some gr -> forall A, addressed A = false -> fragment_bag tb A <> [] ->
  ewe_mass gr A = (1 / Nq (N.of_nat (occurrences A (flat_map (fun ts => nodes (fst ts)) tb) + occurrences A (map fst tb))))%Qc.
Proof.
  intros tb gr W E A HA NB. destruct (plain_reduced tb W (dop_nonempty _ _ _ E)) as (gr' & G & fd & nt & E' & R). rewrite E in E'. injection E' as <-.
  destruct (cnt_annotall plaindec plain_step tb (newdecorator false) A eq_refl W HA) as [C1 C2].
  assert (NT : nt A = N.of_nat (occurrences A (flat_map (fun ts => nodes (fst ts)) tb) + occurrences A (map fst tb))) by (rewrite (red_nt _ _ _ _ _ _ R), C1, C2; lia). rewrite <- NT.
  destruct (reduced_mass _ _ _ _ _ _ (plain_shares tb W) R) as [M _]. specialize (M A HA). assert (FD : fd A = mass (dop_rules gr) A).
  { rewrite M, (red_fdp _ _ _ _ _ _ R A HA), (red_bag _ _ _ _ _ _ R), length_nsum, nsum_flat_map. unfold sumfor. apply nsum_ext. intros v _. now rewrite <- length_nsum, afrags_length. }
  assert (S0 : ewe_mass gr A = (Nq (mass (dop_rules gr) A) / Nq (fd A * nt A))%Qc).
  { unfold ewe_mass, mass. rewrite (red_rules _ _ _ _ _ _ R), (red_ewe _ _ _ _ _ _ R). clear - HA. induction G as [|[r n] G IH]; [cbn; unfold Qcdiv; change (Nq 0) with 0%Qc; ring|]. cbn [map combine filter fst]. destruct (eqs (lhs r) A) eqn:EA.
    - cbn [map fold_right snd]. rewrite IH, Nq_plus. unfold ewe_of at 1. cbn [fst]. apply eqs_eq in EA. rewrite EA, HA. unfold Qcdiv. ring.
    - exact IH. }
  rewrite S0, <- FD, Nq_mul. assert (NZ : Nq (fd A) <> 0%Qc).
  { apply Nq_neq0. rewrite FD, M. destruct (fragment_bag tb A); [congruence|]. discriminate. }
  destruct (N.eq_dec (nt A) 0) as [Z|Z].
  - exfalso. rewrite NT in Z. assert (O0 : occurrences A (flat_map (fun ts => nodes (fst ts)) tb) = 0) by lia. apply NB. clear - O0. unfold occurrences in O0. unfold fragment_bag. induction tb as [|ts tb IH]; [reflexivity|]. cbn [flat_map] in O0 |- *. rewrite filter_app, app_length in O0. rewrite IH by lia. destruct (filter _ (nodes (fst ts))); [reflexivity|cbn in O0; lia].
  - assert (NZ2 := Nq_neq0 _ Z). field. split; auto.
Qed.
Print Assumptions C31_fragments.
Print Assumptions C31_nodefreq.
Print Assumptions C35_addresses_unique.
Print Assumptions C32_accepted.
Print Assumptions C32_goodman.
Print Assumptions C32_derivations_finite.
Print Assumptions C32_label_mass.
Print Assumptions C32_address_mass.
Print Assumptions C32_ewe_mass.
