(** C69: the transformation of trees before evaluation. *)
From Coq Require Import String.
From Coq Require Import List Bool Arith Lia Permutation.
From Verif Require Import PyStr TreeModel BinarizeModel TransformModel SortProofs TreeProps EvalModel EvalProps ETransModel ETransSpec ETransProofs ETransProofs2.
Import ListNotations.
Open Scope list_scope.
Open Scope nat_scope.

Lemma nth_error_same : forall X (a b : list X), (forall i, nth_error a i = nth_error b i) -> a = b.
Proof.
  intros X. induction a as [|x a IH]; intros [|y b] H; [reflexivity|specialize (H 0); discriminate|specialize (H 0); discriminate|].
  pose proof (H 0) as H0. injection H0 as ->. f_equal. apply IH. intros i. exact (H (S i)).
Qed.
Section One.
Variable param : eparam.
Variable sent : list pystr.
Variable tags : list pystr.
Variable gpos : list (nat * pystr).
Variable grootpos : list nat.
Variable keep : nat -> bool.
Notation n := (length sent).
Hypothesis GP : forall k, k < n -> dictnat gpos k = Some (nth k tags []).
Hypothesis KP : keeps keep param sent tags grootpos.
Lemma removed_keep : forall k, k < n -> removed param sent gpos grootpos k = Some (negb (keep k)).
Proof.
  intros k L. unfold removed. rewrite (GP k L).
  assert (W : nth_error sent k = Some (nth k sent [])) by (apply nth_error_nth'; exact L). rewrite W.
  specialize (KP k L). unfold dropped in KP.
  destruct (mems (nth k tags []) (delete_label param)) eqn:M1.
  - apply mems_iff in M1. rewrite (proj2 KP) by tauto. reflexivity.
  - f_equal. destruct (mems (nth k sent []) (delete_word param)) eqn:M2; cbn [orb].
    + apply mems_iff in M2. now rewrite (proj2 KP) by tauto.
    + destruct (delete_root_preterms param && memn k grootpos) eqn:M3.
      * apply andb_true_iff in M3. destruct M3 as [A B]. apply memn_iff in B. now rewrite (proj2 KP) by tauto.
      * destruct (keep k) eqn:K; [reflexivity|]. exfalso. destruct (proj1 KP eq_refl) as [X|[X|[X1 X2]]].
        { apply mems_iff in X. congruence. } { apply mems_iff in X. congruence. }
        apply memn_iff in X2. rewrite X1, X2 in M3. discriminate.
Qed.
Notation good := (good param sent gpos grootpos keep).
Lemma wf_good : forall t, (forall l ts, In (Node l ts) (pre t) -> forallb is_node ts = true \/ exists k, ts = [Leaf k]) ->
  (forall k, In k (leaves t) -> k < n) -> (exists l ts, t = Node l ts) -> good t.
Proof.
  intros t. induction t as [a|l ts IH] using tree_ind'; intros H LV (l0 & ts0 & E); [discriminate|]. clear E l0 ts0.
  destruct (H l ts (or_introl eq_refl)) as [N|[k ->]].
  - assert (GS : goods param sent gpos grootpos keep ts).
    { apply goods_in. intros t I. rewrite Forall_forall in IH. apply IH; [exact I| | |].
      - intros l' ts' I'. apply (H l' ts'). right. apply in_flat_map. now exists t.
      - intros k I'. apply LV. cbn [leaves]. apply in_flat_map. now exists t.
      - rewrite forallb_forall in N. specialize (N t I). destruct t as [a|l' ts']; [discriminate|eauto]. }
    destruct ts as [|[k|m ms] us]; [exact I|discriminate|exact GS].
  - cbn. apply removed_keep. apply LV. now left.
Qed.
Notation strip := (strip param keep).
Definition outcome (t : tr) : tr := match t with Leaf k => Leaf k | Node l ts => mapleaves (newpos keep) (Node l (flat_map strip ts)) end.
Definition words : list pystr := map (fun k => dictmap (eq_word param) (nth k sent [])) (filter keep (seq 0 n)).
Lemma transform_ok : forall t tpos, wellformed t n -> length tpos = n ->
  transform param sent gpos grootpos t tpos = Some (outcome t, words, map (fun k => snd (nth k tpos (0, []))) (filter keep (seq 0 n))).
Proof.
  intros t tpos (RT & WF & PM) LT. destruct RT as (l & ts & -> & NT).
  assert (LV : forall k, In k (leaves (Node l ts)) -> k < n).
  { intros k I. apply (Permutation_in _ PM), in_seq in I. lia. }
  assert (G : good (Node l ts)) by (apply wf_good; eauto).
  assert (NL : NoDup (leaves (Node l ts))) by (eapply Permutation_NoDup; [symmetry; exact PM|apply seq_NoDup]).
  assert (IE : inner (Node l ts) = leaves (Node l ts)).
  { destruct ts as [|[k|m ms] us]; [reflexivity|discriminate|reflexivity]. }
  assert (IS : inner_strip param keep (Node l ts) = Node l (flat_map strip ts)).
  { destruct ts as [|[k|m ms] us]; [reflexivity|discriminate|reflexivity]. }
  destruct (nodeloop_ok param sent gpos grootpos keep _ G (seq 0 n) []) as (D & Q & E & PD & PQ).
  { apply seq_NoDup. } { now rewrite IE. }
  { intros k I. apply filter_In in I. rewrite IE in I. apply in_seq. specialize (LV k (proj1 I)). lia. }
  rewrite IE in PD, PQ. rewrite IS in E. cbn [app] in E.
  assert (RD : rem D (seq 0 n) = filter keep (seq 0 n)).
  { apply filter_ext_in. intros k I. destruct (keep k) eqn:K.
    - apply negb_true_iff. apply not_true_iff_false. rewrite memn_iff. intros X. apply (Permutation_in _ PD), filter_In in X. rewrite K in X. destruct X. discriminate.
    - apply negb_false_iff. apply memn_iff. apply (Permutation_in _ (Permutation_sym PD)). apply filter_In. rewrite K. split; [|reflexivity].
      apply (Permutation_in _ (Permutation_sym PM)). exact I. }
  unfold transform. rewrite E, RD. set (ls := filter keep (seq 0 n)) in *.
  assert (LS : forall k, In k ls -> k < n /\ keep k = true) by (intros k I; apply filter_In in I; rewrite in_seq in I; split; [lia|tauto]).
  assert (QL : forall k, In k Q <-> In k ls).
  { intros k. split; intros I.
    - apply (Permutation_in _ PQ), filter_In in I. apply filter_In. split; [|tauto]. apply (Permutation_in _ PM). tauto.
    - apply (Permutation_in _ (Permutation_sym PQ)). apply filter_In in I. apply filter_In. split; [|tauto]. apply (Permutation_in _ (Permutation_sym PM)). tauto. }
  assert (NLS : NoDup ls) by (apply NoDup_filter, seq_NoDup).
  assert (NQ : NoDup Q) by (eapply Permutation_NoDup; [symmetry; exact PQ|now apply NoDup_filter]).
  rewrite (allsome_map _ _ _ (fun k => nth k sent [])) by (intros k I; apply nth_error_nth'; now apply LS).
  rewrite (allsome_map _ _ _ (fun k => nth k tpos (0, []))) by (intros k I; apply nth_error_nth'; rewrite LT; now apply LS).
  rewrite (renumber_ok ls Q (newpos keep)).
  2:{ intros k I. cbn [leaves] in I. rewrite flat_flat in I. apply in_flat_map in I. destruct I as (c & Ic & Ik).
      assert (Gc : good c).
      { destruct ts as [|[k0|m ms] us]; [destruct Ic|discriminate|]. apply (proj1 (goods_in param sent gpos grootpos keep _) G). exact Ic. }
      rewrite (strip_leaves _ _ _ _ _ c Gc) in Ik. apply filter_In in Ik.
      assert (X : In k (leaves (Node l ts))) by (cbn [leaves]; apply in_flat_map; exists c; tauto).
      assert (In k ls) by (apply filter_In; split; [apply (Permutation_in _ PM); exact X|tauto]).
      split; [now apply QL|]. apply indexof_newpos; [tauto|]. now apply LV. }
  destruct (eqwords_ok param ls Q (map (fun k => nth k sent []) ls)) as (w' & EW & LW & HW); auto.
  { now rewrite map_length. } { intros k I. now apply QL. }
  rewrite EW. cbn [option_map]. rewrite map_map. f_equal. f_equal. f_equal.
  unfold words. fold ls. apply nth_error_same. intros i. destruct (nth_error ls i) as [k|] eqn:EK.
  - rewrite (HW i k (nth k sent []) EK) by (rewrite nth_error_map, EK; reflexivity). rewrite nth_error_map, EK. cbn [option_map].
    assert (M : memn k Q = true) by (apply memn_iff, QL; eapply nth_error_In; eauto). now rewrite M.
  - rewrite (proj2 (nth_error_None _ _)); [|rewrite LW; now apply nth_error_None]. symmetry. rewrite nth_error_map, EK. reflexivity.
Qed.
End One.

(** The transformation succeeds.  The remaining words and tags are those that are
    not to be removed, in order.  The root keeps its label; the nodes below it
    are, in preorder, those that are not to be deleted and have words left, with
    their remaining words at their new positions. *)
Theorem C69_transform : forall param sent tags gpos grootpos keep t tpos,
  (forall k, k < length sent -> dictnat gpos k = Some (nth k tags [])) -> keeps keep param sent tags grootpos ->
  wellformed t (length sent) -> length tpos = length sent ->
  exists t', transform param sent gpos grootpos t tpos = Some (t',
      map (fun k => dictmap (eq_word param) (nth k sent [])) (filter keep (seq 0 (length sent))),
      map (fun k => snd (nth k tpos (0, []))) (filter keep (seq 0 (length sent)))) /\
    tlabel t' = tlabel t /\ leaves t' = map (newpos keep) (filter keep (leaves t)) /\
    map describe (tl (pre t')) = flat_map (becomes param keep) (tl (pre t)).
Proof.
  intros param sent tags gpos grootpos keep t tpos GP KP WF LT. exists (outcome param keep t).
  split; [exact (transform_ok param sent tags gpos grootpos keep GP KP t tpos WF LT)|].
  pose proof WF as ((l & ts & -> & NT) & W & PM). cbn [outcome].
  assert (GS : forall c, In c ts -> good param sent gpos grootpos keep c).
  { intros c I. apply (wf_good param sent tags gpos grootpos keep GP KP).
    - intros l' ts' I'. apply (W l' ts'). right. apply in_flat_map. now exists c.
    - intros k I'. assert (X : In k (leaves (Node l ts))) by (cbn [leaves]; apply in_flat_map; now exists c).
      apply (Permutation_in _ PM), in_seq in X. lia.
    - rewrite forallb_forall in NT. specialize (NT c I). destruct c as [a|l' ts']; [discriminate|eauto]. }
  split; [reflexivity|]. split.
  - rewrite mapleaves_leaves. f_equal. cbn [leaves]. rewrite flat_flat, filter_flat. apply flat_ext_in. intros c I.
    now apply (strip_leaves param sent gpos grootpos), GS.
  - rewrite mapleaves_pre. cbn [pre map tl].
    rewrite map_map. rewrite (map_ext _ _ (mapleaves_describe (newpos keep))).
    rewrite <- (map_map describe (fun d => let '(p, l, ks) := d in (p, l, map (newpos keep) ks))).
    assert (E : map describe (flat_map pre (flat_map (strip param keep) ts)) = flat_map (becomes0 param keep) (flat_map pre ts)).
    { rewrite !flat_flat, map_flat. apply flat_ext_in. intros c I. now apply (strip_desc param sent gpos grootpos), GS. }
    rewrite E, map_flat. apply flat_ext_in. intros s _. unfold becomes0, becomes.
    destruct (filter keep (leaves s)) as [|k ks]; [reflexivity|]. destruct (phrasal s && _); reflexivity.
Qed.
(** A word has the same word under its new position. *)
Theorem C69_same_words : forall param sent keep k, k < length sent -> keep k = true ->
  nth_error (map (fun k => dictmap (eq_word param) (nth k sent [])) (filter keep (seq 0 (length sent)))) (newpos keep k)
  = Some (dictmap (eq_word param) (nth k sent [])).
Proof.
  intros param sent keep k L K. pose proof (indexof_newpos keep (length sent) k K L) as E. apply indexof_lt in E.
  now rewrite nth_error_map, E.
Qed.
(** A description of the nodes below the root determines them, if every node has words. *)
Fixpoint hasw (t : tr) : Prop := match t with Leaf _ => False | Node _ ts => leaves t <> [] /\
  ((forallb is_node ts = true /\ fold_right (fun t P => hasw t /\ P) True ts) \/ exists k, ts = [Leaf k]) end.
Definition haswords (ts : list tr) : Prop := fold_right (fun t P => hasw t /\ P) True ts.
Lemma describe_inj : forall t, hasw t -> forall u r s, hasw u ->
  map describe (pre t) ++ r = map describe (pre u) ++ s -> t = u /\ r = s.
Proof.
  intros t. induction t as [a|l ts IH] using tree_ind'; intros HT u r s HU E; [destruct HT|].
  destruct u as [b|m us]; [destruct HU|]. cbn [pre map app] in E.
  injection E as EP EL EV E.
  destruct HT as [NT [[KT HT]|[k ->]]]; destruct HU as [NU [[KU HU]|[j ->]]].
  - assert (X : ts = us /\ r = s); [|destruct X as [-> ->]; now rewrite EL].
    clear EP NT NU EL. cbn [leaves] in EV. revert us KU HU EV E. induction ts as [|t ts IHt]; intros us KU HU EV E.
    + destruct us as [|u us]; [auto|]. exfalso. cbn in EV. destruct HU as [HU _]. destruct u as [b|m' us']; [destruct HU|].
      destruct HU as [NU _]. apply NU. symmetry in EV. apply app_eq_nil in EV. tauto.
    + inversion IH as [|? ? H IH']; subst. destruct HT as [HT HTS]. cbn [forallb] in KT. apply andb_true_iff in KT. destruct KT as [_ KT].
      destruct us as [|u us].
      { exfalso. cbn [flat_map] in EV. apply app_eq_nil in EV. destruct t as [b|m' us']; [destruct HT|]. destruct HT as [NT _]. tauto. }
      destruct HU as [HU HUS]. cbn [forallb] in KU. apply andb_true_iff in KU. destruct KU as [_ KU].
      cbn [flat_map] in E. rewrite !map_app, <- !app_assoc in E.
      destruct (H HT u _ _ HU E) as [-> E2]. cbn [flat_map] in EV. apply app_inv_head in EV.
      destruct (IHt IH' KT HTS us KU HUS EV E2) as [-> ->]. auto.
  - exfalso. destruct ts as [|[b|m' ms'] ts]; [apply NT; reflexivity|discriminate|]. discriminate.
  - exfalso. destruct us as [|[b|m' ms'] us]; [apply NU; reflexivity|discriminate|]. discriminate.
  - cbn in EV. injection EV as ->. cbn in E. rewrite EL. auto.
Qed.
Theorem C69_described : forall l ts us, haswords ts -> haswords us ->
  map describe (tl (pre (Node l ts))) = map describe (tl (pre (Node l us))) -> ts = us.
Proof.
  intros l ts us HT HU E. cbn [pre tl] in E. revert us HU E. induction ts as [|t ts IH]; intros us HU E.
  - destruct us as [|u us]; [reflexivity|]. destruct HU as [HU _]. destruct u as [b|m us']; [destruct HU|discriminate].
  - destruct HT as [HT HTS]. destruct us as [|u us]; [destruct t as [b|m us']; [destruct HT|discriminate]|].
    destruct HU as [HU HUS]. cbn [flat_map] in E. rewrite !map_app in E.
    destruct (describe_inj t HT u _ _ HU E) as [-> E2]. f_equal. now apply IH.
Qed.
Lemma haswords_forall : forall ts, haswords ts <-> Forall hasw ts.
Proof.
  unfold haswords. induction ts as [|t ts IH]; cbn [fold_right]; [split; constructor|]. rewrite IH. split.
  - intros [A B]. now constructor.
  - intros H. now inversion H.
Qed.
Lemma strip_hasw : forall param sent gpos grootpos keep t, good param sent gpos grootpos keep t -> Forall hasw (strip param keep t).
Proof.
  intros param sent gpos grootpos keep t. induction t as [a|l ts IH] using tree_ind'; intros G; [destruct G|].
  destruct (good_cases _ _ _ _ _ _ G) as [(l' & E)|[(l' & k & E & _)|(l' & m & ms & us & E & GS)]]; injection E as -> ->.
  - constructor.
  - cbn [strip]. destruct (keep k); [|constructor]. constructor; [|constructor]. split; [discriminate|right; eauto].
  - assert (FS : Forall hasw (flat_map (strip param keep) (Node m ms :: us))).
    { rewrite Forall_forall in IH. rewrite goods_in in GS. apply Forall_forall. intros u I. apply in_flat_map in I. destruct I as (c & Ic & Iu).
      specialize (IH c Ic (GS c Ic)). rewrite Forall_forall in IH. now apply IH. }
    rewrite strip_unfold. destruct (flat_map (strip param keep) (Node m ms :: us)) as [|v vs] eqn:Q; [constructor|].
    destruct (mems _ _); [exact FS|]. constructor; [|constructor]. split.
    + inversion FS as [|? ? HV _]; subst. destruct v as [b|lv tv]; [destruct HV|]. destruct HV as [NV _].
      intros E. cbn [leaves flat_map] in E. apply app_eq_nil in E. tauto.
    + left. split; [|now apply haswords_forall]. apply forallb_forall. intros u I. rewrite Forall_forall in FS. specialize (FS u I). destruct u; [destruct FS|reflexivity].
Qed.
Lemma mapleaves_hasw : forall f t, hasw t -> hasw (mapleaves f t).
Proof.
  intros f t. induction t as [a|l ts IH] using tree_ind'; intros H; [destruct H|]. destruct H as [N [[K H]|[k ->]]].
  - change (mapleaves f (Node l ts)) with (Node l (map (mapleaves f) ts)). split.
    + change (Node l (map (mapleaves f) ts)) with (mapleaves f (Node l ts)). rewrite mapleaves_leaves. intros E. apply map_eq_nil in E. contradiction.
    + left. split.
      * apply forallb_forall. intros u I. apply in_map_iff in I. destruct I as (v & <- & I). rewrite forallb_forall in K. specialize (K v I). destruct v; [discriminate|reflexivity].
      * apply haswords_forall. apply haswords_forall in H. rewrite Forall_forall in *. intros u I. apply in_map_iff in I. destruct I as (v & <- & I). auto.
  - cbn. split; [discriminate|right; eauto].
Qed.
Lemma hasw_pre : forall t, hasw t -> forall l ts, In (Node l ts) (pre t) -> forallb is_node ts = true \/ exists k, ts = [Leaf k].
Proof.
  intros t. induction t as [a|m us IH] using tree_ind'; intros H l ts I; [destruct I|]. destruct H as [N H].
  destruct I as [E|I]; [injection E as <- <-; destruct H as [[K _]|K]; auto|].
  destruct H as [[K H]|[k ->]]; [|destruct I]. apply in_flat_map in I. destruct I as (c & Ic & Il).
  apply haswords_forall in H. rewrite Forall_forall in IH, H. eapply IH; eauto.
Qed.
Lemma newpos_seq : forall keep n, map (newpos keep) (filter keep (seq 0 n)) = seq 0 (length (filter keep (seq 0 n))).
Proof.
  intros keep. induction n as [|n IH]; [reflexivity|]. rewrite seq_S, filter_app', map_app, IH, app_length, seq_app. f_equal.
  cbn [plus filter]. destruct (keep n); [|reflexivity]. reflexivity.
Qed.
(** The result is a wellformed tree of the remaining words, and has no nodes
    without words below the root. *)
Theorem C69_wellformed : forall param sent tags gpos grootpos keep t tpos t' words tags',
  (forall k, k < length sent -> dictnat gpos k = Some (nth k tags [])) -> keeps keep param sent tags grootpos ->
  wellformed t (length sent) -> length tpos = length sent ->
  transform param sent gpos grootpos t tpos = Some (t', words, tags') ->
  wellformed t' (length words) /\ length tags' = length words /\ exists l ts, t' = Node l ts /\ haswords ts.
Proof.
  intros param sent tags gpos grootpos keep t tpos t' words tags' GP KP WF LT E.
  rewrite (transform_ok param sent tags gpos grootpos keep GP KP t tpos WF LT) in E. injection E as <- <- <-.
  unfold ETransProps.words. rewrite !map_length. split; [|split; [reflexivity|]].
  - destruct (C69_transform param sent tags gpos grootpos keep t tpos GP KP WF LT) as (t2 & E2 & _ & LV & _).
    rewrite (transform_ok param sent tags gpos grootpos keep GP KP t tpos WF LT) in E2. injection E2 as E2. rewrite <- E2 in LV. clear E2.
    pose proof WF as ((l & ts & -> & NT) & W & PM).
    assert (HW : Forall hasw (map (mapleaves (newpos keep)) (flat_map (strip param keep) ts))).
    { apply Forall_forall. intros u I. apply in_map_iff in I. destruct I as (v & <- & I). apply mapleaves_hasw.
      apply in_flat_map in I. destruct I as (c & Ic & Iv).
      assert (Gc : good param sent gpos grootpos keep c).
      { apply (wf_good param sent tags gpos grootpos keep GP KP).
        - intros l' ts' I'. apply (W l' ts'). right. apply in_flat_map. now exists c.
        - intros k I'. assert (X : In k (leaves (Node l ts))) by (cbn [leaves]; apply in_flat_map; now exists c).
          apply (Permutation_in _ PM), in_seq in X. lia.
        - rewrite forallb_forall in NT. specialize (NT c Ic). destruct c as [a|l' ts']; [discriminate|eauto]. }
      pose proof (strip_hasw _ _ _ _ _ c Gc) as F. rewrite Forall_forall in F. now apply F. }
    assert (AN : forallb is_node (map (mapleaves (newpos keep)) (flat_map (strip param keep) ts)) = true).
    { apply forallb_forall. intros u I. rewrite Forall_forall in HW. specialize (HW u I). destruct u; [destruct HW|reflexivity]. }
    split; [|split].
    + exists l, (map (mapleaves (newpos keep)) (flat_map (strip param keep) ts)). split; [reflexivity|exact AN].
    + intros l' ts' I. cbn [outcome mapleaves] in I. destruct I as [E|I]; [injection E as <- <-; now left|].
      apply in_flat_map in I. destruct I as (c & Ic & Il). rewrite Forall_forall in HW. exact (hasw_pre c (HW c Ic) l' ts' Il).
    + rewrite LV, <- newpos_seq. apply Permutation_map. now apply filter_perm.
  - pose proof WF as ((l & ts & -> & NT) & W & PM). exists l, (map (mapleaves (newpos keep)) (flat_map (strip param keep) ts)). split; [reflexivity|].
    apply haswords_forall. apply Forall_forall. intros u I. apply in_map_iff in I. destruct I as (v & <- & I). apply mapleaves_hasw.
    apply in_flat_map in I. destruct I as (c & Ic & Iv).
    assert (Gc : good param sent gpos grootpos keep c).
    { apply (wf_good param sent tags gpos grootpos keep GP KP).
      - intros l' ts' I'. apply (W l' ts'). right. apply in_flat_map. now exists c.
      - intros k I'. assert (X : In k (leaves (Node l ts))) by (cbn [leaves]; apply in_flat_map; now exists c).
        apply (Permutation_in _ PM), in_seq in X. lia.
      - rewrite forallb_forall in NT. specialize (NT c Ic). destruct c as [a|l' ts']; [discriminate|eauto]. }
    pose proof (strip_hasw _ _ _ _ _ c Gc) as F. rewrite Forall_forall in F. now apply F.
Qed.
(** Additional nodes with labels to be deleted, or without words, make no difference. *)
Lemma wraps_pre : forall param t t', wraps param t t' -> forall m k, t = Node m [Leaf k] ->
  exists us, t' = Node m us /\ exists x, In (Node x []) us.
Proof.
  intros param t t' W m k E. destruct W as [l a b c x DX (lb & tb & NB)|l a c x|l a t t' c W].
  - injection E as -> E. exfalso. assert (I : In (Node lb tb) [Leaf k]) by (rewrite <- E; apply in_or_app; right; apply in_or_app; now left).
    destruct I as [I|[]]. discriminate.
  - injection E as -> E. eexists. split; [reflexivity|]. exists x. apply in_or_app. right. now left.
  - injection E as -> E. exfalso. assert (I : In t [Leaf k]) by (rewrite <- E; apply in_or_app; right; now left).
    destruct I as [<-|[]]. inversion W.
Qed.
Lemma strip_wraps : forall param keep t t', wraps param t t' ->
  (forall l ts, In (Node l ts) (pre t) -> forallb is_node ts = true \/ exists k, ts = [Leaf k]) ->
  (forall l ts, In (Node l ts) (pre t') -> forallb is_node ts = true \/ exists k, ts = [Leaf k]) ->
  match t, t' with
  | Node l ts, Node l' ts' => l = l' /\ flat_map (strip param keep) ts = flat_map (strip param keep) ts' /\
      (forallb is_node ts = true <-> forallb is_node ts' = true)
  | _, _ => False
  end.
Proof.
  intros param keep t t' W. induction W as [l a b c x DX (lb & tb & NB)|l a c x|l a t t' c W IH]; intros H H'.
  - split; [reflexivity|].
    assert (KB : forallb is_node b = true).
    { destruct (H' x b) as [K|[k ->]]; [right; apply in_flat_map; exists (Node x b); split; [apply in_or_app; right; now left|now left]|exact K|].
      destruct NB as [NB|[]]. discriminate. }
    split.
    + rewrite !flat_map_app. cbn [flat_map]. f_equal. f_equal.
      destruct b as [|[k|m ms] us]; [destruct NB|discriminate|]. rewrite strip_unfold. apply mems_iff in DX. rewrite DX.
      now destruct (flat_map _ _).
    + rewrite !forallb_app. cbn [forallb is_node andb]. rewrite KB. reflexivity.
  - split; [reflexivity|]. split; [rewrite !flat_map_app; reflexivity|]. rewrite !forallb_app. reflexivity.
  - assert (X : match t, t' with
      | Node l ts, Node l' ts' => l = l' /\ flat_map (strip param keep) ts = flat_map (strip param keep) ts' /\ (forallb is_node ts = true <-> forallb is_node ts' = true)
      | _, _ => False end).
    { apply IH; intros l' ts' I; [apply (H l' ts')|apply (H' l' ts')]; right; apply in_flat_map; eexists; (split; [apply in_or_app; right; now left|exact I]). }
    destruct t as [?|m ts]; [destruct X|]. destruct t' as [?|m' ts']; [destruct X|]. destruct X as (-> & X & Y).
    split; [reflexivity|]. split.
    + rewrite !flat_map_app. f_equal. cbn [flat_map]. f_equal.
      assert (HT := H m' ts ltac:(right; apply in_flat_map; eexists; split; [apply in_or_app; right; now left|now left])).
      assert (HT' := H' m' ts' ltac:(right; apply in_flat_map; eexists; split; [apply in_or_app; right; now left|now left])).
      assert (ZN : forall us, forallb is_node us = true -> strip param keep (Node m' us) = match flat_map (strip param keep) us with
         | [] => [] | vs => if mems (dictmap (eq_label param) m') (delete_label param) then vs else [Node (dictmap (eq_label param) m') vs] end).
      { intros [|[k|q qs] us] K; [reflexivity|discriminate|reflexivity]. }
      destruct HT as [K|[k ->]].
      * rewrite (ZN ts K), (ZN ts' (proj1 Y K)), X. reflexivity.
      * exfalso. destruct (wraps_pre param _ _ W m' k eq_refl) as (us & E & x & I). injection E as ->.
        destruct HT' as [K'|[k' ->]]; [apply Y in K'; discriminate|]. destruct I as [I|[]]. discriminate.
    + rewrite !forallb_app. cbn [forallb is_node]. reflexivity.
Qed.
Theorem C69_extra_nodes : forall param sent tags gpos grootpos keep t t' tpos,
  (forall k, k < length sent -> dictnat gpos k = Some (nth k tags [])) -> keeps keep param sent tags grootpos ->
  wellformed t (length sent) -> wellformed t' (length sent) -> length tpos = length sent -> wraps param t t' ->
  transform param sent gpos grootpos t tpos = transform param sent gpos grootpos t' tpos.
Proof.
  intros param sent tags gpos grootpos keep t t' tpos GP KP WF WF' LT W.
  rewrite (transform_ok param sent tags gpos grootpos keep GP KP t tpos WF LT), (transform_ok param sent tags gpos grootpos keep GP KP t' tpos WF' LT).
  f_equal. f_equal. f_equal. destruct WF as (_ & H & _). destruct WF' as (_ & H' & _).
  pose proof (strip_wraps param keep t t' W H H') as X.
  destruct t as [?|m ts]; [destruct X|]. destruct t' as [?|m' ts']; [destruct X|]. destruct X as (-> & X & _). unfold outcome. now rewrite X.
Qed.
(** The words that are kept can be decided. *)
Lemma keeps_exists : forall param sent tags grootpos, exists keep, keeps keep param sent tags grootpos.
Proof.
  intros param sent tags grootpos.
  exists (fun k => negb (mems (nth k tags []) (delete_label param) || (mems (nth k sent []) (delete_word param) || (delete_root_preterms param && memn k grootpos)))).
  intros k _. unfold dropped. rewrite negb_false_iff, !orb_true_iff, andb_true_iff, !mems_iff, memn_iff. tauto.
Qed.
(** ** pairs of trees *)
Lemma unmixed_wf : forall t : tr, (forall l ts, In (Node l ts) (pre t) -> forallb is_node ts = true \/ exists k, ts = [Leaf k]) -> unmixed t = true.
Proof.
  intros t. induction t as [a|l ts IH] using tree_ind'; intros H; [reflexivity|]. cbn [unmixed]. apply andb_true_iff. split.
  - destruct (H l ts (or_introl eq_refl)) as [K|[k ->]]; [|reflexivity]. apply orb_true_iff. right. exact K.
  - apply forallb_forall. intros c I. rewrite Forall_forall in IH. apply IH; [exact I|].
    intros l' ts' I'. apply (H l' ts'). right. apply in_flat_map. now exists c.
Qed.
Lemma sortedpos_ok : forall t n, wellformed t n -> map fst (sortedpos t) = seq 0 n.
Proof.
  intros t n ((l & ts & -> & NT) & W & PM). unfold sortedpos.
  rewrite <- (sort_map _ _ fst (fun a b => fst a <=? fst b) Nat.leb) by reflexivity.
  rewrite (C16_pos_order _ _ _ (unmixed_wf _ W)) by eauto. apply nat_sort_unique; [apply seq_sorted|exact PM].
Qed.
Lemma split_pairs : forall X Y (l : list (X * Y)), l = combine (map fst l) (map snd l).
Proof. intros X Y. induction l as [|[x y] l IH]; [reflexivity|]. cbn. now f_equal. Qed.
Lemma dictnat_combine : forall ts n k, k < length ts -> dictnat (combine (seq n (length ts)) ts) (n + k) = Some (nth k ts []).
Proof.
  induction ts as [|t ts IH]; intros n k L; [cbn in L; lia|]. cbn [length seq combine dictnat]. cbn [length] in L.
  destruct k as [|k]; [rewrite Nat.add_0_r, Nat.eqb_refl; reflexivity|].
  destruct (Nat.eqb_spec (n + S k) n); [lia|]. replace (n + S k) with (S n + k) by lia. rewrite IH by lia. reflexivity.
Qed.
Lemma alignsent_same : forall s ts n, length ts = length s -> alignsent s s ts n = combine (seq n (length ts)) ts.
Proof.
  induction s as [|w s IH]; intros [|t ts] n L; try discriminate; [reflexivity|]. cbn [alignsent length seq combine].
  assert (E : eqs w w = true) by now apply eqs_eq. rewrite E. f_equal. apply IH. cbn in L. lia.
Qed.
Lemma eqll_refl : forall l, TreebankModel.eqll eqs l l = true.
Proof. induction l as [|x l IH]; [reflexivity|]. cbn. assert (E : eqs x x = true) by now apply eqs_eq. now rewrite E. Qed.
(** Two trees of the same words: neither transformation fails, the remaining words
    are the same, by the tags of the gold tree only, and each tree is
    transformed as above. *)
Theorem C69_pair : forall param gtree ctree sent keep,
  wellformed gtree (length sent) -> wellformed ctree (length sent) ->
  keeps keep param sent (map snd (sortedpos gtree)) (rootpos gtree) ->
  exists c g words cpos gpos,
    treepair param gtree sent ctree sent = Some ((c, words, cpos), (g, words, gpos)) /\
    words = map (fun k => dictmap (eq_word param) (nth k sent [])) (filter keep (seq 0 (length sent))) /\
    length cpos = length words /\ length gpos = length words /\
    wellformed c (length words) /\ wellformed g (length words) /\
    tlabel c = tlabel ctree /\ tlabel g = tlabel gtree /\
    map describe (tl (pre c)) = flat_map (becomes param keep) (tl (pre ctree)) /\
    map describe (tl (pre g)) = flat_map (becomes param keep) (tl (pre gtree)).
Proof.
  intros param gtree ctree sent keep WG WC KP. set (n := length sent) in *.
  pose proof (sortedpos_ok _ _ WG) as SG. pose proof (sortedpos_ok _ _ WC) as SC.
  assert (LG : length (sortedpos gtree) = n) by (rewrite <- (map_length fst), SG; apply seq_length).
  assert (LC : length (sortedpos ctree) = n) by (rewrite <- (map_length fst), SC; apply seq_length).
  assert (LT : length (map snd (sortedpos gtree)) = n) by now rewrite map_length.
  assert (DG : sortedpos gtree = combine (seq 0 n) (map snd (sortedpos gtree))) by (rewrite <- SG; apply split_pairs).
  assert (GP : forall k, k < n -> dictnat (sortedpos gtree) k = Some (nth k (map snd (sortedpos gtree)) [])).
  { intros k L. rewrite DG at 1. rewrite <- LT at 1. apply (dictnat_combine _ 0). lia. }
  assert (AL : alignsent sent sent (map snd (sortedpos gtree)) 0 = sortedpos gtree).
  { rewrite alignsent_same by exact LT. rewrite LT. now symmetry. }
  destruct (C69_transform param sent _ (sortedpos gtree) (rootpos gtree) keep ctree (sortedpos ctree) GP KP WC LC) as (c & Ec & Tc & _ & Dc).
  destruct (C69_transform param sent _ (sortedpos gtree) (rootpos gtree) keep gtree (sortedpos gtree) GP KP WG LG) as (g & Eg & Tg & _ & Dg).
  destruct (C69_wellformed param sent _ (sortedpos gtree) (rootpos gtree) keep ctree (sortedpos ctree) _ _ _ GP KP WC LC Ec) as (Wc & Lc & _).
  destruct (C69_wellformed param sent _ (sortedpos gtree) (rootpos gtree) keep gtree (sortedpos gtree) _ _ _ GP KP WG LG Eg) as (Wg & Lg & _).
  exists c, g. eexists. eexists. eexists. split.
  - unfold treepair. rewrite AL, Ec, Eg. cbn [fst snd]. rewrite Nat.eqb_refl, eqll_refl. reflexivity.
  - split; [reflexivity|]. auto 10.
Qed.
(** EQ_LABEL is not applied to the root: the label of the root is never changed. *)
Definition leaf1 (l : string) (k : nat) : tr := Node (str l) [Leaf k].
Theorem C69_root_label_refuted : ~ forall param sent tags gpos grootpos keep t tpos t' words tags',
  (forall k, k < length sent -> dictnat gpos k = Some (nth k tags [])) -> keeps keep param sent tags grootpos ->
  wellformed t (length sent) -> length tpos = length sent ->
  transform param sent gpos grootpos t tpos = Some (t', words, tags') ->
  forall s, In s (pre t') -> exists l, tlabel s = dictmap (eq_label param) l.
Proof.
  intros H.
  set (p := EParam [(str "TOP", str "ROOT"); (str "A", str "ROOT")] [] [] [] false).
  specialize (H p [str "x"] [str "N"] [(0, str "N")] [0] (fun _ => true) (Node (str "TOP") [leaf1 "N" 0]) [(0, str "N")]
    (Node (str "TOP") [leaf1 "N" 0]) [str "x"] [str "N"]).
  destruct H with (s := Node (str "TOP") [leaf1 "N" 0]) as (l & E1).
  - intros [|k] L; [reflexivity|cbn in L; lia].
  - intros [|k] L; [|cbn in L; lia]. split; [discriminate|]. intros [[]|[[]|[X _]]]; discriminate X.
  - split; [exists (str "TOP"), [leaf1 "N" 0]; split; reflexivity|]. split; [|apply Permutation_refl].
    intros l ts [E|[E|[]]]; injection E as <- <-; [now left|right; eauto].
  - reflexivity.
  - reflexivity.
  - now left.
  - unfold p in E1. cbn [tlabel eq_label dictmap] in E1. destruct (eqs (str "TOP") l) eqn:Q; [discriminate|].
    destruct (eqs (str "A") l); [discriminate|]. rewrite <- E1 in Q. vm_compute in Q. discriminate.
Qed.
(** *** non-vacuity: punctuation is removed, an adverb phrase is not counted. *)
Definition ex_param : eparam := EParam [(str "PRT", str "ADVP")] [(str "ca", str "can")] [str ","; str "NX"] [str "uh"] true.
Definition ex_tree : tr := Node (str "S") [Node (str "NX") [Node (str "NP") [leaf1 "N" 0; leaf1 "N" 3]; Node (str "PRT") [leaf1 "RP" 1]]; leaf1 "," 2; Node (str "X") [leaf1 "UH" 4]; leaf1 "." 5].
Definition ex_words : list pystr := map str ["we"; "ca"; ","; "go"; "uh"; "."]%string.
Example C69_ex : wellformed ex_tree 6 /\
  transform ex_param ex_words (sortedpos ex_tree) (rootpos ex_tree) ex_tree (sortedpos ex_tree) =
  Some (Node (str "S") [Node (str "NP") [leaf1 "N" 0; leaf1 "N" 2]; Node (str "ADVP") [leaf1 "RP" 1]],
    map str ["we"; "can"; "go"]%string, map str ["N"; "RP"; "N"]%string).
Proof.
  split; [|vm_compute; reflexivity]. split; [eexists; eexists; split; reflexivity|]. split.
  - intros l ts I. cbn in I. repeat (destruct I as [I|I]; [injection I as <- <-; (now left) || (right; eexists; reflexivity)|]). destruct I.
  - cbn. apply perm_skip. etransitivity; [apply perm_swap|]. constructor. apply perm_swap.
Qed.
Example C69_extra_ex : wraps ex_param
  (Node (str "S") [Node (str "NP") [leaf1 "N" 0; leaf1 "N" 3]; Node (str "PRT") [leaf1 "RP" 1]; leaf1 "," 2; Node (str "X") [leaf1 "UH" 4]; leaf1 "." 5]) ex_tree.
Proof.
  apply (wr_here ex_param (str "S") [] [Node (str "NP") [leaf1 "N" 0; leaf1 "N" 3]; Node (str "PRT") [leaf1 "RP" 1]]
    [leaf1 "," 2; Node (str "X") [leaf1 "UH" 4]; leaf1 "." 5] (str "NX")).
  - right. left. reflexivity.
  - eexists. eexists. now left.
Qed.
