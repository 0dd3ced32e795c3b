(** From the model of dopreduction to the abstract argument of GoodmanProofs. *)
From Coq Require Import String.
From Coq Require Import List Bool Arith NArith ZArith QArith Qcanon Permutation Lia.
From Verif Require Import PyStr TreeModel TreeProps BracketModel BinarizeModel TransformModel TransformProps LcfrsModel LcfrsProps TreebankModel DopModel DopSpec DopProofs GoodmanProofs.
Import ListNotations.
Open Scope list_scope.
Open Scope nat_scope.

(** trees as they are given to the reduction: every terminal is a word of the
    sentence and the only child of its preterminal; no label contains '@' *)
Definition wftree (ts : tree pystr nat * sentence) : Prop :=
  ptree (fst ts) /\ NoDup (leaves (fst ts)) /\ (forall a, In a (leaves (fst ts)) -> exists w, nth_error (snd ts) a = Some (Some w)) /\
  (forall v, In v (nodes (fst ts)) -> addressed (label v) = false).

(** the same tree with other labels *)
Inductive relab : tree pystr nat -> tree pystr nat -> Prop :=
| relab_leaf : forall a, relab (Leaf a) (Leaf a)
| relab_node : forall l dl ts dts, Forall2 relab ts dts -> relab (Node l ts) (Node dl dts).
(** ... where each label is the original one with an address *)
Inductive decorated : tree pystr nat -> tree pystr nat -> Prop :=
| decorated_leaf : forall a, decorated (Leaf a) (Leaf a)
| decorated_node : forall l dl ts dts, addressed dl = true -> strip dl = l -> Forall2 decorated ts dts -> decorated (Node l ts) (Node dl dts).

Lemma nodes_pre : forall t, nodes t = TreeProps.pre t.
Proof. induction t as [a|l ts IH] using tree_ind'; cbn; [reflexivity|]. f_equal. induction IH; cbn; congruence. Qed.
Lemma forall2_weaken : forall X Y (P : X -> Prop) (R S : X -> Y -> Prop), (forall x y, P x -> R x y -> S x y) -> forall a b, Forall P a -> Forall2 R a b -> Forall2 S a b.
Proof. intros X Y P R S' H a b Fa F. induction F; inversion Fa; subst; constructor; auto. Qed.
Lemma decorated_relab : forall t dt, decorated t dt -> relab t dt.
Proof.
  induction t as [a|l ts IH] using tree_ind'; intros dt H; inversion H as [|? dl ? dts A E F]; subst; constructor. clear H. induction F as [|t dt ts dts R F IHF]; constructor; inversion IH; subst; auto.
Qed.
Lemma relab_leaves : forall t dt, relab t dt -> leaves dt = leaves t.
Proof.
  induction t as [a|l ts IH] using tree_ind'; intros dt H; inversion H as [|? ? ? dts F]; subst; [reflexivity|]. cbn [leaves]. clear H. induction F; [reflexivity|]. inversion IH; subst. cbn. f_equal; auto.
Qed.
Lemma relabs_leaves : forall ts dts, Forall2 relab ts dts -> map leaves dts = map leaves ts.
Proof. induction 1; cbn; [reflexivity|]. f_equal; auto. now apply relab_leaves. Qed.
Lemma relab_ptree : forall t dt, relab t dt -> ptree t -> ptree dt.
Proof.
  induction t as [a|l ts IH] using tree_ind'; intros dt H HP; inversion H as [|? dl ? dts F]; subst; [inversion HP|]. inversion HP as [? a|? ? NE HC]; subst.
  - inversion F as [|? ? ? ? R F']; subst. inversion F'; subst. inversion R; subst. constructor.
  - apply pt_node; [inversion F; subst; congruence|]. clear H HP NE. intros c Hc. induction F as [|t dt ts dts R F IHF]; [destruct Hc|]. inversion IH; subst. destruct Hc as [<-|Hc]; [|apply IHF; auto; intros; apply HC; now right].
    apply H1; auto. apply HC. now left.
Qed.
Lemma indexed_from_ext : forall (ts dts : list (tree pystr nat)) n, map leaves dts = map leaves ts ->
  flat_map (fun p : nat * tree pystr nat => map (fun idx => (idx, fst p)) (leaves (snd p))) (enumerate n dts) = flat_map (fun p : nat * tree pystr nat => map (fun idx => (idx, fst p)) (leaves (snd p))) (enumerate n ts).
Proof.
  induction ts as [|t ts IH]; intros [|d dts] n E; try discriminate; [reflexivity|]. cbn [map] in E. injection E as E1 E2. cbn [enumerate flat_map fst snd]. rewrite E1. f_equal. now apply IH.
Qed.
Lemma yieldfunction_ext : forall ts dts, map leaves dts = map leaves ts -> yieldfunction dts = yieldfunction ts.
Proof. intros. unfold yieldfunction, indexed. now rewrite (indexed_from_ext ts dts). Qed.

Definition inf (sent : sentence) (ts : list (tree pystr nat)) : pvar :=
  match ts with
  | [Leaf a] => PWord (escape (word_at sent a))
  | _ => PYf (match yieldfunction ts with Some yf => yf | None => [] end)
  end.
Definition isleaves (ts : list (tree pystr nat)) : bool := match ts with [Leaf _] => true | _ => false end.
Definition dummy : atree := Node ([], [], PYf []) [].
Fixpoint annot (sent : sentence) (t dt : tree pystr nat) {struct t} : atree :=
  match t, dt with
  | Node l ts, Node dl dts =>
    Node (l, dl, inf sent ts)
      (if isleaves ts then []
       else (fix go (as_ bs : list (tree pystr nat)) {struct as_} : list atree :=
               match as_, bs with a :: as', b :: bs' => annot sent a b :: go as' bs' | _, _ => [] end) ts dts)
  | _, _ => dummy
  end.
Definition annots (sent : sentence) : list (tree pystr nat) -> list (tree pystr nat) -> list atree :=
  fix go as_ bs := match as_, bs with a :: as', b :: bs' => annot sent a b :: go as' bs' | _, _ => [] end.
Fixpoint anodes (v : atree) : list atree := match v with Leaf _ => [] | Node _ ks => v :: flat_map anodes ks end.

Lemma isleaves_relab : forall ts dts, Forall2 relab ts dts -> isleaves dts = isleaves ts.
Proof.
  intros ts dts F. destruct F as [|t dt ts dts R F]; [reflexivity|]. destruct R; destruct F; reflexivity.
Qed.
Lemma inf_relab : forall sent ts dts, Forall2 relab ts dts -> inf sent dts = inf sent ts.
Proof.
  intros sent ts dts F. pose proof (yieldfunction_ext ts dts (relabs_leaves _ _ F)) as Y.
  inversion F as [|t dt ts' dts' R F']; subst; [reflexivity|]. inversion R; subst; inversion F'; subst; cbn [inf]; try rewrite Y; reflexivity.
Qed.
Definition words (t : tree pystr nat) (sent : sentence) : Prop := forall a, In a (leaves t) -> exists w, nth_error sent a = Some (Some w).
Definition syms (ts : list (tree pystr nat)) : list pystr := if isleaves ts then [eps] else map label ts.
Lemma ptree_isleaves : forall l (ts : list (tree pystr nat)), ptree (Node l ts) -> isleaves ts = false -> ts <> [] /\ forall c, In c ts -> ptree c.
Proof. intros l ts H E. inversion H; subst; [discriminate|]. auto. Qed.
Lemma production_ok : forall sent l ts, ptree (Node l ts) -> words (Node l ts) sent -> exists p, production false sent (Node l ts) = SRule p /\ astuple p = (l :: syms ts, inf sent ts).
Proof.
  intros sent l ts HP HW. inversion HP as [? a|? ? NE HC]; subst.
  - destruct (HW a) as [w E]; [cbn; auto|]. cbn [production]. rewrite E. eexists. split; [reflexivity|]. unfold inf, word_at. now rewrite E.
  - destruct ts as [|c ts]; [congruence|]. assert (Hc := HC c (or_introl eq_refl)). destruct c as [a|m us]; [inversion Hc|].
    assert (N : forallb is_node (Node m us :: ts) = true) by (apply forallb_forall; intros x Hx; specialize (HC x Hx); inversion HC; reflexivity).
    cbn [production]. rewrite N. destruct (yieldfunction_some (Node m us :: ts)) as [yf E].
    { intros X. cbn [flat_map] in X. apply app_eq_nil in X. destruct X as [X _]. now apply (ptree_leaves _ Hc). }
    rewrite E. eexists. split; [reflexivity|]. cbn [astuple]. unfold inf, syms. cbn [isleaves]. rewrite E. reflexivity.
Qed.
Definition prodof (sent : sentence) (st : tree pystr nat) : prod := match production false sent st with SRule p => p | _ => Frontier [] end.
Lemma astuple_prodof : forall sent l ts, ptree (Node l ts) -> words (Node l ts) sent -> astuple (prodof sent (Node l ts)) = (l :: syms ts, inf sent ts).
Proof. intros sent l ts HP HW. unfold prodof. destruct (production_ok sent l ts HP HW) as (p & -> & E). exact E. Qed.
Lemma ptree_nodes : forall t s, ptree t -> In s (nodes t) -> ptree s /\ incl (leaves s) (leaves t).
Proof.
  induction t as [a|l ts IH] using tree_ind'; intros s HP Hs; [destruct Hs|]. cbn [nodes] in Hs. destruct Hs as [<-|Hs]; [split; auto; apply incl_refl|].
  apply in_flat_map in Hs. destruct Hs as (c & Hc & Hs). rewrite Forall_forall in IH. apply ptree_inv in HP. destruct HP as [[a ->]|HP]; [destruct Hc as [<-|[]]; destruct Hs|].
  destruct (IH c Hc s (HP c Hc) Hs) as [A B]. split; auto. intros x Hx. cbn [leaves]. apply in_flat_map. exists c. auto.
Qed.
Lemma lcfrs_ok : forall t sent, ptree t -> NoDup (leaves t) -> words t sent -> lcfrsproductions t sent false = PRules (map (prodof sent) (nodes t)).
Proof.
  intros t sent HP ND W. unfold lcfrsproductions. rewrite (proj2 (nodupb_spec _) ND). cbn [negb]. pose proof (ptree_leaves _ HP) as NE.
  assert (R : forall a, In a (leaves t) -> a < length sent) by (intros a Ha; destruct (W a Ha) as [w E]; apply nth_error_Some; congruence).
  destruct sent as [|w0 sent]; [exfalso; destruct (leaves t) as [|a r]; [congruence|]; specialize (R a (or_introl eq_refl)); cbn in R; lia|]. set (sn := w0 :: sent) in *.
  rewrite (proj2 (forallb_forall (fun a => a <? length sn) (leaves t))) by (intros a Ha; apply Nat.ltb_lt; auto). cbn [negb]. rewrite C16_subtrees_preorder, filter_true, <- nodes_pre.
  assert (F : forall s, In s (nodes t) -> production false sn s = SRule (prodof sn s)).
  { intros s Hs. destruct (ptree_nodes t s HP Hs) as [A B]. destruct s as [a|l ts]; [inversion A|]. unfold prodof. destruct (production_ok sn l ts A) as (p & -> & _); auto. intros a Ha. apply W. apply B, Ha. }
  induction (nodes t) as [|s l IH]; [reflexivity|]. cbn [map collect]. rewrite F by now left. rewrite IH; auto. intros; apply F; now right.
Qed.

Lemma allrules_app : forall a b c d, length a = length c -> allrules (a ++ b) (c ++ d) =
  match allrules a c, allrules b d with Some x, Some y => Some (x ++ y) | _, _ => None end.
Proof.
  induction a as [|p a IH]; intros b [|u c] d E; try discriminate; cbn [app allrules].
  - destruct (allrules b d); reflexivity.
  - rewrite IH by (cbn in E; lia). destruct (rulesof p u), (allrules a c), (allrules b d); auto. now rewrite app_assoc.
Qed.
Lemma relab_nodes_length : forall t dt, relab t dt -> length (nodes dt) = length (nodes t).
Proof.
  induction t as [a|l ts IH] using tree_ind'; intros dt H; inversion H as [|? ? ? dts F]; subst; [reflexivity|]. cbn [nodes length]. f_equal. clear H.
  induction F; [reflexivity|]. inversion IH; subst. cbn [flat_map]. rewrite !app_length. f_equal; auto.
Qed.
Lemma annots_spec : forall sent ts dts, Forall2 relab ts dts -> length (annots sent ts dts) = length ts.
Proof. intros sent ts dts F. induction F; cbn; auto. Qed.
Lemma annot_node : forall sent l ts dl dts, annot sent (Node l ts) (Node dl dts) = Node (l, dl, inf sent ts) (if isleaves ts then [] else annots sent ts dts).
Proof. reflexivity. Qed.
Lemma apl_annot : forall sent t dt, relab t dt -> ptree t -> apl (annot sent t dt) = label t /\ adec (annot sent t dt) = label dt.
Proof. intros sent t dt H HP. inversion H; subst; [inversion HP|]. now rewrite annot_node. Qed.
Lemma zip_options : forall sent ts dts, Forall2 relab ts dts -> (forall c, In c ts -> ptree c) -> zipwith options (map label ts) (map label dts) = map opt (annots sent ts dts).
Proof.
  intros sent ts dts F HP. induction F as [|t dt ts dts R F IH]; [reflexivity|]. cbn [map zipwith annots]. fold (annots sent). rewrite IH by (intros; apply HP; now right). f_equal.
  unfold opt. destruct (apl_annot sent t dt R) as [-> ->]; [apply HP; now left|]. reflexivity.
Qed.
Lemma allrules_ok : forall sent t dt, ptree t -> words t sent -> relab t dt ->
  allrules (map (prodof sent) (nodes t)) (map (prodof sent) (nodes dt)) = Some (flat_map rulesv (anodes (annot sent t dt))).
Proof.
  intros sent t. induction t as [a|l ts IH] using tree_ind'; intros dt HP HW H; [inversion HP|]. inversion H as [|? dl ? dts F]; subst.
  assert (HPd := relab_ptree _ _ H HP). assert (HWd : words (Node dl dts) sent) by (intros a Ha; apply HW; rewrite (relab_leaves _ _ H) in Ha; exact Ha).
  assert (R : rulesof (prodof sent (Node l ts)) (prodof sent (Node dl dts)) = Some (rulesv (annot sent (Node l ts) (Node dl dts)))).
  { unfold rulesof. rewrite (astuple_prodof _ _ _ HP HW), (astuple_prodof _ _ _ HPd HWd), (inf_relab sent ts dts F), (proj2 (pvar_eqb_eq _ _) eq_refl). rewrite annot_node. unfold rulesv. cbn [ainf]. f_equal. f_equal. rewrite cartpi_cart. f_equal.
    cbn [zipwith]. unfold opt at 1. cbn [apl adec]. f_equal. unfold kidsyms. cbn [ainf akids]. unfold syms. destruct (isleaves ts) eqn:E.
    - rewrite (isleaves_relab _ _ F), E.
      cbn. destruct ts as [|[a|] [|]]; try discriminate. reflexivity.
    - rewrite (isleaves_relab _ _ F), E.
      destruct (ptree_isleaves l ts HP E) as [NE HC]. assert (I0 : exists yf, inf sent ts = PYf yf) by (clear - E; unfold inf; destruct ts as [|[a|] [|]]; try discriminate; eexists; reflexivity). destruct I0 as [yf ->]. now apply zip_options. }
  cbn [nodes map allrules]. rewrite R, annot_node. cbn [anodes flat_map]. rewrite <- annot_node.
  assert (K : allrules (map (prodof sent) (flat_map nodes ts)) (map (prodof sent) (flat_map nodes dts)) = Some (flat_map rulesv (flat_map anodes (if isleaves ts then [] else annots sent ts dts)))); [|now rewrite K].
  clear R. destruct (isleaves ts) eqn:E.
  - destruct ts as [|[a|] [|]]; try discriminate. inversion F as [|? ? ? ? R F']; subst. inversion F'; subst. inversion R; subst. reflexivity.
  - destruct (ptree_isleaves l ts HP E) as [_ HC]. assert (HWs : forall c, In c ts -> words c sent) by (intros c Hc a Ha; apply HW; cbn [leaves]; apply in_flat_map; exists c; auto).
    clear - F IH HC HWs. induction F as [|t dt ts dts R F IHF]; [reflexivity|]. inversion IH as [|? ? I1 I2]; subst. cbn [flat_map annots]. fold (annots sent). rewrite !map_app, allrules_app by (rewrite !map_length; symmetry; now apply relab_nodes_length).
    rewrite (I1 dt (HC t (or_introl eq_refl)) (HWs t (or_introl eq_refl)) R). rewrite (IHF I2 (fun c Hc => HC c (or_intror Hc)) (fun c Hc => HWs c (or_intror Hc))). now rewrite flat_map_app.
Qed.

(** ---- nodefreq ---- *)
Definition sumfor (A : pystr) (l : list atree) : N := nsum (map nf (filter (fun v => eqs (apl v) A) l)).
Definition cnt (f : atree -> pystr) (X : pystr) (l : list atree) : N := N.of_nat (length (filter (fun v => eqs (f v) X) l)).
Definition updates (fd fd' : dict) (nt nt' : dict) (l : list atree) : Prop :=
  (forall A, addressed A = false -> fd' A = (fd A + sumfor A l)%N) /\
  (forall X k, addressed X = true -> (forall v, In v l -> adec v = X -> nf v = k) -> fd X = k \/ (exists v, In v l /\ adec v = X) -> fd' X = k) /\
  (forall X, nt' X = (nt X + cnt apl X l + cnt adec X l)%N).
Lemma sumfor_app : forall A a b, sumfor A (a ++ b) = (sumfor A a + sumfor A b)%N.
Proof. intros. unfold sumfor. now rewrite filter_app, map_app, nsum_app. Qed.
Lemma cnt_app : forall f X a b, cnt f X (a ++ b) = (cnt f X a + cnt f X b)%N.
Proof. intros. unfold cnt. rewrite filter_app, app_length. lia. Qed.
Lemma cnt_cons : forall f X v l, cnt f X (v :: l) = ((if eqs (f v) X then 1 else 0) + cnt f X l)%N.
Proof. intros. unfold cnt. cbn [filter]. destruct (eqs (f v) X); cbn [length]; lia. Qed.
Lemma eqs_sym : forall a b, eqs a b = eqs b a.
Proof. intros a b. destruct (eqs a b) eqn:E; symmetry; [apply eqs_eq in E; subst; apply eqs_refl|]. apply eqs_neq. apply eqs_neq in E. congruence. Qed.
Lemma updates_trans : forall f0 f1 f2 n0 n1 n2 a b, updates f0 f1 n0 n1 a -> updates f1 f2 n1 n2 b -> updates f0 f2 n0 n2 (a ++ b).
Proof.
  intros f0 f1 f2 n0 n1 n2 a b (A1 & B1 & C1) (A2 & B2 & C2). split; [|split].
  - intros A H. rewrite A2, A1, sumfor_app by auto. lia.
  - intros X k HX Hv [E|(v & Hin & E)].
    + apply B2; auto; [intros v Hv'; apply Hv; apply in_or_app; auto|]. left. apply B1; auto. intros v Hv'; apply Hv; apply in_or_app; auto.
    + assert (Hb : forall v, In v b -> adec v = X -> nf v = k) by (intros u Hu; apply Hv; apply in_or_app; auto).
      assert (Ha : forall v, In v a -> adec v = X -> nf v = k) by (intros u Hu; apply Hv; apply in_or_app; auto).
      apply in_app_or in Hin. destruct Hin as [Hin|Hin]; apply B2; auto; [left; apply B1; auto; right; eauto|right; eauto].
  - intros X. rewrite C2, C1, !cnt_app. lia.
Qed.
Lemma freqlist_acc : forall ts dts n fd nt, freqlist ts dts n fd nt = let '(m, fd', nt') := freqlist ts dts 1 fd nt in ((n * m)%N, fd', nt').
Proof.
  induction ts as [|t ts IH]; intros [|d dts] n fd nt; cbn [freqlist]; try (now rewrite N.mul_1_r).
  destruct (nodefreq t d fd nt) as [[m fd'] nt']. rewrite IH, (IH dts (1 * (m + 1))%N). destruct (freqlist ts dts 1 fd' nt') as [[q fd''] nt'']. f_equal. f_equal. lia.
Qed.
Lemma nodefreq_ok : forall sent t dt fd nt n fd' nt', ptree t -> relab t dt -> (forall v, In v (nodes t) -> addressed (label v) = false) -> (forall v, In v (anodes (annot sent t dt)) -> adec v = apl v \/ addressed (adec v) = true) ->
  nodefreq t dt fd nt = (n, fd', nt') -> n = nf (annot sent t dt) /\ updates fd fd' nt nt' (anodes (annot sent t dt)).
Proof.
  intros sent t. induction t as [a|l ts IH] using tree_ind'; intros dt fd nt n fd' nt' HP H HL HD E; [inversion HP|]. inversion H as [|? dl ? dts F]; subst.
  cbn [nodefreq] in E. set (nt0 := dadd dl 1 (dadd l 1 nt)) in E.
  set (v := annot sent (Node l ts) (Node dl dts)) in *.
  assert (Ev : v = Node (l, dl, inf sent ts) (akids v)) by reflexivity.
  assert (K : exists m fd1 nt1, (match ts with Node _ _ :: _ => freqlist ts dts 1 fd nt0 | _ => (1%N, fd, nt0) end) = (m, fd1, nt1) /\ m = nf v /\ updates fd fd1 nt0 nt1 (flat_map anodes (akids v))).
  { destruct (isleaves ts) eqn:EL.
    - assert (Ek : akids v = []) by (unfold v; rewrite annot_node; rewrite EL; reflexivity). rewrite nf_eta, Ek. destruct ts as [|[a|] [|]]; try discriminate. exists 1%N, fd, nt0. repeat split; auto.
      + intros A HA. unfold sumfor. cbn. lia.
      + intros X k HX Hk [|(u & [] & _)]; auto.
      + intros X. unfold cnt. cbn. lia.
    - destruct (ptree_isleaves l ts HP EL) as [NE HC]. assert (Ek : akids v = annots sent ts dts) by (unfold v; rewrite annot_node; rewrite EL; reflexivity).
      assert (T : (match ts with Node _ _ :: _ => freqlist ts dts 1 fd nt0 | _ => (1%N, fd, nt0) end) = freqlist ts dts 1 fd nt0).
      { destruct ts as [|[a|] ts]; [congruence| |reflexivity]. specialize (HC (Leaf a) (or_introl eq_refl)). inversion HC. }
      rewrite T, nf_eta. assert (HD' : forall u, In u (flat_map anodes (akids v)) -> adec u = apl u \/ addressed (adec u) = true) by (intros u Hu; apply HD; rewrite Ev; cbn [anodes]; now right). rewrite Ek in *. clear T NE Ek Ev.
      assert (HL' : forall c, In c ts -> forall u, In u (nodes c) -> addressed (label u) = false) by (intros c Hc u Hu; apply HL; cbn [nodes]; right; apply in_flat_map; eauto). clearbody nt0.
      clear - F IH HC HD' HL'. revert fd nt0. induction F as [|t dt ts dts R F IHF]; intros fd nt0.
      + exists 1%N, fd, nt0. repeat split; auto; [intros A HA; unfold sumfor; cbn; lia|intros X k HX Hk [|(u & [] & _)]; auto|intros X; unfold cnt; cbn; lia].
      + inversion IH as [|? ? I1 I2]; subst. cbn [freqlist]. destruct (nodefreq t dt fd nt0) as [[m f1] n1] eqn:E1. cbn [annots flat_map] in HD'. fold (annots sent) in HD'.
        destruct (I1 dt fd nt0 m f1 n1) as [Em U1]; [apply HC; now left|auto|apply HL'; now left|intros u Hu; apply HD'; apply in_or_app; now left|exact E1|].
        destruct (IHF I2) with (fd := f1) (nt0 := n1) as (q & f2 & n2 & Eq & Emq & U2); [intros; apply HC; now right|intros u Hu; apply HD'; apply in_or_app; now right|intros; eapply HL'; eauto; now right|].
        exists ((1 * (m + 1)) * q)%N, f2, n2. split; [rewrite freqlist_acc, Eq; reflexivity|]. split.
        * cbn [annots map]. fold (annots sent). rewrite nprod_cons, <- Em, <- Emq. lia.
        * cbn [annots flat_map]. fold (annots sent). eapply updates_trans; eauto. }
  destruct K as (m & fd1 & nt1 & Ek & Em & (UA & UB & UC)). unfold freqlist in Ek. rewrite Ek in E. injection E as <- <- <-. split; auto.
  assert (Ll : addressed l = false) by (apply (HL (Node l ts)); cbn; auto).
  assert (An : anodes v = v :: flat_map anodes (akids v)) by (rewrite Ev at 1; cbn [anodes]; now rewrite <- Ev).
  assert (Dl : dl = l \/ addressed dl = true) by (apply (HD v); rewrite An; now left). rewrite An. split; [|split].
  - intros A HA. unfold sumfor. cbn [filter]. change (apl v) with l. fold (sumfor A (flat_map anodes (akids v))).
    assert (X0 : (if eqs dl l then dadd l m fd1 else dset dl m (dadd l m fd1)) A = dadd l m fd1 A).
    { destruct (eqs dl l) eqn:E0; auto. unfold dset. destruct (eqs A dl) eqn:E1; auto. apply eqs_eq in E1. subst. apply eqs_neq in E0. destruct Dl; congruence. }
    rewrite X0. unfold dadd. rewrite UA by auto. rewrite (eqs_sym l A). destruct (eqs A l); cbn [map]; rewrite ?nsum_cons; fold (sumfor A (flat_map anodes (akids v))); unfold sumfor; lia.
  - intros X k HX Hk Hex. assert (Xl : eqs X l = false) by (apply eqs_neq; intros ->; congruence).
    assert (X0 : eqs X dl = true -> (if eqs dl l then dadd l m fd1 else dset dl m (dadd l m fd1)) X = m).
    { intros E1. apply eqs_eq in E1. subst X. rewrite Xl. unfold dset. now rewrite eqs_refl. }
    destruct (eqs X dl) eqn:E1.
    + rewrite X0 by auto. apply eqs_eq in E1. subst m. apply Hk; [now left|]. change (adec v) with dl. auto.
    + assert (X1 : (if eqs dl l then dadd l m fd1 else dset dl m (dadd l m fd1)) X = fd1 X) by (destruct (eqs dl l); unfold dset, dadd; rewrite ?E1, Xl; reflexivity).
      rewrite X1. apply UB; auto; [intros u Hu; apply Hk; now right|]. destruct Hex as [|(u & [Hu|Hu] & Eu)]; eauto. subst u. change (adec v) with dl in Eu. apply eqs_neq in E1. congruence.
  - intros X. rewrite UC, !cnt_cons. change (apl v) with l. change (adec v) with dl. unfold nt0, dadd. rewrite (eqs_sym l X), (eqs_sym dl X). destruct (eqs X l), (eqs X dl); lia.
Qed.

(** ---- fragments of the tree and of the annotated tree ---- *)
Lemma fragments_annot : forall sent t dt, ptree t -> words t sent -> relab t dt -> fragments sent t = afrags (annot sent t dt).
Proof.
  intros sent t. induction t as [a|l ts IH] using tree_ind'; intros dt HP HW H; [inversion HP|]. inversion H as [|? dl ? dts F]; subst. rewrite annot_node. cbn [afrags]. destruct (isleaves ts) eqn:E.
  - destruct ts as [|[a|] [|]]; try discriminate. cbn [fragments]. destruct (HW a) as [w Ew]; [cbn; auto|]. rewrite Ew. cbn. unfold word_at. now rewrite Ew.
  - destruct (ptree_isleaves l ts HP E) as [NE HC].
    assert (Y : exists yf, yieldfunction ts = Some yf).
    { apply yieldfunction_some. destruct ts as [|c ts]; [congruence|]. cbn [flat_map]. intros X. apply app_eq_nil in X. destruct X as [X _]. apply (ptree_leaves c); auto. apply HC. now left. }
    destruct Y as [yf Y]. assert (I0 : inf sent ts = PYf yf) by (unfold inf; destruct ts as [|[a|] [|]]; try discriminate; rewrite Y; reflexivity).
    assert (T : fragments sent (Node l ts) = map (Node (l, PYf yf)) (cart (map (fun c => Leaf (label c) :: fragments sent c) ts))).
    { cbn [fragments]. rewrite Y. destruct ts as [|[a|] [|]]; try discriminate; reflexivity. }
    rewrite T, I0. f_equal. f_equal. assert (HWs : forall c, In c ts -> words c sent) by (intros c Hc a Ha; apply HW; cbn [leaves]; apply in_flat_map; exists c; auto).
    clear - F IH HC HWs. induction F as [|t dt ts dts R F IHF]; [reflexivity|]. inversion IH as [|? ? I1 I2]; subst. cbn [map annots]. fold (annots sent). rewrite <- (IHF I2 (fun c Hc => HC c (or_intror Hc)) (fun c Hc => HWs c (or_intror Hc))).
    rewrite <- (I1 dt (HC t (or_introl eq_refl)) (HWs t (or_introl eq_refl)) R). destruct (apl_annot sent t dt R) as [-> _]; [apply HC; now left|]. reflexivity.
Qed.
Lemma bag_annot : forall sent A t dt, ptree t -> words t sent -> relab t dt ->
  flat_map (fragments sent) (filter (fun v => eqs (label v) A) (nodes t)) = flat_map afrags (filter (fun v => eqs (apl v) A) (anodes (annot sent t dt))).
Proof.
  intros sent A t. induction t as [a|l ts IH] using tree_ind'; intros dt HP HW H; [inversion HP|]. assert (FR := fragments_annot sent _ _ HP HW H). inversion H as [|? dl ? dts F]; subst. rewrite annot_node in FR |- *. cbn [anodes nodes filter label apl].
  assert (K : flat_map (fragments sent) (filter (fun v => eqs (label v) A) (flat_map nodes ts)) = flat_map afrags (filter (fun v => eqs (apl v) A) (flat_map anodes (if isleaves ts then [] else annots sent ts dts)))).
  { destruct (isleaves ts) eqn:E; [destruct ts as [|[a|] [|]]; try discriminate; reflexivity|]. destruct (ptree_isleaves l ts HP E) as [_ HC].
    assert (HWs : forall c, In c ts -> words c sent) by (intros c Hc a Ha; apply HW; cbn [leaves]; apply in_flat_map; exists c; auto).
    clear - F IH HC HWs. induction F as [|t dt ts dts R F IHF]; [reflexivity|]. inversion IH as [|? ? I1 I2]; subst. cbn [annots flat_map]. fold (annots sent). rewrite !filter_app, !flat_map_app. f_equal.
    - exact (I1 dt (HC t (or_introl eq_refl)) (HWs t (or_introl eq_refl)) R).
    - exact (IHF I2 (fun c Hc => HC c (or_intror Hc)) (fun c Hc => HWs c (or_intror Hc))). }
  destruct (eqs l A); cbn [flat_map]; [f_equal; auto|auto].
Qed.
