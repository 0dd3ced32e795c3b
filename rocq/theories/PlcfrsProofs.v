(** Proofs about the model of the LCFRS parser: Knuth's algorithm. *)
From Coq Require Import List Bool Arith NArith Lia Permutation.
From Verif Require Import BitsModel ConcatModel PlcfrsModel PlcfrsSpec.
Import ListNotations.
Open Scope list_scope.
Open Scope nat_scope.

Lemma lt2_spec : forall a b, lt2 a b = true <-> (fst a < fst b)%N \/ (fst a = fst b /\ (snd a < snd b)%N).
Proof.
  intros [a a'] [b b']. unfold lt2. cbn [fst snd]. rewrite orb_true_iff, andb_true_iff, N.ltb_lt, N.eqb_eq, N.ltb_lt. reflexivity.
Qed.
Lemma lt2_false : forall a b, lt2 a b = false <-> (fst b < fst a)%N \/ (fst a = fst b /\ (snd b <= snd a)%N).
Proof.
  intros a b. destruct (lt2 a b) eqn:E; split; intros H; auto; try discriminate.
  - apply lt2_spec in E. lia.
  - assert (~ ((fst a < fst b)%N \/ (fst a = fst b /\ (snd a < snd b)%N))).
    { intros X. apply lt2_spec in X. congruence. } lia.
Qed.

Section Proofs.
Variable vec : Type.
Variable veqb : vec -> vec -> bool.
Variable vconcat : yfenc -> vec -> vec -> bool.
Variable vcombine : vec -> vec -> vec.
Variable vcount : vec -> N.
Variable vsingle : nat -> vec.
Variable vltb : vec -> vec -> bool.
Variable wl : item vec -> bool.
Variable maxlog : N.
Variable rules : list prule.
Variable mask : nat -> bool.
Variable goal : item vec.
Variable sent : list word.
Variable good : vec -> Prop.

Hypothesis veqb_ok : forall a b, veqb a b = true <-> a = b.
Hypothesis single_good : forall i, i < length sent -> good (vsingle i).
Hypothesis single_inj : forall i j, i < length sent -> j < length sent -> vsingle i = vsingle j -> i = j.
Hypothesis combine_good : forall e l r, good l -> good r -> vconcat e l r = true ->
  good (vcombine l r) /\ (vcount l <= vcount (vcombine l r))%N /\ (vcount r <= vcount (vcombine l r))%N /\
  forall i, i < length sent -> vcombine l r <> vsingle i.
Hypothesis no_self : forall e v, good v -> vconcat e v v = false.
Hypothesis combine_inj : forall e e' l r r', good l -> good r -> good r' -> vconcat e l r = true -> vconcat e' l r' = true ->
  vcombine l r = vcombine l r' -> r = r'.

Hypothesis goal_alone : forall e v, good v -> vconcat e (snd goal) v = false /\ vconcat e v (snd goal) = false.

Notation item := (item vec).
Notation edge := (edge vec).
Notation chart := (chart vec).
Notation ieqb := (ieqb vec veqb).
Notation amem := (amem vec veqb).
Notation aget := (aget vec veqb).
Notation aput := (aput vec veqb).
Notation iput := (iput vec veqb).
Notation probs := (probs vec).
Notation forest := (forest vec).
Notation agenda := (agenda vec).
Notation index := (index vec).
Notation process_edge := (process_edge vec veqb vltb wl).
Notation edge_of := (edge_of vec).
Notation lexedge := (lexedge vec).

Definition cjoin (yf : list (list bool)) (l r v : vec) : Prop := vconcat (getyf yf) l r = true /\ v = vcombine l r.
Definition callowed (x : nat) (v : vec) : Prop := wl (x, v) = true.
Notation tagged := (tagged vec vsingle callowed sent).
Notation derives := (derives vec vsingle cjoin callowed rules mask (not_goal goal) sent).
Notation usable := (usable rules mask).

Hypothesis rules_nodup : NoDup rules.
Hypothesis gold_nodup : Forall (fun w => NoDup (goldlabels w)) sent.
Hypothesis tags_lexical : forall i x c r, tagged i x c -> usable r -> prhs2 r = 0 -> plhs r <> x.

Lemma ieqb_ok : forall a b, ieqb a b = true <-> a = b.
Proof.
  intros [a a'] [b b']. unfold PlcfrsModel.ieqb. cbn [fst snd]. rewrite andb_true_iff, Nat.eqb_eq, veqb_ok.
  split; [intros [-> ->]; reflexivity|]. intros E. now inversion E.
Qed.
Lemma ieqb_refl : forall a, ieqb a a = true.
Proof. intros a. now apply ieqb_ok. Qed.
Lemma ieqb_neq : forall a b, a <> b -> ieqb a b = false.
Proof. intros a b H. destruct (ieqb a b) eqn:E; auto. apply ieqb_ok in E. contradiction. Qed.
Lemma item_dec : forall a b : item, {a = b} + {a <> b}.
Proof. intros a b. destruct (ieqb a b) eqn:E; [left; now apply ieqb_ok|right]. intros ->. rewrite ieqb_refl in E. discriminate. Qed.
Lemma iput_same : forall X (f : item -> X) it x, iput f it x it = x.
Proof. intros. unfold PlcfrsModel.iput. now rewrite ieqb_refl. Qed.
Lemma iput_other : forall X (f : item -> X) it x u, u <> it -> iput f it x u = f u.
Proof. intros. unfold PlcfrsModel.iput. now rewrite ieqb_neq. Qed.

(** ** the agenda as an association list *)
Lemma aget_in : forall a k v, NoDup (map fst a) -> (aget a k = Some v <-> In (k, v) a).
Proof.
  induction a as [|[k' v'] a IH]; intros k v ND; cbn [PlcfrsModel.aget]; [split; [discriminate|intros []]|].
  cbn [map fst] in ND. inversion ND as [|? ? HN ND']; subst. destruct (ieqb k k') eqn:E.
  - apply ieqb_ok in E. subst k'. split.
    + intros H. inversion H. now left.
    + intros [H|H]; [now inversion H|]. exfalso. apply HN. apply in_map_iff. exists (k, v). auto.
  - rewrite IH by exact ND'. split; [now right|]. intros [H|H]; auto. inversion H; subst. rewrite ieqb_refl in E. discriminate.
Qed.
Lemma aget_none : forall a k, aget a k = None <-> ~ In k (map fst a).
Proof.
  induction a as [|[k' v'] a IH]; intros k; cbn [PlcfrsModel.aget map fst]; [split; auto; intros _ []|].
  destruct (ieqb k k') eqn:E.
  - apply ieqb_ok in E. subst. split; [discriminate|]. intros H. exfalso. apply H. now left.
  - rewrite IH. split.
    + intros H [->|H']; [rewrite ieqb_refl in E; discriminate|auto].
    + intros H H'. apply H. now right.
Qed.
Lemma aput_keys : forall a k v, map fst (aput a k v) = if amem a k then map fst a else map fst a ++ [k].
Proof.
  unfold PlcfrsModel.amem. induction a as [|[k' v'] a IH]; intros k v; cbn [PlcfrsModel.aput PlcfrsModel.aget map fst]; auto.
  destruct (ieqb k k') eqn:E.
  - apply ieqb_ok in E. subst. reflexivity.
  - cbn [map fst]. rewrite IH. destruct (aget a k); reflexivity.
Qed.
Lemma nodup_end : forall X (l : list X) x, NoDup l -> ~ In x l -> NoDup (l ++ [x]).
Proof. intros X l x N H. eapply Permutation_NoDup; [apply Permutation_cons_append|]. now constructor. Qed.
Lemma aput_nodup : forall a k v, NoDup (map fst a) -> NoDup (map fst (aput a k v)).
Proof.
  intros a k v ND. rewrite aput_keys. unfold PlcfrsModel.amem. destruct (aget a k) eqn:E; auto.
  apply nodup_end; auto. now apply aget_none.
Qed.
Lemma aget_aput : forall a k v u, aget (aput a k v) u = if ieqb u k then Some v else aget a u.
Proof.
  induction a as [|[k' v'] a IH]; intros k v u; cbn [PlcfrsModel.aput PlcfrsModel.aget]; auto.
  destruct (ieqb k k') eqn:E; cbn [PlcfrsModel.aget].
  - apply ieqb_ok in E. subst. destruct (ieqb u k'); auto.
  - rewrite IH. destruct (ieqb u k') eqn:E1; auto. destruct (ieqb u k) eqn:E2; auto.
    apply ieqb_ok in E1, E2. subst. rewrite ieqb_refl in E. discriminate.
Qed.
Lemma amem_in : forall a k, amem a k = true <-> In k (map fst a).
Proof.
  intros a k. unfold PlcfrsModel.amem. destruct (aget a k) eqn:E.
  - split; auto. intros _. destruct (in_dec item_dec k (map fst a)) as [H|H]; auto. apply aget_none in H. congruence.
  - split; [discriminate|]. intros H. now apply aget_none in E.
Qed.

(** ** derivations *)
Lemma tagged_range : forall i x c, tagged i x c -> i < length sent.
Proof. intros i x c [w E _ _|w E _ _ _]; apply nth_error_Some; congruence. Qed.
Lemma derives_good : forall x v c, derives x v c -> good v.
Proof.
  intros x v c D. induction D as [i x c T|r v c U E D IH|r v1 v2 v a b U E D1 IH1 G1 D2 IH2 G2 [J ->] A].
  - apply single_good. eapply tagged_range; eauto.
  - exact IH.
  - exact (proj1 (combine_good _ _ _ IH1 IH2 J)).
Qed.

(** The cost of an edge, given the probabilities of its daughters. *)
Inductive ecost (pi : item -> option N) : item -> edge -> N -> Prop :=
| ec_lex : forall i x c, tagged i x c -> ecost pi (x, vsingle i) (lexedge i) c
| ec_un : forall r v a, usable r -> prhs2 r = 0 -> not_goal goal (prhs1 r) v -> pi (prhs1 r, v) = Some a ->
    ecost pi (plhs r, v) (edge_of r v) (a + pprob r)
| ec_bin : forall r l u a b, usable r -> prhs2 r <> 0 -> not_goal goal (prhs1 r) l -> not_goal goal (prhs2 r) u ->
    pi (prhs1 r, l) = Some a -> pi (prhs2 r, u) = Some b -> vconcat (getyf (ryf r)) l u = true ->
    ecost pi (plhs r, vcombine l u) (edge_of r l) (a + b + pprob r).
Definition vld (it : item) (e : edge) : Prop := fst e = None \/ wl it = true.
Definition lexitem (it : item) : Prop := exists i c, snd it = vsingle i /\ tagged i (fst it) c.
(** the score of an item with probability p *)
Definition scored (it : item) (p s : N) : Prop :=
  (lexitem it /\ s = p) \/ (~ lexitem it /\ s = (p + vcount (snd it) * maxlog)%N).
Definition sound (pi : item -> option N) : Prop := forall x v p, pi (x, v) = Some p ->
  derives x v p /\ forall c, derives x v c -> (p <= c)%N.

Lemma first_entry_unique : forall l x c d, first_entry l x c -> first_entry l x d -> c = d.
Proof.
  intros l x c d (l1 & l2 & E & N1) (m1 & m2 & E' & N2). subst l. revert m1 m2 E' N1 N2.
  induction l1 as [|y l1 IH]; intros [|z m1] m2 E' N1 N2; cbn in E'; inversion E'; subst; auto.
  - exfalso. apply (N2 c). now left.
  - exfalso. apply (N1 d). now left.
  - apply (IH m1 m2); auto; intros d' H; [apply (N1 d')|apply (N2 d')]; now right.
Qed.
Lemma first_entry_in : forall l x c, first_entry l x c -> In (x, c) l.
Proof. intros l x c (l1 & l2 & -> & _). apply in_elt. Qed.
Lemma tagged_unique : forall i x c d, tagged i x c -> tagged i x d -> c = d.
Proof.
  intros i x c d [w E F A|w E F G ->] [w' E' F' A'|w' E' F' G' ->]; auto; rewrite E in E'; inversion E'; subst w'.
  - eapply first_entry_unique; eauto.
  - exfalso. eapply F'; [eapply first_entry_in; eauto|auto].
  - exfalso. eapply F; [eapply first_entry_in; eauto|auto].
Qed.
Lemma not_lex_unary : forall r v, usable r -> prhs2 r = 0 -> ~ lexitem (plhs r, v).
Proof. intros r v U E (i & c & _ & T). cbn [fst] in T. now apply (tags_lexical i (plhs r) c r) in T. Qed.
Lemma not_lex_binary : forall x e l u, good l -> good u -> vconcat e l u = true -> ~ lexitem (x, vcombine l u).
Proof.
  intros x e l u Gl Gu C (i & c & E & T). cbn [fst snd] in *. destruct (combine_good e l u Gl Gu C) as (_ & _ & _ & H).
  apply (H i); auto. eapply tagged_range; eauto.
Qed.
Lemma sound_good : forall pi, sound pi -> forall x v p, pi (x, v) = Some p -> good v.
Proof. intros pi S0 x v p E. eapply derives_good. apply (S0 x v p E). Qed.
Lemma ecost_rule_not_lex : forall pi it e c, sound pi -> ecost pi it e c -> fst e <> None -> ~ lexitem it.
Proof.
  intros pi it e c S0 H NE. destruct H as [i x c T|r v a U E G P|r l u a b U E G1 G2 P1 P2 C].
  - exfalso. apply NE. reflexivity.
  - now apply not_lex_unary.
  - eapply not_lex_binary; eauto; eapply sound_good; eauto.
Qed.
Lemma ecost_fun : forall pi it e c d, sound pi -> ecost pi it e c -> ecost pi it e d -> c = d.
Proof.
  intros pi it e c d S0 H H'. destruct H as [i x c T|r v a U E G P|r l u a b U E G1 G2 P1 P2 C]; inversion H'; subst.
  - assert (i0 = i) by lia. subst i0. eapply tagged_unique; eauto.
  - congruence.
  - contradiction.
  - contradiction.
  - assert (E1 : u0 = u).
    { eapply (combine_inj (getyf (ryf r)) (getyf (ryf r)) l u0 u); eauto; eapply sound_good; eauto. }
    subst u0. congruence.
Qed.
Lemma ecost_derives : forall pi x v e c, sound pi -> ecost pi (x, v) e c -> vld (x, v) e -> derives x v c.
Proof.
  intros pi x v e c S0 H V. inversion H as [i x' c' T|r v' a U E G P|r l u a b U E G1 G2 P1 P2 C]; subst.
  - constructor. assumption.
  - destruct V as [V|V]; [discriminate|]. rewrite N.add_comm. constructor; auto. now apply S0.
  - destruct V as [V|V]; [discriminate|]. replace (a + b + pprob r)%N with (pprob r + a + b)%N by lia.
    apply (d_binary _ _ _ _ _ _ _ _ r l u (vcombine l u) a b); auto; try (now apply S0). now split.
Qed.
Lemma ecost_ext : forall pi pi' it e c, (forall u p, pi u = Some p -> pi' u = Some p) -> ecost pi it e c -> ecost pi' it e c.
Proof. intros pi pi' it e c H [i x c' T|r v a U E G P|r l u a b U E G1 G2 P1 P2 C]; constructor; auto. Qed.

(** ** the invariant *)
Record Mid (ch : chart) : Prop := MkMid {
  m_forest : forall it e, In e (forest ch it) -> vld it e /\ exists c, ecost (probs ch) it e c;
  m_once : forall it, NoDup (forest ch it);
  m_keys : NoDup (map fst (agenda ch));
  m_agenda : forall it s p, In (it, (s, p)) (agenda ch) ->
    probs ch it = None /\ scored it p s /\
    (exists e, In e (forest ch it) /\ ecost (probs ch) it e p) /\
    (forall e c, In e (forest ch it) -> ecost (probs ch) it e c -> (p <= c)%N);
  m_where : forall it, forest ch it <> [] -> probs ch it <> None \/ In it (map fst (agenda ch));
  m_popped : forall it, probs ch it <> None -> forest ch it <> [];
  m_sound : sound (probs ch);
  m_index : NoDup (index ch);
  m_indexed : forall it, probs ch it <> None \/ In it (map fst (agenda ch)) -> In it (index ch)
}.

Notation iinsert := (iinsert vec veqb vltb).
Lemma iinsert_in : forall it l u, In u (PlcfrsModel.iinsert vec vltb it l) <-> u = it \/ In u l.
Proof.
  induction l as [|y l IH]; intros u; cbn [PlcfrsModel.iinsert].
  - cbn. intuition.
  - destruct (iltb vec vltb it y); cbn [In]; [intuition|]. rewrite IH. intuition.
Qed.
Lemma iinsert_nodup : forall it l, NoDup l -> ~ In it l -> NoDup (PlcfrsModel.iinsert vec vltb it l).
Proof.
  induction l as [|y l IH]; intros ND H; cbn [PlcfrsModel.iinsert].
  - constructor; auto.
  - destruct (iltb vec vltb it y); [constructor; auto|]. inversion ND; subst. constructor.
    + rewrite iinsert_in. intros [->|X]; auto. apply H. now left.
    + apply IH; auto. intros X. apply H. now right.
Qed.
Notation addindex := (addindex vec veqb vltb).
Lemma addindex_in : forall ch it u, In u (index (addindex ch it)) <-> u = it \/ In u (index ch).
Proof.
  intros ch it u. unfold PlcfrsModel.addindex. destruct (existsb (ieqb it) (index ch)) eqn:E.
  - split; auto. intros [->|H]; auto. apply existsb_exists in E. destruct E as (y & H & E). apply ieqb_ok in E. now subst.
  - cbn [PlcfrsModel.index]. apply iinsert_in.
Qed.
Lemma addindex_nodup : forall ch it, NoDup (index ch) -> NoDup (index (addindex ch it)).
Proof.
  intros ch it ND. unfold PlcfrsModel.addindex. destruct (existsb (ieqb it) (index ch)) eqn:E; auto.
  cbn [PlcfrsModel.index]. apply iinsert_nodup; auto. intros H. assert (existsb (ieqb it) (index ch) = true).
  { apply existsb_exists. exists it. split; auto. apply ieqb_refl. } congruence.
Qed.
Lemma addindex_same : forall ch it, probs (addindex ch it) = probs ch /\ forest (addindex ch it) = forest ch /\ agenda (addindex ch it) = agenda ch.
Proof. intros ch it. unfold PlcfrsModel.addindex. destruct (existsb _ _); auto. Qed.

Lemma chart_eta : forall ch : chart, ch = Chart vec (index ch) (probs ch) (forest ch) (agenda ch).
Proof. intros [ix pr fo ag]. reflexivity. Qed.
(** one edge *)
Section Edge.
Variable ch : chart.
Variables (it : item) (c : N) (r : prule) (l : vec).
Hypothesis M : Mid ch.
Hypothesis EC : ecost (probs ch) it (edge_of r l) c.
Hypothesis NEW : ~ In (edge_of r l) (forest ch it).
Let sc := (c + vcount (snd it) * maxlog)%N.
Let ch' := process_edge ch it c sc r l.

Lemma edge_scored : scored it c sc.
Proof. right. split; auto. apply (ecost_rule_not_lex _ _ _ _ (m_sound ch M) EC); discriminate. Qed.
Lemma edge_blocked : wl it = false -> forest ch it = [] /\ amem (agenda ch) it = false.
Proof.
  intros W. assert (F : forest ch it = []).
  { destruct (forest ch it) as [|e es] eqn:E; auto. exfalso.
    destruct (m_forest ch M it e) as [[V|V] [d X]]; [rewrite E; now left| |congruence].
    assert (L : lexitem it).
    { inversion X; subst; cbn in V; try discriminate. exists i, d. auto. }
    revert L. apply (ecost_rule_not_lex _ _ _ _ (m_sound ch M) EC); discriminate. }
  split; auto. destruct (amem (agenda ch) it) eqn:A; auto. apply amem_in in A. apply in_map_iff in A.
  destruct A as ([k [s p]] & E & A). cbn in E. subst k. apply (m_agenda ch M) in A.
  destruct A as (_ & _ & (e & H & _) & _). rewrite F in H. destruct H.
Qed.

(** a version of the chart with the new edge and some agenda *)
Lemma mid_add : forall idx ag, wl it = true ->
  (forall u, In u (index ch) -> In u idx) -> NoDup idx -> In it idx ->
  NoDup (map fst ag) ->
  (forall u v, u <> it -> In (u, v) ag <-> In (u, v) (agenda ch)) ->
  (forall s p, In (it, (s, p)) ag -> probs ch it = None /\ scored it p s /\
      ((p = c \/ exists e, In e (forest ch it) /\ ecost (probs ch) it e p)) /\ (p <= c)%N /\
      (forall e d, In e (forest ch it) -> ecost (probs ch) it e d -> (p <= d)%N)) ->
  (probs ch it <> None \/ In it (map fst ag)) ->
  Mid (addedge vec veqb (Chart vec idx (probs ch) (forest ch) ag) it (edge_of r l)).
Proof.
  intros idx ag W SUB ND IN KEYS OTHER THIS WHERE.
  unfold PlcfrsModel.addedge. cbn [PlcfrsModel.index PlcfrsModel.probs PlcfrsModel.forest PlcfrsModel.agenda].
  assert (KO : forall u, u <> it -> (In u (map fst ag) <-> In u (map fst (agenda ch)))).
  { intros u Hu. rewrite !in_map_iff. split; intros ([k v] & E & H); cbn in E; subst k; exists (u, v); split; auto; apply OTHER; auto. }
  constructor; cbn [PlcfrsModel.index PlcfrsModel.probs PlcfrsModel.forest PlcfrsModel.agenda].
  - intros u e H. destruct (item_dec u it) as [->|Hu].
    + rewrite iput_same in H. apply in_app_iff in H. destruct H as [H|[<-|[]]]; [now apply (m_forest ch M)|].
      split; [now right|]. exists c. exact EC.
    + rewrite iput_other in H by auto. now apply (m_forest ch M).
  - intros u. destruct (item_dec u it) as [->|Hu]; [rewrite iput_same|rewrite iput_other by auto; apply (m_once ch M)].
    apply nodup_end; auto. apply (m_once ch M).
  - exact KEYS.
  - intros u s p H. destruct (item_dec u it) as [->|Hu].
    + destruct (THIS s p H) as (P & SC & ATT & LE & ALL). split; auto. split; auto. rewrite iput_same. split.
      * destruct ATT as [->|(e & H1 & H2)].
        -- exists (edge_of r l). split; [apply in_or_app; right; now left|exact EC].
        -- exists e. split; [apply in_or_app; now left|exact H2].
      * intros e d H1 H2. apply in_app_iff in H1. destruct H1 as [H1|[<-|[]]]; [eapply ALL; eauto|].
        rewrite (ecost_fun _ _ _ _ _ (m_sound ch M) H2 EC). exact LE.
    + rewrite iput_other by auto. apply (m_agenda ch M). now apply OTHER.
  - intros u H. destruct (item_dec u it) as [->|Hu]; auto. rewrite iput_other in H by auto.
    destruct (m_where ch M u H) as [X|X]; auto. right. now apply KO.
  - intros u H. destruct (item_dec u it) as [->|Hu]; [rewrite iput_same|rewrite iput_other by auto; now apply (m_popped ch M)].
    intros E. apply app_eq_nil in E. destruct E; discriminate.
  - apply (m_sound ch M).
  - exact ND.
  - intros u H. destruct (item_dec u it) as [->|Hu]; auto. apply SUB. apply (m_indexed ch M).
    destruct H as [H|H]; auto. right. now apply KO.
Qed.

Lemma process_edge_ok :
  Mid ch' /\ probs ch' = probs ch /\ (forall u, In u (index ch) -> In u (index ch')) /\
  forall u e, In e (forest ch' u) <-> In e (forest ch u) \/ (wl it = true /\ u = it /\ e = edge_of r l).
Proof.
  assert (FIN : forall chx, wl it = true -> Mid (addedge vec veqb chx it (edge_of r l)) -> probs chx = probs ch -> forest chx = forest ch ->
    (forall u, In u (index ch) -> In u (index chx)) ->
    let chy := addedge vec veqb chx it (edge_of r l) in
    Mid chy /\ probs chy = probs ch /\ (forall u, In u (index ch) -> In u (index chy)) /\
    forall u e, In e (forest chy u) <-> In e (forest ch u) \/ (wl it = true /\ u = it /\ e = edge_of r l)).
  { intros chx W M' P F X chy. subst chy. split; auto. split; auto. split; auto.
    intros u e. unfold PlcfrsModel.addedge. cbn [PlcfrsModel.forest]. rewrite F.
    destruct (item_dec u it) as [->|Hu]; [rewrite iput_same, in_app_iff|rewrite iput_other by auto].
    - split; [intros [H|[<-|[]]]; auto|]. intros [H|(_ & _ & ->)]; auto. right. now left.
    - split; auto. intros [H|(_ & H & _)]; auto. contradiction. }
  unfold ch', PlcfrsModel.process_edge.
  destruct (wl it) eqn:W.
  2:{ destruct (edge_blocked W) as [F A]. rewrite F, A. cbn [negb andb].
      split; auto. split; auto. split; auto. intros u e. split; auto. intros [H|(H & _)]; auto. discriminate. }
  assert (FC : forest ch it = [] \/ exists e0 es, forest ch it = e0 :: es) by (clear; destruct (forest ch it); eauto).
  destruct (amem (agenda ch) it) eqn:A; [|destruct FC as [F|(e0 & es & F)]; rewrite F]; cbn [negb andb].
  - (* in agenda *)
    pose proof A as A'. unfold PlcfrsModel.amem in A'. destruct (aget (agenda ch) it) as [[s0 p0]|] eqn:G; [clear A'|discriminate].
    pose proof (proj1 (aget_in _ _ _ (m_keys ch M)) G) as GI.
    destruct (m_agenda ch M _ _ _ GI) as (P & SC & ATT & ALL).
    pose proof edge_scored as NL. assert (LT : lt2 (sc, c) (s0, p0) = (c <? p0)%N).
    { destruct NL as [[Lx _]|[NLx Esc]]; [exfalso; revert Lx; apply (ecost_rule_not_lex _ _ _ _ (m_sound ch M) EC); discriminate|].
      destruct SC as [[Lx _]|[_ ES]]; [contradiction|]. unfold lt2. cbn [fst snd]. rewrite Esc, ES.
      destruct (c <? p0)%N eqn:B.
      - apply N.ltb_lt in B. replace (_ <? _)%N with true; auto. symmetry. apply N.ltb_lt. lia.
      - apply N.ltb_ge in B. replace (c + vcount (snd it) * maxlog <? p0 + vcount (snd it) * maxlog)%N with false; [|symmetry; apply N.ltb_ge; lia].
        now rewrite andb_false_r. }
    unfold setifbetter. rewrite G, LT. destruct (c <? p0)%N eqn:B.
    + apply N.ltb_lt in B. apply (FIN (setitem vec veqb ch it (sc, c)) eq_refl); auto.
      unfold setitem. apply mid_add; auto; cbn [PlcfrsModel.agenda].
      * apply (m_index ch M).
      * apply (m_indexed ch M). right. now apply amem_in.
      * apply aput_nodup. apply (m_keys ch M).
      * intros u v Hu. rewrite <- !aget_in by (try apply aput_nodup; apply (m_keys ch M)). rewrite aget_aput, ieqb_neq by auto. reflexivity.
      * intros s p H. apply aget_in in H; [|apply aput_nodup; apply (m_keys ch M)]. rewrite aget_aput, ieqb_refl in H. inversion H; subst s p.
        split; auto. split; auto. split; auto. split; [lia|]. intros e d H1 H2. specialize (ALL e d H1 H2). lia.
      * right. apply amem_in. unfold PlcfrsModel.amem. now rewrite aget_aput, ieqb_refl.
    + apply N.ltb_ge in B. apply (FIN ch eq_refl); auto. refine (eq_ind_r (fun x => Mid (addedge vec veqb x it (edge_of r l))) _ (chart_eta ch)). apply mid_add; auto.
      * apply (m_index _ M).
      * apply (m_indexed _ M). right. now apply amem_in.
      * apply (m_keys _ M).
      * reflexivity.
      * intros s p H. apply (proj2 (aget_in _ _ _ (m_keys _ M))) in H. rewrite G in H. inversion H; subst s p.
        split; auto.
      * right. now apply amem_in.
  - (* new *)
    assert (AN : ~ In it (map fst (agenda ch))) by (intros X; apply amem_in in X; congruence).
    destruct (addindex_same ch it) as (E1 & E2 & E3).
    assert (PN : probs ch it = None).
    { destruct (probs ch it) as [p|] eqn:E; auto. exfalso. apply (m_popped ch M it); [congruence|exact F]. }
    apply (FIN (setitem vec veqb (addindex ch it) it (sc, c)) eq_refl); auto.
    + unfold setitem. rewrite E1, E2, E3. apply mid_add; auto.
      * intros u H. apply addindex_in. now right.
      * apply addindex_nodup. apply (m_index ch M).
      * apply addindex_in. now left.
      * apply aput_nodup. apply (m_keys ch M).
      * intros u v Hu. rewrite <- !aget_in by (try apply aput_nodup; apply (m_keys ch M)). rewrite aget_aput, ieqb_neq by auto. reflexivity.
      * intros s p H. apply aget_in in H; [|apply aput_nodup; apply (m_keys ch M)]. rewrite aget_aput, ieqb_refl in H. inversion H; subst s p.
        split; auto. split; [apply edge_scored|]. split; auto. split; [lia|]. rewrite F. intros e d [].
      * right. apply amem_in. unfold PlcfrsModel.amem. now rewrite aget_aput, ieqb_refl.
    + intros u H. apply addindex_in. now right.
  - (* in the chart *)
    assert (PS : exists q, probs ch it = Some q).
    { destruct (m_where ch M it) as [X|X]; [rewrite F; discriminate| |].
      - destruct (probs ch it) as [q|]; [now exists q|contradiction].
      - apply amem_in in X. congruence. }
    destruct PS as [q PQ]. assert (LE : (q <= c)%N).
    { destruct it as [x v]. apply (m_sound ch M x v q PQ). eapply ecost_derives; eauto; [apply M|now right]. }
    rewrite PQ. unfold ltp. replace (c <? q)%N with false by (symmetry; apply N.ltb_ge; exact LE).
    apply (FIN ch eq_refl); auto. refine (eq_ind_r (fun x => Mid (addedge vec veqb x it (edge_of r l))) _ (chart_eta ch)). apply mid_add; auto.
    + apply (m_index _ M).
    + apply (m_indexed _ M). left. congruence.
    + apply (m_keys _ M).
    + reflexivity.
    + intros s p H. exfalso. assert (amem (agenda ch) it = true); [|congruence]. apply amem_in. apply in_map_iff. exists (it, (s, p)). auto.
    + left. congruence.
Qed.
End Edge.

(** ** many edges *)
Definition cand := (prule * vec * vec * N)%type.
Definition tgt (k : cand) : item := let '(r, _, v, _) := k in (plhs r, v).
Definition edg (k : cand) : edge := let '(r, l, _, _) := k in edge_of r l.
Definition cst (k : cand) : N := let '(_, _, _, c) := k in c.
Definition pe (ch : chart) (k : cand) : chart :=
  let '(r, l, v, c) := k in process_edge ch (plhs r, v) c (c + vcount v * maxlog)%N r l.
Lemma fold_pe_ok : forall cs ch, Mid ch ->
  (forall k, In k cs -> ecost (probs ch) (tgt k) (edg k) (cst k)) -> NoDup cs ->
  (forall k, In k cs -> ~ In (edg k) (forest ch (tgt k))) ->
  Mid (fold_left pe cs ch) /\ probs (fold_left pe cs ch) = probs ch /\
  (forall u, In u (index ch) -> In u (index (fold_left pe cs ch))) /\
  forall u e, In e (forest (fold_left pe cs ch) u) <->
    In e (forest ch u) \/ (wl u = true /\ exists k, In k cs /\ tgt k = u /\ edg k = e).
Proof.
  induction cs as [|k cs IH]; intros ch M EC ND NEW.
  - cbn [fold_left]. split; auto. split; auto. split; auto. intros u e. split; auto.
    intros [H|(_ & k & [] & _)]; auto.
  - destruct k as [[[r l] v] c]. cbn [fold_left].
    assert (H1 := EC (r, l, v, c) (or_introl eq_refl)). cbn [tgt edg cst] in H1.
    assert (H2 := NEW (r, l, v, c) (or_introl eq_refl)). cbn [tgt edg cst] in H2.
    destruct (process_edge_ok ch (plhs r, v) c r l M H1 H2) as (M' & P' & X' & F').
    change (pe ch (r, l, v, c)) with (process_edge ch (plhs r, v) c (c + vcount (snd (plhs r, v)) * maxlog)%N r l).
    inversion ND as [|? ? HN ND']; subst.
    edestruct (IH _ M') as (M2 & P2 & X2 & F2).
    + intros k H. rewrite P'. apply EC. now right.
    + exact ND'.
    + intros k H. rewrite F'. intros [X|(_ & E1 & E2)]; [apply (NEW k); auto; now right|].
      apply HN. destruct k as [[[r' l'] v'] c']. cbn [tgt edg] in E1, E2. inversion E2; subst r' l'. inversion E1; subst v'.
      assert (E3 := EC (r, l, v, c') (or_intror H)). cbn [tgt edg cst] in E3.
      rewrite (ecost_fun _ _ _ _ _ (m_sound ch M) H1 E3). exact H.
    + split; [exact M2|]. split; [congruence|]. split; [auto|]. intros u e. rewrite F2, F'. split.
      * intros [[H|(W & -> & ->)]|(W & k & H & E)]; auto.
        -- right. split; auto. exists (r, l, v, c). split; [now left|]. auto.
        -- right. split; auto. exists k. split; [now right|]. auto.
      * intros [H|(W & k & [<-|H] & E1 & E2)]; auto.
        -- left. right. cbn [tgt edg] in E1, E2. subst u e. auto.
        -- right. split; auto. exists k. auto.
Qed.

(** ** the candidates of an item *)
Definition keeps (f : chart -> chart) : Prop := forall ch, probs (f ch) = probs ch /\ forall u, In u (index ch) -> In u (index (f ch)).
Lemma process_edge_keeps : forall ch it c s r l,
  probs (process_edge ch it c s r l) = probs ch /\
  (forall u, In u (index ch) -> In u (index (process_edge ch it c s r l))) /\
  (NoDup (index ch) -> NoDup (index (process_edge ch it c s r l))).
Proof.
  intros ch it c s r l. unfold PlcfrsModel.process_edge.
  destruct (addindex_same ch it) as (E1 & E2 & E3).
  destruct (negb _ && negb _); [destruct (negb (wl it))|].
  - auto.
  - unfold PlcfrsModel.addedge, setitem. cbn [PlcfrsModel.probs PlcfrsModel.index]. split; auto. split.
    + intros u H. apply addindex_in. now right.
    + apply addindex_nodup.
  - destruct (amem _ _).
    + unfold PlcfrsModel.addedge, setifbetter, setitem. destruct (aget _ _); [destruct (lt2 _ _)|]; auto.
    + destruct (ltp _ _); auto.
Qed.
Lemma pe_keeps : forall cs ch, probs (fold_left pe cs ch) = probs ch /\
  (forall u, In u (index ch) -> In u (index (fold_left pe cs ch))) /\
  (NoDup (index ch) -> NoDup (index (fold_left pe cs ch))).
Proof.
  induction cs as [|[[[r l] v] c] cs IH]; intros ch; cbn [fold_left]; auto.
  destruct (IH (pe ch (r, l, v, c))) as (A & B & C). unfold pe in *.
  destruct (process_edge_keeps ch (plhs r, v) c (c + vcount v * maxlog)%N r l) as (A' & B' & C').
  split; [congruence|]. split; auto.
Qed.

Section Expand.
Variable it : item.
Variable p : N.
Variable pi : item -> option N.
Definition indexed (ch : chart) : Prop := probs ch = pi /\ NoDup (index ch) /\ forall u, pi u <> None -> In u (index ch).
Lemma pe_indexed : forall cs ch, indexed ch -> indexed (fold_left pe cs ch).
Proof.
  intros cs ch (A & B & C). destruct (pe_keeps cs ch) as (A' & B' & C').
  split; [congruence|]. split; auto.
Qed.
(** A loop over rules whose body is a fold over candidates. *)
Lemma rules_flat : forall (body : chart -> prule -> chart) (P : prule -> cand -> Prop),
  (forall r k, P r k -> fst (fst (fst k)) = r) ->
  (forall r ch, indexed ch -> exists cs, body ch r = fold_left pe cs ch /\ NoDup cs /\ forall k, In k cs <-> P r k) ->
  forall rs ch, indexed ch -> NoDup rs -> exists cs, fold_left body rs ch = fold_left pe cs ch /\ NoDup cs /\
    forall k, In k cs <-> exists r, In r rs /\ P r k.
Proof.
  intros body P HP HB. induction rs as [|r rs IH]; intros ch IX ND.
  - exists []. split; auto. split; [constructor|]. intros k. split; [intros []|intros (r & [] & _)].
  - inversion ND as [|? ? HN ND']; subst. destruct (HB r ch IX) as (cs & E & N1 & I1).
    destruct (IH (fold_left pe cs ch) (pe_indexed cs ch IX) ND') as (cs' & E' & N2 & I2).
    exists (cs ++ cs'). cbn [fold_left]. rewrite E, E', fold_left_app. split; auto. split.
    + assert (DJ : forall k, In k cs -> ~ In k cs').
      { intros k H1 H2. apply I1 in H1. apply I2 in H2. destruct H2 as (r' & H2 & H3).
        apply HP in H1. apply HP in H3. apply HN. congruence. }
      clear - N1 N2 DJ. induction cs as [|x cs IH]; auto. cbn. inversion N1; subst. constructor.
      * rewrite in_app_iff. intros [H|H]; auto. apply (DJ x); auto. now left.
      * apply IH; auto. intros k H. apply DJ. now right.
    + intros k. rewrite in_app_iff, I1, I2. split.
      * intros [H|(r' & H & H')]; [exists r; split; [now left|auto]|exists r'; split; [now right|auto]].
      * intros (r' & [<-|H] & H'); auto. right. exists r'. auto.
Qed.
(** A loop over siblings. *)
Lemma sibs_flat : forall (body : chart -> item -> chart) (mk : item -> option cand),
  (forall ch s, indexed ch -> body ch s = match mk s with Some k => pe ch k | None => ch end) ->
  (forall s s' k, mk s = Some k -> mk s' = Some k -> s = s') ->
  forall ss ch, indexed ch -> NoDup ss -> exists cs, fold_left body ss ch = fold_left pe cs ch /\ NoDup cs /\
    forall k, In k cs <-> exists s, In s ss /\ mk s = Some k.
Proof.
  intros body mk HB HI. induction ss as [|s ss IH]; intros ch IX ND.
  - exists []. split; auto. split; [constructor|]. intros k. split; [intros []|intros (r & [] & _)].
  - inversion ND as [|? ? HN ND']; subst. cbn [fold_left]. rewrite (HB ch s IX). destruct (mk s) as [k0|] eqn:E.
    + destruct (IH (pe ch k0) (pe_indexed [k0] ch IX) ND') as (cs & E' & N1 & I1).
      exists (k0 :: cs). split; [exact E'|]. split.
      * constructor; auto. rewrite I1. intros (s' & H & H'). apply HN. rewrite (HI s s' k0); auto.
      * intros k. cbn [In]. rewrite I1. split.
        -- intros [<-|(s' & H & H')]; [exists s; auto|exists s'; auto].
        -- intros (s' & [<-|H] & H'); [left; congruence|right; exists s'; auto].
    + destruct (IH ch IX ND') as (cs & E' & N1 & I1). exists cs. split; auto. split; auto.
      intros k. rewrite I1. split; intros (s' & H & H'); exists s'; [split; [now right|auto]|].
      destruct H as [<-|H]; [congruence|auto].
Qed.

Definition ucand (r : prule) (k : cand) : Prop := mask (pno r) = false /\ k = (r, snd it, snd it, (p + pprob r)%N).
Definition rcand (r : prule) (k : cand) : Prop := mask (pno r) = false /\ exists l q, pi (prhs1 r, l) = Some q /\
  vconcat (getyf (ryf r)) l (snd it) = true /\ k = (r, l, vcombine l (snd it), (p + q + pprob r)%N).
Definition lcand (r : prule) (k : cand) : Prop := mask (pno r) = false /\ exists u q, pi (prhs2 r, u) = Some q /\
  vconcat (getyf (ryf r)) (snd it) u = true /\ k = (r, snd it, vcombine (snd it) u, (p + q + pprob r)%N).
Hypothesis it_good : good (snd it).
Hypothesis pi_good : forall u q, pi u = Some q -> good (snd u).

Lemma unary_flat : forall r ch, indexed ch -> exists cs,
  unarystep vec veqb vcount vltb wl maxlog mask it p ch r = fold_left pe cs ch /\ NoDup cs /\ forall k, In k cs <-> ucand r k.
Proof.
  intros r ch IX. unfold unarystep, ucand. destruct (mask (pno r)).
  - exists []. split; auto. split; [constructor|]. intros k. split; [intros []|intros [H _]; discriminate].
  - exists [(r, snd it, snd it, (p + pprob r)%N)]. split; [reflexivity|]. split; [repeat constructor; auto|].
    intros k. cbn [In]. intuition.
Qed.
Lemma siblings_in : forall ch x u, In u (siblings vec ch x) <-> fst u = x /\ In u (index ch).
Proof. intros ch x u. unfold siblings. rewrite filter_In, Nat.eqb_eq. intuition. Qed.
Lemma right_flat : forall r ch, indexed ch -> exists cs,
  rightstep vec veqb vconcat vcombine vcount vltb wl maxlog mask it p ch r = fold_left pe cs ch /\ NoDup cs /\ forall k, In k cs <-> rcand r k.
Proof.
  intros r ch IX. unfold rightstep, rcand. destruct (mask (pno r)).
  - exists []. split; auto. split; [constructor|]. intros k. split; [intros []|intros [H _]; discriminate].
  - set (mk := fun s : item => if (fst s =? prhs1 r) && vconcat (getyf (ryf r)) (snd s) (snd it) then
        match pi s with Some q => Some (r, snd s, vcombine (snd s) (snd it), (p + q + pprob r)%N) | None => None end else None).
    pose proof IX as (IX1 & IX2 & IX3).
    assert (SUB : forall s, In s (siblings vec ch (prhs1 r)) -> fst s = prhs1 r) by (intros s H; now apply siblings_in in H).
    set (ss := siblings vec ch (prhs1 r)) in *.
    assert (NS : NoDup ss) by (apply NoDup_filter; exact IX2).
    set (body := fun ch' s => if fst s =? prhs1 r then rightsib vec veqb vconcat vcombine vcount vltb wl maxlog it p r ch' s else ch').
    assert (EB : forall ch', fold_left (rightsib vec veqb vconcat vcombine vcount vltb wl maxlog it p r) ss ch' = fold_left body ss ch').
    { revert SUB. clearbody ss. clear. intros SUB. induction ss as [|s ss IH]; intros ch'; auto. cbn [fold_left].
      rewrite IH by (intros; apply SUB; now right). f_equal. unfold body. rewrite (SUB s) by now left. now rewrite Nat.eqb_refl. }
    rewrite EB. destruct (sibs_flat body mk) with (ss := ss) (ch := ch) as (cs & E & N1 & I1); auto.
    + intros ch' s (P' & _ & _). unfold body, mk, rightsib. rewrite P'. destruct (fst s =? prhs1 r); auto.
      cbn [andb]. destruct (vconcat _ _ _); auto. destruct (pi s); auto.
    + intros [x s] [x' s'] k. unfold mk. cbn [fst snd].
      destruct (x =? prhs1 r) eqn:B; [|discriminate]. destruct (x' =? prhs1 r) eqn:B'; [|discriminate].
      cbn [andb]. destruct (vconcat _ s _); [|discriminate]. destruct (vconcat _ s' _); [|discriminate].
      destruct (pi (x, s)); [|discriminate]. destruct (pi (x', s')); [|discriminate].
      intros E1 E2. inversion E1; subst k. inversion E2; subst s'. apply Nat.eqb_eq in B, B'. congruence.
    + exists cs. split; auto. split; auto. intros k. rewrite I1. unfold mk. split.
      * intros ([x s] & H & E1). cbn [fst snd] in E1. destruct (x =? prhs1 r) eqn:B; [|discriminate]. cbn [andb] in E1.
        destruct (vconcat _ s _) eqn:C; [|discriminate]. destruct (pi (x, s)) as [q|] eqn:Q; [|discriminate].
        apply Nat.eqb_eq in B. subst x. split; auto. exists s, q. split; auto. split; auto. congruence.
      * intros (_ & l & q & Q & C & ->). exists (prhs1 r, l). split.
        -- apply siblings_in. split; auto. apply IX3. congruence.
        -- cbn [fst snd]. rewrite Nat.eqb_refl, C, Q. reflexivity.
Qed.
Lemma left_flat : forall r ch, indexed ch -> exists cs,
  leftstep vec veqb vconcat vcombine vcount vltb wl maxlog mask it p ch r = fold_left pe cs ch /\ NoDup cs /\ forall k, In k cs <-> lcand r k.
Proof.
  intros r ch IX. unfold leftstep, lcand. destruct (mask (pno r)).
  - exists []. split; auto. split; [constructor|]. intros k. split; [intros []|intros [H _]; discriminate].
  - set (mk := fun s : item => if (fst s =? prhs2 r) && vconcat (getyf (ryf r)) (snd it) (snd s) then
        match pi s with Some q => Some (r, snd it, vcombine (snd it) (snd s), (p + q + pprob r)%N) | None => None end else None).
    pose proof IX as (IX1 & IX2 & IX3).
    assert (SUB : forall s, In s (siblings vec ch (prhs2 r)) -> fst s = prhs2 r) by (intros s H; now apply siblings_in in H).
    set (ss := siblings vec ch (prhs2 r)) in *.
    assert (NS : NoDup ss) by (apply NoDup_filter; exact IX2).
    set (body := fun ch' s => if fst s =? prhs2 r then leftsib vec veqb vconcat vcombine vcount vltb wl maxlog it p r ch' s else ch').
    assert (EB : forall ch', fold_left (leftsib vec veqb vconcat vcombine vcount vltb wl maxlog it p r) ss ch' = fold_left body ss ch').
    { revert SUB. clearbody ss. clear. intros SUB. induction ss as [|s ss IH]; intros ch'; auto. cbn [fold_left].
      rewrite IH by (intros; apply SUB; now right). f_equal. unfold body. rewrite (SUB s) by now left. now rewrite Nat.eqb_refl. }
    rewrite EB. destruct (sibs_flat body mk) with (ss := ss) (ch := ch) as (cs & E & N1 & I1); auto.
    + intros ch' s (P' & _ & _). unfold body, mk, leftsib. rewrite P'. destruct (fst s =? prhs2 r); auto.
      cbn [andb]. destruct (vconcat _ _ _); auto. destruct (pi s); auto.
    + intros [x s] [x' s'] k. unfold mk. cbn [fst snd].
      destruct (x =? prhs2 r) eqn:B; [|discriminate]. destruct (x' =? prhs2 r) eqn:B'; [|discriminate].
      cbn [andb]. destruct (vconcat _ _ s) eqn:C1; [|discriminate]. destruct (vconcat _ _ s') eqn:C2; [|discriminate].
      destruct (pi (x, s)) eqn:Q1; [|discriminate]. destruct (pi (x', s')) eqn:Q2; [|discriminate].
      intros E1 E2. inversion E1; subst k. inversion E2. apply Nat.eqb_eq in B, B'.
      assert (s' = s); [|congruence]. eapply (combine_inj _ _ (snd it) s' s); eauto; [apply (pi_good _ _ Q2)|apply (pi_good _ _ Q1)].
    + exists cs. split; auto. split; auto. intros k. rewrite I1. unfold mk. split.
      * intros ([x s] & H & E1). cbn [fst snd] in E1. destruct (x =? prhs2 r) eqn:B; [|discriminate]. cbn [andb] in E1.
        destruct (vconcat _ _ s) eqn:C; [|discriminate]. destruct (pi (x, s)) as [q|] eqn:Q; [|discriminate].
        apply Nat.eqb_eq in B. subst x. split; auto. exists s, q. split; auto. split; auto. congruence.
      * intros (_ & l & q & Q & C & ->). exists (prhs2 r, l). split.
        -- apply siblings_in. split; auto. apply IX3. congruence.
        -- cbn [fst snd]. rewrite Nat.eqb_refl, C, Q. reflexivity.
Qed.

Definition newcand (k : cand) : Prop :=
  let '(r, l, v, c) := k in usable r /\
  ((prhs2 r = 0 /\ prhs1 r = fst it /\ l = snd it /\ v = snd it /\ c = (p + pprob r)%N) \/
   (prhs2 r <> 0 /\ prhs2 r = fst it /\ exists q, pi (prhs1 r, l) = Some q /\ vconcat (getyf (ryf r)) l (snd it) = true /\
      v = vcombine l (snd it) /\ c = (p + q + pprob r)%N) \/
   (prhs2 r <> 0 /\ prhs1 r = fst it /\ l = snd it /\ exists u q, pi (prhs2 r, u) = Some q /\
      vconcat (getyf (ryf r)) (snd it) u = true /\ v = vcombine (snd it) u /\ c = (p + q + pprob r)%N)).
Lemma nodup_app3 : forall X (a b : list X), NoDup a -> NoDup b -> (forall x, In x a -> ~ In x b) -> NoDup (a ++ b).
Proof.
  induction a as [|x a IH]; intros b Na Nb D; auto. cbn. inversion Na; subst. constructor.
  - rewrite in_app_iff. intros [H|H]; auto. apply (D x); auto. now left.
  - apply IH; auto. intros y H. apply D. now right.
Qed.
Lemma expand_flat : forall ch, indexed ch -> exists cs,
  expand vec veqb vconcat vcombine vcount vltb wl maxlog rules mask it p ch = fold_left pe cs ch /\ NoDup cs /\ forall k, In k cs <-> newcand k.
Proof.
  intros ch IX. unfold expand.
  destruct (rules_flat _ ucand ltac:(intros r k [_ ->]; reflexivity) unary_flat (unary rules (fst it)) ch IX (NoDup_filter _ rules_nodup)) as (c1 & E1 & N1 & I1).
  rewrite E1.
  destruct (rules_flat _ rcand ltac:(intros r k (_ & l & q & _ & _ & ->); reflexivity) right_flat (rbinary rules (fst it)) _ (pe_indexed c1 ch IX) (NoDup_filter _ rules_nodup)) as (c2 & E2 & N2 & I2).
  rewrite E2.
  destruct (rules_flat _ lcand ltac:(intros r k (_ & l & q & _ & _ & ->); reflexivity) left_flat (lbinary rules (fst it)) _ (pe_indexed c2 _ (pe_indexed c1 ch IX)) (NoDup_filter _ rules_nodup)) as (c3 & E3 & N3 & I3).
  rewrite E3. exists (c1 ++ c2 ++ c3). rewrite !fold_left_app. split; auto.
  assert (B1 : forall k, In k c1 -> prhs2 (fst (fst (fst k))) = 0).
  { intros k H. apply I1 in H. destruct H as (r & H & _ & ->). unfold unary in H. apply filter_In in H. destruct H as [_ H].
    apply andb_true_iff in H. destruct H as [_ H]. apply Nat.eqb_eq in H. exact H. }
  assert (B2 : forall k, In k c2 -> prhs2 (fst (fst (fst k))) <> 0 /\ vconcat (getyf (ryf (fst (fst (fst k))))) (snd (fst (fst k))) (snd it) = true).
  { intros k H. apply I2 in H. destruct H as (r & H & _ & l & q & _ & C & ->). unfold rbinary in H. apply filter_In in H. destruct H as [_ H].
    apply andb_true_iff in H. destruct H as [_ H]. apply negb_true_iff, Nat.eqb_neq in H. split; [exact H|exact C]. }
  assert (B3 : forall k, In k c3 -> prhs2 (fst (fst (fst k))) <> 0 /\ snd (fst (fst k)) = snd it).
  { intros k H. apply I3 in H. destruct H as (r & H & _ & l & q & _ & C & ->). unfold lbinary in H. apply filter_In in H. destruct H as [_ H].
    apply andb_true_iff in H. destruct H as [_ H]. apply negb_true_iff, Nat.eqb_neq in H. split; [exact H|reflexivity]. }
  split.
  - apply nodup_app3; auto. { apply nodup_app3; auto. intros k H2 H3. apply B2 in H2. apply B3 in H3. destruct H2 as [_ H2]. destruct H3 as [_ H3].
      rewrite H3, no_self in H2 by exact it_good. discriminate. }
    intros k H1 H. apply B1 in H1. apply in_app_iff in H. destruct H as [H|H]; [apply B2 in H|apply B3 in H]; destruct H; contradiction.
  - intros [[[r l] v] c]. rewrite !in_app_iff, I1, I2, I3. unfold newcand, ucand, rcand, lcand, usable, unary, rbinary, lbinary. split.
    + intros [(r' & H & MK & E)|[(r' & H & MK & l' & q & Q & C & E)|(r' & H & MK & l' & q & Q & C & E)]]; inversion E; subst r'; subst;
        apply filter_In in H; destruct H as [HR H]; apply andb_true_iff in H; destruct H as [H1 H2]; apply Nat.eqb_eq in H1.
      * apply Nat.eqb_eq in H2. split; auto. left. auto.
      * apply negb_true_iff, Nat.eqb_neq in H2. split; auto. right. left. split; auto. split; auto. exists q. auto.
      * apply negb_true_iff, Nat.eqb_neq in H2. split; auto. right. right. split; auto. split; auto. split; auto. exists l', q. auto.
    + intros [[HR MK] [(Z & X1 & -> & -> & ->)|[(Z & X1 & q & Q & C & -> & ->)|(Z & X1 & -> & u & q & Q & C & -> & ->)]]].
      * left. exists r. split; auto. apply filter_In. split; auto. rewrite X1, Z, !Nat.eqb_refl. reflexivity.
      * right. left. exists r. split; [|split; auto; exists l, q; auto]. apply filter_In. split; auto.
        rewrite X1, Nat.eqb_refl. rewrite X1 in Z. apply Nat.eqb_neq in Z. rewrite Z. reflexivity.
      * right. right. exists r. split; [|split; auto; exists u, q; auto]. apply filter_In. split; auto.
        rewrite X1, Nat.eqb_refl. apply Nat.eqb_neq in Z. rewrite Z. reflexivity.
Qed.
End Expand.

(** ** one iteration *)
Definition complete (ch : chart) : Prop := forall it e c, ecost (probs ch) it e c -> vld it e -> In e (forest ch it).
Definition Inv (ch : chart) : Prop := Mid ch /\ complete ch.
Notation pops := (pops vec).
Notation explore := (explore vec veqb vconcat vcombine vcount vltb wl maxlog rules mask goal).

Lemma scored_fun : forall it p s s', scored it p s -> scored it p s' -> s = s'.
Proof. intros it p s s' [[H ->]|[H ->]] [[H' ->]|[H' ->]]; auto; contradiction. Qed.
Lemma scored_le : forall it p s, scored it p s -> (s <= p + vcount (snd it) * maxlog)%N.
Proof. intros it p s [[H ->]|[H ->]]; lia. Qed.
Lemma in_forest : forall ch it e, Mid ch -> In e (forest ch it) ->
  (exists q, probs ch it = Some q) \/ exists s p, In (it, (s, p)) (agenda ch).
Proof.
  intros ch it e M H. destruct (m_where ch M it) as [X|X]; [intros E; rewrite E in H; destruct H| |].
  - left. destruct (probs ch it) as [q|]; [now exists q|contradiction].
  - right. apply in_map_iff in X. destruct X as ([k [s p]] & E & X). cbn in E. subst k. now exists s, p.
Qed.
(** either the item has been explored, or something in the agenda comes first *)
Lemma knuth : forall ch, Inv ch -> forall x v c, derives x v c ->
  (exists q, probs ch (x, v) = Some q /\ (q <= c)%N) \/
  exists u s' p' sc, In (u, (s', p')) (agenda ch) /\ scored (x, v) c sc /\ lt2 (sc, c) (s', p') = false.
Proof.
  intros ch [M CO] x v c D.
  induction D as [i x c T|r v c U E D IH G A|r v1 v2 v a b U E D1 IH1 G1 D2 IH2 G2 [J Ev] A].
  - assert (EC : ecost (probs ch) (x, vsingle i) (lexedge i) c) by now constructor.
    assert (H := CO _ _ _ EC (or_introl eq_refl)). destruct (in_forest ch _ _ M H) as [[q Q]|(s & p & X)].
    + left. exists q. split; auto. apply (m_sound ch M x (vsingle i) q Q). now constructor.
    + right. destruct (m_agenda ch M _ _ _ X) as (_ & SC & _ & ALL). specialize (ALL _ _ H EC).
      assert (L : lexitem (x, vsingle i)) by (exists i, c; auto).
      destruct SC as [[_ ->]|[NL _]]; [|contradiction].
      exists (x, vsingle i), p, p, c. split; auto. split; [left; auto|]. apply lt2_false. cbn [fst snd]. lia.
  - assert (SC0 : scored (plhs r, v) (pprob r + c)%N (pprob r + c + vcount v * maxlog)%N) by (right; split; auto; now apply not_lex_unary).
    destruct IH as [(q & Q & LE)|(u & s' & p' & sc & X & SC & LT)].
    + assert (EC : ecost (probs ch) (plhs r, v) (edge_of r v) (q + pprob r)%N) by now constructor.
      assert (H := CO _ _ _ EC (or_intror A)). destruct (in_forest ch _ _ M H) as [[q' Q']|(s & p & X)].
      * left. exists q'. split; auto. apply (m_sound ch M _ _ q' Q'). now constructor.
      * right. destruct (m_agenda ch M _ _ _ X) as (_ & SC & _ & ALL). specialize (ALL _ _ H EC).
        exists (plhs r, v), s, p, (pprob r + c + vcount v * maxlog)%N. split; auto. split; auto.
        apply scored_le in SC. cbn [snd] in SC. apply lt2_false. cbn [fst snd]. nia.
    + right. exists u, s', p', (pprob r + c + vcount v * maxlog)%N. split; auto. split; auto.
      apply scored_le in SC. cbn [snd] in SC. apply lt2_false in LT. apply lt2_false. cbn [fst snd] in *. lia.
  - subst v. destruct (combine_good _ _ _ (derives_good _ _ _ D1) (derives_good _ _ _ D2) J) as (GC & LE1 & LE2 & _).
    assert (SC0 : scored (plhs r, vcombine v1 v2) (pprob r + a + b)%N (pprob r + a + b + vcount (vcombine v1 v2) * maxlog)%N).
    { right. split; auto. eapply not_lex_binary; eauto using derives_good. }
    assert (V1 : (vcount v1 * maxlog <= vcount (vcombine v1 v2) * maxlog)%N) by now apply N.mul_le_mono_r.
    assert (V2 : (vcount v2 * maxlog <= vcount (vcombine v1 v2) * maxlog)%N) by now apply N.mul_le_mono_r.
    destruct IH1 as [(q & Q & LE)|(u & s' & p' & sc & X & SC & LT)].
    + destruct IH2 as [(q2 & Q2 & LE')|(u & s' & p' & sc & X & SC & LT)].
      * assert (EC : ecost (probs ch) (plhs r, vcombine v1 v2) (edge_of r v1) (q + q2 + pprob r)%N) by now constructor.
        assert (H := CO _ _ _ EC (or_intror A)). destruct (in_forest ch _ _ M H) as [[q' Q']|(s & p & X)].
        -- left. exists q'. split; auto. apply (m_sound ch M _ _ q' Q').
           apply (d_binary _ _ _ _ _ _ _ _ r v1 v2 (vcombine v1 v2) a b); auto. now split.
        -- right. destruct (m_agenda ch M _ _ _ X) as (_ & SC & _ & ALL). specialize (ALL _ _ H EC).
           exists (plhs r, vcombine v1 v2), s, p, (pprob r + a + b + vcount (vcombine v1 v2) * maxlog)%N. split; auto. split; auto.
           apply scored_le in SC. cbn [snd] in SC. apply lt2_false. cbn [fst snd]. lia.
      * right. exists u, s', p', (pprob r + a + b + vcount (vcombine v1 v2) * maxlog)%N. split; auto. split; auto.
        apply scored_le in SC. cbn [snd] in SC. apply lt2_false in LT. apply lt2_false. cbn [fst snd] in *. lia.
    + right. exists u, s', p', (pprob r + a + b + vcount (vcombine v1 v2) * maxlog)%N. split; auto. split; auto.
      apply scored_le in SC. cbn [snd] in SC. apply lt2_false in LT. apply lt2_false. cbn [fst snd] in *. lia.
Qed.
Lemma popped_best : forall ch it s p, Inv ch -> In (it, (s, p)) (agenda ch) ->
  Forall (fun e => lt2 (snd e) (s, p) = false) (agenda ch) ->
  derives (fst it) (snd it) p /\ forall c, derives (fst it) (snd it) c -> (p <= c)%N.
Proof.
  intros ch [x v] s p I0 H MIN. cbn [fst snd]. pose proof (proj1 I0) as M. destruct (m_agenda ch M _ _ _ H) as (PN & SC & (e & F & EC) & ALL).
  split; [eapply ecost_derives; eauto; [apply M|apply (m_forest ch M _ _ F)]|].
  intros c D. destruct (knuth ch I0 x v c D) as [(q & Q & _)|(u & s' & p' & sc & X & SC' & LT)]; [congruence|].
  destruct (N.le_gt_cases p c) as [Hc|Hc]; auto. exfalso. rewrite Forall_forall in MIN. specialize (MIN _ X). cbn [snd] in MIN.
  apply lt2_false in MIN. apply lt2_false in LT. cbn [fst snd] in *.
  assert (SS : (sc <= s)%N). { destruct SC as [[L ->]|[L ->]]; destruct SC' as [[L' ->]|[L' ->]]; try contradiction; lia. }
  lia.
Qed.

Lemma explore_ok : forall ch it p ch1, Inv ch -> pops ch it p ch1 ->
  probs ch it = None /\ probs ch1 = probs ch /\ derives (fst it) (snd it) p /\ (forall c, derives (fst it) (snd it) c -> (p <= c)%N) /\
  Inv (explore it p ch1) /\ probs (explore it p ch1) = iput (probs ch) it (Some p) /\
  (it = goal -> explore it p ch1 = updateprob vec veqb ch1 it p).
Proof.
  intros ch it p ch1 I0 [a k s p0 b EA MIN]. clear it p ch1. pose proof I0 as [M CO].
  assert (IN : In (k, (s, p0)) (agenda ch)) by (rewrite EA; apply in_elt).
  destruct (popped_best ch k s p0 I0 IN MIN) as [D O]. destruct (m_agenda ch M _ _ _ IN) as (PN & SC & (e0 & F0 & EC0) & ALL0).
  set (ch1 := Chart vec (index ch) (probs ch) (forest ch) (a ++ b)).
  set (ch2 := Chart vec (index ch) (iput (probs ch) k (Some p0)) (forest ch) (a ++ b)).
  assert (EU : updateprob vec veqb ch1 k p0 = ch2).
  { unfold updateprob, ch1. cbn [PlcfrsModel.probs PlcfrsModel.index PlcfrsModel.forest PlcfrsModel.agenda]. rewrite PN. reflexivity. }
  assert (EXT : forall u q, probs ch u = Some q -> probs ch2 u = Some q).
  { intros u q Q. cbn. rewrite iput_other; auto. intros ->. congruence. }
  assert (SO : sound (probs ch2)).
  { intros x v q Q. cbn in Q. destruct (item_dec (x, v) k) as [<-|Hk].
    - rewrite iput_same in Q. inversion Q; subst q. split; auto.
    - rewrite iput_other in Q by auto. now apply (m_sound ch M). }
  assert (AG : forall u v, In (u, v) (a ++ b) -> u <> k /\ In (u, v) (agenda ch)).
  { intros u v H. split.
    - intros ->. pose proof (m_keys ch M) as ND. rewrite EA, map_app in ND. cbn [map fst] in ND. apply NoDup_remove_2 in ND.
      apply ND. rewrite <- map_app. apply in_map_iff. exists (k, v). auto.
    - rewrite EA. apply in_app_iff in H. apply in_app_iff. destruct H; auto. right. now right. }
  assert (M2 : Mid ch2).
  { constructor.
    - intros u e H. destruct (m_forest ch M u e H) as (V & c & EC). split; auto. exists c. eapply ecost_ext; eauto.
    - apply (m_once ch M).
    - pose proof (m_keys ch M) as ND. rewrite EA, map_app in ND. cbn [map fst] in ND. apply NoDup_remove_1 in ND.
      cbn [PlcfrsModel.agenda ch2]. now rewrite map_app.
    - intros u s' p' H. destruct (AG _ _ H) as [NE H']. destruct (m_agenda ch M _ _ _ H') as (PN' & SC' & (e & F & EC) & ALL).
      split; [cbn; now rewrite iput_other|]. split; auto. split.
      + exists e. split; auto. eapply ecost_ext; eauto.
      + intros e' c' F' EC'. cbn [PlcfrsModel.forest ch2] in F'. destruct (m_forest ch M u e' F') as (_ & d & ED).
        assert (ED' := ecost_ext _ _ _ _ _ EXT ED). rewrite (ecost_fun _ _ _ _ _ SO EC' ED'). eapply ALL; eauto.
    - intros u H. cbn [PlcfrsModel.forest ch2] in H. destruct (item_dec u k) as [->|NE]; [left; cbn; rewrite iput_same; discriminate|].
      destruct (m_where ch M u H) as [X|X]; [left; cbn; now rewrite iput_other|]. right. cbn [PlcfrsModel.agenda ch2].
      rewrite EA, map_app in X. rewrite map_app. apply in_app_iff in X. apply in_app_iff. destruct X as [X|[X|X]]; auto. cbn in X. congruence.
    - intros u H. cbn [PlcfrsModel.forest ch2]. destruct (item_dec u k) as [->|NE]; [intros E; rewrite E in F0; destruct F0|].
      apply (m_popped ch M). cbn in H. now rewrite iput_other in H.
    - exact SO.
    - apply (m_index ch M).
    - intros u H. cbn [PlcfrsModel.index ch2]. apply (m_indexed ch M). destruct (item_dec u k) as [->|NE].
      + right. apply in_map_iff. exists (k, (s, p0)). auto.
      + destruct H as [H|H]; [left; cbn in H; now rewrite iput_other in H|]. right. cbn [PlcfrsModel.agenda ch2] in H.
        rewrite EA, map_app. rewrite map_app in H. apply in_app_iff in H. apply in_app_iff. destruct H; auto. right. now right. }
  split; auto. split; auto. split; auto. split; auto.
  (* expansion *)
  assert (OLD : forall u e c, ecost (probs ch2) u e c -> vld u e ->
     In e (forest ch u) \/ exists c', newcand k p0 (probs ch2) c' /\ tgt c' = u /\ edg c' = e /\ k <> goal).
  { intros u e c EC V. destruct EC as [i x c T|r v q U E G P|r l w qa qb U E G1 G2 P1 P2 C].
    - left. apply (CO _ _ c); [apply ec_lex; exact T|exact V].
    - destruct (item_dec (prhs1 r, v) k) as [Ek|NE].
      + right. exists (r, v, v, (p0 + pprob r)%N). subst k. split; [|split; [reflexivity|split; [reflexivity|exact G]]].
        split; auto. left. auto.
      + left. cbn in P. rewrite iput_other in P by auto. apply (CO _ _ (q + pprob r)%N); [apply ec_un; auto|exact V].
    - destruct (item_dec (prhs2 r, w) k) as [Ek|NE2].
      + right. exists (r, l, vcombine l w, (p0 + qa + pprob r)%N). subst k. split; [|split; [reflexivity|split; [reflexivity|exact G2]]].
        split; auto. right. left. split; auto. split; auto. exists qa. auto.
      + destruct (item_dec (prhs1 r, l) k) as [Ek|NE1].
        * right. exists (r, l, vcombine l w, (p0 + qb + pprob r)%N). subst k. split; [|split; [reflexivity|split; [reflexivity|exact G1]]].
          split; auto. right. right. split; auto. split; auto. split; auto. exists w, qb. auto.
        * left. cbn in P1, P2. rewrite iput_other in P1, P2 by auto. apply (CO _ _ (qa + qb + pprob r)%N); [apply ec_bin; auto|exact V]. }
  unfold PlcfrsModel.explore. fold ch1. rewrite EU. destruct (ieqb k goal) eqn:EG.
  - apply ieqb_ok in EG. split; [|split; [reflexivity|auto]]. split; auto.
    intros u e c EC V. destruct (OLD u e c EC V) as [H|(c' & _ & _ & _ & H)]; auto. contradiction.
  - assert (NG : k <> goal) by (intros ->; rewrite ieqb_refl in EG; discriminate).
    assert (GK : good (snd k)) by (eapply derives_good; eauto).
    assert (PG : forall u q, probs ch2 u = Some q -> good (snd u)) by (intros [x v] q Q; apply (sound_good _ SO _ _ _ Q)).
    assert (KP : probs ch2 k = Some p0) by (cbn; now rewrite iput_same).
    destruct (expand_flat k p0 (probs ch2) GK PG ch2) as (cs & E & N1 & I1).
    { split; auto. split; [apply (m_index ch M)|]. intros u H. apply (m_indexed ch2 M2). now left. }
    rewrite E.
    assert (NC : forall c', In c' cs -> ecost (probs ch2) (tgt c') (edg c') (cst c') /\ ~ In (edg c') (forest ch2 (tgt c'))).
    { intros [[[r l] v] c] H. apply I1 in H. cbn [tgt edg cst]. destruct H as [U H].
      assert (NI : forall d, ecost (probs ch) (plhs r, v) (edge_of r l) d -> False).
      { intros d ED. destruct H as [(Z & E1 & -> & -> & ->)|[(Z & E1 & q & Q & C & -> & ->)|(Z & E1 & -> & u & q & Q & C & -> & ->)]]; inversion ED; subst; try contradiction.
        - match goal with X : probs ch (prhs1 _, _) = Some _ |- _ => rewrite E1 in X; rewrite <- surjective_pairing in X; congruence end.
        - match goal with X : probs ch (prhs2 _, _) = Some _, Y : vconcat _ l ?w = true, W : vcombine l ?w = _ |- _ =>
            assert (EW : w = snd k) by (eapply (combine_inj _ _ l w (snd k)); eauto; [apply (PG _ _ Q)|apply (PG _ _ (EXT _ _ X))]);
            rewrite EW, E1 in X; rewrite <- surjective_pairing in X; congruence end.
        - match goal with X : probs ch (prhs1 _, snd k) = Some _ |- _ => rewrite E1 in X; rewrite <- surjective_pairing in X; congruence end. }
      split.
      - destruct H as [(Z & E1 & -> & -> & ->)|[(Z & E1 & q & Q & C & -> & ->)|(Z & E1 & -> & u & q & Q & C & -> & ->)]].
        + constructor; auto; unfold not_goal; rewrite E1, <- surjective_pairing; auto.
        + replace (p0 + q + pprob r)%N with (q + p0 + pprob r)%N by lia. constructor; auto.
          * intros X. rewrite <- X in goal_alone. destruct (goal_alone (getyf (ryf r)) (snd k) GK) as [Y _]. cbn [snd] in Y. congruence.
          * unfold not_goal; rewrite E1, <- surjective_pairing. auto.
          * unfold not_goal; rewrite E1, <- surjective_pairing. auto.
        + constructor; auto.
          * unfold not_goal; rewrite E1, <- surjective_pairing. auto.
          * intros X. rewrite <- X in goal_alone. destruct (goal_alone (getyf (ryf r)) (snd k) GK) as [_ Y]. cbn [snd] in Y. congruence.
          * unfold not_goal; rewrite E1, <- surjective_pairing. auto.
      - intros X. cbn [PlcfrsModel.forest ch2] in X. destruct (m_forest ch M _ _ X) as (_ & d & ED). eauto. }
    destruct (fold_pe_ok cs ch2 M2) as (M3 & P3 & X3 & F3); auto; [intros c' H; apply (NC c' H)|intros c' H; apply (NC c' H)|].
    split; [|split; [rewrite P3; reflexivity|intros ->; contradiction]]. split; auto.
    intros u e c EC V. rewrite P3 in EC. rewrite F3. destruct (OLD u e c EC V) as [H|(c' & H1 & H2 & H3 & _)]; [left; exact H|].
    right. apply I1 in H1. split; [|exists c'; auto]. destruct V as [V|V]; auto.
    destruct c' as [[[r l] v] d]. cbn in H3. subst e. discriminate.
Qed.

(** ** the loop *)
Lemma pops_exists : forall ch, agenda ch <> [] -> exists it p ch1, pops ch it p ch1.
Proof.
  intros ch NE. assert (H : exists e, In e (agenda ch) /\ Forall (fun e' => lt2 (snd e') (snd e) = false) (agenda ch)).
  { revert NE. generalize (agenda ch). clear. induction l as [|e l IH]; intros NE; [contradiction|].
    destruct l as [|e' l].
    - exists e. split; [now left|]. constructor; [|constructor]. apply lt2_false. right. split; [reflexivity|lia].
    - destruct IH as (m & Hm & MIN); [discriminate|]. destruct (lt2 (snd e) (snd m)) eqn:B.
      + exists e. split; [now left|]. constructor; [apply lt2_false; right; split; [reflexivity|lia]|].
        eapply Forall_impl; [|exact MIN]. intros f Hf. cbn beta in *. apply lt2_false in Hf. apply lt2_spec in B. apply lt2_false. lia.
      + exists m. split; [now right|]. constructor; auto. }
  destruct H as ([k [s p]] & H & MIN). apply in_split in H. destruct H as (a & b & E).
  exists k, p, (Chart vec (index ch) (probs ch) (forest ch) (a ++ b)). eapply (pops_intro vec ch a k s p b); eauto.
Qed.

Notation loop := (loop vec veqb vconcat vcombine vcount vltb wl maxlog rules mask goal).
Lemma loop_exhaustive : forall ch ch', loop true ch ch' -> Inv ch -> Inv ch' /\ agenda ch' = [].
Proof.
  intros ch ch' L. induction L as [ch E|ch it p ch1 E P G|ch it p ch1 ch2 P G L IH]; intros I0; auto; [discriminate|].
  apply IH. now destruct (explore_ok ch it p ch1 I0 P) as (_ & _ & _ & _ & H & _).
Qed.
Lemma loop_break_ok : forall ch ch', loop false ch ch' -> Inv ch -> Inv ch' /\ (agenda ch' = [] \/ probs ch' goal <> None).
Proof.
  intros ch ch' L. induction L as [ch E|ch it p ch1 E P G|ch it p ch1 ch2 P G L IH]; intros I0; auto.
  - apply ieqb_ok in G. subst it. destruct (explore_ok ch goal p ch1 I0 P) as (_ & _ & _ & _ & H & EP & EX).
    rewrite (EX eq_refl) in H, EP. split; auto. right. rewrite EP, iput_same. discriminate.
  - apply IH. now destruct (explore_ok ch it p ch1 I0 P) as (_ & _ & _ & _ & H & _).
Qed.
Lemma final_best : forall ch x v p, Inv ch -> agenda ch = [] ->
  (probs ch (x, v) = Some p <-> best vec vsingle cjoin callowed rules mask (not_goal goal) sent x v p).
Proof.
  intros ch x v p I0 AE. split; [intros Q; apply (m_sound ch (proj1 I0)); auto|]. intros [D O].
  destruct (knuth ch I0 x v p D) as [(q & Q & LE)|(u & s' & p' & sc & X & _)].
  - destruct (m_sound ch (proj1 I0) x v q Q) as [D' O']. rewrite Q. f_equal. specialize (O q D'). lia.
  - rewrite AE in X. destruct X.
Qed.
Lemma final_derivable : forall ch x v, Inv ch -> agenda ch = [] ->
  (derivable vec vsingle cjoin callowed rules mask (not_goal goal) sent x v <-> exists p, probs ch (x, v) = Some p).
Proof.
  intros ch x v I0 AE. split.
  - intros [c D]. destruct (knuth ch I0 x v c D) as [(q & Q & LE)|(u & s' & p' & sc & X & _)]; [now exists q|]. rewrite AE in X. destruct X.
  - intros [p Q]. exists p. now apply (m_sound ch (proj1 I0)).
Qed.
Lemma final_edges : forall ch x v e, Inv ch -> agenda ch = [] ->
  (In e (forest ch (x, v)) <-> valid_edge vec vsingle cjoin callowed rules mask (not_goal goal) sent x v e).
Proof.
  intros ch x v e I0 AE. pose proof I0 as [M CO]. split.
  - intros H. destruct (m_forest ch M _ _ H) as (V & c & EC). inversion EC as [i x' c' T|r v' a U E G P|r l u a b U E G1 G2 P1 P2 C]; subst.
    + eapply v_word; eauto.
    + destruct V as [V|V]; [discriminate|]. apply v_unary; auto. apply (final_derivable ch); auto. eauto.
    + destruct V as [V|V]; [discriminate|]. apply (v_binary _ _ _ _ _ _ _ _ _ _ r l u); auto; try (apply (final_derivable ch); eauto). now split.
  - intros [i c T E|r U E1 E2 D G A|r v1 v2 U E1 E2 D1 G1 D2 G2 [J Ev] A].
    + subst v. eapply CO; [constructor; exact T|now left].
    + apply (final_derivable ch) in D; auto. destruct D as [a P]. subst x. eapply CO; [constructor; eauto|now right].
    + apply (final_derivable ch) in D1, D2; auto. destruct D1 as [a P1]. destruct D2 as [b P2]. subst x v.
      eapply CO; [econstructor; eauto|now right].
Qed.

(** ** termination *)
Variable allvecs : list vec.
Hypothesis allvecs_ok : forall v, good v -> In v allvecs.
Definition labels : list nat := map plhs rules ++ flat_map (fun w => map fst (entries w) ++ goldlabels w) sent.
Lemma derives_label : forall x v c, derives x v c -> In x labels.
Proof.
  intros x v c [i y d T|r w d U E D G A|r v1 v2 w a b U E D1 G1 D2 G2 J A]; unfold labels; apply in_app_iff.
  - right. apply in_flat_map. destruct T as [w E F A|w E _ G _]; exists w; (split; [eapply nth_error_In; eauto|]); apply in_app_iff; auto.
    left. apply in_map_iff. exists (y, d). split; auto. now apply first_entry_in.
  - left. apply in_map_iff. exists r. split; auto. apply U.
  - left. apply in_map_iff. exists r. split; auto. apply U.
Qed.
Notation iterates := (iterates vec veqb vconcat vcombine vcount vltb wl maxlog rules mask goal).
Lemma iterates_ok : forall n ch ch', iterates n ch ch' -> Inv ch ->
  Inv ch' /\ forall l, NoDup l -> (forall u, In u l -> probs ch u <> None) ->
    exists l', NoDup l' /\ length l' = n + length l /\ forall u, In u l' -> probs ch' u <> None.
Proof.
  intros n ch ch' H. induction H as [ch|n ch it p ch1 ch2 P H IH]; intros I0.
  - split; auto. intros l N0 H. exists l. auto.
  - destruct (explore_ok ch it p ch1 I0 P) as (PN & _ & _ & _ & I1 & EP & _). destruct (IH I1) as [I2 HL]. split; auto.
    intros l N0 H0. destruct (HL (it :: l)) as (l' & A & B & C).
    + constructor; auto. intros X. now apply (H0 it X).
    + rewrite EP. intros u [<-|X]; [rewrite iput_same; discriminate|]. rewrite iput_other; auto. intros ->. now apply (H0 it X).
    + exists l'. split; auto. split; auto. cbn [length] in B. lia.
Qed.
Lemma iterates_bound : forall n ch ch', Inv ch -> iterates n ch ch' -> n <= length labels * length allvecs.
Proof.
  intros n ch ch' I0 H. destruct (iterates_ok n ch ch' H I0) as [I1 HL].
  destruct (HL []) as (l & A & B & C); [constructor|intros u []|]. cbn [length] in B.
  rewrite <- prod_length. replace n with (length l) by lia. apply NoDup_incl_length; auto.
  intros [x v] X. specialize (C _ X). destruct (probs ch' (x, v)) as [p|] eqn:E; [|contradiction].
  destruct (m_sound ch' (proj1 I1) x v p E) as [D _]. apply in_prod; [eapply derives_label; eauto|]. apply allvecs_ok. eapply derives_good; eauto.
Qed.
Lemma loop_exists : forall b ch, Inv ch -> exists ch', loop b ch ch'.
Proof.
  intros b ch I0.
  assert (H : forall m n ch0, Inv ch0 -> iterates n ch0 ch -> length labels * length allvecs - n < m -> exists ch', loop b ch ch').
  { clear I0. intros m. revert ch. induction m as [|m IH]; intros ch n ch0 I0 H B; [lia|].
    destruct (agenda ch) as [|e ag] eqn:E; [exists ch; now constructor|].
    destruct (pops_exists ch) as (it & p & ch1 & P); [rewrite E; discriminate|].
    destruct (bool_dec b false) as [->|NB]; [destruct (ieqb it goal) eqn:G|].
    - exists (updateprob vec veqb ch1 it p). eapply loop_break; eauto.
    - assert (H' : iterates (S n) ch0 (explore it p ch1)).
      { clear - H P. induction H as [ch|n ch it' p' ch1' ch2 P' H IH]; econstructor; eauto. constructor. }
      pose proof (iterates_bound _ _ _ I0 H') as BD. destruct (IH _ _ ch0 I0 H') as [ch' L]; [lia|].
      exists ch'. eapply loop_step; eauto.
    - assert (H' : iterates (S n) ch0 (explore it p ch1)).
      { clear - H P. induction H as [ch|n ch it' p' ch1' ch2 P' H IH]; econstructor; eauto. constructor. }
      pose proof (iterates_bound _ _ _ I0 H') as BD. destruct (IH _ _ ch0 I0 H') as [ch' L]; [lia|].
      exists ch'. eapply loop_step; eauto. intros ->. contradiction. }
  exact (H _ 0 ch I0 (it_zero _ _ _ _ _ _ _ _ _ _ _ ch) (Nat.lt_succ_diag_r _)).
Qed.

(** ** the initial chart *)
Record PosI (ch : chart) (Q : nat -> nat -> N -> Prop) : Prop := MkPos {
  p_probs : forall u, probs ch u = None;
  p_keys : NoDup (map fst (agenda ch));
  p_agenda : forall u v, In (u, v) (agenda ch) <-> exists i x c, Q i x c /\ u = (x, vsingle i) /\ v = (c, c);
  p_forest : forall u e, In e (forest ch u) <-> exists i x c, Q i x c /\ u = (x, vsingle i) /\ e = lexedge i;
  p_once : forall u, NoDup (forest ch u);
  p_index : NoDup (index ch);
  p_indexed : forall u, In u (map fst (agenda ch)) -> In u (index ch);
  p_range : forall i x c, Q i x c -> i < length sent
}.
Lemma PosI_iff : forall ch Q Q', (forall i x c, Q i x c <-> Q' i x c) -> PosI ch Q -> PosI ch Q'.
Proof.
  intros ch Q Q' H [A B C D E F G R]. constructor; auto.
  - intros u v. rewrite C. split; intros (i & x & c & X & Y); exists i, x, c; split; auto; now apply H.
  - intros u v. rewrite D. split; intros (i & x & c & X & Y); exists i, x, c; split; auto; now apply H.
  - intros i x c X. apply (R i x c). now apply H.
Qed.
Notation process_lexedge := (process_lexedge vec veqb vltb wl).
Lemma lexedge_ok : forall ch Q i x p usewl, PosI ch Q -> i < length sent ->
  ((exists c, Q i x c) -> exists ch', process_lexedge ch (x, vsingle i) p i usewl = Some (false, ch') /\ PosI ch' Q) /\
  ((forall c, ~ Q i x c) -> usewl = true -> wl (x, vsingle i) = false ->
     exists ch', process_lexedge ch (x, vsingle i) p i usewl = Some (false, ch') /\ PosI ch' Q) /\
  ((forall c, ~ Q i x c) -> (usewl = true -> wl (x, vsingle i) = true) ->
     exists ch', process_lexedge ch (x, vsingle i) p i usewl = Some (true, ch') /\
       PosI ch' (fun j y c => Q j y c \/ (j = i /\ y = x /\ c = p))).
Proof.
  intros ch Q i x p usewl PI Hi. pose proof PI as [A B C D E F G R].
  destruct (addindex_same ch (x, vsingle i)) as (E1 & E2 & E3).
  assert (PI' : PosI (addindex ch (x, vsingle i)) Q).
  { constructor; rewrite ?E1, ?E2, ?E3; auto.
    - apply addindex_nodup. exact F.
    - intros u H. apply addindex_in. right. auto. }
  assert (MEM : amem (agenda ch) (x, vsingle i) = true <-> exists c, Q i x c).
  { rewrite amem_in, in_map_iff. split.
    - intros ([u v] & EU & H). cbn in EU. subst u. apply C in H. destruct H as (j & y & c & H & EQ & _). inversion EQ; subst y.
      rewrite (single_inj i j); eauto.
    - intros [c H]. exists ((x, vsingle i), (c, c)). split; auto. apply C. exists i, x, c. auto. }
  unfold PlcfrsModel.process_lexedge. rewrite E2, E3.
  split; [|split].
  - intros H. apply MEM in H. rewrite H. eauto.
  - intros H -> W. destruct (amem (agenda ch) (x, vsingle i)) eqn:M0; [eauto|].
    assert (FE : forest ch (x, vsingle i) = []).
    { destruct (forest ch (x, vsingle i)) as [|e es] eqn:FF; auto. exfalso. assert (HI : In e (forest ch (x, vsingle i))) by (rewrite FF; now left).
      apply D in HI. destruct HI as (j & y & c & HQ & EQ & _). inversion EQ; subst y. apply (H c). rewrite (single_inj i j); eauto. }
    rewrite FE, W. cbn [negb andb]. eauto.
  - intros H W. assert (M0 : amem (agenda ch) (x, vsingle i) = false).
    { destruct (amem (agenda ch) (x, vsingle i)) eqn:M0; auto. exfalso. destruct (proj1 MEM eq_refl) as [c H']. now apply (H c). }
    assert (FE : forest ch (x, vsingle i) = []).
    { destruct (forest ch (x, vsingle i)) as [|e es] eqn:FF; auto. exfalso. assert (HI : In e (forest ch (x, vsingle i))) by (rewrite FF; now left).
      apply D in HI. destruct HI as (j & y & c & HQ & EQ & _). inversion EQ; subst y. apply (H c). rewrite (single_inj i j); eauto. }
    rewrite M0, FE. replace (usewl && negb (wl (x, vsingle i))) with false by (destruct usewl; auto; rewrite W; auto).
    eexists. split; [reflexivity|]. unfold PlcfrsModel.addedge, setitem.
    assert (OTH : forall u, u <> (x, vsingle i) -> forall v, In (u, v) (aput (agenda ch) (x, vsingle i) (p, p)) <-> In (u, v) (agenda ch)).
    { intros u Hu v. rewrite <- !aget_in by (try apply aput_nodup; exact B). rewrite aget_aput, ieqb_neq by auto. reflexivity. }
    constructor; cbn [PlcfrsModel.index PlcfrsModel.probs PlcfrsModel.forest PlcfrsModel.agenda]; rewrite ?E1, ?E2, ?E3; auto.
    + now apply aput_nodup.
    + intros u v. destruct (item_dec u (x, vsingle i)) as [->|Hu].
      * rewrite <- aget_in by (apply aput_nodup; exact B). rewrite aget_aput, ieqb_refl. split.
        -- intros X. inversion X. exists i, x, p. auto.
        -- intros (j & y & c & [HQ|(-> & -> & ->)] & EQ & ->); auto. exfalso. inversion EQ; subst y. apply (H c). rewrite (single_inj i j); eauto.
      * rewrite OTH by auto. rewrite C. split.
        -- intros (j & y & c & HQ & X). exists j, y, c. auto.
        -- intros (j & y & c & [HQ|(-> & -> & ->)] & EQ & EV); [exists j, y, c; auto|contradiction].
    + intros u e. destruct (item_dec u (x, vsingle i)) as [->|Hu].
      * rewrite iput_same, in_app_iff, D. split.
        -- intros [(j & y & c & HQ & X)|[<-|[]]]; [exists j, y, c; auto|exists i, x, p; auto].
        -- intros (j & y & c & [HQ|(-> & -> & ->)] & EQ & ->); [left; exists j, y, c; auto|right; now left].
      * rewrite iput_other by auto. rewrite D. split.
        -- intros (j & y & c & HQ & X). exists j, y, c. auto.
        -- intros (j & y & c & [HQ|(-> & -> & ->)] & EQ & EV); [exists j, y, c; auto|contradiction].
    + intros u. destruct (item_dec u (x, vsingle i)) as [->|Hu]; [rewrite iput_same, FE|rewrite iput_other by auto; auto].
      cbn. repeat constructor; auto.
    + apply (p_index _ _ PI').
    + intros u H0. apply addindex_in. destruct (item_dec u (x, vsingle i)) as [->|Hu]; auto. right. apply G.
      rewrite aput_keys, M0 in H0. apply in_app_iff in H0. destruct H0 as [H0|[H0|[]]]; auto. congruence.
    + intros j y c [HQ|(-> & _)]; eauto.
Qed.

Definition lexQ (i : nat) (es : list (nat * N)) (j y : nat) (c : N) : Prop := j = i /\ first_entry es y c /\ wl (y, vsingle i) = true.
Definition goldQ (i : nat) (xs : list nat) (j y : nat) (c : N) : Prop := j = i /\ In y xs /\ c = 0%N.
Definition anyallowed (i : nat) (es : list (nat * N)) : bool := existsb (fun e => wl (fst e, vsingle i)) es.
Lemma first_entry_snoc : forall es x p y c, first_entry (es ++ [(x, p)]) y c <->
  first_entry es y c \/ (y = x /\ c = p /\ forall d, ~ In (x, d) es).
Proof.
  intros es x p y c. split.
  - intros (l1 & l2 & E & N0). destruct (exists_last (l := (y, c) :: l2)) as (l2' & z & E2); [discriminate|].
    rewrite E2, app_assoc in E. apply app_inj_tail in E. destruct E as [E EZ]. subst z. destruct l2' as [|w l2']; cbn in E2; inversion E2; subst.
    + right. rewrite app_nil_r. auto.
    + left. exists l1, l2'. auto.
  - intros [(l1 & l2 & -> & N0)|(-> & -> & N0)].
    + exists l1, (l2 ++ [(x, p)]). rewrite <- app_assoc. auto.
    + exists es, []. auto.
Qed.
Lemma first_entry_exists : forall es x p, In (x, p) es -> exists c, first_entry es x c.
Proof.
  induction es as [|[y q] es IH]; intros x p H; [destruct H|]. destruct (Nat.eq_dec y x) as [->|NE].
  - exists q, [], es. split; auto.
  - destruct H as [H|H]; [congruence|]. destruct (IH x p H) as (c & l1 & l2 & -> & N0). exists c, ((y, q) :: l1), l2. split; auto.
    intros d [X|X]; [congruence|]. now apply (N0 d).
Qed.
Lemma lexloop_ok : forall Q0 i, i < length sent -> (forall x c, ~ Q0 i x c) -> forall es es1 ch,
  PosI ch (fun j y c => Q0 j y c \/ lexQ i es1 j y c) ->
  exists ch', lexloop vec veqb vsingle vltb wl ch i es (anyallowed i es1) = Some (anyallowed i (es1 ++ es), ch') /\
    PosI ch' (fun j y c => Q0 j y c \/ lexQ i (es1 ++ es) j y c).
Proof.
  intros Q0 i Hi N0. induction es as [|[x p] es IH]; intros es1 ch PI; cbn [lexloop].
  - rewrite app_nil_r. eauto.
  - assert (AA : anyallowed i (es1 ++ [(x, p)]) = anyallowed i es1 || wl (x, vsingle i)).
    { unfold anyallowed. rewrite existsb_app. cbn. now rewrite orb_false_r. }
    replace (es1 ++ (x, p) :: es) with ((es1 ++ [(x, p)]) ++ es) by (rewrite <- app_assoc; reflexivity).
    destruct (lexedge_ok ch _ i x p true PI Hi) as (L1 & L2 & L3).
    destruct (wl (x, vsingle i)) eqn:W.
    + destruct (in_dec Nat.eq_dec x (map fst es1)) as [IN|NI].
      * apply in_map_iff in IN. destruct IN as ([x' q] & EX & IN). cbn in EX. subst x'. destruct (first_entry_exists _ _ _ IN) as [c FE].
        destruct L1 as (ch' & EP & PI'); [exists c; right; split; auto|]. rewrite EP. cbn [orb].
        assert (RA : anyallowed i es1 = true) by (apply existsb_exists; exists (x, q); auto).
        rewrite RA in *. cbn [orb] in *. rewrite <- AA. apply IH. eapply PosI_iff; [|exact PI'].
        intros j y d. unfold lexQ. rewrite first_entry_snoc. split; [intros [H|(A & B & C)]; auto|].
        intros [H|(A & [B|(-> & -> & B)] & C)]; auto. exfalso. now apply (B q).
      * destruct L3 as (ch' & EP & PI'); auto.
        { intros c [H|(_ & FE & _)]; [now apply (N0 x c)|]. apply NI. apply in_map_iff. exists (x, c). split; auto. now apply first_entry_in. }
        rewrite EP. rewrite orb_true_r in *. rewrite <- AA. apply IH. eapply PosI_iff; [|exact PI'].
        intros j y d. unfold lexQ. rewrite first_entry_snoc. split.
        -- intros [[H|(A & B & C)]|(-> & -> & ->)]; auto. right. split; auto. split; auto. right. split; auto. split; auto.
           intros d H. apply NI. apply in_map_iff. exists (x, d). auto.
        -- intros [H|(A & [B|(-> & -> & B)] & C)]; auto.
    + destruct L2 as (ch' & EP & PI'); auto.
      { intros c [H|(_ & _ & W')]; [now apply (N0 x c)|congruence]. }
      rewrite EP, <- AA. apply IH. eapply PosI_iff; [|exact PI'].
      intros j y d. unfold lexQ. rewrite first_entry_snoc. split; [intros [H|(A & B & C)]; auto|].
      intros [H|(A & [B|(-> & -> & B)] & C)]; auto. congruence.
Qed.
Lemma goldloop_ok : forall Q0 i, i < length sent -> (forall x c, ~ Q0 i x c) -> forall xs xs1 b ch,
  NoDup (xs1 ++ xs) -> PosI ch (fun j y c => Q0 j y c \/ goldQ i xs1 j y c) ->
  exists ch', goldloop vec veqb vsingle vltb wl ch i xs b = Some (match xs with [] => b | _ => true end, ch') /\
    PosI ch' (fun j y c => Q0 j y c \/ goldQ i (xs1 ++ xs) j y c).
Proof.
  intros Q0 i Hi N0. induction xs as [|x xs IH]; intros xs1 b ch ND PI; cbn [goldloop].
  - rewrite app_nil_r. eauto.
  - replace (xs1 ++ x :: xs) with ((xs1 ++ [x]) ++ xs) in * by (rewrite <- app_assoc; reflexivity).
    destruct (lexedge_ok ch _ i x 0%N false PI Hi) as (_ & _ & L3).
    destruct L3 as (ch' & EP & PI'); [|discriminate|].
    { intros c [H|(_ & H & _)]; [now apply (N0 x c)|]. rewrite <- app_assoc in ND. cbn in ND. apply NoDup_remove_2 in ND. apply ND. apply in_app_iff. now left. }
    rewrite EP. destruct (IH (xs1 ++ [x]) true ch' ND) as (ch2 & E2 & PI2).
    { eapply PosI_iff; [|exact PI']. intros j y d. unfold goldQ. rewrite in_app_iff. cbn [In]. intuition. }
    exists ch2. split; auto. rewrite E2. now destruct xs.
Qed.
Lemma anyallowed_true : forall i es, anyallowed i es = true <-> exists y d, In (y, d) es /\ wl (y, vsingle i) = true.
Proof.
  intros i es. unfold anyallowed. rewrite existsb_exists. split.
  - intros ([y d] & H & W). eauto.
  - intros (y & d & H & W). exists (y, d). auto.
Qed.
Lemma word_ok : forall Q0 i w ch, nth_error sent i = Some w -> (forall x c, ~ Q0 i x c) -> PosI ch Q0 ->
  exists b ch', populate_word vec veqb vsingle vltb wl ch i w = Some (b, ch') /\
    (b = true <-> exists x c, tagged i x c) /\ PosI ch' (fun j y c => Q0 j y c \/ (j = i /\ tagged i y c)).
Proof.
  intros Q0 i w ch EW N0 PI. assert (Hi : i < length sent) by (apply nth_error_Some; congruence).
  unfold populate_word. destruct (lexloop_ok Q0 i Hi N0 (entries w) [] ch) as (ch1 & E1 & P1).
  { eapply PosI_iff; [|exact PI]. intros j y c. unfold lexQ. split; auto. intros [H|(_ & (l1 & l2 & H & _) & _)]; auto. destruct l1; discriminate. }
  cbn [app] in *. replace (anyallowed i []) with false in E1 by reflexivity. rewrite E1. destruct (anyallowed i (entries w)) eqn:AA.
  - exists true, ch1. split; auto. assert (AT := proj1 (anyallowed_true i (entries w)) AA). split.
    + split; auto. intros _. destruct AT as (y & d & H & W). destruct (first_entry_exists _ _ _ H) as [c FE]. exists y, c. eapply t_lexicon; eauto.
    + eapply PosI_iff; [|exact P1]. intros j y c. unfold lexQ. split.
      * intros [H|(-> & FE & W)]; auto. right. split; auto. eapply t_lexicon; eauto.
      * intros [H|(-> & [w' EW' FE W|w' EW' NA _ _])]; auto.
        -- right. rewrite EW in EW'. inversion EW'; subst w'. auto.
        -- exfalso. rewrite EW in EW'. inversion EW'; subst w'. destruct AT as (y' & d & H & W). now apply (NA y' d H).
  - assert (AF : forall y d, In (y, d) (entries w) -> ~ callowed y (vsingle i)).
    { intros y d H W. assert (anyallowed i (entries w) = true) by (apply anyallowed_true; exists y, d; auto). congruence. }
    assert (P1' : PosI ch1 Q0).
    { eapply PosI_iff; [|exact P1]. intros j y c. unfold lexQ. split; auto. intros [H|(_ & FE & W)]; auto. exfalso. eapply AF; [eapply first_entry_in; eauto|exact W]. }
    assert (GN : NoDup (goldlabels w)) by (rewrite Forall_forall in gold_nodup; apply gold_nodup; eapply nth_error_In; eauto).
    destruct (goldloop_ok Q0 i Hi N0 (goldlabels w) [] false ch1 GN) as (ch2 & E2 & P2).
    { eapply PosI_iff; [|exact P1']. intros j y c. unfold goldQ. cbn [In]. intuition. }
    rewrite E2. eexists _, ch2. split; [reflexivity|]. split.
    + destruct (goldlabels w) as [|x xs] eqn:EG; split; intros H; try discriminate; auto.
      * exfalso. destruct H as (x & c & [w' EW' FE W|w' EW' NA G _]); rewrite EW in EW'; inversion EW'; subst w'.
        -- eapply AF; [eapply first_entry_in; eauto|exact W].
        -- rewrite EG in G. destruct G.
      * exists x, 0%N. apply (t_gold _ _ _ _ _ _ _ w); auto. rewrite EG. now left.
    + eapply PosI_iff; [|exact P2]. intros j y c. unfold goldQ. cbn [app]. split.
      * intros [H|(-> & H & ->)]; auto. right. split; auto. now apply (t_gold _ _ _ _ _ _ _ w).
      * intros [H|(-> & [w' EW' FE W|w' EW' NA G ->])]; auto; rewrite EW in EW'; inversion EW'; subst w'; auto.
        exfalso. eapply AF; [eapply first_entry_in; eauto|exact W].
Qed.
Lemma populate_ok : forall ws pre ch, sent = pre ++ ws -> PosI ch (fun j y c => j < length pre /\ tagged j y c) ->
  (forall i, i < length pre -> exists x c, tagged i x c) ->
  exists b ch', populatepos vec veqb vsingle vltb wl ch (length pre) ws = Some (b, ch') /\
    (b = true <-> forall i, i < length sent -> exists x c, tagged i x c) /\
    (b = true -> PosI ch' tagged).
Proof.
  induction ws as [|w ws IH]; intros pre ch ES PI ALL; cbn [populatepos].
  - rewrite app_nil_r in ES. exists true, ch. split; auto. split; [split; auto; intros _ i H; apply ALL; rewrite <- ES; exact H|]. intros _.
    eapply PosI_iff; [|exact PI]. intros j y c. split; [tauto|]. intros T. split; auto. rewrite <- ES. eapply tagged_range; eauto.
  - assert (EW : nth_error sent (length pre) = Some w) by (rewrite ES, nth_error_app2, Nat.sub_diag by lia; reflexivity).
    assert (NQ : forall x c, ~ (length pre < length pre /\ tagged (length pre) x c)) by (intros x c [H _]; lia).
    destruct (word_ok (fun j y c => j < length pre /\ tagged j y c) (length pre) w ch EW NQ PI) as (b & ch1 & E1 & B1 & P1). rewrite E1.
    destruct b.
    + destruct (IH (pre ++ [w]) ch1) as (b & ch2 & E2 & B2 & P2).
      * rewrite <- app_assoc. exact ES.
      * rewrite app_length. cbn [length]. eapply PosI_iff; [|exact P1]. intros j y c. split.
        -- intros [[H T]|[-> T]]; split; auto; lia.
        -- intros [H T]. destruct (Nat.eq_dec j (length pre)) as [->|NE]; auto. left. split; auto. lia.
      * rewrite app_length. cbn [length]. intros j H. destruct (Nat.eq_dec j (length pre)) as [->|NE]; [now apply B1|]. apply ALL. lia.
      * rewrite app_length in E2. cbn [length] in E2. rewrite Nat.add_1_r in E2. exists b, ch2. auto.
    + exists false, ch1. split; auto. split; [|discriminate]. split; [discriminate|]. intros H. apply B1. apply H. rewrite ES, app_length. cbn. lia.
Qed.
Lemma init_inv : forall ch, PosI ch tagged -> Inv ch.
Proof.
  intros ch [A B C D E F G R]. 
  assert (EX : forall it e c, ecost (probs ch) it e c -> exists i, e = lexedge i /\ snd it = vsingle i /\ tagged i (fst it) c).
  { intros it e c [i x d T|r v a U Z NG P|r l u a b U Z G1 G2 P1 P2 CC]; [exists i; auto|rewrite A in P; discriminate|rewrite A in P1; discriminate]. }
  split.
  - constructor; auto.
    + intros it e H. apply D in H. destruct H as (i & x & c & T & -> & ->). split; [now left|]. exists c. now constructor.
    + intros it s p H. apply C in H. destruct H as (i & x & c & T & -> & EV). inversion EV; subst s p. split; auto. split.
      * left. split; auto. exists i, c. auto.
      * split.
        -- exists (lexedge i). split; [apply D; exists i, x, c; auto|now constructor].
        -- intros e d H1 H2. apply EX in H2. destruct H2 as (j & -> & EJ & T'). cbn [fst snd] in *.
           rewrite (single_inj i j) in T; eauto. rewrite (tagged_unique _ _ _ _ T T'). lia.
    + intros it H. right. destruct (forest ch it) as [|e es] eqn:FE; [contradiction|]. assert (HI : In e (forest ch it)) by (rewrite FE; now left).
      apply D in HI. destruct HI as (i & x & c & T & -> & _). apply in_map_iff. exists ((x, vsingle i), (c, c)). split; auto. apply C. exists i, x, c. auto.
    + intros x v p H. rewrite A in H. discriminate.
    + intros it [H|H]; auto. rewrite A in H. contradiction.
  - intros [x v] e c EC V. apply EX in EC. destruct EC as (i & -> & EV & T). cbn [fst snd] in *. apply D. exists i, x, c. subst v. auto.
Qed.
Lemma parse_starts : exists b ch, populatepos vec veqb vsingle vltb wl (emptychart vec) 0 sent = Some (b, ch) /\
  (b = true <-> forall i, i < length sent -> exists x c, tagged i x c) /\ (b = true -> Inv ch).
Proof.
  destruct (populate_ok sent [] (emptychart vec)) as (b & ch & E & B & P); auto.
  - constructor; cbn; auto using NoDup_nil.
    + intros u v. split; [intros []|intros (i & x & c & [H _] & _); lia].
    + intros u v. split; [intros []|intros (i & x & c & [H _] & _); lia].
    + intros i x c [H _]. lia.
  - intros i H. cbn in H. lia.
  - exists b, ch. split; auto. split; auto. intros X. apply init_inv. auto.
Qed.
End Proofs.
