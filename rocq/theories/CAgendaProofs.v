From Coq Require Import List Bool Arith Lia Permutation ZifyBool ZifyNat Sorted.
From Verif Require Import HeapqModel HeapqProofs AgendaModel AgendaSpec AgendaProofs CAgendaModel CAgendaSpec.
Import ListNotations.

Section Proofs.
Context {K V : Type}.
Variable keqb : K -> K -> bool.
Variable vlt veq : V -> V -> bool.
Hypothesis keqb_ok : forall a b, keqb a b = true <-> a = b.
Hypothesis vlt_irrefl : forall a, vlt a a = false.
Hypothesis vlt_trans : forall a b c, vlt a b = true -> vlt b c = true -> vlt a c = true.
Hypothesis vge_trans : forall a b c, vlt a b = false -> vlt b c = false -> vlt a c = false.
Hypothesis veq_ok : forall a b, veq a b = true <-> (vlt a b = false /\ vlt b a = false).
Hypothesis vantisym : forall a b, vlt a b = false -> vlt b a = false -> a = b.

Notation centry := (@centry K V).
Notation cagenda := (@cagenda K V).
Notation clt := (@clt K V vlt veq).
Notation dget := (dget keqb). Notation dput := (dput keqb). Notation drop := (drop keqb).
Definition L (a b : V) : Prop := vlt a b = true.

Definition ccontents (m : list (K * centry)) : list (K * V) :=
  map (fun ke => (fst ke, cvalue (snd ke))) m.
Lemma ccontents_keys : forall m, map fst (ccontents m) = map fst m.
Proof. intros. unfold ccontents. rewrite map_map. reflexivity. Qed.
Lemma has_ccontents : forall m k, has (ccontents m) k <-> In k (map fst m).
Proof.
  intros. rewrite <- ccontents_keys. unfold has. split.
  - intros [v H]. now apply (in_map fst) in H.
  - intros H. apply in_map_iff in H. destruct H as ([k' v] & E & H). cbn in E. subst. eauto.
Qed.
Lemma in_ccontents : forall m k e, In (k, e) m -> In (k, cvalue e) (ccontents m).
Proof. intros m k e H. apply (in_map (fun ke => (fst ke, cvalue (snd ke)))) in H. exact H. Qed.
Lemma in_ccontents_inv : forall m k v, In (k, v) (ccontents m) -> exists e, In (k, e) m /\ v = cvalue e.
Proof.
  intros m k v H. unfold ccontents in H. apply in_map_iff in H. destruct H as ([k' e] & E & H).
  inversion E; subst. eauto.
Qed.

Lemma clt_cases : forall a b, clt a b = true <->
  vlt (cvalue a) (cvalue b) = true \/ (cvalue a = cvalue b /\ ccount a < ccount b).
Proof.
  intros. unfold CAgendaModel.clt. rewrite orb_true_iff, andb_true_iff, veq_ok, Nat.ltb_lt.
  split; intros [H|H]; auto; right.
  - destruct H as [[H1 H2] H3]. split; auto.
  - destruct H as [E H]. rewrite E, vlt_irrefl. auto.
Qed.
Lemma vasym : forall a b, vlt a b = true -> vlt b a = false.
Proof. intros a b H. destruct (vlt b a) eqn:E; auto.
  pose proof (vlt_trans _ _ _ H E) as X. rewrite vlt_irrefl in X. discriminate. Qed.
Lemma nclt_cases : forall a b, clt b a = false ->
  vlt (cvalue a) (cvalue b) = true \/ (cvalue a = cvalue b /\ ccount a <= ccount b).
Proof.
  intros a b H. assert (N : ~ clt b a = true) by congruence. rewrite clt_cases in N.
  destruct (vlt (cvalue a) (cvalue b)) eqn:E; auto. right.
  destruct (vlt (cvalue b) (cvalue a)) eqn:E2; [exfalso; auto|].
  assert (cvalue a = cvalue b) by auto. split; auto.
  destruct (le_lt_dec (ccount a) (ccount b)); auto. exfalso. apply N. auto.
Qed.

(** ** General invariant *)
Record CInv (s : cagenda) (d seen : list (K * V)) : Prop := {
  C_nodup : NoDup (map fst (cmap s));
  C_map : forall k e, In (k, e) (cmap s) -> ckey e = k /\ In e (cheap s);
  C_heap : forall e k x, In e (cheap s) -> In (k, x) (cmap s) -> ckey e = k -> vlt (cvalue e) (cvalue x) = false;
  C_seen : forall e, In e (cheap s) -> In (ckey e, cvalue e) seen;
  C_d : d = ccontents (cmap s) }.

Lemma dget_in : forall (m : list (K * centry)) k x, dget m k = Some x -> In (k, x) m.
Proof. intros. eapply dget_Some; eauto. Qed.

Lemma dput_cases : forall (m : list (K * centry)) k x,
  (dget m k = None /\ dput m k x = m ++ [(k, x)]) \/
  (exists m1 o m2, m = m1 ++ (k, o) :: m2 /\ ~ In k (map fst m1) /\ dget m k = Some o /\ dput m k x = m1 ++ (k, x) :: m2).
Proof.
  intros m k x. destruct (dget m k) as [o|] eqn:G.
  - right. destruct (dget_split _ keqb_ok _ _ _ _ G) as (m1 & m2 & -> & N).
    exists m1, o, m2. repeat split; auto. now apply dput_old.
  - left. split; auto. eapply dput_new; eauto.
Qed.
Lemma in_dput : forall (m : list (K * centry)) k x k' e, NoDup (map fst m) ->
  In (k', e) (dput m k x) -> (k' = k /\ e = x) \/ (k' <> k /\ In (k', e) m).
Proof.
  intros m k x k' e ND H. destruct (dput_cases m k x) as [[G E]|(m1 & o & m2 & E1 & N & G & E)]; rewrite E in H.
  - apply in_app_or in H. destruct H as [H|[H|[]]].
    + right. split; auto. intros ->. apply (dget_None _ keqb_ok) in G. apply G. now apply (in_map fst) in H.
    + left. inversion H. auto.
  - subst m. rewrite map_app in ND. cbn in ND. apply NoDup_remove_2 in ND.
    apply in_app_or in H. destruct H as [H|[H|H]].
    + right. split; [|apply in_or_app; auto]. intros ->. apply ND. apply in_or_app. left. now apply (in_map fst) in H.
    + left. inversion H. auto.
    + right. split; [|apply in_or_app; right; now right]. intros ->. apply ND. apply in_or_app. right. now apply (in_map fst) in H.
Qed.
Lemma dput_nodup : forall (m : list (K * centry)) k x, NoDup (map fst m) -> NoDup (map fst (dput m k x)).
Proof.
  intros m k x ND. destruct (dput_cases m k x) as [[G E]|(m1 & o & m2 & E1 & N & G & E)]; rewrite E.
  - rewrite map_app. cbn. eapply Permutation_NoDup; [apply Permutation_cons_append|].
    constructor; auto. now apply (dget_None _ keqb_ok).
  - subst m. rewrite map_app in *. exact ND.
Qed.
Lemma cputs : forall (m : list (K * centry)) k x, puts k (cvalue x) (ccontents m) (ccontents (dput m k x)).
Proof.
  intros m k x. destruct (dput_cases m k x) as [[G E]|(m1 & o & m2 & E1 & N & G & E)]; rewrite E.
  - unfold ccontents. rewrite map_app. cbn. apply puts_new. rewrite (has_ccontents m k). now apply (dget_None _ keqb_ok).
  - subst m. unfold ccontents. rewrite !map_app. cbn. apply puts_old. now rewrite (has_ccontents m1 k).
Qed.
Lemma cimproves : forall (m : list (K * centry)) k x o, dget m k = Some o -> vlt (cvalue x) (cvalue o) = true ->
  improves L k (cvalue x) (ccontents m) (ccontents (dput m k x)).
Proof.
  intros m k x o G Hv. destruct (dput_cases m k x) as [[G' E]|(m1 & o' & m2 & E1 & N & G' & E)]; rewrite E.
  - congruence.
  - assert (o' = o) by congruence. subst. unfold ccontents. rewrite !map_app. cbn. now apply imp_better.
Qed.

(** storing an entry that is at least as good as everything seen for its key *)
Lemma store_inv : forall s d seen k v c c', CInv s d seen ->
  (forall e, In e (cheap s) -> ckey e = k -> vlt (cvalue e) v = false) ->
  CInv (CA (CE k v c :: cheap s) (dput (cmap s) k (CE k v c)) c')
       (ccontents (dput (cmap s) k (CE k v c))) ((k, v) :: seen).
Proof.
  intros s d seen k v c c' [H1 H2 H3 H4 ->] Hg. constructor; cbn.
  - now apply dput_nodup.
  - intros k' e H. apply in_dput in H; auto. destruct H as [[-> ->]|[Hk H]]; [cbn; auto|].
    destruct (H2 _ _ H). auto.
  - intros e k' x He Hx Ek. apply in_dput in Hx; auto. destruct Hx as [[-> ->]|[Hk Hx]].
    + cbn. destruct He as [<-|He]; [cbn; apply vlt_irrefl|]. auto.
    + destruct He as [<-|He]; [cbn in Ek; congruence|]. eauto.
  - intros e [<-|He]; cbn; auto.
  - reflexivity.
Qed.
Lemma weaken_seen : forall s d seen kv, CInv s d seen -> CInv s d (kv :: seen).
Proof. intros s d seen kv [H1 H2 H3 H4 H5]. constructor; auto. intros e He. right. auto. Qed.

Lemma cset_ok : forall s d seen k v, CInv s d seen -> (forall v0, In (k, v0) seen -> ~ L v0 v) ->
  exists d', puts k v d d' /\ CInv (csetitem keqb s k v) d' ((k, v) :: seen).
Proof.
  intros s d seen k v HI Hs. unfold csetitem.
  exists (ccontents (dput (cmap s) k (CE k v (S (ccounter s))))). split.
  - rewrite (C_d _ _ _ HI). apply (cputs (cmap s) k (CE k v (S (ccounter s)))).
  - eapply store_inv; eauto. intros e He Ek. pose proof (C_seen _ _ _ HI e He) as S. rewrite Ek in S.
    apply Hs in S. unfold L in S. destruct (vlt (cvalue e) v); congruence.
Qed.
Lemma csetb_ok : forall s d seen k v, CInv s d seen -> (~ has d k -> forall v0, In (k, v0) seen -> ~ L v0 v) ->
  exists d', improves L k v d d' /\ CInv (csetifbetter keqb vlt s k v) d' ((k, v) :: seen).
Proof.
  intros s d seen k v HI Hs. unfold csetifbetter. destruct (dget (cmap s) k) as [o|] eqn:G.
  - pose proof (dget_in _ _ _ G) as IO. destruct (vlt v (cvalue o)) eqn:Ev.
    + exists (ccontents (dput (cmap s) k (CE k v (ccount o)))). split.
      * rewrite (C_d _ _ _ HI). now apply (cimproves (cmap s) k (CE k v (ccount o)) o).
      * eapply store_inv; eauto. intros e He Ek. pose proof (C_heap _ _ _ HI e k o He IO Ek) as B.
        eapply vge_trans; [exact B|]. now apply vasym.
    + exists d. split; [|now apply weaken_seen]. eapply imp_same with (v0 := cvalue o).
      * rewrite (C_d _ _ _ HI). now apply in_ccontents.
      * unfold L. congruence.
  - assert (N : ~ has d k).
    { rewrite (C_d _ _ _ HI), has_ccontents. now apply (dget_None _ keqb_ok). }
    destruct (cset_ok s d seen k v HI (Hs N)) as (d' & P & I').
    exists d'. split; auto. inversion P; subst; [now apply imp_new|].
    exfalso. apply N. exists v0. apply in_elt.
Qed.

Lemma inv_perm : forall h h' m c d seen, Permutation h h' -> CInv (CA h m c) d seen -> CInv (CA h' m c) d seen.
Proof.
  intros h h' m c d seen P [H1 H2 H3 H4 H5]. constructor; cbn in *; auto.
  - intros k e H. destruct (H2 k e H). split; auto. eapply Permutation_in; eauto.
  - intros e k x He. apply H3. eapply Permutation_in; [symmetry; eauto|auto].
  - intros e He. apply H4. eapply Permutation_in; [symmetry; eauto|auto].
Qed.
Lemma inv_skip : forall e h m c d seen, CInv (CA (e :: h) m c) d seen -> dget m (ckey e) = None ->
  CInv (CA h m c) d seen.
Proof.
  intros e h m c d seen [H1 H2 H3 H4 H5] G. cbn in *. apply (dget_None _ keqb_ok) in G.
  constructor; cbn; auto.
  - intros k x H. destruct (H2 k x H) as [E [D|D]]; auto. subst. exfalso. apply G. now apply (in_map fst) in H.
  - intros x k y Hx. apply H3. now right.
Qed.
Lemma inv_take : forall e h m c d seen x, CInv (CA (e :: h) m c) d seen -> dget m (ckey e) = Some x ->
  Forall (fun y => clt y e = false) h -> cvalue e = cvalue x /\
  removes (ckey e) (cvalue e) d (ccontents (drop m (ckey e))) /\ least L d (ckey e) (cvalue e) /\
  CInv (CA h (drop m (ckey e)) c) (ccontents (drop m (ckey e))) seen.
Proof.
  intros e h m c d seen x [H1 H2 H3 H4 ->] G HM. cbn in *.
  pose proof (dget_in _ _ _ G) as IX. destruct (H2 _ _ IX) as [Ek Ih]. rewrite Forall_forall in HM.
  assert (MIN : forall y, In y (e :: h) -> vlt (cvalue y) (cvalue e) = false).
  { intros y [<-|Hy]; [apply vlt_irrefl|]. apply HM in Hy. apply nclt_cases in Hy.
    destruct Hy as [Hy|[Hy _]]; [now apply vasym|]. rewrite Hy. apply vlt_irrefl. }
  assert (E : cvalue e = cvalue x).
  { apply vantisym; [|now apply MIN]. apply (H3 e (ckey e) x); auto. }
  destruct (dget_split _ keqb_ok _ _ _ _ G) as (m1 & m2 & -> & N). rewrite drop_old by auto.
  split; auto. split; [|split].
  - rewrite E. unfold ccontents. rewrite !map_app. cbn. constructor. now rewrite (has_ccontents m1 (ckey e)).
  - split.
    + rewrite E. apply in_ccontents. apply in_elt.
    + intros k' v' H. apply in_ccontents_inv in H. destruct H as (y & Hy & ->).
      destruct (H2 _ _ Hy) as [_ Hh]. unfold L. rewrite MIN; auto.
  - rewrite map_app in H1. cbn in H1. pose proof (NoDup_remove_2 _ _ _ H1) as NK. apply NoDup_remove_1 in H1.
    rewrite <- map_app in *.
    assert (SUB : forall k y, In (k, y) (m1 ++ m2) -> In (k, y) (m1 ++ (ckey e, x) :: m2)).
    { intros k y H. apply in_app_or in H. apply in_or_app. destruct H; auto. right. now right. }
    constructor; cbn; auto.
    + intros k y H. destruct (H2 k y (SUB _ _ H)) as [Ey [D|D]]; auto. subst y. exfalso. apply NK.
      rewrite Ey. now apply (in_map fst) in H.
    + intros y k z Hy Hz. apply H3; auto.
Qed.
Lemma pop_loop_ok : forall m c d seen h h' r, cpop_loop keqb vlt veq m h h' r -> m <> [] ->
  CInv (CA h m c) d seen ->
  match r with
  | Some e => removes (ckey e) (cvalue e) d (ccontents (drop m (ckey e))) /\ least L d (ckey e) (cvalue e) /\
              CInv (CA h' (drop m (ckey e)) c) (ccontents (drop m (ckey e))) seen
  | None => False
  end.
Proof.
  intros m c d seen h h' r H Hm. induction H; intros HI.
  - destruct H as [P M]. pose proof (inv_perm _ _ _ _ _ _ P HI) as HI'.
    now destruct (inv_take _ _ _ _ _ _ _ HI' H0 M) as (_ & A & B & C).
  - destruct H as [P M]. pose proof (inv_perm _ _ _ _ _ _ P HI) as HI'. apply inv_skip in HI'; auto.
    destruct m as [|[k x] m]; [congruence|].
    destruct (C_map _ _ _ HI' k x ltac:(now left)) as [_ []].
  - destruct H as [P M]. pose proof (inv_perm _ _ _ _ _ _ P HI) as HI'. apply inv_skip in HI'; auto.
    now apply IHcpop_loop.
Qed.

Lemma cstep_ok : forall s d seen o r s' ops, CInv s d seen -> improving L d seen (o :: ops) ->
  cstep keqb vlt veq s o r s' ->
  exists d' seen', qstep L (least L) d o r d' /\ CInv s' d' seen' /\ improving L d' seen' ops.
Proof.
  intros s d seen o r s' ops HI HM HS. inversion HS; subst; inversion HM; subst; try contradiction.
  - destruct (cset_ok s d seen k v HI) as (d' & P & I'); auto.
    exists d', ((k, v) :: seen). split; [now constructor|]. auto.
  - destruct (csetb_ok s d seen k v HI) as (d' & P & I'); auto.
    exists d', ((k, v) :: seen). split; [now constructor|]. auto.
  - inversion H; subst.
    + assert (d = []) as -> by (rewrite (C_d _ _ _ HI), H0; reflexivity).
      exists [], seen. split; [constructor|]. auto.
    + assert (HI0 : CInv (CA (cheap s) (cmap s) (ccounter s)) d seen) by (destruct s; exact HI).
      pose proof (pop_loop_ok _ (ccounter s) d seen _ _ _ H2 H0 HI0) as (A & B & C).
      exists (ccontents (drop (cmap s) (ckey e))), seen. split; [econstructor; eauto|]. eauto.
    + assert (HI0 : CInv (CA (cheap s) (cmap s) (ccounter s)) d seen) by (destruct s; exact HI).
      destruct (pop_loop_ok _ (ccounter s) d seen _ _ _ H2 H0 HI0).
  - exists d, seen. split; auto. rewrite (C_d _ _ _ HI).
    destruct (dget (cmap s') k) as [x|] eqn:G; constructor; rewrite has_ccontents.
    + apply dget_in in G. now apply (in_map fst) in G.
    + now apply (dget_None _ keqb_ok).
  - exists d, seen. split; auto. rewrite (C_d _ _ _ HI). unfold ccontents.
    rewrite <- (map_length (fun ke => (fst ke, cvalue (snd ke)))). constructor.
  - exists d, seen. split; auto. rewrite (C_d _ _ _ HI). destruct (cmap s'); cbn; constructor. discriminate.
Qed.
Lemma crun_ok : forall ops s d seen rs, CInv s d seen -> improving L d seen ops -> crun keqb vlt veq s ops rs ->
  qrun L (least L) d ops rs.
Proof.
  induction ops as [|o ops IH]; intros s d seen rs HI HM HR; inversion HR as [|? ? ? ? ? ? HS]; subst; [constructor|].
  destruct (cstep_ok _ _ _ _ _ _ _ HI HM HS) as (d' & seen' & Q & I' & M'). econstructor; eauto.
Qed.

(** ** pop can always proceed *)
Lemma clt_trans : forall a b c, clt a b = true -> clt b c = true -> clt a c = true.
Proof.
  intros a b c H1 H2. rewrite clt_cases in *. destruct H1 as [H1|[E1 H1]], H2 as [H2|[E2 H2]].
  - left. eauto.
  - left. now rewrite <- E2.
  - left. now rewrite E1.
  - right. split; [congruence|lia].
Qed.
Lemma clt_irrefl : forall a, clt a a = true -> False.
Proof. intros a H. apply clt_cases in H. rewrite vlt_irrefl in H. destruct H as [H|[_ H]]; [discriminate|lia]. Qed.
Lemma Rc_total : forall h : list centry, h <> [] -> exists e h', top vlt veq h e h'.
Proof.
  induction h as [|a h IH]; intros Hn; [congruence|]. destruct h as [|b h].
  - exists a, []. split; auto.
  - destruct (IH ltac:(discriminate)) as (e & h' & P & M).
    destruct (clt a e) eqn:C.
    + exists a, (b :: h). split; auto. rewrite Forall_forall in *. intros x Hx.
      eapply Permutation_in in Hx; [|exact P].
      destruct (clt x a) eqn:Cx; auto. exfalso. destruct Hx as [<-|Hx].
      * pose proof (clt_trans _ _ _ C Cx) as T. apply clt_irrefl in T. auto.
      * apply M in Hx. pose proof (clt_trans _ _ _ Cx C). congruence.
    + exists e, (a :: h'). split.
      * eapply perm_trans; [apply perm_skip; exact P|]. apply perm_swap.
      * constructor; auto.
Qed.
Lemma pop_loop_total : forall m n (h : list centry), length h = n -> h <> [] -> exists h' r, cpop_loop keqb vlt veq m h h' r.
Proof.
  intros m. induction n as [n IH] using lt_wf_ind. intros h Hl Hn.
  destruct (Rc_total h Hn) as (e & h' & T). destruct (dget m (ckey e)) as [x|] eqn:G.
  - exists h', (Some e). econstructor; eauto.
  - destruct h' as [|y h'].
    + exists [], None. econstructor; eauto.
    + destruct (IH (length (y :: h'))) with (h := y :: h') as (h2 & r & H); auto; try discriminate.
      * destruct T as [P _]. apply Permutation_length in P. cbn in *. lia.
      * exists h2, r. eapply pl_skip; eauto. discriminate.
Qed.
Lemma cstep_total : forall s d seen o, CInv s d seen -> exists r s', cstep keqb vlt veq s o r s'.
Proof.
  intros s d seen o HI. destruct o; try (eexists; eexists; constructor; fail).
  destruct (cmap s) as [|[k x] m] eqn:Em.
  - exists CNoItem, s. constructor. now constructor.
  - assert (Hh : cheap s <> []).
    { intros E. destruct (C_map _ _ _ HI k x) as [_ B]; [rewrite Em; now left|]. rewrite E in B. destruct B. }
    destruct (pop_loop_total (cmap s) _ (cheap s) eq_refl Hh) as (h' & [e|] & H).
    + eexists; eexists; constructor. eapply pop_item; eauto. congruence.
    + eexists; eexists; constructor. eapply pop_lost; eauto. congruence.
Qed.

(** ** Ties: oldest first *)
Definition csorted := StronglySorted (fun a b : K * centry => ccount (snd a) < ccount (snd b)).
Record CInvF (s : cagenda) (d : list (K * V)) (gone : list K) : Prop := {
  F_nodup : NoDup (map fst (cmap s));
  F_map : forall k e, In (k, e) (cmap s) -> ckey e = k /\ In e (cheap s) /\ ccount e <= ccounter s;
  F_heap : forall e, In e (cheap s) -> In (ckey e) gone \/
     exists x, In (ckey e, x) (cmap s) /\ (e = x \/ (ccount e = ccount x /\ vlt (cvalue x) (cvalue e) = true));
  F_sorted : csorted (cmap s);
  F_gone : forall k, In k gone -> ~ In k (map fst (cmap s));
  F_d : d = ccontents (cmap s) }.

Lemma csorted_end : forall m k e, csorted m -> (forall k' e', In (k', e') m -> ccount e' < ccount e) ->
  csorted (m ++ [(k, e)]).
Proof.
  unfold csorted. induction m as [|x m IH]; intros k e S H; cbn; [repeat constructor|].
  inversion S; subst. constructor; [apply IH; auto; intros; eapply H; right; eauto|].
  rewrite Forall_forall in *. intros y Hy. apply in_app_or in Hy. destruct Hy as [Hy|[<-|[]]]; auto.
  destruct x as [k1 e1]. apply (H k1 e1). now left.
Qed.
Lemma csorted_mid : forall m1 m2 k e old, ccount e = ccount old -> csorted (m1 ++ (k, old) :: m2) ->
  csorted (m1 ++ (k, e) :: m2).
Proof.
  unfold csorted. induction m1 as [|x m IH]; intros m2 k e old E S; cbn in *; inversion S; subst.
  - constructor; auto. rewrite Forall_forall in *. cbn in *. rewrite E. auto.
  - constructor; [eapply IH; eauto|]. rewrite Forall_forall in *. intros y Hy. apply in_app_or in Hy.
    destruct Hy as [Hy|[<-|Hy]].
    + apply H2. apply in_or_app; auto.
    + cbn. rewrite E. apply (H2 (k, old)). apply in_elt.
    + apply H2. apply in_or_app. right. now right.
Qed.
Lemma csorted_drop : forall m1 m2 x, csorted (m1 ++ x :: m2) -> csorted (m1 ++ m2).
Proof.
  unfold csorted. induction m1 as [|y m IH]; intros m2 x S; cbn in *; inversion S; subst; auto.
  constructor; [eapply IH; eauto|]. rewrite Forall_forall in *. intros z Hz. apply H2.
  apply in_app_or in Hz. apply in_or_app. destruct Hz; auto. right. now right.
Qed.
Lemma map_inj : forall (m : list (K * centry)) k x y, NoDup (map fst m) -> In (k, x) m -> In (k, y) m -> x = y.
Proof.
  intros m k x y ND H1 H2. apply (in_dget keqb keqb_ok) in H1, H2; auto. congruence.
Qed.

Lemma fsetb_ok : forall s d gone k v, CInvF s d gone -> ~ In k gone ->
  exists d', improves L k v d d' /\ CInvF (csetifbetter keqb vlt s k v) d' gone.
Proof.
  intros s d gone k v HI Hg. destruct HI as [H1 H2 H3 H4 H5 ->]. unfold csetifbetter.
  destruct (dget (cmap s) k) as [o|] eqn:G.
  - pose proof (dget_in _ _ _ G) as IO. destruct (vlt v (cvalue o)) eqn:Ev.
    + set (e' := CE k v (ccount o)). exists (ccontents (dput (cmap s) k e')). split.
      * now apply (cimproves (cmap s) k e' o).
      * destruct (H2 _ _ IO) as (O1 & O2 & O3).
        constructor; cbn; auto.
        -- now apply dput_nodup.
        -- intros k' e H. apply in_dput in H; auto. destruct H as [[-> ->]|[Hk H]]; [cbn; auto|].
           destruct (H2 _ _ H) as (A & B & C). auto.
        -- intros e [<-|He].
           ++ right. exists e'. split; auto. cbn.
              destruct (dput_cases (cmap s) k e') as [[G' E]|(m1 & o' & m2 & E1 & N & G' & E)]; rewrite E; apply in_elt.
           ++ destruct (H3 _ He) as [Hgo|(x & Hx & D)]; auto. right.
              destruct (keqb (ckey e) k) eqn:Ek.
              ** apply keqb_ok in Ek. rewrite Ek in *. exists e'. split.
                 { destruct (dput_cases (cmap s) k e') as [[G' E]|(m1 & o' & m2 & E1 & N & G' & E)]; rewrite E; apply in_elt. }
                 pose proof (map_inj _ _ _ _ H1 Hx IO) as ->. right.
                 destruct D as [->|[D1 D2]]; cbn; split; auto. eapply vlt_trans; eauto.
              ** exists x. split; auto.
                 assert (Nk : ckey e <> k) by (intros E0; rewrite (proj2 (keqb_ok _ _) E0) in Ek; discriminate).
                 destruct (dput_cases (cmap s) k e') as [[G' E]|(m1 & o' & m2 & E1 & N & G' & E)]; rewrite E.
                 --- apply in_or_app; auto.
                 --- rewrite E1 in Hx. apply in_app_or in Hx. apply in_or_app.
                     destruct Hx as [Hx|[Hx|Hx]]; auto; [|right; now right]. inversion Hx. congruence.
        -- destruct (dput_cases (cmap s) k e') as [[G' E]|(m1 & o' & m2 & E1 & N & G' & E)]; [congruence|].
           rewrite E. rewrite E1 in H4. assert (o' = o) by congruence. subst. eapply csorted_mid; [|exact H4]. reflexivity.
        -- intros k' Hk' Hin. destruct (dput_cases (cmap s) k e') as [[G' E]|(m1 & o' & m2 & E1 & N & G' & E)]; [congruence|].
           apply (H5 _ Hk'). rewrite E in Hin. rewrite E1. rewrite map_app in *. exact Hin.
    + exists (ccontents (cmap s)). split; [|constructor; auto].
      eapply imp_same with (v0 := cvalue o); [now apply in_ccontents|]. unfold L. congruence.
  - pose proof G as G0. apply (dget_None _ keqb_ok) in G0.
    set (e' := CE k v (S (ccounter s))). unfold csetitem. fold e'.
    exists (ccontents (dput (cmap s) k e')). split.
    + rewrite (dput_new keqb) by auto. unfold ccontents. rewrite map_app. cbn. apply imp_new.
      now rewrite (has_ccontents (cmap s) k).
    + constructor; cbn; auto.
      * now apply dput_nodup.
      * intros k' e H. apply in_dput in H; auto. destruct H as [[-> ->]|[Hk H]]; [cbn; auto|].
        destruct (H2 _ _ H) as (A & B & C). auto.
      * rewrite (dput_new keqb) by auto. intros e [<-|He].
        -- right. exists e'. split; auto. apply in_elt.
        -- destruct (H3 _ He) as [Hgo|(x & Hx & D)]; auto. right. exists x. split; auto. apply in_or_app; auto.
      * rewrite (dput_new keqb) by auto. apply csorted_end; auto. intros k' x Hx. destruct (H2 _ _ Hx) as (_ & _ & C). cbn. lia.
      * intros k' Hk' Hin. rewrite (dput_new keqb) in Hin by auto. rewrite map_app in Hin. apply in_app_or in Hin.
        destruct Hin as [Hin|[Hin|[]]]; [eapply H5; eauto|]. cbn in Hin. subst. auto.
Qed.

Lemma f_perm : forall h h' m c d gone, Permutation h h' -> CInvF (CA h m c) d gone -> CInvF (CA h' m c) d gone.
Proof.
  intros h h' m c d gone P [H1 H2 H3 H4 H5 H6]. constructor; cbn in *; auto.
  - intros k e H. destruct (H2 k e H) as (A & B & C). split; auto. split; auto. eapply Permutation_in; eauto.
  - intros e He. apply H3. eapply Permutation_in; [symmetry; eauto|auto].
Qed.
Lemma f_skip : forall e h m c d gone, CInvF (CA (e :: h) m c) d gone -> dget m (ckey e) = None ->
  CInvF (CA h m c) d gone.
Proof.
  intros e h m c d gone [H1 H2 H3 H4 H5 H6] G. cbn in *. apply (dget_None _ keqb_ok) in G.
  constructor; cbn; auto.
  intros k x H. destruct (H2 k x H) as (E & [D|D] & C); auto. subst. exfalso. apply G. now apply (in_map fst) in H.
Qed.
Lemma f_take : forall e h m c d gone x, CInvF (CA (e :: h) m c) d gone -> dget m (ckey e) = Some x ->
  Forall (fun y => clt y e = false) h ->
  removes (ckey e) (cvalue e) d (ccontents (drop m (ckey e))) /\ oldest_least L d (ckey e) (cvalue e) /\
  CInvF (CA h (drop m (ckey e)) c) (ccontents (drop m (ckey e))) (ckey e :: gone).
Proof.
  intros e h m c d gone x [H1 H2 H3 H4 H5 ->] G HM. cbn in *.
  pose proof (dget_in _ _ _ G) as IX. destruct (H2 _ _ IX) as (Ek & Ih & _). rewrite Forall_forall in HM.
  assert (E : e = x).
  { destruct (H3 e (or_introl eq_refl)) as [Hg|(y & Hy & D)].
    - exfalso. apply (H5 _ Hg). now apply (in_map fst) in IX.
    - pose proof (map_inj _ _ _ _ H1 Hy IX) as ->. destruct D as [D|[D1 D2]]; auto.
      exfalso. destruct Ih as [->|Ih]; [rewrite vlt_irrefl in D2; discriminate|].
      apply HM in Ih. assert (clt x e = true) by (apply clt_cases; auto). congruence. }
  subst x.
  destruct (dget_split _ keqb_ok _ _ _ _ G) as (m1 & m2 & -> & N). rewrite drop_old by auto.
  assert (SUB : forall k y, In (k, y) (m1 ++ m2) -> In (k, y) (m1 ++ (ckey e, e) :: m2)).
  { intros k y H. apply in_app_or in H. apply in_or_app. destruct H; auto. right. now right. }
  assert (MIN : forall k y, In (k, y) (m1 ++ (ckey e, e) :: m2) ->
     vlt (cvalue e) (cvalue y) = true \/ (cvalue e = cvalue y /\ ccount e <= ccount y)).
  { intros k y Hy. destruct (H2 _ _ Hy) as (_ & [->|B] & _); [right; auto|]. now apply nclt_cases, HM. }
  split; [|split].
  - unfold ccontents. rewrite !map_app. cbn. constructor. now rewrite (has_ccontents m1 (ckey e)).
  - exists (ccontents m1), (ccontents m2). split; [unfold ccontents; now rewrite map_app|]. split.
    + intros k' v' H. apply in_ccontents_inv in H. destruct H as (y & Hy & ->).
      assert (C : ccount y < ccount e).
      { clear - H4 Hy. unfold csorted in H4. induction m1 as [|z m1 IH]; [contradiction|]. cbn in H4. inversion H4; subst.
        destruct Hy as [->|Hy]; auto. rewrite Forall_forall in H2. apply (H2 (ckey e, e)). apply in_elt. }
      destruct (MIN k' y) as [M|[_ M]]; [apply in_or_app; auto|exact M|lia].
    + intros k' v' H. apply in_ccontents_inv in H. destruct H as (y & Hy & ->). unfold L.
      destruct (MIN k' y) as [M|[M _]]; [apply in_or_app; right; now right|apply vasym in M|rewrite M, vlt_irrefl]; congruence.
  - rewrite map_app in H1. cbn in H1. pose proof (NoDup_remove_2 _ _ _ H1) as NK. apply NoDup_remove_1 in H1.
    rewrite <- map_app in *.
    constructor; cbn; auto.
    + intros k y H. destruct (H2 k y (SUB _ _ H)) as (Ey & [D|D] & C); auto. subst y. exfalso. apply NK.
      rewrite Ey. now apply (in_map fst) in H.
    + intros y Hy. destruct (H3 y (or_intror Hy)) as [Hg|(x & Hx & D)]; auto.
      apply in_app_or in Hx. destruct Hx as [Hx|[Hx|Hx]].
      * right. exists x. split; auto. apply in_or_app; auto.
      * left. left. inversion Hx. auto.
      * right. exists x. split; auto. apply in_or_app; auto.
    + eapply csorted_drop; eauto.
    + intros k [<-|Hk]; auto. intros Hin. apply (H5 _ Hk). rewrite map_app in *. apply in_app_or in Hin.
      apply in_or_app. destruct Hin; auto. right. now right.
Qed.
Lemma f_pop_loop : forall m c d gone h h' r, cpop_loop keqb vlt veq m h h' r -> m <> [] ->
  CInvF (CA h m c) d gone ->
  match r with
  | Some e => removes (ckey e) (cvalue e) d (ccontents (drop m (ckey e))) /\ oldest_least L d (ckey e) (cvalue e) /\
              CInvF (CA h' (drop m (ckey e)) c) (ccontents (drop m (ckey e))) (ckey e :: gone)
  | None => False
  end.
Proof.
  intros m c d gone h h' r H Hm. induction H; intros HI.
  - destruct H as [P M]. pose proof (f_perm _ _ _ _ _ _ P HI) as HI'.
    now destruct (f_take _ _ _ _ _ _ _ HI' H0 M) as (A & B & C).
  - destruct H as [P M]. pose proof (f_perm _ _ _ _ _ _ P HI) as HI'. apply f_skip in HI'; auto.
    destruct m as [|[k x] m]; [congruence|].
    destruct (F_map _ _ _ HI' k x ltac:(now left)) as [_ [[] _]].
  - destruct H as [P M]. pose proof (f_perm _ _ _ _ _ _ P HI) as HI'. apply f_skip in HI'; auto.
    now apply IHcpop_loop.
Qed.
Lemma f_step_ok : forall s d gone o r s' ops, CInvF s d gone -> no_reinsert L d gone (o :: ops) ->
  cstep keqb vlt veq s o r s' ->
  exists d' gone', qstep L (oldest_least L) d o r d' /\ CInvF s' d' gone' /\ no_reinsert L d' gone' ops.
Proof.
  intros s d gone o r s' ops HI HM HS. inversion HS as [| |? ? ? HP| | |]; subst; inversion HM; subst; try contradiction.
  - destruct (fsetb_ok s d gone k v HI) as (d' & P & I'); auto.
    exists d', gone. split; [now constructor|]. auto.
  - assert (HI0 : CInvF (CA (cheap s) (cmap s) (ccounter s)) d gone) by (destruct s; exact HI).
    inversion HP as [? E|? ? ? E HL|? ? E HL]; subst.
    + assert (d = []) as -> by (rewrite (F_d _ _ _ HI), E; reflexivity).
      exists [], gone. split; [constructor|]. auto.
    + pose proof (f_pop_loop _ (ccounter s) d gone _ _ _ HL E HI0) as (A & B & C).
      exists (ccontents (drop (cmap s) (ckey e))), (ckey e :: gone). split; [econstructor; eauto|]. eauto.
    + destruct (f_pop_loop _ (ccounter s) d gone _ _ _ HL E HI0).
  - exists d, gone. split; auto. rewrite (F_d _ _ _ HI).
    destruct (dget (cmap s') k) as [x|] eqn:G; constructor; rewrite has_ccontents.
    + apply dget_in in G. now apply (in_map fst) in G.
    + now apply (dget_None _ keqb_ok).
  - exists d, gone. split; auto. rewrite (F_d _ _ _ HI). unfold ccontents.
    rewrite <- (map_length (fun ke => (fst ke, cvalue (snd ke)))). constructor.
  - exists d, gone. split; auto. rewrite (F_d _ _ _ HI). destruct (cmap s'); cbn; constructor. discriminate.
Qed.
Lemma f_run_ok : forall ops s d gone rs, CInvF s d gone -> no_reinsert L d gone ops -> crun keqb vlt veq s ops rs ->
  qrun L (oldest_least L) d ops rs.
Proof.
  induction ops as [|o ops IH]; intros s d gone rs HI HM HR; inversion HR as [|? ? ? ? ? ? HS]; subst; [constructor|].
  destruct (f_step_ok _ _ _ _ _ _ _ HI HM HS) as (d' & gone' & Q & I' & M'). econstructor; eauto.
Qed.
Lemma empty_invF : CInvF cempty [] [].
Proof. constructor; cbn; auto; try contradiction; constructor. Qed.

(** ** replace_entries, kbest_entries *)
Notation rstep := (replace_step keqb).
Lemma replace_fold : forall l m c m' c', NoDup (map fst m) -> (forall k e, In (k, e) m -> ckey e = k) ->
  fold_left rstep l (m, c) = (m', c') ->
  puts_all l (ccontents m) (ccontents m') /\ NoDup (map fst m') /\ (forall k e, In (k, e) m' -> ckey e = k).
Proof.
  induction l as [|[k v] l IH]; intros m c m' c' ND HK E; cbn in E.
  - inversion E; subst. split; [constructor|auto].
  - apply IH in E.
    + destruct E as (E1 & E2 & E3). split; auto. econstructor; [|exact E1]. apply (cputs m k (CE k v (S c))).
    + now apply dput_nodup.
    + intros k' e H. apply in_dput in H; auto. destruct H as [[-> ->]|[_ H]]; auto.
Qed.
Lemma replace_ok : forall l, exists d, puts_all l [] d /\ CInv (replace_entries keqb l) d d.
Proof.
  intros l. unfold replace_entries. destruct (fold_left rstep l ([], 0)) as [m c] eqn:E.
  apply replace_fold in E; [|constructor|contradiction]. destruct E as (E1 & E2 & E3).
  exists (ccontents m). split; auto. constructor; cbn; auto.
  - intros k e H. split; auto. now apply (in_map snd) in H.
  - intros e k x He Hx Ek. apply in_map_iff in He. destruct He as ([k' e'] & E & He). cbn in E. subst e'.
    pose proof (E3 _ _ He) as K1. rewrite K1 in Ek. subst k'. rewrite (map_inj _ _ _ _ E2 He Hx). apply vlt_irrefl.
  - intros e He. apply in_map_iff in He. destruct He as ([k' e'] & E & He). cbn in E. subst e'.
    rewrite (E3 _ _ He). now apply in_ccontents.
Qed.
Lemma kbest_fold : forall l m c m' c' l0, NoDup (map fst m) -> (forall k e, In (k, e) m -> ckey e = k /\ ccount e <= c) ->
  csorted m -> initial L l0 (ccontents m) ->
  fold_left (kbest_step keqb vlt) l (m, c) = (m', c') ->
  initial L (l0 ++ l) (ccontents m') /\ NoDup (map fst m') /\ (forall k e, In (k, e) m' -> ckey e = k) /\ csorted m'.
Proof.
  induction l as [|[k v] l IH]; intros m c m' c' l0 ND HK HS HL E; cbn in E.
  - inversion E; subst. rewrite app_nil_r. split; auto. split; auto. split; auto. intros k e H. now destruct (HK k e H).
  - replace (l0 ++ (k, v) :: l) with ((l0 ++ [(k, v)]) ++ l) by now rewrite <- app_assoc.
    destruct (dget m k) as [o|] eqn:G.
    + pose proof (dget_in _ _ _ G) as IO. destruct (vlt v (cvalue o)) eqn:Ev.
      * destruct (dput_cases m k (CE k v (ccount o))) as [[G' E']|(m1 & o' & m2 & E1 & N & G' & E')]; [congruence|].
        assert (o' = o) by congruence. subst o'.
        apply (IH _ _ _ _ (l0 ++ [(k, v)])) in E; auto.
        -- now apply dput_nodup.
        -- intros k' e H. apply in_dput in H; auto. destruct H as [[-> ->]|[_ H]]; auto. cbn. split; auto. now apply HK in IO.
        -- rewrite E'. rewrite E1 in HS. eapply csorted_mid; [|exact HS]. reflexivity.
        -- rewrite E'. unfold ccontents. rewrite map_app. cbn.
           eapply initial_better; [exact HL| |exact Ev]. rewrite E1. unfold ccontents. now rewrite map_app.
      * apply (IH _ _ _ _ (l0 ++ [(k, v)])) in E; auto.
        eapply initial_worse; [exact HL|now apply in_ccontents; eauto|]. unfold L. congruence.
    + pose proof G as G0. apply (dget_None _ keqb_ok) in G0.
      apply (IH _ _ _ _ (l0 ++ [(k, v)])) in E; auto.
      * now apply dput_nodup.
      * intros k' e H. apply in_dput in H; auto. destruct H as [[-> ->]|[_ H]]; auto. destruct (HK _ _ H). split; auto.
      * rewrite (dput_new keqb) by auto. apply csorted_end; auto. intros k' x Hx. destruct (HK _ _ Hx). cbn. lia.
      * rewrite (dput_new keqb) by auto. unfold ccontents. rewrite map_app. cbn. apply initial_new; auto.
        now rewrite (has_ccontents m k).
Qed.
Lemma refold : forall t m, NoDup (map fst m ++ map ckey t) ->
  fold_left (fun m e => dput m (ckey e) e) t m = m ++ map (fun e : centry => (ckey e, e)) t.
Proof.
  induction t as [|e t IH]; intros m N; cbn; [now rewrite app_nil_r|].
  assert (G : dget m (ckey e) = None).
  { apply (dget_None _ keqb_ok). cbn in N. apply NoDup_remove_2 in N. intros H. apply N. apply in_or_app; auto. }
  rewrite (dput_new keqb) by auto. rewrite IH.
  - rewrite <- app_assoc. reflexivity.
  - rewrite map_app. cbn. rewrite <- app_assoc. exact N.
Qed.
Lemma dedupe_inv : forall m c, NoDup (map fst m) -> (forall k e, In (k, e) m -> ckey e = k) ->
  CInv (CA (map snd m) m c) (ccontents m) (ccontents m).
Proof.
  intros m c E2 E3. constructor; cbn; auto.
  - intros k e H. split; auto. now apply (in_map snd) in H.
  - intros e k x He Hx Ek. apply in_map_iff in He. destruct He as ([k' e'] & E & He). cbn in E. subst e'.
    pose proof (E3 _ _ He) as K1. rewrite K1 in Ek. subst k'. rewrite (map_inj _ _ _ _ E2 He Hx). apply vlt_irrefl.
  - intros e He. apply in_map_iff in He. destruct He as ([k' e'] & E & He). cbn in E. subst e'.
    rewrite (E3 _ _ He). now apply in_ccontents.
Qed.
Lemma csorted_order : forall m k e k' e', csorted m -> In (k, e) m -> In (k', e') m -> ccount e < ccount e' ->
  exists m1 m2 m3, m = m1 ++ (k, e) :: m2 ++ (k', e') :: m3.
Proof.
  unfold csorted. induction m as [|x m IH]; intros k e k' e' S H1 H2 C; [contradiction|]. inversion S; subst.
  rewrite Forall_forall in H4. destruct H1 as [->|H1], H2 as [E|H2].
  - inversion E; subst. lia.
  - apply in_split in H2. destruct H2 as (a & b & ->). exists [], a, b. reflexivity.
  - subst x. apply H4 in H1. cbn in H1. lia.
  - destruct (IH _ _ _ _ H3 H1 H2 C) as (m1 & m2 & m3 & ->). exists (x :: m1), m2, m3. reflexivity.
Qed.
Lemma csorted_counts : forall m k e k' e', csorted m -> In (k, e) m -> In (k', e') m -> ccount e = ccount e' -> k = k' /\ e = e'.
Proof.
  unfold csorted. induction m as [|x m IH]; intros k e k' e' S H1 H2 C; [contradiction|]. inversion S; subst.
  rewrite Forall_forall in H4. destruct H1 as [->|H1], H2 as [E|H2].
  - now inversion E.
  - apply H4 in H2. cbn in H2. lia.
  - subst x. apply H4 in H1. cbn in H1. lia.
  - eauto.
Qed.
Lemma kbest_ok : forall l k s, kbest_entries keqb vlt veq l k s ->
  exists d d', initial L l d /\ best_of L d k d' /\ CInv s d' d'.
Proof.
  intros l k s H. inversion H as [m c E HL|m c t1 t2 E HL P Ht HC]; subst s.
  - apply (kbest_fold _ _ _ _ _ []) in E; try constructor; try contradiction.
    destruct E as (E1 & E2 & E3 & E4). cbn in E1. exists (ccontents m), (ccontents m). split; auto. split.
    + exists []. split; [intros x; cbn; tauto|]. split; [rewrite app_nil_r, ccontents_keys; auto|].
      split; [unfold ccontents; rewrite map_length; lia|]. intros ka va kb vb _ [].
    + now apply dedupe_inv.
  - apply (kbest_fold _ _ _ _ _ []) in E; try constructor; try contradiction.
    destruct E as (E1 & E2 & E3 & E4). cbn in E1.
    set (f := fun e : centry => (ckey e, e)).
    assert (PM : Permutation m (map f (t1 ++ t2))).
    { rewrite <- P, map_map. clear - E3. induction m as [|[k e] m IH]; cbn; auto.
      unfold f at 1. cbn. rewrite (E3 k e ltac:(now left)). apply perm_skip. apply IH. intros; apply E3; now right. }
    assert (ND : NoDup (map ckey t1)).
    { pose proof (Permutation_NoDup (Permutation_map fst PM) E2) as X. rewrite map_map, map_app in X. cbn in X.
      revert X. clear. induction (map ckey t1) as [|y u IH]; intros X; [constructor|]. cbn in X. inversion X; subst.
      constructor; auto. intros Hy. apply H1. apply in_or_app; auto. }
    rewrite refold by auto. cbn [app]. fold f.
    exists (ccontents m), (ccontents (map f t1)). split; auto.
    assert (SUBm : forall e, In e (t1 ++ t2) -> In (ckey e, e) m).
    { intros e He. eapply Permutation_in; [symmetry; exact PM|]. now apply (in_map f) in He. }
    split.
    + exists (ccontents (map f t2)). split; [|split; [|split]].
      * intros x. rewrite <- in_app_iff. unfold ccontents. rewrite <- map_app, <- map_app.
        split; apply Permutation_in; [|symmetry]; now apply Permutation_map.
      * unfold ccontents. rewrite <- map_app, <- map_app, map_map. cbn.
        eapply Permutation_NoDup; [apply (Permutation_map fst PM)|exact E2].
      * unfold ccontents. rewrite !map_length. lia.
      * intros ka va kb vb Ha Hb. apply in_ccontents_inv in Ha, Hb.
        destruct Ha as (a & Ha & ->), Hb as (b & Hb & ->).
        apply in_map_iff in Ha. destruct Ha as (a' & Ea & Ha). inversion Ea; subst.
        apply in_map_iff in Hb. destruct Hb as (b' & Eb & Hb). inversion Eb; subst.
        pose proof (nclt_cases _ _ (HC _ _ Ha Hb)) as N. destruct N as [N|[N1 N2]]; [left; exact N|right].
        split; [unfold L; rewrite N1, vlt_irrefl; discriminate|].
        pose proof (SUBm a ltac:(apply in_or_app; auto)) as Ia. pose proof (SUBm b ltac:(apply in_or_app; auto)) as Ib.
        destruct (Nat.eq_dec (ccount a) (ccount b)) as [Ec|Ec].
        -- exfalso. destruct (csorted_counts _ _ _ _ _ E4 Ia Ib Ec) as [Hk _].
           pose proof (Permutation_NoDup (Permutation_map fst PM) E2) as X. rewrite map_map, map_app in X. cbn in X.
           apply (in_map ckey) in Ha, Hb. rewrite Hk in Ha. clear - X Ha Hb.
           induction (map ckey t1) as [|y u IH]; [contradiction|]. cbn in X. inversion X; subst.
           destruct Ha as [->|Ha]; auto. apply H1. apply in_or_app; auto.
        -- destruct (csorted_order _ _ _ _ _ E4 Ia Ib ltac:(lia)) as (m1 & m2 & m3 & ->).
           exists (ccontents m1), (ccontents m2), (ccontents m3). unfold ccontents.
           rewrite map_app. cbn. rewrite map_app. reflexivity.
    + replace t1 with (map snd (map f t1)) at 1 by (rewrite map_map; cbn; apply map_id).
      apply dedupe_inv.
      * rewrite map_map. exact ND.
      * intros k' e He. apply in_map_iff in He. destruct He as (x & Ex & _). now inversion Ex.
Qed.

Lemma empty_inv : CInv cempty [] [].
Proof. constructor; cbn; auto; try contradiction; constructor. Qed.
End Proofs.
