(** C85: function tags and morphology in labels. *)
From Coq Require Import String.
From Coq Require Import List Bool Arith NArith Lia.
From Verif Require Import PyStr HeadModel FuncModel.
Import ListNotations.
Open Scope list_scope.
Open Scope nat_scope.

Lemma ft_ind' : forall P : ft -> Prop, (forall i, P (FL i)) -> (forall l s ch, Forall P ch -> P (FN l s ch)) -> forall t, P t.
Proof.
  intros P HL HN. fix IH 1. intros [i|l s ch]; [apply HL|]. apply HN. induction ch as [|c ch IHc]; constructor; [apply IH|exact IHc].
Qed.

(** ** Specification *)
(** the words of a tree *)
Fixpoint words (t : ft) : list nat := match t with FL i => [i] | FN _ _ ch => flat_map words ch end.
(** all labels satisfy P *)
Fixpoint labels (P : pystr -> Prop) (t : ft) : Prop :=
  match t with FL _ => True | FN l _ ch => P l /\ fold_right (fun c acc => labels P c /\ acc) True ch end.
(** the node at a path of child numbers *)
Fixpoint node_at (t : ft) (p : list nat) : option ft :=
  match p with
  | [] => Some t
  | i :: p' => match t with FL _ => None | FN _ _ ch => match nth_error ch i with Some c => node_at c p' | None => None end end
  end.
(** the function tag f of a label written l-f can be read back *)
Definition readable (f : pystr) : Prop :=
  ~ (f <> [] /\ forall c, In c f -> isdigit c = true) /\ (forall g c, f = g ++ [c] -> c <> EQUALS /\ isdigit c = false).
(** a wrapper inserted for a function tag is read as the tag of the node below *)
Fixpoint recover (t : ft) : ft :=
  match t with
  | FL i => FL i
  | FN l s ch =>
    match l, map recover ch with
    | h :: f, [FN l' s' ch'] => if N.eqb h HYPHEN then FN l' (Some f) ch' else FN l s [FN l' s' ch']
    | _, ch' => FN l s ch'
    end
  end.
Fixpoint erase (t : ft) : ft := match t with FL i => FL i | FN l _ ch => FN l None (map erase ch) end.
(** the tags of all nodes but the root, '--' when there is none *)
Definition tagof (s : option pystr) : pystr := match tag s with Some f => f | None => NOTAG end.
Fixpoint tagged (isroot : bool) (t : ft) : ft :=
  match t with FL i => FL i | FN l s ch => FN l (if isroot then None else Some (tagof s)) (map (tagged false) ch) end.
(** no constituent with a single constituent below it has a label that starts with a hyphen *)
Fixpoint nohyphens (t : ft) : Prop :=
  match t with
  | FL _ => True
  | FN l _ ch => ((exists r, l = HYPHEN :: r) -> ~ exists c, ch = [c] /\ phrasal ch = true) /\ fold_right (fun c acc => nohyphens c /\ acc) True ch
  end.

(** ** Strings *)
Lemma fold_forall : forall {X} (P : X -> Prop) l, fold_right (fun c acc => P c /\ acc) True l <-> Forall P l.
Proof. intros X P l. induction l as [|x l IH]; cbn; [split; constructor|]. rewrite IH. split; [intros [A B]; now constructor|intros A; inversion A; auto]. Qed.
Lemma find_none : forall c s, find c s = None <-> ~ In c s.
Proof.
  intros c. induction s as [|x s IH]; cbn; [split; auto|]. destruct (N.eqb_spec x c) as [->|N]; [split; [discriminate|intros H; exfalso; apply H; now left]|].
  destruct (find c s); cbn; [split; [discriminate|intros H; exfalso; destruct IH as [_ IH]; discriminate IH; intros I; apply H; now right]|].
  split; [intros _ [E|I]; [contradiction|now apply IH]|reflexivity].
Qed.
Lemma find_some : forall c s n, find c s = Some n <-> exists a b, s = a ++ c :: b /\ ~ In c a /\ n = length a.
Proof.
  intros c. induction s as [|x s IH]; intros n; cbn; [split; [discriminate|intros (a & b & E & _); destruct a; discriminate]|].
  destruct (N.eqb_spec x c) as [->|N].
  - split; [intros E; injection E as <-; exists [], s; auto|]. intros (a & b & E & NI & ->). destruct a as [|y a]; [reflexivity|]. injection E as -> _. exfalso. apply NI. now left.
  - split.
    + destruct (find c s) as [m|]; [|discriminate]. cbn. intros E. injection E as <-. destruct (proj1 (IH m) eq_refl) as (a & b & -> & NI & ->). exists (x :: a), b. repeat split. intros [E|I]; contradiction.
    + intros (a & b & E & NI & ->). destruct a as [|y a]; [injection E as -> _; contradiction|]. injection E as -> E. rewrite (proj2 (IH (length a))); [reflexivity|]. exists a, b. repeat split; [assumption|]. intros I. apply NI. now right.
Qed.
Lemma cut_spec : forall c s, (exists a b, s = a ++ c :: b /\ ~ In c a /\ a <> [] /\ cut c s = a) \/ ((~ In c s \/ exists b, s = c :: b) /\ cut c s = s).
Proof.
  intros c s. unfold cut. destruct (find c s) as [[|n]|] eqn:F.
  - right. split; [|reflexivity]. apply find_some in F. destruct F as (a & b & -> & _ & L). destruct a; [right; now exists b|discriminate].
  - left. apply find_some in F. destruct F as (a & b & -> & NI & L). exists a, b. repeat split; [assumption|intros ->; discriminate|]. rewrite L, firstn_app, Nat.sub_diag, firstn_all. cbn. now rewrite app_nil_r.
  - right. split; [left; now apply find_none|reflexivity].
Qed.
Lemma cut_app : forall c a b, a <> [] -> ~ In c a -> cut c (a ++ c :: b) = a.
Proof.
  intros c a b NE NI. unfold cut. rewrite (proj2 (find_some c (a ++ c :: b) (length a))) by (exists a, b; auto). destruct a as [|x a]; [contradiction|]. cbn [length]. change (S (length a)) with (length (x :: a)).
  rewrite firstn_app, Nat.sub_diag, firstn_all. cbn. now rewrite app_nil_r.
Qed.
Lemma cut_none : forall c a, ~ In c a -> cut c a = a.
Proof. intros c a NI. unfold cut. now rewrite (proj2 (find_none c a) NI). Qed.
Lemma cut_head : forall c a, cut c (c :: a) = c :: a.
Proof. intros. unfold cut. cbn. now rewrite N.eqb_refl. Qed.
Lemma in_cut : forall c s x, In x (cut c s) -> In x s.
Proof. intros c s x H. destruct (cut_spec c s) as [(a & b & -> & _ & _ & E)|[_ E]]; rewrite E in H; [apply in_or_app; now left|assumption]. Qed.

(** ** Labels *)
(** Removing tags from a label that starts with another character leaves what comes
    before the first hyphen or equals sign. *)
Theorem C85_remove_label : forall c r, c <> HYPHEN -> c <> EQUALS ->
  exists rest, c :: r = removetags (c :: r) ++ rest /\ ~ In HYPHEN (removetags (c :: r)) /\ ~ In EQUALS (removetags (c :: r)) /\
  removetags (c :: r) <> [] /\ (rest = [] \/ exists d u, rest = d :: u /\ (d = HYPHEN \/ d = EQUALS)).
Proof.
  intros c r H E. unfold removetags. destruct (cut_spec HYPHEN (c :: r)) as [(a & b & A & NI & NE & ->)|[[NI|[b B]] ->]]; [| |injection B as -> _; contradiction].
  - destruct (cut_spec EQUALS a) as [(a' & b' & -> & NI' & NE' & ->)|[[NI'|[b' B']] ->]]; [| |rewrite B' in A; injection A as -> _; contradiction].
    + exists (EQUALS :: b' ++ HYPHEN :: b). split; [rewrite A, <- app_assoc; reflexivity|]. split; [intros I; apply NI, in_or_app; now left|]. split; [assumption|]. split; [assumption|]. right. eauto.
    + exists (HYPHEN :: b). repeat (split; try assumption). right. eauto.
  - destruct (cut_spec EQUALS (c :: r)) as [(a' & b' & A' & NI' & NE' & ->)|[[NI'|[b' B']] ->]]; [| |injection B' as -> _; contradiction].
    + exists (EQUALS :: b'). split; [assumption|]. split; [intros I; apply NI; rewrite A'; apply in_or_app; now left|]. split; [assumption|]. split; [assumption|]. right. eauto.
    + exists []. rewrite app_nil_r. repeat (split; try assumption); [discriminate|now left].
Qed.
(** '-NONE-' and the like are not touched *)
Theorem C85_remove_none : forall r, ~ In EQUALS r -> removetags (HYPHEN :: r) = HYPHEN :: r.
Proof. intros r N. unfold removetags. rewrite cut_head. apply cut_none. intros [E|I]; [discriminate|contradiction]. Qed.
Lemma cut_idem : forall c s, cut c (cut c s) = cut c s.
Proof. intros c s. destruct (cut_spec c s) as [(a & b & -> & NI & _ & ->)|[_ E]]; [now apply cut_none|now rewrite !E]. Qed.
Theorem C85_remove_idempotent : forall s, removetags (removetags s) = removetags s.
Proof.
  intros s. unfold removetags. assert (X : cut HYPHEN (cut EQUALS (cut HYPHEN s)) = cut EQUALS (cut HYPHEN s)); [|rewrite X; apply cut_idem].
  destruct (cut_spec HYPHEN s) as [(a & b & -> & NI & NE & ->)|[[NI|[b B]] ->]].
  - apply cut_none. intros I. now apply in_cut in I.
  - apply cut_none. intros I. now apply in_cut in I.
  - subst s. destruct (cut_spec EQUALS (HYPHEN :: b)) as [(a' & b' & A' & NI' & NE' & ->)|[_ ->]]; [|apply cut_head]. destruct a' as [|x a']; [contradiction|]. injection A' as <- _. apply cut_head.
Qed.
Definition plainstart (l : pystr) : Prop := l <> [] /\ forall r, l <> HYPHEN :: r.
Lemma remove_add : forall l f, plainstart l -> removetags (l ++ HYPHEN :: f) = removetags l.
Proof.
  intros l f [NE NH]. unfold removetags. f_equal. destruct (cut_spec HYPHEN l) as [(a & b & -> & NI & NE' & E)|[[NI|[b B]] E]]; [| |now apply NH in B].
  - rewrite E, <- app_assoc. cbn [app]. now apply cut_app.
  - rewrite E. now apply cut_app.
Qed.

(** ** Trees *)
(** Relabeling keeps words and shape; every action keeps the words. *)
Lemma words_map : forall (f : ft -> ft) ch, Forall (fun c => words (f c) = words c) ch -> flat_map words (map f ch) = flat_map words ch.
Proof. intros f ch H. induction H; cbn; [reflexivity|]. now rewrite H, IHForall. Qed.
Theorem C85_words : forall action pos root between t, words (handlefunctions action pos root between t) = words t.
Proof.
  intros action pos root between t. unfold handlefunctions. generalize true. induction t as [i|l s ch IH] using ft_ind'; intros isroot; [reflexivity|]. cbn [handle].
  assert (X : flat_map words (map (handle action pos root between false) ch) = flat_map words ch) by (apply words_map; eapply Forall_impl; [|exact IH]; intros c H; apply H).
  destruct action; try (cbn [words]; exact X); (destruct (skipped _ _ _ _ _ ch); [cbn [words]; exact X|]); destruct (tag s); cbn [words flat_map]; rewrite ?app_nil_r; exact X.
Qed.
(** The label of every node after [Add], [Replace], [Remove]: the tag is added to (put in
    place of the label of) every node except the root (unless asked for), words' tags
    when [pos] is off, and preterminals when morphology is put between. *)
Definition eligible (pos root between isroot : bool) (ch : list ft) : Prop :=
  (phrasal ch = false -> between = false /\ pos = true) /\ (isroot = true -> root = true).
Definition isrelabel (a : faction) : Prop := a = Add \/ a = Replace \/ a = Remove.
Lemma skipped_iff : forall between pos root isroot a ch, a <> Between -> skipped between pos root isroot a ch = false <-> eligible pos root between isroot ch.
Proof.
  intros between pos root isroot a ch NB. unfold skipped, eligible. destruct a; try contradiction; destruct between, pos, root, isroot, (phrasal ch); cbn; intuition congruence.
Qed.
Lemma labels_gen : forall action pos root between p t isroot l s ch, isrelabel action -> node_at t p = Some (FN l s ch) ->
  exists l' ch', node_at (handle action pos root between isroot t) p = Some (FN l' s ch') /\ length ch' = length ch /\
  let el := eligible pos root between (isroot && match p with [] => true | _ => false end) ch in
  (action = Remove -> l' = removetags l) /\
  (action <> Remove -> ~ el -> l' = l) /\
  (action = Add -> el -> forall f, s = Some f -> f <> [] -> f <> NOTAG -> l' = l ++ HYPHEN :: f) /\
  (action = Add -> s = None \/ s = Some [] \/ s = Some NOTAG -> l' = l) /\
  (action = Replace -> el -> forall f, s = Some f -> f <> [] -> l' = f) /\
  (action = Replace -> el -> s = None \/ s = Some [] -> l' = NOTAG).
Proof.
  intros action pos root between. induction p as [|i p IH]; intros t isroot l s ch RL NA.
  - cbn [node_at] in *. injection NA as ->. rewrite andb_true_r. cbn [handle].
    assert (NB : action <> Between) by (destruct RL as [->|[->| ->]]; discriminate).
    pose proof (skipped_iff between pos root isroot action ch NB) as SK.
    destruct action; try (destruct RL as [R|[R|R]]; discriminate); clear RL.
    + exists (removetags l), (map (handle Remove pos root between false) ch). split; [reflexivity|]. split; [now rewrite map_length|]. cbv zeta. repeat split; intros; try discriminate; congruence.
    + destruct (skipped between pos root isroot Add ch) eqn:Q.
      * exists l, (map (handle Add pos root between false) ch). split; [reflexivity|]. split; [now rewrite map_length|]. cbv zeta. repeat split; intros; try discriminate; try reflexivity. exfalso. apply SK in H0. discriminate.
      * destruct (tag s) as [f|] eqn:TG.
        -- exists (l ++ HYPHEN :: f), (map (handle Add pos root between false) ch). split; [reflexivity|]. split; [now rewrite map_length|]. cbv zeta. repeat split; intros; try discriminate.
           ++ exfalso. apply H0. now apply SK.
           ++ subst s. unfold tag in TG. destruct f0; [contradiction|]. apply eqs_neq in H3. rewrite H3 in TG. injection TG as <-. reflexivity.
           ++ exfalso. unfold tag in TG. destruct H0 as [->|[->| ->]]; discriminate.
        -- exists l, (map (handle Add pos root between false) ch). split; [reflexivity|]. split; [now rewrite map_length|]. cbv zeta. repeat split; intros; try discriminate; try reflexivity.
           exfalso. subst s. unfold tag in TG. destruct f; [contradiction|]. apply eqs_neq in H3. rewrite H3 in TG. discriminate.
    + destruct (skipped between pos root isroot Replace ch) eqn:Q.
      * exists l, (map (handle Replace pos root between false) ch). split; [reflexivity|]. split; [now rewrite map_length|]. cbv zeta. repeat split; intros; try discriminate; try reflexivity; exfalso; apply SK in H0; discriminate.
      * destruct (tag s) as [f|] eqn:TG.
        -- exists f, (map (handle Replace pos root between false) ch). split; [reflexivity|]. split; [now rewrite map_length|]. cbv zeta. repeat split; intros; try discriminate.
           ++ exfalso. apply H0. now apply SK.
           ++ subst s. unfold tag in TG. destruct f0; [contradiction|]. destruct (eqs (n :: f0) NOTAG); [discriminate|]. now injection TG as <-.
           ++ exfalso. unfold tag in TG. destruct H1 as [->| ->]; discriminate.
        -- exists NOTAG, (map (handle Replace pos root between false) ch). split; [reflexivity|]. split; [now rewrite map_length|]. cbv zeta. repeat split; intros; try discriminate; try reflexivity.
           ++ exfalso. apply H0. now apply SK.
           ++ subst s. unfold tag in TG. destruct f; [contradiction|]. destruct (eqs (n :: f) NOTAG) eqn:EN; [|discriminate]. apply eqs_eq in EN. congruence.
  - cbn [node_at] in *. destruct t as [|l0 s0 ch0]; [discriminate|]. destruct (nth_error ch0 i) as [c|] eqn:NE; [|discriminate]. destruct (IH c false l s ch RL NA) as (l' & ch' & A & B & C). cbn [andb] in C. rewrite andb_false_r.
    exists l', ch'. split; [|split; [exact B|]]; [|exact C].
    assert (X : exists l1, handle action pos root between isroot (FN l0 s0 ch0) = FN l1 s0 (map (handle action pos root between false) ch0)).
    { cbn [handle]. destruct action; try (destruct RL as [R|[R|R]]; discriminate); try (eexists; reflexivity); (destruct (skipped _ _ _ _ _ ch0); [eexists; reflexivity|]); destruct (tag s0); eexists; reflexivity. }
    destruct X as [l1 ->]. rewrite (map_nth_error _ _ _ NE). exact A.
Qed.
Theorem C85_labels : forall action pos root between t p l s ch, isrelabel action -> node_at t p = Some (FN l s ch) ->
  exists l' ch', node_at (handlefunctions action pos root between t) p = Some (FN l' s ch') /\ length ch' = length ch /\
  let el := eligible pos root between (match p with [] => true | _ => false end) ch in
  (action = Remove -> l' = removetags l) /\
  (action <> Remove -> ~ el -> l' = l) /\
  (action = Add -> el -> forall f, s = Some f -> f <> [] -> f <> NOTAG -> l' = l ++ HYPHEN :: f) /\
  (action = Add -> s = None \/ s = Some [] \/ s = Some NOTAG -> l' = l) /\
  (action = Replace -> el -> forall f, s = Some f -> f <> [] -> l' = f) /\
  (action = Replace -> el -> s = None \/ s = Some [] -> l' = NOTAG).
Proof. intros action pos root between t p l s ch RL NA. exact (labels_gen action pos root between p t true l s ch RL NA). Qed.
(** Adding tags and removing them is the same as removing them, for any options. *)
Theorem C85_remove_add : forall pos root between pos' root' between' t, labels plainstart t ->
  handlefunctions Remove pos' root' between' (handlefunctions Add pos root between t) = handlefunctions Remove pos' root' between' t.
Proof.
  intros pos root between pos' root' between' t. unfold handlefunctions. generalize true at 1 3. generalize true. induction t as [i|l s ch IH] using ft_ind'; intros r1 r2 H; [reflexivity|].
  cbn [labels] in H. rewrite fold_forall in H. destruct H as [HL HC]. cbn [handle].
  assert (X : map (handle Remove pos' root' between' false) (map (handle Add pos root between false) ch) = map (handle Remove pos' root' between' false) ch).
  { rewrite map_map. apply map_ext_Forall. rewrite Forall_forall in *. intros c Hc. now apply IH, HC. }
  destruct (skipped _ _ _ _ _ ch); [cbn [handle]; now rewrite X|]. destruct (tag s) as [p0|]; cbn [handle]; [|now rewrite X]. now rewrite X, (remove_add l p0 HL).
Qed.
(** [Between]: from the labels of the resulting tree, the tree and the tags of all nodes
    but the root can be recovered. *)
Lemma map_erase_recover : forall ch, Forall (fun t => forall isroot, nohyphens t -> recover (erase (handle Between true false false isroot t)) = tagged isroot t) ch ->
  Forall nohyphens ch -> map recover (map erase (map (handle Between true false false false) ch)) = map (tagged false) ch.
Proof. intros ch H N. rewrite !map_map. apply map_ext_Forall. rewrite Forall_forall in *. intros c Hc. apply H; [assumption|now apply N]. Qed.
Lemma recover_plain : forall l s ch, ((exists r, l = HYPHEN :: r) -> ~ exists c, map recover ch = [c] /\ phrasal (map recover ch) = true) -> recover (FN l s ch) = FN l s (map recover ch).
Proof.
  intros l s ch H. cbn [recover]. destruct l as [|h f]; [reflexivity|]. destruct (map recover ch) as [|[i|l' s' ch'] [|d ds]]; try reflexivity. destruct (N.eqb_spec h HYPHEN) as [->|]; [|reflexivity].
  exfalso. apply H; [eauto|]. exists (FN l' s' ch'). auto.
Qed.
Lemma recover_wrap : forall f s t l' s' ch', recover t = FN l' s' ch' -> recover (FN (HYPHEN :: f) s [t]) = FN l' (Some f) ch'.
Proof. intros f s t l' s' ch' H. cbn [recover map]. rewrite H. reflexivity. Qed.
(** Where nodes are put: above every selected node but the root, whatever the options;
    their label is the function tag of the node below. *)
Inductive btw (sel : list ft -> Prop) : ft -> ft -> Prop :=
  | b_leaf : forall i, btw sel (FL i) (FL i)
  | b_keep : forall l s ch ch', ~ sel ch -> Forall2 (btw sel) ch ch' -> btw sel (FN l s ch) (FN l s ch')
  | b_put : forall l s ch ch', sel ch -> Forall2 (btw sel) ch ch' ->
      btw sel (FN l s ch) (FN (HYPHEN :: match s with None | Some [] => NOTAG | Some f => f end) None [FN l s ch']).
Theorem C85_between_where : forall pos root between l s ch, exists ch', handlefunctions Between pos root between (FN l s ch) = FN l s ch' /\
  Forall2 (btw (fun ch => phrasal ch = true \/ pos = true /\ between = false)) ch ch'.
Proof.
  intros pos root between l s ch. exists (map (handle Between pos root between false) ch). split.
  - unfold handlefunctions. cbn [handle]. unfold skipped. destruct between, root, (phrasal ch), pos; reflexivity.
  - assert (X : forall t, btw (fun ch => phrasal ch = true \/ pos = true /\ between = false) t (handle Between pos root between false t)).
    { clear. induction t as [i|l s ch IH] using ft_ind'; [constructor|]. assert (F : Forall2 (btw (fun ch => phrasal ch = true \/ pos = true /\ between = false)) ch (map (handle Between pos root between false) ch)).
      { induction IH; constructor; auto. }
      cbn [handle]. unfold skipped. rewrite andb_false_r.
      destruct (phrasal ch) eqn:PH.
      - rewrite andb_false_r, orb_true_r. cbn [negb]. assert (E : FN (HYPHEN :: match s with None | Some [] => NOTAG | Some f => f end) None [FN l s (map (handle Between pos root between false) ch)] =
          match tag s with Some f => FN (HYPHEN :: f) None [FN l s (map (handle Between pos root between false) ch)] | None => FN (HYPHEN :: NOTAG) None [FN l s (map (handle Between pos root between false) ch)] end).
        { destruct s as [[|c f]|]; try reflexivity. unfold tag. destruct (eqs (c :: f) NOTAG) eqn:Q; [|reflexivity]. apply eqs_eq in Q. now rewrite Q. }
        rewrite <- E. apply b_put; auto.
      - destruct between; cbn [andb negb]; [apply b_keep; [intros [Z|[_ Z]]; [congruence|discriminate Z]|exact F]|]. destruct pos; cbn [orb negb]; [|apply b_keep; [intros [Z|[Z _]]; [congruence|discriminate Z]|exact F]].
        assert (E : FN (HYPHEN :: match s with None | Some [] => NOTAG | Some f => f end) None [FN l s (map (handle Between true root false false) ch)] =
          match tag s with Some f => FN (HYPHEN :: f) None [FN l s (map (handle Between true root false false) ch)] | None => FN (HYPHEN :: NOTAG) None [FN l s (map (handle Between true root false false) ch)] end).
        { destruct s as [[|c f]|]; try reflexivity. unfold tag. destruct (eqs (c :: f) NOTAG) eqn:Q; [|reflexivity]. apply eqs_eq in Q. now rewrite Q. }
        rewrite <- E. apply b_put; auto. }
    induction ch as [|c ch IH]; cbn [map]; constructor; auto.
Qed.
Theorem C85_between : forall t, nohyphens t -> recover (erase (handlefunctions Between true false false t)) = tagged true t.
Proof.
  intros t. unfold handlefunctions. generalize true at 2 3. induction t as [i|l s ch IH] using ft_ind'; intros isroot H; [reflexivity|].
  cbn [nohyphens] in H. rewrite fold_forall in H. destruct H as [HL HC]. pose proof (map_erase_recover ch IH HC) as X.
  set (ch' := map erase (map (handle Between true false false false) ch)) in *.
  assert (PH : phrasal (map (tagged false) ch) = phrasal ch) by (destruct ch as [|[|] ?]; reflexivity).
  assert (R : recover (FN l None ch') = FN l None (map (tagged false) ch)).
  { rewrite <- X. apply recover_plain. rewrite X, PH. intros E (c & EC & P). apply (HL E). destruct ch as [|d [|]]; try discriminate. exists d. auto. }
  cbn [handle tagged]. unfold skipped. cbn [negb andb orb]. destruct isroot; cbn [andb].
  - cbn [erase]. fold ch'. exact R.
  - unfold tagof. destruct (tag s) as [f|]; cbn [erase map]; fold ch'; exact (recover_wrap _ None (FN l None ch') _ _ _ R).
Qed.

(** ** Reading tags back from bracket notation *)
Lemma lstripw_spec : forall f s, lstripw f s = s <-> (s = [] \/ exists c r, s = c :: r /\ f c = false).
Proof.
  intros f [|c s]; cbn; [split; auto|]. destruct (f c) eqn:E.
  - split; [|intros [H|(d & r & H & Q)]; [discriminate|injection H as <- <-; congruence]]. intros H. exfalso. assert (L : forall u, length (lstripw f u) <= length u) by (induction u as [|a u IHu]; cbn; [lia|destruct (f a); cbn; lia]). specialize (L s). rewrite H in L. cbn in L. lia.
  - split; [intros _; right; eauto|reflexivity].
Qed.
Lemma rstripw_spec : forall f s, rstripw f s = s <-> forall g c, s = g ++ [c] -> f c = false.
Proof.
  intros f s. unfold rstripw. split.
  - intros H g c ->. assert (X : lstripw f (rev (g ++ [c])) = rev (g ++ [c])) by (rewrite <- (rev_involutive (lstripw f _)); now f_equal). apply lstripw_spec in X. rewrite rev_app_distr in X. destruct X as [X|(d & r & E & Q)]; [discriminate|]. injection E as <- _. assumption.
  - intros H. rewrite (proj2 (lstripw_spec f (rev s))); [apply rev_involutive|]. destruct (rev s) as [|c r] eqn:E; [now left|]. right. exists c, r. split; [reflexivity|]. apply (H (rev r)). rewrite <- (rev_involutive s), E. reflexivity.
Qed.
Lemma isdigits_iff : forall f, isdigits f = true <-> f <> [] /\ forall c, In c f -> isdigit c = true.
Proof. intros [|c f]; cbn [isdigits]; [split; [discriminate|intros [H _]; contradiction]|]. rewrite forallb_forall. split; [intros H; split; [discriminate|exact H]|intros [_ H]; exact H]. Qed.
Lemma rstripw_short : forall f s, length (rstripw f s) <= length s.
Proof. intros f s. unfold rstripw. rewrite rev_length. rewrite <- (rev_length s). generalize (rev s). induction l as [|a u IHu]; cbn; [lia|destruct (f a); cbn; lia]. Qed.
(** The tag read from a label l-f is f if and only if f is not a number and ends in
    neither a digit nor an equals sign; the label is l. *)
Theorem C85_readback : forall l f, l <> [] -> ~ In HYPHEN l -> ~ In EQUALS l -> f <> NOTAG ->
  readlabel true (l ++ HYPHEN :: f) = (l, snd (readlabel true (l ++ HYPHEN :: f))) /\
  (snd (readlabel true (l ++ HYPHEN :: f)) = f <-> readable f).
Proof.
  intros l f NE NH NQ NT. unfold readlabel. rewrite (proj2 (find_some HYPHEN (l ++ HYPHEN :: f) (length l))) by (exists l, f; auto).
  destruct (length l) as [|n] eqn:L; [destruct l; [contradiction|discriminate]|]. rewrite <- L.
  assert (F : firstn (length l) (l ++ HYPHEN :: f) = l) by (rewrite firstn_app, Nat.sub_diag, firstn_all; cbn; apply app_nil_r).
  assert (SK : skipn (S (length l)) (l ++ HYPHEN :: f) = f) by (rewrite skipn_app, skipn_all2 by lia; replace (S (length l) - length l) with 1 by lia; reflexivity).
  rewrite F, SK, (cut_none EQUALS l NQ). cbn [snd]. split; [reflexivity|]. unfold readable. destruct (isdigits f) eqn:D.
  - apply isdigits_iff in D. split; [intros E; congruence|intros [A _]; contradiction].
  - assert (ND : ~ (f <> [] /\ forall c, In c f -> isdigit c = true)) by (rewrite <- isdigits_iff; congruence). rewrite rstripw_spec. split.
    + intros H. split; [assumption|]. intros g c E. specialize (H g c E). unfold strippable in H. apply orb_false_iff in H. destruct H as [H1 H2]. apply N.eqb_neq in H1. auto.
    + intros [_ H] g c E. destruct (H g c E) as [H1 H2]. unfold strippable. rewrite H2, orb_false_r. now apply N.eqb_neq.
Qed.
Fixpoint tags (P : pystr -> Prop) (t : ft) : Prop :=
  match t with FL _ => True | FN _ s ch => (match s with Some f => P f | None => False end) /\ fold_right (fun c acc => tags P c /\ acc) True ch end.
(** Trees with tags at all nodes but the root, added to the labels, are read back. *)
Theorem C85_readback_tree : forall l ch, let t := FN l (Some NOTAG) ch in
  labels (fun l => l <> [] /\ ~ In HYPHEN l /\ ~ In EQUALS l) t -> tags (fun f => f = NOTAG \/ (f <> [] /\ readable f)) t ->
  readlabels true (handlefunctions Add true false false t) = t.
Proof.
  intros l ch t HL HT. unfold handlefunctions. subst t.
  assert (G : forall t isroot, (isroot = true -> match t with FN _ s _ => s = Some NOTAG | _ => True end) -> labels (fun l => l <> [] /\ ~ In HYPHEN l /\ ~ In EQUALS l) t -> tags (fun f => f = NOTAG \/ (f <> [] /\ readable f)) t ->
    readlabels true (handle Add true false false isroot t) = t); [|apply G; auto]. clear.
  induction t as [i|l s ch IH] using ft_ind'; intros isroot HR HL HT; [reflexivity|]. cbn [labels tags] in HL, HT. rewrite fold_forall in HL, HT. destruct HL as [(NE & NH & NQ) HL]. destruct HT as [HS HT]. cbn [handle].
  assert (X : map (readlabels true) (map (handle Add true false false false) ch) = ch).
  { rewrite map_map. rewrite <- (map_id ch) at 2. apply map_ext_Forall. rewrite Forall_forall in *. intros c Hc. apply IH; auto. intros; discriminate. }
  assert (PL : readlabels true (FN l s (map (handle Add true false false false) ch)) = FN l (Some NOTAG) ch).
  { cbn [readlabels]. rewrite X. unfold readlabel. rewrite (proj2 (find_none HYPHEN l) NH). now rewrite (cut_none EQUALS l NQ). }
  destruct s as [f|]; [|destruct HS]. unfold skipped. cbn [negb andb orb]. destruct isroot; cbn [andb].
  - rewrite PL, <- (HR eq_refl). reflexivity.
  - destruct HS as [->|[NF RF]].
    + assert (T0 : tag (Some NOTAG) = None) by reflexivity. rewrite T0. exact PL.
    + destruct (eqs_dec f NOTAG) as [->|NT].
      * assert (T0 : tag (Some NOTAG) = None) by reflexivity. rewrite T0. exact PL.
      * assert (T0 : tag (Some f) = Some f) by (unfold tag; destruct f; [contradiction|]; apply eqs_neq in NT; now rewrite NT). rewrite T0. cbn [readlabels].
        destruct (C85_readback l f NE NH NQ NT) as [E1 E2]. rewrite E1, (proj2 E2 RF), X. reflexivity.
Qed.
(** REFUTED: a tag that ends in a digit, like those of Alpino, is read back. *)
Theorem C85_digits_refuted : readlabel true (str "NP-obj1") = (str "NP", str "obj") /\ readlabel true (str "NP-2") = (str "NP", NOTAG).
Proof. split; vm_compute; reflexivity. Qed.
(** REFUTED: all tags of a node are non-empty.  A label of the Penn treebank with a tag
    and an index has the tag 'SBJ-', of which the parts are 'SBJ' and ''. *)
Theorem C85_empty_tag_refuted : let f := snd (readlabel true (str "NP-SBJ-1")) in f = str "SBJ-" /\ functions (Some f) = [str "SBJ"; []].
Proof. split; vm_compute; reflexivity. Qed.
(** the function tags of a node, joined by hyphens, give its tag field *)
Lemma splitc_join : forall c s, BracketModel.join [c] (splitc c s) = s.
Proof.
  intros c. induction s as [|x s IH]; [reflexivity|]. cbn [splitc]. destruct (N.eqb_spec x c) as [->|N].
  - destruct (splitc c s) as [|y ys] eqn:E; [destruct s as [|a s]; cbn in E; [discriminate|destruct (N.eqb a c); [discriminate|destruct (splitc c s); discriminate]]|]. cbn [BracketModel.join] in *. rewrite IH. reflexivity.
  - destruct (splitc c s) as [|y ys] eqn:E; [destruct s as [|a s]; cbn in E; [discriminate|destruct (N.eqb a c); [discriminate|destruct (splitc c s); discriminate]]|]. destruct ys as [|z zs]; cbn [BracketModel.join app] in *; now rewrite IH.
Qed.
Theorem C85_functions : forall f, f <> [] -> f <> NOTAG -> BracketModel.join [HYPHEN] (functions (Some f)) = f /\ Forall (fun g => ~ In HYPHEN g) (functions (Some f)) /\ hd [] (functions (Some f)) = function (Some f).
Proof.
  intros f NE NT. unfold functions. apply eqs_neq in NT. rewrite NT. destruct f as [|c f0]; [contradiction|]. cbn [orb]. clear NE NT. generalize (c :: f0). intros s. split; [apply splitc_join|]. cbn [function]. clear.
  induction s as [|x s [IH1 IH2]]; [split; [repeat constructor; intros []|reflexivity]|]. cbn [splitc before]. destruct (N.eqb_spec x HYPHEN) as [->|N]; [split; [constructor; [intros []|assumption]|reflexivity]|].
  destruct (splitc HYPHEN s) as [|y ys] eqn:E.
  - split; [constructor; [|constructor]; intros [I|[]]; contradiction|]. cbn in *. now rewrite <- IH2.
  - inversion IH1; subst. split; [constructor; [intros [I|I]; contradiction|assumption]|]. cbn [hd] in *. now rewrite IH2.
Qed.

(** ** Morphology *)
Lemma escapemorph_clean : forall s c, In c (escapemorph s) -> c <> 40%N /\ c <> 41%N /\ c <> 32%N.
Proof.
  intros s c H. unfold escapemorph in H. apply in_map_iff in H. destruct H as (x & <- & _). unfold morphchar.
  destruct (N.eqb_spec x 40); [repeat split; discriminate|]. destruct (N.eqb_spec x 41); [repeat split; discriminate|]. destruct (N.eqb_spec x 32); [repeat split; discriminate|]. auto.
Qed.
(** The word of a preterminal stays where it is; new labels can be written in brackets:
    they have no parentheses or spaces. *)
Theorem C85_morph_word : forall action lemmaaction label i morph lemma func sent,
  let '(t, sent') := handlemorphology action lemmaaction label i morph lemma func sent in
  words t = [i] /\ length sent' = length sent /\ (forall k, k <> i -> nth_error sent' k = nth_error sent k) /\
  (action <> MAdd -> action <> MReplace -> exists ch, t = FN label func ch).
Proof.
  intros action lemmaaction label i morph lemma func sent. unfold handlemorphology.
  assert (W : forall child, words child = [i] -> words (match action with MNo => FN label func [child] | MAdd => FN (label ++ SLASH :: escapemorph morph) func [child] | MReplace => FN (escapemorph morph) func [child] | MBetween => FN label func [FN (escapemorph morph) None [child]] end) = [i]).
  { intros child H. destruct action; cbn [words flat_map]; rewrite ?app_nil_r; exact H. }
  assert (S : forall f, length (setword sent i f) = length sent /\ forall k, k <> i -> nth_error (setword sent i f) k = nth_error sent k).
  { intros f. unfold setword. split; [rewrite map_length, combine_length, seq_length; lia|]. intros k NK.
    assert (G : forall l b, nth_error (map (fun nw : nat * pystr => if fst nw =? i then f (snd nw) else snd nw) (combine (seq b (length l)) l)) k = match nth_error l k with Some w => Some (if b + k =? i then f w else w) | None => None end).
    { clear. induction k as [|k IH]; intros [|w l] b; try reflexivity; cbn [length seq combine map nth_error fst snd]; [now rewrite Nat.add_0_r|]. rewrite IH. now rewrite Nat.add_succ_r. }
    rewrite G. cbn [Nat.add]. destruct (nth_error sent k); [|reflexivity]. apply Nat.eqb_neq in NK. now rewrite NK. }
  split; [apply W; destruct lemmaaction; reflexivity|]. split; [destruct lemmaaction; try reflexivity; apply S|]. split; [destruct lemmaaction; try reflexivity; apply S|].
  intros A B. destruct action; try contradiction; eexists; reflexivity.
Qed.
Theorem C85_morph_labels : forall action lemmaaction label i morph lemma func sent,
  (forall c, In c label -> c <> 40%N /\ c <> 41%N /\ c <> 32%N) ->
  labels (fun l => forall c, In c l -> c <> 40%N /\ c <> 41%N /\ c <> 32%N) (fst (handlemorphology action lemmaaction label i morph lemma func sent)).
Proof.
  intros action lemmaaction label i morph lemma func sent HL. unfold handlemorphology. cbn [fst].
  assert (LM : forall c, In c (match escapemorph lemma with [] => NOTAG | l => l end) -> c <> 40%N /\ c <> 41%N /\ c <> 32%N).
  { intros c. destruct (escapemorph lemma) as [|x r] eqn:E; [intros [<-|[<-|[]]]; repeat split; discriminate|]. rewrite <- E. apply escapemorph_clean. }
  assert (C : labels (fun l => forall c, In c l -> c <> 40%N /\ c <> 41%N /\ c <> 32%N) (match lemmaaction with MBetween => FN (match escapemorph lemma with [] => NOTAG | l => l end) None [FL i] | _ => FL i end)).
  { destruct lemmaaction; cbn [labels fold_right]; auto. }
  assert (EM := escapemorph_clean morph).
  destruct action; cbn [labels fold_right]; (split; [|auto]); auto. intros c H. apply in_app_or in H. destruct H as [H|[<-|H]]; [auto|repeat split; discriminate|auto].
Qed.
(** The label and the morphology can be told apart when the morphology has no slash. *)
Theorem C85_morph_add : forall label morph i lemma func sent, ~ In SLASH morph ->
  exists l', fst (handlemorphology MAdd MNo label i morph lemma func sent) = FN l' func [FL i] /\
  forall a b, l' = a ++ SLASH :: b -> ~ In SLASH b -> a = label /\ b = escapemorph morph.
Proof.
  intros label morph i lemma func sent NS. unfold handlemorphology. cbn [fst]. eexists. split; [reflexivity|].
  assert (NE : ~ In SLASH (escapemorph morph)).
  { unfold escapemorph. rewrite in_map_iff. intros (x & E & I). unfold morphchar in E. destruct (N.eqb_spec x 40); [discriminate|]. destruct (N.eqb_spec x 41); [discriminate|]. destruct (N.eqb_spec x 32); [discriminate|]. now subst. }
  revert NE. generalize (escapemorph morph). intros m NE a b E NB. assert (R : rev m ++ SLASH :: rev label = rev b ++ SLASH :: rev a).
  { apply (f_equal (@rev N)) in E. rewrite !rev_app_distr in E. cbn [rev] in E. rewrite <- !app_assoc in E. exact E. }
  assert (U : forall (x y u v : pystr), ~ In SLASH x -> ~ In SLASH y -> x ++ SLASH :: u = y ++ SLASH :: v -> x = y /\ u = v).
  { clear. induction x as [|c x IH]; intros [|d y] u v NX NY E; cbn in E; injection E; intros; subst; auto.
    - exfalso. apply NY. now left.
    - exfalso. apply NX. now left.
    - destruct (IH y u v) as [-> ->]; auto; intros I; [apply NX|apply NY]; now right. }
  destruct (U (rev m) (rev b) (rev label) (rev a)) as [A B]; [now rewrite <- in_rev|now rewrite <- in_rev|assumption|]. apply (f_equal (@rev N)) in A, B. rewrite !rev_involutive in A, B. auto.
Qed.
(** The features of morphology written stem(a.b,c) are its parts; none without a bracket. *)
Theorem C85_morphfeats : forall stem feats rest, ~ In 40%N stem -> ~ In 91%N stem -> ~ In 41%N stem -> ~ In 93%N stem ->
  ~ In 41%N feats -> ~ In 93%N feats -> ~ In 40%N feats -> ~ In 46%N feats ->
  morphfeats (Some (stem ++ 40%N :: feats ++ 41%N :: rest)) = splitc 44 feats /\ BracketModel.join [44%N] (morphfeats (Some (stem ++ 40%N :: feats ++ 41%N :: rest))) = feats.
Proof.
  intros stem feats rest S1 S2 S3 S4 F1 F2 F3 F4.
  assert (ID : forall s, ~ In 40%N s -> ~ In 41%N s -> map bracketchar s = s).
  { clear. induction s as [|c s IH]; intros A B; [reflexivity|]. cbn [map]. rewrite IH; [|intros I; apply A; now right|intros I; apply B; now right]. unfold bracketchar. destruct (N.eqb_spec c 40) as [->|]; [exfalso; apply A; now left|]. destruct (N.eqb_spec c 41) as [->|]; [exfalso; apply B; now left|]. reflexivity. }
  assert (X : morphfeats (Some (stem ++ 40%N :: feats ++ 41%N :: rest)) = splitc 44 feats).
  { unfold morphfeats. rewrite map_app. cbn [map]. rewrite map_app. cbn [map]. rewrite (ID stem S1 S3), (ID feats F3 F1). change (bracketchar 40) with 91%N. change (bracketchar 41) with 93%N.
    rewrite (proj2 (find_some 91 _ (length stem))) by (eexists; eexists; split; [reflexivity|auto]).
    rewrite (proj2 (find_some 93 _ (length (stem ++ 91%N :: feats)))).
    2:{ exists (stem ++ 91%N :: feats), (map bracketchar rest). split; [rewrite <- app_assoc; reflexivity|]. split; [|reflexivity]. intros I. apply in_app_or in I. destruct I as [I|[I|I]]; [contradiction|discriminate|contradiction]. }
    replace (skipn (S (length stem)) (stem ++ 91%N :: feats ++ 93%N :: map bracketchar rest)) with (feats ++ 93%N :: map bracketchar rest).
    2:{ rewrite skipn_app, skipn_all2 by lia. replace (S (length stem) - length stem) with 1 by lia. reflexivity. }
    rewrite app_length. cbn [length]. replace (length stem + S (length feats) - S (length stem)) with (length feats) by lia. rewrite firstn_app, Nat.sub_diag, firstn_all. cbn [firstn]. rewrite app_nil_r.
    f_equal. clear - F4. induction feats as [|c f IH]; [reflexivity|]. cbn [map]. rewrite IH by (intros I; apply F4; now right). destruct (N.eqb_spec c 46) as [->|]; [exfalso; apply F4; now left|reflexivity]. }
  split; [exact X|]. rewrite X. apply splitc_join.
Qed.
(** Features separated by commas or dots *)
Inductive separated : list pystr -> pystr -> Prop :=
  | sep_one : forall f, separated [f] f
  | sep_more : forall f fs s c, c = 44%N \/ c = 46%N -> separated fs s -> separated (f :: fs) (f ++ c :: s).
Lemma splitc_cons : forall c f s, ~ In c f -> splitc c (f ++ c :: s) = f :: splitc c s.
Proof.
  intros c. induction f as [|d f IH]; intros s H; cbn [app splitc].
  - now rewrite N.eqb_refl.
  - destruct (N.eqb_spec d c) as [->|]; [exfalso; apply H; now left|]. rewrite IH; [reflexivity|]. intros I; apply H; now right.
Qed.
Lemma splitc_one : forall c f, ~ In c f -> splitc c f = [f].
Proof.
  intros c. induction f as [|d f IH]; intros H; cbn [splitc]; [reflexivity|]. destruct (N.eqb_spec d c) as [->|]; [exfalso; apply H; now left|]. rewrite IH; [reflexivity|]. intros I; apply H; now right.
Qed.
Theorem C85_morphfeats_parts : forall stem feats rest fs, separated fs feats ->
  (forall c, In c [40; 41; 91; 93]%N -> ~ In c stem /\ ~ In c feats) -> (forall f, In f fs -> ~ In 44%N f /\ ~ In 46%N f) ->
  morphfeats (Some (stem ++ 40%N :: feats ++ 41%N :: rest)) = fs.
Proof.
  intros stem feats rest fs SP B C.
  destruct (B 40%N) as [S1 F1]; [cbn; tauto|]. destruct (B 41%N) as [S2 F2]; [cbn; tauto|]. destruct (B 91%N) as [S3 F3]; [cbn; tauto|]. destruct (B 93%N) as [S4 F4]; [cbn; tauto|]. clear B.
  assert (ID : forall s, ~ In 40%N s -> ~ In 41%N s -> map bracketchar s = s).
  { clear. induction s as [|c s IH]; intros A B; [reflexivity|]. cbn [map]. rewrite IH; [|intros I; apply A; now right|intros I; apply B; now right]. unfold bracketchar. destruct (N.eqb_spec c 40) as [->|]; [exfalso; apply A; now left|]. destruct (N.eqb_spec c 41) as [->|]; [exfalso; apply B; now left|]. reflexivity. }
  unfold morphfeats. rewrite map_app. cbn [map]. rewrite map_app. cbn [map]. rewrite (ID stem S1 S2), (ID feats F1 F2). change (bracketchar 40) with 91%N. change (bracketchar 41) with 93%N.
  rewrite (proj2 (find_some 91 _ (length stem))) by (eexists; eexists; split; [reflexivity|auto]).
  rewrite (proj2 (find_some 93 _ (length (stem ++ 91%N :: feats)))).
  2:{ exists (stem ++ 91%N :: feats), (map bracketchar rest). split; [rewrite <- app_assoc; reflexivity|]. split; [|reflexivity]. intros I. apply in_app_or in I. destruct I as [I|[I|I]]; [contradiction|discriminate|contradiction]. }
  replace (skipn (S (length stem)) (stem ++ 91%N :: feats ++ 93%N :: map bracketchar rest)) with (feats ++ 93%N :: map bracketchar rest).
  2:{ rewrite skipn_app, skipn_all2 by lia. replace (S (length stem) - length stem) with 1 by lia. reflexivity. }
  rewrite app_length. cbn [length]. replace (length stem + S (length feats) - S (length stem)) with (length feats) by lia. rewrite firstn_app, Nat.sub_diag, firstn_all. cbn [firstn]. rewrite app_nil_r.
  clear - SP C. assert (D : forall f, ~ In 46%N f -> map (fun c => if N.eqb c 46 then 44%N else c) f = f).
  { clear. induction f as [|c f IH]; intros H; [reflexivity|]. cbn [map]. rewrite IH by (intros I; apply H; now right). destruct (N.eqb_spec c 46) as [->|]; [exfalso; apply H; now left|reflexivity]. }
  induction SP as [f|f fs s c Hc SP IH].
  - destruct (C f (or_introl eq_refl)) as [A B]. rewrite D by exact B. now apply splitc_one.
  - destruct (C f (or_introl eq_refl)) as [A B]. rewrite map_app. cbn [map]. rewrite D by exact B. replace (if N.eqb c 46 then 44%N else c) with 44%N by (destruct Hc as [-> | ->]; reflexivity).
    rewrite splitc_cons by exact A. f_equal. apply IH. intros; apply C; now right.
Qed.
Example C85_ex_parts : morphfeats (Some (str "N(soort,ev.basis)")) = map str ["soort"; "ev"; "basis"]%string /\ separated (map str ["soort"; "ev"; "basis"]%string) (str "soort,ev.basis").
Proof. split; [vm_compute; reflexivity|]. apply (sep_more (str "soort")); [now left|]. apply (sep_more (str "ev")); [now right|]. constructor. Qed.

(** ** Examples *)
Definition ext : ft := FN (str "S") (Some NOTAG) [FN (str "NP") (Some (str "SBJ")) [FN (str "PRP") (Some NOTAG) [FL 0]]; FN (str "VP") (Some (str "PRD-TMP")) [FN (str "VB") (Some (str "HD")) [FL 1]]].
Example C85_ex_add : readlabels true (handlefunctions Add true false false ext) = ext /\
  handlefunctions Add true false false ext = FN (str "S") (Some NOTAG) [FN (str "NP-SBJ") (Some (str "SBJ")) [FN (str "PRP") (Some NOTAG) [FL 0]]; FN (str "VP-PRD-TMP") (Some (str "PRD-TMP")) [FN (str "VB-HD") (Some (str "HD")) [FL 1]]].
Proof. split; vm_compute; reflexivity. Qed.
Example C85_ex_between : erase (handlefunctions Between true false false ext) =
  FN (str "S") None [FN (str "-SBJ") None [FN (str "NP") None [FN (str "---") None [FN (str "PRP") None [FL 0]]]]; FN (str "-PRD-TMP") None [FN (str "VP") None [FN (str "-HD") None [FN (str "VB") None [FL 1]]]]].
Proof. vm_compute; reflexivity. Qed.
Example C85_ex_hyps : nohyphens ext /\ labels plainstart ext /\ readable (str "PRD-TMP").
Proof.
  split; [|split].
  - vm_compute. repeat split; intros [r E]; discriminate.
  - vm_compute. repeat split; try (intros E; discriminate); intros r E; discriminate.
  - split.
    + intros [_ H]. specialize (H 80%N (or_introl eq_refl)). vm_compute in H. discriminate.
    + intros g c E. apply (f_equal (@rev N)) in E. rewrite rev_app_distr in E. vm_compute in E. injection E as <- _. split; [discriminate|reflexivity].
Qed.
Example C85_ex_morph : handlemorphology MAdd MAdd (str "NN") 1 (str "Masc (x)") (str "") (Some (str "HD")) [str "a"; str "b"] = (FN (str "NN/Masc_[x]") (Some (str "HD")) [FL 1], [str "a"; str "b/--"]) /\
  morphfeats (Some (str "N(soort,ev)")) = [str "soort"; str "ev"].
Proof. split; vm_compute; reflexivity. Qed.
