(** C94: the fragments reported for a derivation make up the derivation. *)
From Coq Require Import String.
From Coq Require Import Reals.
From Coq Require Import List Bool Arith NArith Lia.
From Verif Require Import PyStr DisambModel DisambSpec FragDerModel.
Import ListNotations.
Open Scope nat_scope.

(** ** Composition of fragments *)
(** no substitution site is left *)
Inductive Complete : ft -> Prop :=
| comp_word : forall i, Complete (FWord i)
| comp_node : forall l a ts, Forall Complete ts -> Complete (FNode l a ts).
Definition rootlabel (f : ft) : pystr := match f with FNode l _ _ => l | FSite l _ _ => l | FWord _ => [] end.
(** [Sub g f f']: f' is f with its left-most substitution site replaced by g,
    whose root has the label of the site *)
Inductive Sub (g : ft) : ft -> ft -> Prop :=
| sub_site : forall l lo hi, rootlabel g = l -> Sub g (FSite l lo hi) g
| sub_node : forall l a before t t' after, Forall Complete before -> Sub g t t' ->
    Sub g (FNode l a (before ++ t :: after)) (FNode l a (before ++ t' :: after)).
(** left-most substitution of the fragments, in the given order *)
Inductive Compose : ft -> list ft -> ft -> Prop :=
| compose_nil : forall f, Compose f [] f
| compose_cons : forall f g f' gs r, Sub g f f' -> Compose f' gs r -> Compose f (g :: gs) r.

Fixpoint dt_ind' (P : dt -> Prop) (HL : forall i, P (DLeaf i))
    (HN : forall l a ts, Forall P ts -> P (DNode l a ts)) (t : dt) : P t :=
  match t with
  | DLeaf i => HL i
  | DNode l a ts => HN l a ts ((fix go ts := match ts return Forall P ts with
      | [] => Forall_nil _ | t :: ts => Forall_cons _ (dt_ind' P HL HN t) (go ts) end) ts)
  end.
Fixpoint ft_ind' (P : ft -> Prop) (HL : forall i, P (FWord i)) (HS : forall l lo hi, P (FSite l lo hi))
    (HN : forall l a ts, Forall P ts -> P (FNode l a ts)) (t : ft) : P t :=
  match t with
  | FWord i => HL i
  | FSite l lo hi => HS l lo hi
  | FNode l a ts => HN l a ts ((fix go ts := match ts return Forall P ts with
      | [] => Forall_nil _ | t :: ts => Forall_cons _ (ft_ind' P HL HS HN t) (go ts) end) ts)
  end.

(** what the extraction relies on: if the first child of an interior node is a word, all are *)
Definition isleaf (t : dt) : Prop := match t with DLeaf _ => True | _ => False end.
Inductive Preterm : dt -> Prop :=
| pt_leaf : forall i, Preterm (DLeaf i)
| pt_node : forall l a ts, Forall Preterm ts ->
    (forall i ts', ts = DLeaf i :: ts' -> Forall isleaf ts') -> Preterm (DNode l a ts).

(** the root fragment of a subtree seen from above, and all fragments below *)
Fixpoint top (t : dt) : ft :=
  match t with
  | DLeaf i => FWord i
  | DNode l (Some a) ts => FNode l (Some a) (map top ts)
  | DNode l None ts => FSite l (lmin (dleaves t)) (lmax (dleaves t))
  end.
Definition frags (t : dt) : list ft := map splitfrag (filter frontiernt (dsubtrees t)).

Lemma embed_leaves : forall ts, Forall isleaf ts -> map embed ts = map top ts.
Proof.
  induction 1 as [|t ts H F IH]; [reflexivity|]. cbn. rewrite IH. destruct t; [reflexivity|contradiction].
Qed.
Lemma splitfrag_top : forall t, Preterm t ->
  splitfrag t = match t with DLeaf i => FWord i | DNode l a ts => FNode l a (map top ts) end.
Proof.
  induction t as [i|l a ts IH] using dt_ind'; intros P; [reflexivity|]. cbn [splitfrag]. f_equal.
  inversion P as [|? ? ? Ps _]; subst. clear P. induction IH as [|t ts H F IHF]; [reflexivity|].
  inversion Ps as [|? ? Pt Pts]; subst. cbn [map]. rewrite (IHF Pts). f_equal. clear IHF F Ps Pts.
  destruct t as [i|l' [a'|] us]; [reflexivity| |reflexivity].
  specialize (H Pt). destruct us as [|[i|l2 a2 vs] us].
  - exact H.
  - inversion Pt as [|? ? ? _ L]; subst. cbn [embed top map]. now rewrite (embed_leaves us (L _ _ eq_refl)).
  - exact H.
Qed.

Lemma compose_app : forall f gs r hs s, Compose f gs r -> Compose r hs s -> Compose f (gs ++ hs) s.
Proof. induction 1 as [f|f g f' gs r S C IH]; intros H; [exact H|]. econstructor; [exact S|auto]. Qed.
Lemma compose_ctx : forall l a before after t gs t', Forall Complete before -> Compose t gs t' ->
  Compose (FNode l a (before ++ t :: after)) gs (FNode l a (before ++ t' :: after)).
Proof.
  intros l a before after t gs t' B. induction 1 as [f|f g f' gs r S C IH]; [constructor|].
  econstructor; [|exact IH]. now constructor.
Qed.
Lemma embed_complete : forall t, Complete (embed t).
Proof.
  induction t as [i|l a ts IH] using dt_ind'; [constructor|]. cbn. constructor.
  induction IH; cbn; constructor; assumption.
Qed.
Lemma compose_children : forall l a ts before, Forall Complete before ->
  Forall (fun t => Compose (top t) (frags t) (embed t)) ts ->
  Compose (FNode l a (before ++ map top ts)) (flat_map frags ts) (FNode l a (before ++ map embed ts)).
Proof.
  intros l a. induction ts as [|t ts IH]; intros before B F; [constructor|].
  inversion F as [|? ? Ft Fts]; subst. cbn [map flat_map]. eapply compose_app.
  - apply compose_ctx; [exact B|exact Ft].
  - change (embed t :: map embed ts) with ([embed t] ++ map embed ts).
    change (embed t :: map top ts) with ([embed t] ++ map top ts). rewrite !app_assoc.
    apply IH; [|exact Fts]. apply Forall_app. split; [exact B|]. constructor; [apply embed_complete|constructor].
Qed.
Lemma frags_node : forall l a ts, frags (DNode l a ts)
  = (if frontiernt (DNode l a ts) then [splitfrag (DNode l a ts)] else []) ++ flat_map frags ts.
Proof.
  intros l a ts. unfold frags. cbn [dsubtrees filter].
  assert (E : forall us, map splitfrag (filter frontiernt (flat_map dsubtrees us))
    = flat_map (fun t => map splitfrag (filter frontiernt (dsubtrees t))) us).
  { induction us as [|u us IH]; [reflexivity|]. cbn [flat_map]. now rewrite filter_app, map_app, IH. }
  rewrite <- E. destruct (frontiernt (DNode l a ts)); reflexivity.
Qed.
Lemma compose_tree : forall t, Preterm t -> Compose (top t) (frags t) (embed t).
Proof.
  induction t as [i|l a ts IH] using dt_ind'; intros P; [constructor|].
  assert (F : Forall (fun t => Compose (top t) (frags t) (embed t)) ts).
  { inversion P as [|? ? ? Ps _]; subst. clear P. induction IH; inversion Ps; subst; constructor; auto. }
  pose proof (compose_children l a ts [] (Forall_nil _) F) as C. cbn [app] in C.
  rewrite frags_node. destruct a as [a|]; [exact C|].
  cbn [frontiernt app]. econstructor; [|exact C].
  rewrite (splitfrag_top _ P). cbn [top]. now constructor.
Qed.

(** the fragments, with their addresses, composed from left to right, give the derivation *)
Theorem C94_derivation : forall l ts, Preterm (DNode l None ts) ->
  exists f fs, frags (DNode l None ts) = f :: fs /\ Compose f fs (embed (DNode l None ts)).
Proof.
  intros l ts P. rewrite frags_node. cbn [frontiernt app]. eexists. eexists. split; [reflexivity|].
  rewrite (splitfrag_top _ P). apply (compose_children l None ts []); [now constructor|].
  inversion P as [|? ? ? Ps _]; subst. clear P. induction Ps; constructor; [now apply compose_tree|assumption].
Qed.

Lemma strip_complete : forall f, Complete f -> Complete (stripids f).
Proof.
  induction f as [i|l lo hi|l a ts IH] using ft_ind'; intros C; [constructor|inversion C|].
  inversion C as [|? ? ? F]; subst. cbn. constructor. clear C.
  induction IH; inversion F; subst; cbn; constructor; auto.
Qed.
Lemma strip_sub : forall g f f', Sub g f f' -> Sub (stripids g) (stripids f) (stripids f').
Proof.
  intros g. induction 1 as [l lo hi E|l a before t t' after B S IH]; cbn [stripids].
  - constructor. destruct g; exact E.
  - rewrite !map_app. cbn [map]. constructor; [|exact IH].
    induction B; cbn; constructor; auto using strip_complete.
Qed.
Lemma strip_compose : forall f gs r, Compose f gs r -> Compose (stripids f) (map stripids gs) (stripids r).
Proof.
  induction 1; cbn; [constructor|]. econstructor; [apply strip_sub; eassumption|assumption].
Qed.
Lemma strip_embed : forall t, stripids (embed t) = embed (forget t).
Proof.
  induction t as [i|l a ts IH] using dt_ind'; [reflexivity|]. cbn. f_equal. rewrite !map_map.
  induction IH as [|t ts H F IHF]; [reflexivity|]. cbn. now rewrite H, IHF.
Qed.

(** The fragments that are returned, composed from left to right in the order in
    which they are returned, give the parse tree of the derivation, ... *)
Theorem C94_compose : forall l ts, Preterm (DNode l None ts) ->
  exists f fs, fragmentsinderiv (DNode l None ts) = f :: fs
  /\ Compose f fs (embed (forget (DNode l None ts))).
Proof.
  intros l ts P. destruct (C94_derivation l ts P) as (f & fs & E & C).
  exists (stripids f), (map stripids fs). split.
  - unfold fragmentsinderiv. rewrite <- (map_map splitfrag stripids). fold (frags (DNode l None ts)).
    now rewrite E.
  - rewrite <- strip_embed. now apply strip_compose.
Qed.
(** ... and nothing else: *)
Lemma sub_not_complete : forall g f f', Sub g f f' -> ~ Complete f.
Proof.
  intros g f f'. induction 1 as [|l a before t t' after B S IH]; intros C; inversion C as [|? ? ? F]; subst.
  apply Forall_app in F. destruct F as [_ F]. inversion F; subst. contradiction.
Qed.
Lemma sub_det : forall g f r r', Sub g f r -> Sub g f r' -> r = r'.
Proof.
  intros g f r r' H. revert r'. induction H as [l lo hi E|l a before t t' after B S IH]; intros r' H'.
  - inversion H'; subst; reflexivity.
  - remember (FNode l a (before ++ t :: after)) as f eqn:Ef.
    destruct H' as [|l2 a2 before2 t2 t2' after2 B2 S2]; [discriminate|]. injection Ef as -> -> E.
    assert (X : before2 = before /\ t2 = t /\ after2 = after).
    { clear IH. revert before2 B2 E. induction B as [|x before Cx B IHB]; intros before2 B2 E.
      - destruct before2 as [|y before2]; cbn in E; [injection E as -> ->; auto|].
        injection E as E1 _. apply Forall_inv in B2. subst y. exfalso. exact (sub_not_complete _ _ _ S B2).
      - destruct before2 as [|y before2]; cbn in E.
        + injection E as E1 _. subst t2. exfalso. exact (sub_not_complete _ _ _ S2 Cx).
        + injection E as E1 E. apply Forall_inv_tail in B2. destruct (IHB before2 B2 E) as (-> & -> & ->). subst. auto. }
    destruct X as (-> & -> & ->). now rewrite (IH _ S2).
Qed.
Theorem C94_unique : forall gs f r r', Compose f gs r -> Compose f gs r' -> r = r'.
Proof.
  induction gs as [|g gs IH]; intros f r r' H H'; inversion H; inversion H'; subst; [reflexivity|].
  assert (f' = f'0) by (eapply sub_det; eassumption). subst. eauto.
Qed.

(** Their number is the number of fragments of the derivation (the length that
    'shortest' and SL-DOP count). *)
Theorem C94_number : forall t, length (fragmentsinderiv t) = nfrags t.
Proof.
  intros t. unfold fragmentsinderiv. rewrite map_length.
  induction t as [i|l a ts IH] using dt_ind'; [reflexivity|]. cbn [dsubtrees nfrags filter].
  assert (E : length (filter frontiernt (flat_map dsubtrees ts)) = list_sum (map nfrags ts)).
  { induction IH as [|t ts H F IHF]; [reflexivity|]. cbn [flat_map map list_sum fold_right].
    rewrite filter_app, app_length, H. now rewrite IHF. }
  destruct a; cbn [frontiernt length]; rewrite E; reflexivity.
Qed.

(** ** The words of the substitution sites *)
(** the words covered by a fragment: a site 'lo:hi' stands for the words lo to hi *)
Fixpoint fyield (f : ft) : list nat :=
  match f with
  | FWord i => [i]
  | FSite _ lo hi => seq lo (S hi - lo)
  | FNode _ _ ts => flat_map fyield ts
  end.
Definition continuous (t : dt) : Prop := exists lo n, dleaves t = seq lo (S n).
Lemma lmin_seq : forall n lo, lmin (seq lo (S n)) = lo.
Proof.
  intros n lo. cbn [seq lmin]. 
  assert (H : forall m k x, x <= k -> fold_left Nat.min (seq k m) x = x).
  { induction m as [|m IH]; intros k x L; [reflexivity|]. cbn [seq fold_left]. rewrite Nat.min_l by exact L. apply IH. lia. }
  apply H. lia.
Qed.
Lemma lmax_seq : forall n lo, lmax (seq lo (S n)) = lo + n.
Proof.
  intros n lo. unfold lmax.
  assert (H : forall m k x, x <= k -> fold_left Nat.max (seq k (S m)) x = k + m).
  { induction m as [|m IH]; intros k x L.
    - cbn. lia.
    - change (seq k (S (S m))) with (k :: seq (S k) (S m)). cbn [fold_left]. rewrite Nat.max_r by exact L.
      rewrite IH; lia. }
  apply H. lia.
Qed.
(** In a derivation without discontinuous nodes, every fragment covers exactly the
    words of its part of the tree, in order. *)
Theorem C94_words : forall t, Preterm t -> (forall s, In s (dsubtrees t) -> continuous s) ->
  forall s, In s (dsubtrees t) -> fyield (splitfrag s) = dleaves s.
Proof.
  assert (T : forall t, (forall s, In s (dsubtrees t) -> continuous s) -> fyield (top t) = dleaves t).
  { induction t as [i|l a ts IH] using dt_ind'; intros C; [reflexivity|]. destruct a as [a|].
    - cbn [top fyield dleaves]. cbn [dsubtrees] in C.
      assert (C' : forall s, In s (flat_map dsubtrees ts) -> continuous s) by (intros; apply C; now right). clear C.
      induction IH as [|t ts H F IHF]; [reflexivity|]. cbn [map flat_map] in *. f_equal.
      + apply H. intros s I. apply C', in_or_app. now left.
      + apply IHF. intros s I. apply C', in_or_app. now right.
    - destruct (C (DNode l None ts)) as (lo & n & E); [now left|].
      cbn [top fyield]. rewrite E, lmin_seq, lmax_seq. f_equal. lia. }
  assert (SUBT : forall t s, In s (dsubtrees t) -> forall x, In x (dsubtrees s) -> In x (dsubtrees t)).
  { induction t as [i|l a ts IH] using dt_ind'; intros s I x J; [contradiction|]. cbn [dsubtrees] in *.
    destruct I as [<-|I]; [exact J|]. right. apply in_flat_map in I. destruct I as (u & Iu & I).
    apply in_flat_map. exists u. split; [exact Iu|]. rewrite Forall_forall in IH. now apply (IH u Iu s). }
  assert (PS : forall t, Preterm t -> forall s, In s (dsubtrees t) -> Preterm s).
  { induction t as [i|l a ts IH] using dt_ind'; intros P s I; [contradiction|]. cbn [dsubtrees] in I.
    destruct I as [<-|I]; [exact P|]. apply in_flat_map in I. destruct I as (u & Iu & I).
    inversion P as [|? ? ? Ps _]; subst. rewrite Forall_forall in IH, Ps. apply (IH u Iu); auto. }
  intros t P C s I. rewrite (splitfrag_top s) by (now apply (PS t)).
  destruct s as [i|l a ts]; [reflexivity|]. cbn [fyield dleaves].
  assert (C' : forall x, In x (flat_map dsubtrees ts) -> continuous x).
  { intros x J. apply C. apply (SUBT t _ I). cbn [dsubtrees]. now right. }
  clear - C' T. induction ts as [|t ts IH]; [reflexivity|]. cbn [map flat_map] in *. f_equal.
  - apply T. intros s I. apply C', in_or_app. now left.
  - apply IH. intros s I. apply C', in_or_app. now right.
Qed.

(** For a discontinuous substitution site this is false of the code: the site is
    written as its first and last word (769), which includes the words of the gap. *)
Definition disc : dt :=
  DNode (str "S"%string) None [DNode (str "A"%string) None [DLeaf 0; DLeaf 2]; DNode (str "B"%string) None [DLeaf 1]].
Theorem C94_words_refuted : exists t, Preterm t /\ dleaves t = [0; 2; 1] /\ fyield (splitfrag t) = [0; 1; 2; 1].
Proof.
  exists disc. split; [|split; reflexivity].
  assert (P : forall l a is, Preterm (DNode l a (map DLeaf is))).
  { intros l a is. constructor; [induction is; constructor; auto; constructor|].
    intros i ts' E. destruct is; [discriminate|]. injection E as _ <-. induction is; constructor; cbn; auto. }
  unfold disc. constructor; [|discriminate]. constructor; [apply (P _ _ [0; 2])|]. constructor; [apply (P _ _ [1])|constructor].
Qed.

(** A concrete case: (S (A@1 (B 0) (C@2 1)) (D 2)) has the fragments
    (S (A (B 0:0) (C 1)) (D 2:2)), (B 0) and (D 2). *)
Definition ex : dt :=
  DNode (str "S"%string) None
    [DNode (str "A"%string) (Some (str "1"%string)) [DNode (str "B"%string) None [DLeaf 0]; DNode (str "C"%string) (Some (str "2"%string)) [DLeaf 1]];
     DNode (str "D"%string) None [DLeaf 2]].
Example C94_example : fragmentsinderiv ex =
  [FNode (str "S"%string) None [FNode (str "A"%string) None [FSite (str "B"%string) 0 0; FNode (str "C"%string) None [FWord 1]]; FSite (str "D"%string) 2 2];
   FNode (str "B"%string) None [FWord 0]; FNode (str "D"%string) None [FWord 2]].
Proof. reflexivity. Qed.
Example C94_example_preterm : Preterm ex /\ forall s, In s (dsubtrees ex) -> continuous s.
Proof.
  split.
  - assert (P : forall l a i, Preterm (DNode l a [DLeaf i])).
    { intros l a i. constructor; [repeat constructor|]. intros j ts' E. injection E as _ <-. constructor. }
    unfold ex. repeat first [apply P | constructor]; discriminate.
  - intros s [<-|[<-|[<-|[<-|[<-|[]]]]]]; [exists 0, 2|exists 0, 1|exists 0, 0|exists 1, 0|exists 2, 0]; reflexivity.
Qed.
