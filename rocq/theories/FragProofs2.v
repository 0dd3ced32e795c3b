(** Addresses in node arrays; extracting one fragment (extractat) *)
From Coq Require Import NArith ZArith List Bool Lia Permutation Sorting.Sorted.
From Verif Require Import BitsModel BitsSpec TreeModel FragModel FragSpec FragProofs.
Import ListNotations.

(** * Addresses *)
Lemma sub_app : forall t u v, sub t (u ++ v) = match sub t u with Some s => sub s v | None => None end.
Proof.
  intros t u. revert t. induction u as [|d u IH]; intros t v; cbn [app]; [reflexivity|].
  destruct d, t; cbn [sub]; auto.
Qed.
Lemma node_at_app : forall a i u v, node_at a i (u ++ v) = match node_at a i u with Some k => node_at a k v | None => None end.
Proof.
  intros a i u. revert i. induction u as [|d u IH]; intros i v; cbn [app]; [reflexivity|].
  destruct d; cbn [node_at]; [destruct (right (nd a i) <? 0)%Z|destruct (left (nd a i) <? 0)%Z]; auto.
Qed.
Lemma holds_lt : forall a i t, holds a i t -> i < length a.
Proof. intros a i t H. destruct t; cbn in H; tauto. Qed.
Lemma holds_prod : forall a i t, holds a i t -> prod (nd a i) = bprod t.
Proof. intros a i t H. destruct t; cbn in H; cbn; tauto. Qed.
Lemma node_sub : forall a u i t s, holds a i t -> sub t u = Some s -> exists k, node_at a i u = Some k /\ holds a k s.
Proof.
  intros a u. induction u as [|d u IH]; intros i t s H E.
  - cbn in E. injection E as <-. exists i. split; auto.
  - destruct d, t as [p k|p t1|p t1 t2]; cbn [sub] in E; try discriminate; cbn [holds] in H; cbn [node_at].
    + destruct H as (_ & _ & _ & Hr & _ & H2). destruct (Z.ltb_spec (right (nd a i)) 0); [lia|]. eapply IH; eauto.
    + destruct H as (_ & _ & Hl & _ & H1). destruct (Z.ltb_spec (left (nd a i)) 0); [lia|]. eapply IH; eauto.
    + destruct H as (_ & _ & Hl & _ & H1 & _). destruct (Z.ltb_spec (left (nd a i)) 0); [lia|]. eapply IH; eauto.
Qed.
Lemma node_sub_inv : forall a u i t k, holds a i t -> node_at a i u = Some k -> exists s, sub t u = Some s /\ holds a k s.
Proof.
  intros a u. induction u as [|d u IH]; intros i t k H E.
  - cbn in E. injection E as <-. exists t. split; auto.
  - destruct d; cbn [node_at] in E.
    + destruct (Z.ltb_spec (right (nd a i)) 0) as [L|L]; [discriminate|].
      destruct t as [p k'|p t1|p t1 t2]; cbn [holds] in H; try lia.
      destruct H as (_ & _ & _ & Hr & _ & H2). cbn [sub]. eapply IH; eauto.
    + destruct (Z.ltb_spec (left (nd a i)) 0) as [L|L]; [discriminate|].
      destruct t as [p k'|p t1|p t1 t2]; cbn [holds] in H; try lia.
      * destruct H as (_ & _ & _ & _ & H2). cbn [sub]. eapply IH; eauto.
      * destruct H as (_ & _ & _ & _ & H2 & _). cbn [sub]. eapply IH; eauto.
Qed.
Lemma In_nodes : forall a t i k, holds a i t -> (In k (nodes_of a i t) <-> exists u, node_at a i u = Some k).
Proof.
  intros a. induction t as [p x|p t1 IH1|p t1 IH1 t2 IH2]; intros i k H; cbn [holds] in H; cbn [nodes_of].
  - destruct H as (_ & _ & Hl & Hr). split.
    + intros [<-|[]]. exists []. reflexivity.
    + intros ([|[|] u] & E); cbn [node_at] in E.
      * injection E as ->. now left.
      * rewrite Hr in E. discriminate.
      * destruct (Z.ltb_spec (left (nd a i)) 0); [discriminate|lia].
  - destruct H as (_ & _ & Hl & Hr & H1). specialize (IH1 _ k H1). split.
    + intros [<-|HI]; [exists []; reflexivity|]. apply IH1 in HI. destruct HI as (u & E).
      exists (false :: u). cbn [node_at]. destruct (Z.ltb_spec (left (nd a i)) 0); [lia|exact E].
    + intros ([|[|] u] & E); cbn [node_at] in E.
      * injection E as ->. now left.
      * rewrite Hr in E. discriminate.
      * destruct (Z.ltb_spec (left (nd a i)) 0); [discriminate|]. right. apply IH1. eauto.
  - destruct H as (_ & _ & Hl & Hr & H1 & H2). specialize (IH1 _ k H1). specialize (IH2 _ k H2). split.
    + intros [<-|HI]; [exists []; reflexivity|]. apply in_app_or in HI. destruct HI as [HI|HI].
      * apply IH1 in HI. destruct HI as (u & E).
        exists (false :: u). cbn [node_at]. destruct (Z.ltb_spec (left (nd a i)) 0); [lia|exact E].
      * apply IH2 in HI. destruct HI as (u & E).
        exists (true :: u). cbn [node_at]. destruct (Z.ltb_spec (right (nd a i)) 0); [lia|exact E].
    + intros ([|[|] u] & E); cbn [node_at] in E.
      * injection E as ->. now left.
      * destruct (Z.ltb_spec (right (nd a i)) 0); [discriminate|]. right. apply in_or_app. right. apply IH2. eauto.
      * destruct (Z.ltb_spec (left (nd a i)) 0); [discriminate|]. right. apply in_or_app. left. apply IH1. eauto.
Qed.
Lemma nodup_app_inv : forall T (l1 l2 : list T), NoDup (l1 ++ l2) -> NoDup l1 /\ NoDup l2 /\ (forall x, In x l1 -> In x l2 -> False).
Proof.
  induction l1 as [|x l1 IH]; intros l2 H; cbn in H.
  - split; [constructor|]. split; auto.
  - inversion H as [|? ? Hn H']; subst. destruct (IH _ H') as (N1 & N2 & D). split; [|split; auto].
    + constructor; auto. intros HI. apply Hn. apply in_or_app. auto.
    + intros y [->|Hy] Hy2; eauto. apply Hn. apply in_or_app. auto.
Qed.
Lemma node_inj : forall a t i u v k, holds a i t -> NoDup (nodes_of a i t) ->
  node_at a i u = Some k -> node_at a i v = Some k -> u = v.
Proof.
  intros a. induction t as [p x|p t1 IH1|p t1 IH1 t2 IH2]; intros i u v k H ND Eu Ev; cbn [holds] in H; cbn [nodes_of] in ND.
  - destruct H as (_ & _ & Hl & Hr).
    assert (L : forall w, node_at a i w = Some k -> w = []).
    { intros [|[|] w] E; auto; cbn [node_at] in E; [rewrite Hr in E; discriminate|].
      destruct (Z.ltb_spec (left (nd a i)) 0); [discriminate|lia]. }
    now rewrite (L u Eu), (L v Ev).
  - destruct H as (_ & _ & Hl & Hr & H1). inversion ND as [|? ? Hn ND1]; subst.
    assert (L : forall w, node_at a i w = Some k -> (w = [] /\ k = i) \/ exists w', w = false :: w' /\ node_at a (kid (left (nd a i))) w' = Some k).
    { intros [|[|] w] E; cbn [node_at] in E; [left; split; congruence|rewrite Hr in E; discriminate|].
      destruct (Z.ltb_spec (left (nd a i)) 0); [discriminate|]. right. eauto. }
    destruct (L u Eu) as [[-> E1]|(u' & -> & E1)], (L v Ev) as [[-> E2]|(v' & -> & E2)]; auto.
    + exfalso. apply Hn. subst k. apply In_nodes; eauto.
    + exfalso. apply Hn. subst k. apply In_nodes; eauto.
    + f_equal. eapply IH1; eauto.
  - destruct H as (_ & _ & Hl & Hr & H1 & H2). inversion ND as [|? ? Hn ND1]; subst.
    apply nodup_app_inv in ND1. destruct ND1 as (ND1 & ND2 & D).
    assert (L : forall w, node_at a i w = Some k -> (w = [] /\ k = i) \/
       (exists w', w = false :: w' /\ node_at a (kid (left (nd a i))) w' = Some k) \/
       (exists w', w = true :: w' /\ node_at a (kid (right (nd a i))) w' = Some k)).
    { intros [|[|] w] E; cbn [node_at] in E; [left; split; congruence| |].
      - destruct (Z.ltb_spec (right (nd a i)) 0); [discriminate|]. right. right. eauto.
      - destruct (Z.ltb_spec (left (nd a i)) 0); [discriminate|]. right. left. eauto. }
    assert (N1 : forall w, node_at a (kid (left (nd a i))) w = Some k -> In k (nodes_of a (kid (left (nd a i))) t1)).
    { intros w E. apply In_nodes; eauto. }
    assert (N2 : forall w, node_at a (kid (right (nd a i))) w = Some k -> In k (nodes_of a (kid (right (nd a i))) t2)).
    { intros w E. apply In_nodes; eauto. }
    assert (NI : k = i -> ~ In k (nodes_of a (kid (left (nd a i))) t1) /\ ~ In k (nodes_of a (kid (right (nd a i))) t2)).
    { intros ->. split; intros HI; apply Hn; apply in_or_app; auto. }
    destruct (L u Eu) as [[-> E1]|[(u' & -> & E1)|(u' & -> & E1)]], (L v Ev) as [[-> E2]|[(v' & -> & E2)|(v' & -> & E2)]];
      auto; try (destruct (NI ltac:(assumption)) as [X1 X2]; exfalso; eauto; fail).
    + f_equal. eapply IH1; eauto.
    + exfalso. eauto.
    + exfalso. eauto.
    + f_equal. eapply IH2; eauto.
Qed.

(** * The largest common fragment of two trees, from the roots *)
Fixpoint mcf (s t : btree) : frag :=
  if (bprod s =? bprod t)%Z then
    match s, t with
    | Lex p _, Lex _ _ => FLex p
    | Un p s1, Un _ t1 => FUn p (mcf s1 t1)
    | Bin p s1 s2, Bin _ t1 t2 => FBin p (mcf s1 t1) (mcf s2 t2)
    | _, _ => Open
    end
  else Open.
(** the address is that of a node of the fragment *)
Fixpoint inside (w : addr) (f : frag) {struct w} : Prop :=
  match w, f with
  | [], Open => False
  | [], _ => True
  | false :: w', FUn _ g => inside w' g
  | false :: w', FBin _ g _ => inside w' g
  | true :: w', FBin _ _ h => inside w' h
  | _, _ => False
  end.
(** what extractat returns as the number of terminals *)
Fixpoint codeterms (f : frag) : Z :=
  match f with Open => 0%Z | FLex _ => 1%Z | FUn _ _ => 0%Z | FBin _ f g => (codeterms f + codeterms g)%Z end.

Lemma mcf_open : forall s t, same_kind s t \/ bprod s <> bprod t -> (mcf s t = Open <-> bprod s <> bprod t).
Proof.
  intros s t K. destruct s, t; cbn [mcf bprod same_kind] in *; destruct (Z.eqb_spec p p0); try tauto; split; intros H; try discriminate; try tauto; congruence.
Qed.
Lemma agree_sub : forall s t s1 t1 d d', agree s t -> sub s [d] = Some s1 -> sub t [d'] = Some t1 -> agree s1 t1.
Proof.
  intros s t s1 t1 d d' A E1 E2 u v s' t' Eu Ev. apply (A (d :: u) (d' :: v)).
  - change (d :: u) with ([d] ++ u). rewrite sub_app, E1. exact Eu.
  - change (d' :: v) with ([d'] ++ v). rewrite sub_app, E2. exact Ev.
Qed.
Lemma agree_here : forall s t, agree s t -> bprod s = bprod t -> same_kind s t.
Proof. intros s t A E. exact (A [] [] s t eq_refl eq_refl E). Qed.

Lemma inside_open : forall w, inside w Open -> False.
Proof. intros [|[|] w] H; exact H. Qed.
Lemma open_nodes : forall a i k, In k (frag_nodes a i Open) <-> exists w, inside w Open /\ node_at a i w = Some k.
Proof. intros a i k. cbn [frag_nodes In]. split; [intros []|]. intros (w & H & _). exact (inside_open w H). Qed.
Lemma mcf_nodes : forall a s t i k, holds a i s ->
  (In k (frag_nodes a i (mcf s t)) <-> exists w, inside w (mcf s t) /\ node_at a i w = Some k).
Proof.
  intros a. induction s as [p x|p s1 IH1|p s1 IH1 s2 IH2]; intros t i k H; cbn [mcf bprod];
    destruct (Z.eqb_spec p (bprod t)) as [E|E]; try (apply open_nodes; fail).
  - destruct t as [q y|q t1|q t1 t2]; try (apply open_nodes; fail); cbn [frag_nodes].
    split.
    + intros [<-|[]]. exists []. split; [exact Logic.I|reflexivity].
    + intros ([|[|] w] & I1 & E1); cbn in I1; try tauto. injection E1 as <-. now left.
  - destruct t as [q y|q t1|q t1 t2]; try (apply open_nodes; fail); cbn [frag_nodes].
    cbn [holds] in H. destruct H as (_ & _ & Hl & Hr & H1). split.
    + intros [<-|HI]; [exists []; split; [exact Logic.I|reflexivity]|].
      apply IH1 in HI; auto. destruct HI as (w & I1 & E1). exists (false :: w). split; [exact I1|].
      cbn [node_at]. destruct (Z.ltb_spec (left (nd a i)) 0); [lia|exact E1].
    + intros ([|[|] w] & I1 & E1); cbn [inside] in I1; try tauto.
      * injection E1 as <-. now left.
      * cbn [node_at] in E1. destruct (Z.ltb_spec (left (nd a i)) 0); [discriminate|]. right. apply IH1; eauto.
  - destruct t as [q y|q t1|q t1 t2]; try (apply open_nodes; fail); cbn [frag_nodes].
    cbn [holds] in H. destruct H as (_ & _ & Hl & Hr & H1 & H2). split.
    + intros [<-|HI]; [exists []; split; [exact Logic.I|reflexivity]|].
      apply in_app_or in HI. destruct HI as [HI|HI].
      * apply IH1 in HI; auto. destruct HI as (w & I1 & E1). exists (false :: w). split; [exact I1|].
        cbn [node_at]. destruct (Z.ltb_spec (left (nd a i)) 0); [lia|exact E1].
      * apply IH2 in HI; auto. destruct HI as (w & I1 & E1). exists (true :: w). split; [exact I1|].
        cbn [node_at]. destruct (Z.ltb_spec (right (nd a i)) 0); [lia|exact E1].
    + intros ([|[|] w] & I1 & E1); cbn [inside] in I1; try tauto.
      * injection E1 as <-. now left.
      * cbn [node_at] in E1. destruct (Z.ltb_spec (right (nd a i)) 0); [discriminate|]. right. apply in_or_app. right. apply IH2; eauto.
      * cbn [node_at] in E1. destruct (Z.ltb_spec (left (nd a i)) 0); [discriminate|]. right. apply in_or_app. left. apply IH1; eauto.
Qed.

(** * extractat *)
Fixpoint height (t : btree) : nat := match t with Lex _ _ => 1 | Un _ t => S (height t) | Bin _ t1 t2 => S (Nat.max (height t1) (height t2)) end.
Lemma height_nodes : forall a t i, height t <= length (nodes_of a i t).
Proof.
  intros a. induction t as [p x|p t1 IH1|p t1 IH1 t2 IH2]; intros i; cbn; auto.
  - specialize (IH1 (kid (left (nd a i)))). lia.
  - rewrite app_length. specialize (IH1 (kid (left (nd a i)))). specialize (IH2 (kid (right (nd a i)))). lia.
Qed.

Section Extract.
Variables (slots : nat) (a b : list node).
Hypothesis Hlen : length a <= 64 * slots.

(** below the roots, the bits of corresponding nodes are right *)
Definition correct (m : list (list N)) (i j : nat) (s t : btree) : Prop :=
  forall w s' t' i' j', w <> [] -> sub s w = Some s' -> sub t w = Some t' ->
    node_at a i w = Some i' -> node_at b j w = Some j' -> (on m j' i' <-> bprod s' = bprod t').

Definition extracted (m : list (list N)) (res : list N) (i j : nat) (f : frag) (out : list (list N) * list N * Z) : Prop :=
  let '(m', res', terms) := out in
  wfm slots (length b) m' /\ wfrow slots res' /\
  (forall k, inrow res' k <-> inrow res k \/ In k (frag_nodes a i f)) /\
  (forall i' j', on m' j' i' <-> on m j' i' /\ ~ (exists w, inside w f /\ node_at a i w = Some i' /\ node_at b j w = Some j')) /\
  terms = codeterms f.

Lemma extractat_ok : forall fuel s t m res i j, height s <= fuel -> holds a i s -> holds b j t ->
  NoDup (nodes_of a i s) -> NoDup (nodes_of b j t) -> agree s t -> bprod s = bprod t ->
  wfm slots (length b) m -> wfrow slots res -> correct m i j s t ->
  extracted m res i j (mcf s t) (extractat fuel a b m res i j).
Proof.
  induction fuel as [|f IH]; intros s t m res i j Hf Hs Ht NDs NDt AG Ep Wm Wr C.
  { destruct s; cbn in Hf; lia. }
  pose proof (holds_lt _ _ _ Hs) as Li. pose proof (holds_lt _ _ _ Ht) as Lj.
  pose proof (agree_here s t AG Ep) as K.
  cbn [extractat].
  set (res1 := SETBIT res (bit i)). set (m1 := updrow (fun r => CLEARBIT r (bit i)) j m).
  assert (Wm1 : wfm slots (length b) m1) by (apply wfm_upd; auto; intros; now apply wfrow_clear).
  assert (Wr1 : wfrow slots res1) by now apply wfrow_set.
  assert (R1 : forall k, inrow res1 k <-> k = i \/ inrow res k) by (intros; apply (inrow_set slots); auto; lia).
  assert (O1 : forall i' j', on m1 j' i' <-> on m j' i' /\ ~ (i' = i /\ j' = j)).
  { intros i' j'. apply (on_clear slots (length b)); auto. lia. }
  clearbody res1 m1.
  assert (NI : forall d w k, node_at a i (d :: w) = Some k -> k <> i).
  { intros d w k E ->. pose proof (node_inj a s i [] (d :: w) i Hs NDs eq_refl E). discriminate. }
  destruct s as [p x|p s1|p s1 s2], t as [q y|q t1|q t1 t2]; cbn [same_kind] in K; try contradiction;
    cbn [bprod] in Ep; subst q; cbn [mcf bprod]; rewrite Z.eqb_refl; cbn [holds] in Hs, Ht.
  - destruct Hs as (_ & _ & Hl & Hr). destruct (Z.ltb_spec (left (nd a i)) 0); [|lia].
    unfold extracted. split; auto. split; auto. split; [|split].
    + intros k. rewrite R1. cbn [frag_nodes In]. intuition.
    + intros i' j'. rewrite O1. apply and_iff_compat_l. apply not_iff_compat. split.
      * intros [-> ->]. exists []. cbn. auto.
      * intros ([|[|] w] & I1 & E1 & E2); cbn in I1; try tauto. cbn in E1, E2. split; congruence.
    + reflexivity.
  - destruct Hs as (_ & _ & Hl & Hr & Hs1). destruct Ht as (_ & _ & Htl & Htr & Ht1).
    cbn [nodes_of] in NDs, NDt. inversion NDs as [|? ? Ns NDs1]; subst. inversion NDt as [|? ? Nt NDt1]; subst.
    destruct (Z.ltb_spec (left (nd a i)) 0) as [|L]; [lia|].
    assert (Ea : forall w, node_at a i (false :: w) = node_at a (kid (left (nd a i))) w).
    { intros w. cbn [node_at]. destruct (Z.ltb_spec (left (nd a i)) 0); [lia|reflexivity]. }
    assert (Eb : forall w, node_at b j (false :: w) = node_at b (kid (left (nd b j))) w).
    { intros w. cbn [node_at]. destruct (Z.ltb_spec (left (nd b j)) 0); [lia|reflexivity]. }
    assert (T1 : TESTBIT (row m1 (kid (left (nd b j)))) (bit (kid (left (nd a i)))) = true <-> bprod s1 = bprod t1).
    { apply testb. change (on m1 (kid (left (nd b j))) (kid (left (nd a i))) <-> bprod s1 = bprod t1).
      rewrite O1. rewrite (C [false] s1 t1); auto; [|discriminate|apply Ea|apply Eb].
      split; [tauto|]. intros H. split; auto. intros [X _]. exact (NI false [] _ (Ea []) X). }
    assert (C1 : correct m1 (kid (left (nd a i))) (kid (left (nd b j))) s1 t1).
    { intros w s' t' i' j' Hw Es Et Ei Ej. rewrite O1.
      rewrite (C (false :: w) s' t' i' j'); auto; [|discriminate|now rewrite Ea|now rewrite Eb].
      split; [tauto|]. intros H. split; auto. intros [X _]. exact (NI false w i' ltac:(now rewrite Ea) X). }
    assert (AG1 : agree s1 t1) by (eapply (agree_sub _ _ s1 t1 false false AG); reflexivity).
    destruct (TESTBIT (row m1 (kid (left (nd b j)))) (bit (kid (left (nd a i))))) eqn:ET.
    + specialize (IH s1 t1 m1 res1 (kid (left (nd a i))) (kid (left (nd b j))) ltac:(cbn in Hf; lia) Hs1 Ht1 NDs1 NDt1 AG1
        (proj1 T1 eq_refl) Wm1 Wr1 C1).
      destruct (extractat f a b m1 res1 (kid (left (nd a i))) (kid (left (nd b j)))) as [[m2 res2] tm].
      destruct IH as (W2 & V2 & Q1 & Q2 & Q3). rewrite Hr.
      unfold extracted. cbn [Z.ltb Z.compare]. split; auto. split; auto. split; [|split; [|reflexivity]].
      * intros k. rewrite Q1, R1. cbn [frag_nodes In]. intuition.
      * intros i' j'. rewrite Q2, O1. split.
        -- intros [[H1 H2] H3]. split; auto. intros ([|[|] w] & I1 & E1 & E2); cbn [inside] in I1; try tauto.
           ++ cbn in E1, E2. apply H2. split; congruence.
           ++ apply H3. exists w. rewrite Ea in E1. rewrite Eb in E2. auto.
        -- intros [H1 H2]. split; [split; auto|].
           ++ intros [-> ->]. apply H2. exists []. cbn. auto.
           ++ intros (w & I1 & E1 & E2). apply H2. exists (false :: w). rewrite Ea, Eb. auto.
    + rewrite Hr. assert (EO : mcf s1 t1 = Open).
      { apply mcf_open; [|intros X; apply T1 in X; discriminate].
        right. intros X. apply T1 in X. discriminate. }
      rewrite EO. unfold extracted. cbn [Z.ltb Z.compare]. split; auto. split; auto. split; [|split; [|reflexivity]].
      * intros k. rewrite R1. cbn [frag_nodes In]. intuition.
      * intros i' j'. rewrite O1. apply and_iff_compat_l. apply not_iff_compat. split.
        -- intros [-> ->]. exists []. cbn. auto.
        -- intros ([|[|] w] & I1 & E1 & E2); cbn [inside] in I1; try tauto.
           ++ cbn in E1, E2. split; congruence.
           ++ destruct w as [|[|] ?]; cbn in I1; tauto.
  - destruct Hs as (_ & _ & Hl & Hr & Hs1 & Hs2). destruct Ht as (_ & _ & Htl & Htr & Ht1 & Ht2).
    cbn [nodes_of] in NDs, NDt. inversion NDs as [|? ? Ns NDs0]; subst. inversion NDt as [|? ? Nt NDt0]; subst.
    apply nodup_app_inv in NDs0. destruct NDs0 as (NDs1 & NDs2 & Ds).
    apply nodup_app_inv in NDt0. destruct NDt0 as (NDt1 & NDt2 & Dt).
    destruct (Z.ltb_spec (left (nd a i)) 0) as [|L]; [lia|].
    assert (Ea : forall w, node_at a i (false :: w) = node_at a (kid (left (nd a i))) w).
    { intros w. cbn [node_at]. destruct (Z.ltb_spec (left (nd a i)) 0); [lia|reflexivity]. }
    assert (Eb : forall w, node_at b j (false :: w) = node_at b (kid (left (nd b j))) w).
    { intros w. cbn [node_at]. destruct (Z.ltb_spec (left (nd b j)) 0); [lia|reflexivity]. }
    assert (Fa : forall w, node_at a i (true :: w) = node_at a (kid (right (nd a i))) w).
    { intros w. cbn [node_at]. destruct (Z.ltb_spec (right (nd a i)) 0); [lia|reflexivity]. }
    assert (Fb : forall w, node_at b j (true :: w) = node_at b (kid (right (nd b j))) w).
    { intros w. cbn [node_at]. destruct (Z.ltb_spec (right (nd b j)) 0); [lia|reflexivity]. }
    assert (DJ : forall w w' k, node_at a (kid (left (nd a i))) w = Some k -> node_at a (kid (right (nd a i))) w' = Some k -> False).
    { intros w w' k E1 E2. apply (Ds k); apply In_nodes; eauto. }
    assert (T1 : TESTBIT (row m1 (kid (left (nd b j)))) (bit (kid (left (nd a i)))) = true <-> bprod s1 = bprod t1).
    { apply testb. change (on m1 (kid (left (nd b j))) (kid (left (nd a i))) <-> bprod s1 = bprod t1).
      rewrite O1. rewrite (C [false] s1 t1); auto; [|discriminate|apply Ea|apply Eb].
      split; [tauto|]. intros H. split; auto. intros [X _]. exact (NI false [] _ (Ea []) X). }
    assert (C1 : correct m1 (kid (left (nd a i))) (kid (left (nd b j))) s1 t1).
    { intros w s' t' i' j' Hw Es Et Ei Ej. rewrite O1.
      rewrite (C (false :: w) s' t' i' j'); auto; [|discriminate|now rewrite Ea|now rewrite Eb].
      split; [tauto|]. intros H. split; auto. intros [X _]. exact (NI false w i' ltac:(now rewrite Ea) X). }
    assert (AG1 : agree s1 t1) by (eapply (agree_sub _ _ s1 t1 false false AG); reflexivity).
    assert (AG2 : agree s2 t2) by (eapply (agree_sub _ _ s2 t2 true true AG); reflexivity).
    assert (STEP : exists m2 res2 tm,
       (if TESTBIT (row m1 (kid (left (nd b j)))) (bit (kid (left (nd a i))))
        then extractat f a b m1 res1 (kid (left (nd a i))) (kid (left (nd b j))) else (m1, res1, 0%Z)) = (m2, res2, tm) /\
       extracted m1 res1 (kid (left (nd a i))) (kid (left (nd b j))) (mcf s1 t1) (m2, res2, tm)).
    { destruct (TESTBIT (row m1 (kid (left (nd b j)))) (bit (kid (left (nd a i))))) eqn:ET.
      - pose proof (IH s1 t1 m1 res1 (kid (left (nd a i))) (kid (left (nd b j))) ltac:(cbn in Hf; lia) Hs1 Ht1 NDs1 NDt1 AG1
          (proj1 T1 eq_refl) Wm1 Wr1 C1) as X.
        destruct (extractat f a b m1 res1 (kid (left (nd a i))) (kid (left (nd b j)))) as [[m2 res2] tm]. eauto.
      - exists m1, res1, 0%Z. split; auto.
        assert (EO : mcf s1 t1 = Open).
        { apply mcf_open; [|intros X; apply T1 in X; discriminate]. right. intros X. apply T1 in X. discriminate. }
        rewrite EO. unfold extracted. split; auto. split; auto. split; [|split; [|reflexivity]].
        + intros k. cbn [frag_nodes In]. tauto.
        + intros i' j'. split; [|tauto]. intros H. split; auto. intros ([|[|] w] & I1 & _); exact I1. }
    destruct STEP as (m2 & res2 & tm & Est & W2 & V2 & Q1 & Q2 & Q3). rewrite Est.
    destruct (Z.ltb_spec (right (nd a i)) 0) as [|L2]; [lia|].
    assert (T2 : TESTBIT (row m2 (kid (right (nd b j)))) (bit (kid (right (nd a i)))) = true <-> bprod s2 = bprod t2).
    { apply testb. change (on m2 (kid (right (nd b j))) (kid (right (nd a i))) <-> bprod s2 = bprod t2).
      rewrite Q2, O1. rewrite (C [true] s2 t2); auto; [|discriminate|apply Fa|apply Fb].
      split; [tauto|]. intros H. split; [split; auto|].
      - intros [X _]. exact (NI true [] _ (Fa []) X).
      - intros (w & _ & E1 & _). exact (DJ w [] _ E1 eq_refl). }
    assert (C2 : correct m2 (kid (right (nd a i))) (kid (right (nd b j))) s2 t2).
    { intros w s' t' i' j' Hw Es Et Ei Ej. rewrite Q2, O1.
      rewrite (C (true :: w) s' t' i' j'); auto; [|discriminate|now rewrite Fa|now rewrite Fb].
      split; [tauto|]. intros H. split; [split; auto|].
      - intros [X _]. exact (NI true w i' ltac:(now rewrite Fa) X).
      - intros (w' & _ & E1 & _). exact (DJ w' w _ E1 Ei). }
    destruct (TESTBIT (row m2 (kid (right (nd b j)))) (bit (kid (right (nd a i))))) eqn:ET2.
    + specialize (IH s2 t2 m2 res2 (kid (right (nd a i))) (kid (right (nd b j))) ltac:(cbn in Hf; lia) Hs2 Ht2 NDs2 NDt2 AG2
        (proj1 T2 eq_refl) W2 V2 C2).
      destruct (extractat f a b m2 res2 (kid (right (nd a i))) (kid (right (nd b j)))) as [[m3 res3] tm3].
      destruct IH as (W3 & V3 & P1 & P2 & P3).
      unfold extracted. split; auto. split; auto. split; [|split].
      * intros k. rewrite P1, Q1, R1. cbn [frag_nodes In]. rewrite in_app_iff. intuition.
      * intros i' j'. rewrite P2, Q2, O1. split.
        -- intros [[[H1 H2] H3] H4]. split; auto. intros ([|[|] w] & I1 & E1 & E2); cbn [inside] in I1; try tauto.
           ++ cbn in E1, E2. apply H2. split; congruence.
           ++ apply H4. exists w. rewrite Fa in E1. rewrite Fb in E2. auto.
           ++ apply H3. exists w. rewrite Ea in E1. rewrite Eb in E2. auto.
        -- intros [H1 H2]. split; [split; [split; auto|]|].
           ++ intros [-> ->]. apply H2. exists []. cbn. auto.
           ++ intros (w & I1 & E1 & E2). apply H2. exists (false :: w). rewrite Ea, Eb. auto.
           ++ intros (w & I1 & E1 & E2). apply H2. exists (true :: w). rewrite Fa, Fb. auto.
      * cbn [codeterms]. now rewrite Q3, P3.
    + assert (EO : mcf s2 t2 = Open).
      { apply mcf_open; [|intros X; apply T2 in X; discriminate]. right. intros X. apply T2 in X. discriminate. }
      rewrite EO. unfold extracted. split; auto. split; auto. split; [|split].
      * intros k. rewrite Q1, R1. cbn [frag_nodes In]. rewrite in_app_iff. cbn [In]. intuition.
      * intros i' j'. rewrite Q2, O1. split.
        -- intros [[H1 H2] H3]. split; auto. intros ([|[|] w] & I1 & E1 & E2); cbn [inside] in I1; try tauto.
           ++ cbn in E1, E2. apply H2. split; congruence.
           ++ destruct w as [|[|] ?]; cbn in I1; tauto.
           ++ apply H3. exists w. rewrite Ea in E1. rewrite Eb in E2. auto.
        -- intros [H1 H2]. split; [split; auto|].
           ++ intros [-> ->]. apply H2. exists []. cbn. auto.
           ++ intros (w & I1 & E1 & E2). apply H2. exists (false :: w). rewrite Ea, Eb. auto.
      * cbn [codeterms]. rewrite Q3. lia.
Qed.
(** extractat at (i, j) changes no other bit of row j *)
Lemma extractat_row : forall fuel s t m res i j, height s <= fuel -> holds a i s -> holds b j t ->
  NoDup (nodes_of a i s) -> NoDup (nodes_of b j t) -> agree s t -> bprod s = bprod t ->
  wfm slots (length b) m -> wfrow slots res -> correct m i j s t ->
  forall i', i' <> i -> (on (fst (fst (extractat fuel a b m res i j))) j i' <-> on m j i').
Proof.
  intros fuel s t m res i j H1 H2 H3 H4 H5 H6 H7 H8 H9 H10 i' Hi.
  pose proof (extractat_ok fuel s t m res i j H1 H2 H3 H4 H5 H6 H7 H8 H9 H10) as X.
  destruct (extractat fuel a b m res i j) as [[m' res'] tm]. destruct X as (_ & _ & _ & Q & _). cbn [fst].
  rewrite Q. split; [tauto|]. intros H. split; auto. intros (w & I1 & E1 & E2).
  pose proof (node_inj b t j w [] j H3 H5 E2 eq_refl). subst w. cbn in E1. congruence.
Qed.
End Extract.
