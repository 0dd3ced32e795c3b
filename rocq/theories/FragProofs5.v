(** Counting the occurrences of a fragment: containsbitset, getcandidates, exactcounts *)
From Coq Require Import NArith ZArith List Bool Lia Permutation Sorting.Sorted.
From Verif Require Import BitsModel BitsSpec TreeModel FragModel FragSpec FragProofs FragProofs2 FragProofs3 FragProofs4.
Import ListNotations.

Lemma frag_nodes_addr : forall a f s i k, holds a i s -> matches f s ->
  (In k (frag_nodes a i f) <-> exists w, inside w f /\ node_at a i w = Some k).
Proof.
  intros a. induction f as [|p|p f IH|p f1 IH1 f2 IH2]; intros s i k H M.
  - apply open_nodes.
  - destruct s; cbn [matches] in M; try contradiction. cbn [frag_nodes]. split.
    + intros [<-|[]]. exists []. split; [exact Logic.I|reflexivity].
    + intros ([|[|] w] & I1 & E1); cbn in I1; try tauto. injection E1 as <-. now left.
  - destruct s as [q x|q s1|q s1 s2]; cbn [matches] in M; try contradiction. destruct M as [_ M].
    cbn [holds] in H. destruct H as (_ & _ & Hl & Hr & H1). cbn [frag_nodes]. split.
    + intros [<-|HI]; [exists []; split; [exact Logic.I|reflexivity]|].
      apply (IH s1) in HI; auto. destruct HI as (w & I1 & E1). exists (false :: w). split; [exact I1|].
      cbn [node_at]. destruct (Z.ltb_spec (left (nd a i)) 0); [lia|exact E1].
    + intros ([|[|] w] & I1 & E1); cbn [inside] in I1; try tauto.
      * injection E1 as <-. now left.
      * cbn [node_at] in E1. destruct (Z.ltb_spec (left (nd a i)) 0); [discriminate|]. right. apply (IH s1); eauto.
  - destruct s as [q x|q s1|q s1 s2]; cbn [matches] in M; try contradiction. destruct M as (_ & M1 & M2).
    cbn [holds] in H. destruct H as (_ & _ & Hl & Hr & H1 & H2). cbn [frag_nodes]. split.
    + intros [<-|HI]; [exists []; split; [exact Logic.I|reflexivity]|].
      apply in_app_or in HI. destruct HI as [HI|HI].
      * apply (IH1 s1) in HI; auto. destruct HI as (w & I1 & E1). exists (false :: w). split; [exact I1|].
        cbn [node_at]. destruct (Z.ltb_spec (left (nd a i)) 0); [lia|exact E1].
      * apply (IH2 s2) in HI; auto. destruct HI as (w & I1 & E1). exists (true :: w). split; [exact I1|].
        cbn [node_at]. destruct (Z.ltb_spec (right (nd a i)) 0); [lia|exact E1].
    + intros ([|[|] w] & I1 & E1); cbn [inside] in I1; try tauto.
      * injection E1 as <-. now left.
      * cbn [node_at] in E1. destruct (Z.ltb_spec (right (nd a i)) 0); [discriminate|]. right. apply in_or_app. right. apply (IH2 s2); eauto.
      * cbn [node_at] in E1. destruct (Z.ltb_spec (left (nd a i)) 0); [discriminate|]. right. apply in_or_app. left. apply (IH1 s1); eauto.
Qed.
Lemma frag_nodes_incl : forall a f s i k, holds a i s -> matches f s -> In k (frag_nodes a i f) -> In k (nodes_of a i s).
Proof.
  intros a f s i k H M HI. apply (frag_nodes_addr a f s i k H M) in HI. destruct HI as (w & _ & E). apply In_nodes; eauto.
Qed.
Lemma frag_nodes_root : forall a i f, In i (frag_nodes a i f) \/ f = Open.
Proof. intros a i f. destruct f; cbn; auto. Qed.
Lemma nodes_root : forall a i s, In i (nodes_of a i s).
Proof. intros a i s. destruct s; cbn; auto. Qed.

(** * containsbitset *)
Lemma contains_ok : forall fuel a b bits f s t i j, height s <= fuel -> holds a i s -> holds b j t -> NoDup (nodes_of a i s) ->
  agree s t -> matches f s -> f <> Open -> (forall k, In k (nodes_of a i s) -> (inrow bits k <-> In k (frag_nodes a i f))) ->
  (containsbitset fuel a b bits i j = true <-> matches f t).
Proof.
  induction fuel as [|n IH]; intros a b bits f s t i j Hf Hs Ht ND AG M NO HB; [destruct s; cbn in Hf; lia|].
  cbn [containsbitset]. rewrite (holds_prod _ _ _ Hs), (holds_prod _ _ _ Ht).
  destruct (Z.eqb_spec (bprod s) (bprod t)) as [Ep|Ep]; cbn [negb].
  2:{ split; [discriminate|]. intros M'. exfalso. apply Ep. exact (matches_open f t NO M' s M). }
  pose proof (agree_here s t AG Ep) as K.
  destruct s as [p x|p s1|p s1 s2], t as [q y|q t1|q t1 t2]; cbn [same_kind] in K; try contradiction;
    cbn [bprod] in Ep; subst q; cbn [holds] in Hs, Ht; cbn [nodes_of] in ND, HB.
  - destruct Hs as (_ & _ & Hl & _). destruct (Z.ltb_spec (left (nd a i)) 0); [|lia].
    destruct f; cbn [matches] in *; tauto.
  - destruct Hs as (_ & _ & Hl & Hr & Hs1). destruct Ht as (_ & _ & Htl & Htr & Ht1).
    destruct (Z.ltb_spec (left (nd a i)) 0); [lia|]. rewrite Hr. cbn [Z.ltb Z.compare].
    inversion ND as [|? ? Ns ND1]; subst.
    destruct f as [|p'|p' f1|]; cbn [matches] in M; try contradiction; try congruence. destruct M as [-> M1].
    assert (HB1 : forall k, In k (nodes_of a (kid (left (nd a i))) s1) -> (inrow bits k <-> In k (frag_nodes a (kid (left (nd a i))) f1))).
    { intros k Hk. rewrite (HB k (or_intror Hk)). cbn [frag_nodes In]. split; [intros [<-|]; auto; contradiction|auto]. }
    assert (AG1 : agree s1 t1) by (eapply (agree_sub _ _ s1 t1 false false AG); reflexivity).
    assert (TB : TESTBIT bits (bit (kid (left (nd a i)))) = true <-> f1 <> Open).
    { rewrite test_inrow, HB1 by apply nodes_root. destruct (frag_nodes_root a (kid (left (nd a i))) f1) as [HI|HI].
      - split; auto. intros _ E. subst f1. exact HI.
      - rewrite HI. cbn. split; [intros []|congruence]. }
    destruct (TESTBIT bits (bit (kid (left (nd a i))))) eqn:ET; cbn [andb].
    + assert (N1 : f1 <> Open) by now apply TB.
      pose proof (IH a b bits f1 s1 t1 _ (kid (left (nd b j))) ltac:(cbn in Hf; lia) Hs1 Ht1 ND1 AG1 M1 N1 HB1) as X.
      destruct (containsbitset n a b bits (kid (left (nd a i))) (kid (left (nd b j)))); cbn [negb matches]; intuition discriminate.
    + assert (N1 : f1 = Open). { destruct f1; auto; exfalso; assert (false = true) by (apply TB; discriminate); discriminate. }
      subst f1. cbn [matches]. tauto.
  - destruct Hs as (_ & _ & Hl & Hr & Hs1 & Hs2). destruct Ht as (_ & _ & Htl & Htr & Ht1 & Ht2).
    destruct (Z.ltb_spec (left (nd a i)) 0); [lia|]. destruct (Z.ltb_spec (right (nd a i)) 0); [lia|].
    inversion ND as [|? ? Ns ND0]; subst. apply nodup_app_inv in ND0. destruct ND0 as (ND1 & ND2 & D).
    destruct f as [|p'|p' f1|p' f1 f2]; cbn [matches] in M; try contradiction; try congruence. destruct M as (-> & M1 & M2).
    assert (HB1 : forall k, In k (nodes_of a (kid (left (nd a i))) s1) -> (inrow bits k <-> In k (frag_nodes a (kid (left (nd a i))) f1))).
    { intros k Hk. rewrite (HB k (or_intror (in_or_app _ _ _ (or_introl Hk)))). cbn [frag_nodes In]. rewrite in_app_iff. split; [|auto].
      intros [<-|[HI|HI]]; auto; exfalso; [apply Ns; apply in_or_app; auto|].
      apply (D k Hk). exact (frag_nodes_incl a f2 s2 _ k Hs2 M2 HI). }
    assert (HB2 : forall k, In k (nodes_of a (kid (right (nd a i))) s2) -> (inrow bits k <-> In k (frag_nodes a (kid (right (nd a i))) f2))).
    { intros k Hk. rewrite (HB k (or_intror (in_or_app _ _ _ (or_intror Hk)))). cbn [frag_nodes In]. rewrite in_app_iff. split; [|auto].
      intros [<-|[HI|HI]]; auto; exfalso; [apply Ns; apply in_or_app; auto|].
      apply (D k); auto. exact (frag_nodes_incl a f1 s1 _ k Hs1 M1 HI). }
    assert (AG1 : agree s1 t1) by (eapply (agree_sub _ _ s1 t1 false false AG); reflexivity).
    assert (AG2 : agree s2 t2) by (eapply (agree_sub _ _ s2 t2 true true AG); reflexivity).
    assert (TB : TESTBIT bits (bit (kid (left (nd a i)))) = true <-> f1 <> Open).
    { rewrite test_inrow, HB1 by apply nodes_root. destruct (frag_nodes_root a (kid (left (nd a i))) f1) as [HI|HI].
      - split; auto. intros _ E. subst f1. exact HI.
      - rewrite HI. cbn. split; [intros []|congruence]. }
    assert (TB2 : TESTBIT bits (bit (kid (right (nd a i)))) = true <-> f2 <> Open).
    { rewrite test_inrow, HB2 by apply nodes_root. destruct (frag_nodes_root a (kid (right (nd a i))) f2) as [HI|HI].
      - split; auto. intros _ E. subst f2. exact HI.
      - rewrite HI. cbn. split; [intros []|congruence]. }
    assert (X1 : TESTBIT bits (bit (kid (left (nd a i)))) && negb (containsbitset n a b bits (kid (left (nd a i))) (kid (left (nd b j)))) = false <-> matches f1 t1).
    { destruct (TESTBIT bits (bit (kid (left (nd a i))))) eqn:ET; cbn [andb].
      - assert (N1 : f1 <> Open) by now apply TB.
        pose proof (IH a b bits f1 s1 t1 _ (kid (left (nd b j))) ltac:(cbn in Hf; lia) Hs1 Ht1 ND1 AG1 M1 N1 HB1) as X.
        destruct (containsbitset n a b bits (kid (left (nd a i))) (kid (left (nd b j)))); cbn [negb]; intuition discriminate.
      - assert (N1 : f1 = Open). { destruct f1; auto; exfalso; assert (false = true) by (apply TB; discriminate); discriminate. }
        subst f1. cbn [matches]. tauto. }
    assert (X2 : (if TESTBIT bits (bit (kid (right (nd a i)))) then containsbitset n a b bits (kid (right (nd a i))) (kid (right (nd b j))) else true) = true <-> matches f2 t2).
    { destruct (TESTBIT bits (bit (kid (right (nd a i))))) eqn:ET.
      - assert (N1 : f2 <> Open) by now apply TB2.
        exact (IH a b bits f2 s2 t2 _ (kid (right (nd b j))) ltac:(cbn in Hf; lia) Hs2 Ht2 ND2 AG2 M2 N1 HB2).
      - assert (N1 : f2 = Open). { destruct f2; auto; exfalso; assert (false = true) by (apply TB2; discriminate); discriminate. }
        subst f2. cbn [matches]. tauto. }
    cbn [matches].
    destruct (TESTBIT bits (bit (kid (left (nd a i)))) && negb (containsbitset n a b bits (kid (left (nd a i))) (kid (left (nd b j))))) eqn:E1.
    + split; [discriminate|]. intros (_ & Y & _). apply X1 in Y. discriminate.
    + rewrite X2. split; [|tauto]. intros Y. split; auto. split; auto. now apply X1.
Qed.

(** * match_nodes *)
Lemma filter_none : forall T (P : T -> bool) l, (forall x, In x l -> P x = false) -> filter P l = [].
Proof.
  induction l as [|x l IH]; intros H; [reflexivity|]. cbn. rewrite (H x (or_introl eq_refl)). apply IH. intros y Hy. apply H. now right.
Qed.
Lemma match_nodes_filter : forall a b bits i, ordered b -> forall c k, k + c <= length b ->
  match_nodes a b bits i (seq k c) =
  filter (fun j => (prod (nd a i) =? prod (nd b j))%Z && containsbitset (S (length a)) a b bits i j) (seq k c).
Proof.
  intros a b bits i HS. induction c as [|c IH]; intros k Hk; [reflexivity|].
  cbn [seq match_nodes filter]. rewrite IH by lia. destruct (Z.eqb_spec (prod (nd a i)) (prod (nd b k))) as [E|E]; cbn [andb].
  - destruct (containsbitset (S (length a)) a b bits i k); reflexivity.
  - destruct (Z.ltb_spec (prod (nd a i)) (prod (nd b k))) as [L|L]; [|reflexivity].
    symmetry. apply filter_none. intros j Hj. apply in_seq in Hj.
    pose proof (ordered_le b k j HS ltac:(lia)). destruct (Z.eqb_spec (prod (nd a i)) (prod (nd b j))); [lia|reflexivity].
Qed.

(** * The production index *)
Definition has_prod (t : list node) (p : nat) : Prop := exists x, In x t /\ prod x = Z.of_nat p.
Lemma upd_opt_nth : forall f l k p, k < length l -> nth p (upd_opt f k l) None = if p =? k then f (nth k l None) else nth p l None.
Proof.
  induction l as [|x l IH]; intros k p Hk; [cbn in Hk; lia|]. destruct k, p; cbn; auto. cbn in Hk. apply IH. lia.
Qed.
Lemma upd_opt_length : forall f l k, length (upd_opt f k l) = length l.
Proof. induction l; destruct k; cbn; auto. Qed.
(** the index entry of p holds exactly the trees of S *)
Definition entry_ok (e : option (list nat)) (P : nat -> Prop) : Prop :=
  match e with Some l => NoDup l /\ (forall m, In m l <-> P m) /\ l <> [] | None => forall m, ~ P m end.
Lemma entry_ext : forall e P P', (forall m, P m <-> P' m) -> entry_ok e P -> entry_ok e P'.
Proof.
  intros [l|] P P' E; cbn.
  - intros (H1 & H2 & H3). split; auto. split; auto. intros m. rewrite H2. apply E.
  - intros H m Hm. apply (H m). now apply E.
Qed.
Lemma rb_add_ok : forall n e P, entry_ok e P -> entry_ok (rb_add n e) (fun m => P m \/ m = n).
Proof.
  intros n [l|] P H; cbn in *.
  - destruct H as (H1 & H2 & H3). destruct (in_dec Nat.eq_dec n l) as [Hn|Hn]; cbn.
    + split; auto. split; auto. intros m. rewrite H2. split; auto. intros [| ->]; auto. now apply H2.
    + split; [|split].
      * apply (Permutation_NoDup (Permutation_cons_append l n)). constructor; auto.
      * intros m. rewrite in_app_iff, H2. cbn. intuition.
      * destruct l; discriminate.
  - split; [repeat constructor; auto|]. split; [|discriminate]. intros m. cbn. split; [intros [->|[]]; auto|].
    intros [Hm| ->]; auto. destruct (H m Hm).
Qed.
Lemma index_tree_ok : forall t n idx (P : nat -> nat -> Prop), (forall x, In x t -> (0 <= prod x < Z.of_nat (length idx))%Z) ->
  (forall p, p < length idx -> entry_ok (nth p idx None) (P p)) ->
  length (index_tree idx n t) = length idx /\
  forall p, p < length idx -> entry_ok (nth p (index_tree idx n t) None) (fun m => P p m \/ (m = n /\ has_prod t p)).
Proof.
  unfold index_tree. induction t as [|x t IH]; intros n idx P Hp HI.
  - cbn [fold_left]. split; auto. intros p Hl. apply (entry_ext _ (P p)); auto. intros m. split; auto.
    intros [|[_ (x & [] & _)]]; auto.
  - cbn [fold_left]. pose proof (Hp x (or_introl eq_refl)) as Hx. destruct (Z.leb_spec 0 (prod x)); [|lia].
    set (idx1 := upd_opt (rb_add n) (kid (prod x)) idx).
    assert (L1 : length idx1 = length idx) by apply upd_opt_length.
    destruct (IH n idx1 (fun p m => P p m \/ (m = n /\ p = kid (prod x)))) as [H1 H2].
    + intros y Hy. rewrite L1. apply Hp. now right.
    + intros p Hl. rewrite L1 in Hl. unfold idx1. rewrite upd_opt_nth by (unfold kid; lia).
      destruct (Nat.eqb_spec p (kid (prod x))) as [->|N].
      * apply (entry_ext _ (fun m => P (kid (prod x)) m \/ m = n)); [intros m; tauto|]. apply rb_add_ok. apply HI. exact Hl.
      * apply (entry_ext _ (P p)); [intros m; tauto|]. now apply HI.
    + split; [now rewrite H1|]. intros p Hl. specialize (H2 p ltac:(lia)). revert H2. apply entry_ext.
      intros m. unfold has_prod. split.
      * intros [[HP|[-> ->]]|[-> (y & Hy & E)]]; auto; right; split; auto.
        -- exists x. split; [now left|]. unfold kid. lia.
        -- exists y. split; [now right|]. exact E.
      * intros [HP|[-> (y & [<-|Hy] & E)]]; auto.
        -- left. right. split; auto. unfold kid. lia.
        -- right. split; auto. exists y. auto.
Qed.
Definition valid_prods (nprods : nat) (ts : list ctree) : Prop :=
  forall t x, In t ts -> In x (fst t) -> (0 <= prod x < Z.of_nat nprods)%Z.
Lemma indextrees_ok : forall nprods ts, valid_prods nprods ts ->
  length (indextrees nprods ts) = nprods /\
  forall p, p < nprods -> entry_ok (nth p (indextrees nprods ts) None)
    (fun m => m < length ts /\ has_prod (fst (nth m ts ([], 0))) p).
Proof.
  intros nprods ts HV. unfold indextrees.
  assert (G : forall ts' k idx (P : nat -> nat -> Prop), length idx = nprods -> (forall t x, In t ts' -> In x (fst t) -> (0 <= prod x < Z.of_nat nprods)%Z) ->
    (forall p, p < nprods -> entry_ok (nth p idx None) (P p)) ->
    let idx' := fold_left (fun idx nt => index_tree idx (fst nt) (fst (snd nt))) (combine (seq k (length ts')) ts') idx in
    length idx' = nprods /\ forall p, p < nprods -> entry_ok (nth p idx' None)
      (fun m => P p m \/ (k <= m < k + length ts' /\ has_prod (fst (nth (m - k) ts' ([], 0))) p))).
  { induction ts' as [|t ts' IH]; intros k idx P L HV' HI.
    - cbn. split; auto. intros p Hp. apply (entry_ext _ (P p)); auto. intros m. split; auto. intros [|[? _]]; auto. lia.
    - cbn [length seq combine fold_left fst snd].
      destruct (index_tree_ok (fst t) k idx P) as [L1 H1].
      { intros x Hx. rewrite L. exact (HV' t x (or_introl eq_refl) Hx). }
      { intros p Hp. apply HI. lia. }
      destruct (IH (S k) (index_tree idx k (fst t)) (fun p m => P p m \/ (m = k /\ has_prod (fst t) p))) as [L2 H2].
      + lia.
      + intros t' x Ht' Hx. exact (HV' t' x (or_intror Ht') Hx).
      + intros p Hp. apply H1. lia.
      + split; auto. intros p Hp. specialize (H2 p Hp). revert H2. apply entry_ext. intros m. split.
        * intros [[HP|[-> HP]]|[Hm HP]]; auto; right.
          -- split; [lia|]. rewrite Nat.sub_diag. exact HP.
          -- split; [lia|]. replace (m - k) with (S (m - S k)) by lia. exact HP.
        * intros [HP|[Hm HP]]; auto. destruct (Nat.eq_dec m k) as [->|N].
          -- rewrite Nat.sub_diag in HP. auto.
          -- right. split; [lia|]. replace (m - k) with (S (m - S k)) in HP by lia. exact HP. }
  destruct (G ts 0 (repeat None nprods) (fun _ _ => False)) as [L H].
  - apply repeat_length.
  - exact HV.
  - intros p Hp. assert (E : forall c q, nth q (repeat (@None (list nat)) c) None = None) by (induction c; destruct q; cbn; auto).
    rewrite E. cbn. auto.
  - split; auto. intros p Hp. specialize (H p Hp). revert H. apply entry_ext. intros m. rewrite Nat.sub_0_r. split.
    + intros [[]|[Hm HP]]. split; [exact (proj2 Hm)|exact HP].
    + intros [Hm HP]. right. split; [split; [apply Nat.le_0_l|exact Hm]|exact HP].
Qed.

(** * getcandidates *)
Lemma cand_prods_ok : forall a idxlen l, (forall k, In k l -> k < length a) ->
  match cand_prods a idxlen (map Z.of_nat l) with
  | None => exists k, In k l /\ (Z.of_nat idxlen <= prod (nd a k))%Z
  | Some ps => ps = map (fun k => prod (nd a k)) l /\ forall k, In k l -> (prod (nd a k) < Z.of_nat idxlen)%Z
  end.
Proof.
  intros a idxlen. induction l as [|k l IH]; intros H; cbn [map cand_prods].
  - split; auto. intros k [].
  - pose proof (H k (or_introl eq_refl)). destruct (Z.leb_spec (Z.of_nat (length a)) (Z.of_nat k)); [lia|].
    unfold kid. rewrite Nat2Z.id. destruct (Z.leb_spec (Z.of_nat idxlen) (prod (nd a k))) as [L|L].
    + exists k. split; [now left|exact L].
    + specialize (IH (fun k' Hk' => H k' (or_intror Hk'))). destruct (cand_prods a idxlen (map Z.of_nat l)) as [ps|].
      * destruct IH as [-> IH]. split; auto. intros k' [<-|Hk']; auto.
      * destruct IH as (k' & Hk' & L'). exists k'. split; [now right|exact L'].
Qed.
Lemma rb_inter_In : forall l1 l2 m, In m (rb_inter l1 l2) <-> In m l1 /\ In m l2.
Proof. intros. unfold rb_inter. rewrite filter_In. destruct (in_dec Nat.eq_dec m l2); intuition discriminate. Qed.
Lemma getcandidates_ok : forall a bits nprods ts l, wfrow (length bits) bits ->
  (forall k, In k l <-> inrow bits k) -> NoDup l -> l <> [] -> (forall k, In k l -> k < length a /\ (0 <= prod (nd a k))%Z) ->
  valid_prods nprods ts ->
  match getcandidates a bits (indextrees nprods ts) with
  | None => forall m, m < length ts -> exists k, In k l /\ ~ has_prod (fst (nth m ts ([], 0))) (kid (prod (nd a k)))
  | Some c => NoDup c /\ forall m, In m c <-> m < length ts /\ forall k, In k l -> has_prod (fst (nth m ts ([], 0))) (kid (prod (nd a k)))
  end.
Proof.
  intros a bits nprods ts l W Hl ND NE Hk HV. unfold getcandidates.
  destruct (rowbits_ok (length bits) bits W) as (l' & E' & ND' & H').
  change (iter_collect (S (64 * length bits)) (iter_init bits)) with (rowbits (length bits) bits). rewrite E'.
  assert (LL : forall k, In k l' <-> In k l) by (intros k; rewrite H', Hl; tauto).
  destruct (indextrees_ok nprods ts HV) as [LI HI].
  pose proof (cand_prods_ok a (length (indextrees nprods ts)) l') as X.
  rewrite LI in X. specialize (X ltac:(intros k Hk'; apply Hk; now apply LL)). rewrite LI.
  set (idx := indextrees nprods ts) in *. clearbody idx.
  assert (OUT : forall m k, In k l -> m < length ts -> has_prod (fst (nth m ts ([], 0))) (kid (prod (nd a k))) -> kid (prod (nd a k)) < nprods).
  { intros m k Hk' Hm (x & Hx & Ex). destruct (HV (nth m ts ([], 0)) x) as [V1 V2]; auto; [now apply nth_In|]. unfold kid in *. lia. }
  destruct (cand_prods a nprods (map Z.of_nat l')) as [ps|].
  2:{ destruct X as (k & Hk' & L). intros m Hm. exists k. split; [now apply LL|]. intros HP.
      apply LL in Hk'. pose proof (OUT m k Hk' Hm HP). pose proof (proj2 (Hk k Hk')). unfold kid in *. lia. }
  destruct X as [-> LT].
  destruct l' as [|k0 l']; [exfalso; destruct l as [|z l]; [congruence|]; destruct (proj2 (LL z) (or_introl eq_refl))|].
  cbn [map].
  assert (ENT : forall k, In k (k0 :: l') -> kid (prod (nd a k)) < nprods).
  { intros k Hk'. specialize (LT k Hk'). apply LL in Hk'. pose proof (proj2 (Hk k Hk')). unfold kid. lia. }
  destruct (existsb _ (prod (nd a k0) :: map (fun k => prod (nd a k)) l')) eqn:EX.
  - apply existsb_exists in EX. destruct EX as (q & Hq & Eq).
    change (prod (nd a k0) :: map (fun k => prod (nd a k)) l') with (map (fun k => prod (nd a k)) (k0 :: l')) in Hq.
    apply in_map_iff in Hq. destruct Hq as (k & <- & Hk').
    intros m Hm. exists k. split; [now apply LL|]. intros HP.
    specialize (HI (kid (prod (nd a k))) (ENT k Hk')). destruct (nth (kid (prod (nd a k))) idx None); [discriminate|].
    exact (HI m (conj Hm HP)).
  - assert (ALL : forall k, In k (k0 :: l') -> exists e, nth (kid (prod (nd a k))) idx None = Some e /\ NoDup e /\
        forall m, In m e <-> m < length ts /\ has_prod (fst (nth m ts ([], 0))) (kid (prod (nd a k)))).
    { intros k Hk'. specialize (HI (kid (prod (nd a k))) (ENT k Hk')).
      destruct (nth (kid (prod (nd a k))) idx None) as [e|] eqn:En.
      - exists e. destruct HI as (A1 & A2 & _). auto.
      - exfalso. assert (F : existsb (fun q => match nth (kid q) idx None with Some _ => false | None => true end)
            (prod (nd a k0) :: map (fun k => prod (nd a k)) l') = true).
        { apply existsb_exists. exists (prod (nd a k)). split; [|now rewrite En].
          change (prod (nd a k0) :: map (fun k => prod (nd a k)) l') with (map (fun k => prod (nd a k)) (k0 :: l')).
          exact (in_map (fun k => prod (nd a k)) _ _ Hk'). }
        rewrite F in EX. discriminate. }
    assert (FOLD : forall ks acc, (forall k, In k ks -> In k (k0 :: l')) -> NoDup acc ->
       NoDup (fold_left (fun acc q => match nth (kid q) idx None with Some l => rb_inter acc l | None => acc end) (map (fun k => prod (nd a k)) ks) acc) /\
       forall m, In m (fold_left (fun acc q => match nth (kid q) idx None with Some l => rb_inter acc l | None => acc end) (map (fun k => prod (nd a k)) ks) acc) <->
         In m acc /\ forall k, In k ks -> m < length ts /\ has_prod (fst (nth m ts ([], 0))) (kid (prod (nd a k)))).
    { induction ks as [|k ks IH]; intros acc Hks NDa; cbn [map fold_left].
      - split; auto. intros m. split; [intros; split; auto; intros k []|tauto].
      - destruct (ALL k (Hks k (or_introl eq_refl))) as (e & Ee & NDe & He). rewrite Ee.
        destruct (IH (rb_inter acc e)) as [I1 I2].
        + intros k' Hk'. apply Hks. now right.
        + now apply NoDup_filter.
        + split; auto. intros m. rewrite I2, rb_inter_In, He. split.
          * intros [[A1 A2] A3]. split; auto. intros k' [<-|Hk']; auto.
          * intros [A1 A2]. split; [split; auto; apply A2; now left|]. intros k' Hk'. apply A2. now right. }
    destruct (ALL k0 (or_introl eq_refl)) as (e0 & Ee0 & NDe0 & He0). rewrite Ee0.
    destruct (FOLD l' e0 ltac:(intros; now right) NDe0) as [F1 F2]. split; auto. intros m. rewrite F2, He0. split.
    + intros [[A1 A2] A3]. split; auto. intros k Hk'. apply LL in Hk'. destruct Hk' as [<-|Hk']; auto. now apply A3.
    + intros [A1 A2]. split; [split; auto; apply A2; apply LL; now left|]. intros k Hk'. split; auto. apply A2. apply LL. now right.
Qed.
