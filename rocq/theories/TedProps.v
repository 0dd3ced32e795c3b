(** C47: tree edit distance *)
From Coq Require Import String.
From Coq Require Import List Bool Arith NArith Lia Permutation Sorted.
From Verif Require Import PyStr TreeModel TreeProps TransformModel SortProofs TedModel TedSpec TedProofs TedProofs2 TedProofs3 TedProofs4.
Import ListNotations.
Open Scope list_scope.
Open Scope nat_scope.

(** ---- prepare ---- *)
Lemma list_min_in : forall l, l <> [] -> In (list_min l) l /\ forall x, In x l -> list_min l <= x.
Proof.
  intros [|a l] NE; [contradiction|]. unfold list_min. cbn [hd]. assert (G : forall a l, (fold_right Nat.min a l = a \/ In (fold_right Nat.min a l) l) /\ (forall x, x = a \/ In x l -> fold_right Nat.min a l <= x)).
  { clear. intros a. induction l as [|b l [IH1 IH2]]; cbn; [split; auto; intros x [->|[]]; auto|]. split.
    - destruct (Nat.min_spec b (fold_right Nat.min a l)) as [[_ ->]|[_ ->]]; auto. destruct IH1; auto.
    - intros x [->|[->|H]]; [assert (X := IH2 a (or_introl eq_refl)); lia|lia|assert (X := IH2 x (or_intror H)); lia]. }
  destruct (G a (a :: l)) as [[E|H] G2]; split; auto. rewrite E. now left.
Qed.
Lemma list_min_perm : forall l l', Permutation l l' -> list_min l = list_min l'.
Proof.
  intros [|a l] l' P; [apply Permutation_nil in P; now subst|]. assert (N' : l' <> []) by (intros ->; apply Permutation_sym, Permutation_nil in P; discriminate).
  destruct (list_min_in (a :: l)) as [A B]; [discriminate|]. destruct (list_min_in l' N') as [C D]. assert (X := D _ (Permutation_in _ P A)). assert (Y := B _ (Permutation_in _ (Permutation_sym P) C)). lia.
Qed.
Lemma flat_map_perm : forall (A B : Type) (f : A -> list B) l l', Permutation l l' -> Permutation (flat_map f l) (flat_map f l').
Proof. intros A B f l l' P. induction P; cbn; auto; [now apply Permutation_app_head|rewrite !app_assoc; apply Permutation_app_tail, Permutation_app_comm|etransitivity; eauto]. Qed.
Lemma wf_leaves : forall t, wf t -> leaves t <> [].
Proof.
  induction t as [a|l ts IH] using tree_ind'; intros W; [inversion W|]. inversion W as [? ? |? ? NE F]; subst; [discriminate|]. destruct ts as [|c ts]; [contradiction|]. inversion IH; inversion F; subst. cbn. intros E. apply app_eq_nil in E. destruct E. firstorder.
Qed.
Lemma sortmin_leaves : forall t, Permutation (leaves t) (leaves (sortmin t)).
Proof.
  induction t as [a|l ts IH] using tree_ind'; auto. cbn. assert (G : Permutation (flat_map leaves ts) (flat_map leaves (map sortmin ts))). { clear l. induction IH; cbn; auto. now apply Permutation_app. }
  destruct ts as [|[a|l' ts'] r]; auto. etransitivity; [exact G|]. apply flat_map_perm, sort_perm.
Qed.
Lemma minle_sortmin : forall s t, minle (sortmin s) (sortmin t) = minle s t.
Proof. intros s t. unfold minle. now rewrite <- (list_min_perm _ _ (sortmin_leaves s)), <- (list_min_perm _ _ (sortmin_leaves t)). Qed.
Lemma minle_starts : forall s t, wf s -> wf t -> minle s t = true -> starts_before s t.
Proof.
  intros s t Ws Wt H. apply Nat.leb_le in H. destruct (list_min_in _ (wf_leaves _ Ws)) as [A B]. destruct (list_min_in _ (wf_leaves _ Wt)) as [C D]. exists (list_min (leaves s)). split; auto. intros x X. specialize (D x X). lia.
Qed.
Definition merges : list (tree pystr nat) -> option (list ltree) := fix go (ts : list (tree pystr nat)) : option (list ltree) :=
      match ts with
      | [] => Some []
      | c :: r => match mergeterms c, go r with Some c', Some r' => Some (c' :: r') | _, _ => None end
      end.
Lemma merge_node : forall l ts, ts <> [] -> (forall a, ts <> [Leaf a]) -> mergeterms (Node l ts) = option_map (T l) (merges ts).
Proof. intros l [|[a|m us] r] NE NL; [contradiction| |reflexivity]. destruct r; [destruct (NL a eq_refl)|reflexivity]. Qed.
Theorem prepare_canon : forall t, wf t -> exists p, prepare t = Some p /\ canon t p.
Proof.
  unfold prepare. induction t as [a|l ts IH] using tree_ind'; intros W; [inversion W|]. inversion W as [? ?|? ? NE F]; subst; [eexists; split; [reflexivity|constructor]|].
  destruct ts as [|[a|m us] r]; [contradiction|inversion F as [|? ? X _]; inversion X|]. set (ts := Node m us :: r) in *. change (sortmin (Node l ts)) with (Node l (sort minle (map sortmin ts))).
  rewrite (sort_map _ _ sortmin minle minle) by (intros; apply minle_sortmin).
  assert (P := sort_perm minle ts). assert (SS : StronglySorted starts_before (sort minle ts)).
  { assert (S1 : StronglySorted (fun s t => minle s t = true) (sort minle ts)). { apply sort_sorted; unfold minle; intros; [apply leb_total|eapply leb_trans; eauto]. }
    assert (F' : Forall wf (sort minle ts)) by (eapply Permutation_Forall; eauto). revert S1 F'. generalize (sort minle ts). clear. intros l0. induction l0 as [|x rr IHr]; intros S1 F'; constructor.
    - apply IHr; [now inversion S1|now inversion F'].
    - inversion S1 as [|? ? A B]; inversion F' as [|? ? C D]; subst. rewrite Forall_forall in *. intros y Y. apply minle_starts; auto. }
  assert (G : exists us, merges (map sortmin (sort minle ts)) = Some us /\ Forall2 canon (sort minle ts) us).
  { assert (H : Forall (fun t => exists p, mergeterms (sortmin t) = Some p /\ canon t p) (sort minle ts)). { eapply Permutation_Forall; [exact P|]. rewrite Forall_forall in *. intros x X. apply IH; auto. }
    clear - H. induction H as [|x rr (p & E & C) H IH]; [exists []; split; auto|]. destruct IH as (ps & E2 & C2). exists (p :: ps). split; [cbn; rewrite E; change (match merges (map sortmin rr) with Some r' => Some (p :: r') | None => None end = Some (p :: ps)); now rewrite E2|now constructor]. }
  destruct G as (ps & E & C). assert (NS : sort minle ts <> []) by (intros Q; rewrite Q in P; apply Permutation_sym, Permutation_nil in P; discriminate).
  rewrite merge_node.
  - rewrite E. cbn. eexists. split; [reflexivity|]. econstructor; eauto.
  - intros Q. apply map_eq_nil in Q. contradiction.
  - intros a Q. destruct (sort minle ts) as [|x [|y r']] eqn:Q2; try discriminate Q. cbn in Q. injection Q as Q. destruct x; [|discriminate]. assert (X : Forall wf [Leaf a0]) by (eapply Permutation_Forall; eauto). inversion X as [|? ? Y _]. inversion Y.
Qed.
(** siblings that start at different positions have one order *)
Lemma forall2_l : forall A B (R : A -> B -> Prop) l l', Forall2 R l l' -> forall x, In x l -> exists y, In y l' /\ R x y.
Proof. induction 1 as [|x y l l' H F IH]; intros z Z; [destruct Z|]. destruct Z as [<-|Z]; [exists y; split; auto; now left|]. destruct (IH z Z) as (w & W & R'). exists w. split; auto. now right. Qed.
Lemma Forall2_flip : forall A B (R : A -> B -> Prop) l l', Forall2 R l l' -> Forall2 (fun y x => R x y) l' l.
Proof. induction 1; constructor; auto. Qed.
Lemma canon_wf : forall t p, canon t p -> wf t.
Proof.
  induction t as [a|l ts IH] using tree_ind'; intros p C; inversion C as [? ?|? ? ts' us NE P SS F]; subst; [constructor|]. constructor; auto. rewrite Forall_forall in *. intros x X. destruct (forall2_l _ _ _ _ _ F x (Permutation_in _ P X)) as (q & _ & Cq). eauto.
Qed.
Lemma nodup_share : forall (ts : list (tree pystr nat)) s t a, NoDup (flat_map leaves ts) -> In s ts -> In t ts -> In a (leaves s) -> In a (leaves t) -> s = t.
Proof.
  induction ts as [|u ts IH]; intros s t a N Hs Ht As At; [destruct Hs|]. cbn in N. assert (X : forall v, In v ts -> In a (leaves v) -> ~ In a (leaves u)).
  { intros v V AV AU. clear - N V AV AU. induction (leaves u) as [|b r IHr]; [destruct AU|]. cbn in N. inversion N as [|? ? N1 N2]; subst. destruct AU as [<-|AU]; auto. apply N1. apply in_or_app. right. apply in_flat_map. eauto. }
  assert (N2 : NoDup (flat_map leaves ts)). { clear - N. induction (leaves u) as [|b r IHr]; auto. cbn in N. inversion N; subst. auto. }
  destruct Hs as [<-|Hs], Ht as [<-|Ht]; auto; [destruct (X t Ht At As)|destruct (X s Hs As At)|eauto].
Qed.
Lemma forall2_fun : forall A B (R : A -> B -> Prop) l a b, (forall x, In x l -> forall y z, R x y -> R x z -> y = z) -> Forall2 R l a -> Forall2 R l b -> a = b.
Proof. intros A B R l a b H F. revert b. induction F as [|x y l a Rx F IH]; intros b G; inversion G; subst; auto. f_equal; [apply (H x); auto; now left|apply IH; auto; intros w W; apply H; now right]. Qed.
Lemma nodup_child : forall (ts : list (tree pystr nat)) t, NoDup (flat_map leaves ts) -> In t ts -> NoDup (leaves t).
Proof.
  induction ts as [|u ts IH]; intros t N Ht; [destruct Ht|]. cbn in N. destruct Ht as [<-|Ht].
  - clear - N. induction (leaves u) as [|b r IHr]; constructor; inversion N as [|? ? N1 N2]; subst; auto. intros Q. apply N1. apply in_or_app. auto.
  - apply IH; auto. clear - N. induction (leaves u) as [|b r IHr]; auto. inversion N; subst. auto.
Qed.
Theorem C47_canonical_unique : forall t p q, NoDup (leaves t) -> canon t p -> canon t q -> p = q.
Proof.
  induction t as [a|l ts IH] using tree_ind'; intros p q N C D; inversion C as [l1 a1|? ? ts1 us1 NE1 P1 S1 F1]; inversion D as [l2 a2|? ? ts2 us2 NE2 P2 S2 F2]; subst.
  - congruence.
  - apply Permutation_length_1_inv in P2. subst. inversion F2 as [|? ? ? ? X]; inversion X.
  - apply Permutation_length_1_inv in P1. subst. inversion F1 as [|? ? ? ? X]; inversion X.
  - f_equal. cbn in N. assert (E : ts1 = ts2).
    { assert (P3 : Permutation ts1 ts2) by (etransitivity; [apply Permutation_sym; exact P1|exact P2]). apply (sorted_unique _ starts_before); auto. intros x y X Y (u & U1 & U2) (v & V1 & V2). apply (nodup_share ts x y u); auto; [apply (Permutation_in _ (Permutation_sym P1)); auto|apply (Permutation_in _ (Permutation_sym P1)); auto|].
      specialize (U2 v V1). specialize (V2 u U1). now replace u with v by lia. }
    subst ts2. apply (forall2_fun _ _ canon ts1); auto. intros x X y z. rewrite Forall_forall in IH. assert (X' := Permutation_in _ (Permutation_sym P1) X). apply IH; auto. apply (nodup_child ts); auto.
Qed.
Lemma same_leaves : forall a b, same a b -> Permutation (leaves a) (leaves b).
Proof.
  induction a as [a|l ts IH] using tree_ind'; intros b H; inversion H as [|? ? us vs P F]; subst; auto. cbn. etransitivity; [apply flat_map_perm; exact P|]. assert (IH' : Forall (fun a => forall b, same a b -> Permutation (leaves a) (leaves b)) us) by (eapply Permutation_Forall; eauto).
  clear - F IH'. induction F as [|x y us vs R F IHF]; cbn; auto. inversion IH'; subst. apply Permutation_app; auto.
Qed.
Lemma same_canon : forall a b p, same a b -> canon a p -> canon b p.
Proof.
  induction a as [a|l ts IH] using tree_ind'; intros b p H C; [inversion C|]. inversion H as [|? ? us vs P F]; subst. inversion C as [l1 a1|? ? ts1 us1 NE1 P1 S1 F1]; subst.
  - apply Permutation_length_1_inv in P. subst us. inversion F as [|? y ? r' R F2]; subst. inversion F2; subst. inversion R; subst. constructor.
  - assert (P2 : Permutation us ts1) by (etransitivity; [apply Permutation_sym; exact P|exact P1]). destruct (Permutation_Forall2 P2 F) as (vs' & Q1 & Q2).
    apply (canon_node l vs vs' us1); auto.
    + intros ->. inversion F; subst. apply Permutation_sym, Permutation_nil in P. contradiction.
    + clear - S1 Q2. induction Q2 as [|x y l l' R F IHF]; constructor; inversion S1 as [|? ? A B]; subst; auto. rewrite Forall_forall in *. intros z Z. destruct (forall2_l _ _ _ _ _ (Forall2_flip _ _ _ _ _ F) z Z) as (w & W & Rw). destruct (B w W) as (u & U1 & U2). exists u. split; [apply (Permutation_in _ (same_leaves _ _ R)); auto|]. intros v V. apply U2. apply (Permutation_in _ (Permutation_sym (same_leaves _ _ Rw))). auto.
    + assert (IH' : Forall (fun a => forall b p, same a b -> canon a p -> canon b p) ts1) by exact (Permutation_Forall P1 IH). clear - Q2 F1 IH'. revert us1 F1. induction Q2 as [|x y l l' R F IHF]; intros us1 F1; inversion F1; subst; constructor; inversion IH'; subst; eauto.
Qed.
Lemma dash_last : forall l m a b, l ++ [45%N] ++ dec a = m ++ [45%N] ++ dec b -> l = m /\ a = b.
Proof.
  intros l m a b E. assert (G : forall d d' l m, forallb isdigit d = true -> forallb isdigit d' = true -> (d ++ [45%N]) ++ l = (d' ++ [45%N]) ++ m -> d = d' /\ l = m).
  { clear. induction d as [|c d IH]; intros [|c' d'] l m H H' E; cbn in *; [injection E as ->; auto|injection E as <- _; discriminate|injection E as -> _; discriminate|]. apply andb_prop in H, H'. destruct H as [H1 H2], H' as [H1' H2']. injection E as -> E. destruct (IH d' l m H2 H2' E). now subst. }
  assert (R : forall n, forallb isdigit (rev (dec n)) = true). { intros n. assert (D := dec_digits n). rewrite forallb_forall in *. intros x X. apply D. now apply in_rev. }
  apply (f_equal (@rev N)) in E. rewrite !rev_app_distr in E. cbn [rev app] in E. destruct (G _ _ _ _ (R a) (R b) E) as [E1 E2]. apply (f_equal (@rev N)) in E1, E2. rewrite !rev_involutive in *. split; auto. now apply dec_inj.
Qed.
Lemma canon_same : forall a b p, canon a p -> canon b p -> same a b.
Proof.
  induction a as [a|l ts IH] using tree_ind'; intros b p C D; [inversion C|]. inversion C as [l1 a1|? ? ts1 us1 NE1 P1 S1 F1]; subst; inversion D as [l2 a2|? ? ts2 us2 NE2 P2 S2 F2]; subst.
  - match goal with X : _ ++ _ = _ ++ _ |- _ => apply dash_last in X; destruct X as [<- <-] end.  eapply same_node; [reflexivity|]. constructor; constructor.
  - inversion F2; subst. apply Permutation_sym, Permutation_nil in P2. contradiction.
  - inversion F1; subst. apply Permutation_sym, Permutation_nil in P1. contradiction.
  - assert (IH' : Forall (fun a => forall b p, canon a p -> canon b p -> same a b) ts1) by (eapply Permutation_Forall; eauto).
    assert (F : Forall2 same ts1 ts2). { clear - F1 F2 IH'. revert ts2 F2. induction F1 as [|x y l l' R F IHF]; intros ts2 F2; inversion F2; subst; constructor; inversion IH'; subst; eauto. }
    assert (FF := Forall2_flip _ _ _ _ _ F). clear F. destruct (Permutation_Forall2 (Permutation_sym P2) FF) as (ts3 & Q1 & Q2). apply (same_node l ts ts3); [etransitivity; eauto|]. exact (Forall2_flip _ _ _ _ _ Q2).
Qed.

(** ---- the theorems ---- *)
Lemma treedist_least : forall a b s t, prepare a = Some s -> prepare b = Some t -> exists d, treedist a b = Some d /\ least [s] [t] d.
Proof. intros a b s t Ea Eb. unfold treedist. rewrite Ea, Eb, !annotate_spec. eexists. split; [reflexivity|]. apply lastdist_ok. Qed.
Lemma newtreedist_good : forall a b s t, prepare a = Some s -> prepare b = Some t -> exists st, newtreedist a b = Some st /\ good [s] [t] st.
Proof.
  intros a b s t Ea Eb. unfold newtreedist. rewrite Ea, Eb. destruct (geteditstats_ok (S (tsize s + tsize t)) [s] [t] []) as (st & m & -> & G & _); [unfold fsize; cbn; lia|intros ? ? ? []|]. exists st. split; auto.
Qed.
(** treedist is the least number of operations *)
Theorem C47_treedist : forall a b, wf a -> wf b -> exists d s t, treedist a b = Some d /\ canon a s /\ canon b t /\ edit_distance s t d.
Proof.
  intros a b Wa Wb. destruct (prepare_canon a Wa) as (s & Ea & Ca). destruct (prepare_canon b Wb) as (t & Eb & Cb). destruct (treedist_least a b s t Ea Eb) as (d & E & L). exists d, s, t. split; auto. split; auto. split; auto. now apply least_edits.
Qed.
(** newtreedist finds the same number; its script has as many operations *)
Theorem C47_newtreedist : forall a b, wf a -> wf b -> exists st s t, newtreedist a b = Some st /\ treedist a b = Some (distance st) /\ canon a s /\ canon b t /\ edit_distance s t (distance st) /\
  length (editscript st) = distance st /\
  nonterminals a = matched st + length (swaps (editscript st)) + length (dels (editscript st)) /\
  nonterminals b = matched st + length (swaps (editscript st)) + length (inss (editscript st)) /\
  (forall u v, In (Swap u v) (editscript st) -> label u <> label v).
Proof.
  intros a b Wa Wb. destruct (prepare_canon a Wa) as (s & Ea & Ca). destruct (prepare_canon b Wb) as (t & Eb & Cb). destruct (treedist_least a b s t Ea Eb) as (d & E & L). destruct (newtreedist_good a b s t Ea Eb) as (st & E2 & (G1 & G2 & G3 & G4 & G5)).
  assert (SZ : forall t p, canon t p -> tsize p = nonterminals t).
  { clear. induction t as [x|l ts IH] using tree_ind'; intros p C; inversion C as [? ?|? ? ts' us NE P SS F]; subst; auto. cbn [tsize nonterminals]. f_equal.
    assert (IH' : Forall (fun t => forall p, canon t p -> tsize p = nonterminals t) ts') by (eapply Permutation_Forall; eauto).
    assert (Q : list_sum (map tsize us) = list_sum (map nonterminals ts')). { clear - F IH'. induction F as [|x y l l' R F IHF]; auto. inversion IH'; subst. cbn. unfold list_sum in IHF. rewrite IHF by auto. f_equal. auto. }
    rewrite Q. clear - P. induction P; cbn; auto; unfold list_sum in *; lia. }
  exists st, s, t. split; auto. split; [rewrite E; f_equal; exact (least_unique _ _ _ _ L G1)|]. split; auto. split; auto. split; [now apply least_edits|]. split; auto. rewrite <- (SZ a s Ca), <- (SZ b t Cb). rewrite fsize_cons in G3, G4. unfold fsize in G3, G4. cbn [map list_sum fold_right] in G3, G4. rewrite Nat.add_0_r in G3, G4. split; auto. split; auto. intros u v H. apply G5. unfold swaps. apply in_flat_map. exists (Swap u v). split; auto. now left.
Qed.
(** identical trees, and only those, have distance 0 *)
Theorem C47_zero : forall a b, wf a -> wf b -> NoDup (leaves a) -> (treedist a b = Some 0 <-> same a b).
Proof.
  intros a b Wa Wb N. destruct (prepare_canon a Wa) as (s & Ea & Ca). destruct (prepare_canon b Wb) as (t & Eb & Cb). destruct (treedist_least a b s t Ea Eb) as (d & E & L). split.
  - intros Z. rewrite E in Z. injection Z as ->. destruct L as [L _]. assert (Q := al_zero _ _ _ L eq_refl). injection Q as ->. apply (canon_same a b t); auto.
  - intros H. assert (Ca2 := same_canon a b s H Ca). assert (Nb : NoDup (leaves b)) by (apply (Permutation_NoDup (same_leaves a b H)); auto). assert (Q := C47_canonical_unique b s t Nb Ca2 Cb). subst t. rewrite E. f_equal. apply (least_unique [s] [s]); auto. split; [apply al_refl|lia].
Qed.
Theorem C47_symmetric : forall a b, treedist a b = treedist b a.
Proof.
  intros a b. destruct (prepare a) as [s|] eqn:Ea, (prepare b) as [t|] eqn:Eb; [|unfold treedist; now rewrite Ea, Eb..]. destruct (treedist_least a b s t Ea Eb) as (d & -> & L). destruct (treedist_least b a t s Eb Ea) as (e & -> & L2). f_equal. apply (least_unique [s] [t]); auto. now apply least_sym.
Qed.
Theorem C47_triangle : forall a b c, wf a -> wf b -> wf c -> exists d e f, treedist a b = Some d /\ treedist b c = Some e /\ treedist a c = Some f /\ f <= d + e.
Proof.
  intros a b c Wa Wb Wc. destruct (prepare_canon a Wa) as (s & Ea & _). destruct (prepare_canon b Wb) as (t & Eb & _). destruct (prepare_canon c Wc) as (u & Ec & _).
  destruct (treedist_least a b s t Ea Eb) as (d & Ed & [Ld _]). destruct (treedist_least b c t u Eb Ec) as (e & Ee & [Le _]). destruct (treedist_least a c s u Ea Ec) as (f & Ef & [_ Lf]). exists d, e, f. split; auto. split; auto. split; auto. destruct (al_trans _ _ _ _ _ Ld Le) as (x & X1 & X2). specialize (Lf x X1). lia.
Qed.
(** the normalised score: with the roots, the distance does not exceed its
    denominator; without them, not if the roots have the same label *)
Lemma al_delall : forall f, al f [] (fsize f).
Proof.
  intros f. remember (fsize f) as n eqn:E. revert f E. induction n as [n IH] using lt_wf_ind. intros f E. destruct (snoc_case f) as [->|(i & t & ->)]; [subst n; constructor|]. rewrite fsize_app, fsize_one in E. replace n with (fsize (i ++ kids t) + 1) by (rewrite fsize_app; lia). apply al_del. apply (IH (fsize (i ++ kids t))); auto. rewrite fsize_app. lia.
Qed.
Lemma al_bound : forall f g, exists c, al f g c /\ c <= fsize f + fsize g.
Proof. intros f g. apply (al_trans f [] g); [apply al_delall|apply al_sym, al_delall]. Qed.
Lemma filter_all : forall X (l : list X), filter (fun _ => true) l = l.
Proof. induction l as [|x l IH]; cbn; auto. now rewrite IH. Qed.
Lemma subtrees_count : forall t : tree pystr nat, length (subtrees (fun _ => true) t) = nonterminals t.
Proof.
  intros t. rewrite C16_subtrees_preorder, filter_all. induction t as [a|l ts IH] using tree_ind'; auto. cbn [TreeProps.pre nonterminals length]. f_equal. clear l. induction IH as [|x r Hx HR IHr]; auto. cbn [flat_map map list_sum fold_right]. rewrite app_length, Hx, IHr. reflexivity.
Qed.
Lemma canon_size : forall t p, canon t p -> tsize p = nonterminals t.
Proof.
  induction t as [x|l ts IH] using tree_ind'; intros p C; inversion C as [? ?|? ? ts' us NE P SS F]; subst; auto. cbn [tsize nonterminals]. f_equal.
  assert (IH' : Forall (fun t => forall p, canon t p -> tsize p = nonterminals t) ts') by exact (Permutation_Forall P IH).
  assert (Q : list_sum (map tsize us) = list_sum (map nonterminals ts')). { clear - F IH'. induction F as [|x y l l' R F IHF]; auto. inversion IH'; subst. cbn. unfold list_sum in IHF. rewrite IHF by auto. f_equal. auto. }
  rewrite Q. clear - P. induction P; cbn; auto; unfold list_sum in *; lia.
Qed.
Theorem C47_normalised : forall a b, wf a -> wf b -> exists d, treedist a b = Some d /\
  treedisteval a b true = Some (d, nonterminals a + nonterminals b) /\ d <= nonterminals a + nonterminals b /\
  treedisteval a b false = Some (d, nonterminals a + nonterminals b - 2) /\
  (forall l ts us, a = Node l ts -> b = Node l us -> (forall x, ts <> [Leaf x]) -> (forall x, us <> [Leaf x]) -> d <= nonterminals a + nonterminals b - 2).
Proof.
  intros a b Wa Wb. destruct (prepare_canon a Wa) as (s & Ea & Ca). destruct (prepare_canon b Wb) as (t & Eb & Cb). destruct (treedist_least a b s t Ea Eb) as (d & E & [L1 L2]). exists d. split; auto. unfold treedisteval. rewrite E, app_length, !subtrees_count. split; auto.
  assert (SA := canon_size _ _ Ca). assert (SB := canon_size _ _ Cb). split.
  - destruct (al_bound [s] [t]) as (c & C1 & C2). specialize (L2 c C1). unfold fsize in C2. cbn in C2. lia.
  - split; auto. intros l ts us -> -> NA NB. inversion Ca as [? ?|? ? ts' xs ? ? ? ?]; subst; [destruct (NA a eq_refl)|]. inversion Cb as [? ?|? ? us' ys ? ? ? ?]; subst; [destruct (NB a eq_refl)|]. destruct (al_bound xs ys) as (c & C1 & C2). assert (M := al_match [] [] (T l xs) (T l ys) c 0 C1 al_nil). cbn [app label kids] in M. rewrite strdist_refl in M. specialize (L2 _ M). rewrite tsize_kids in SA, SB. cbn [kids] in SA, SB. lia.
Qed.

(** ---- examples: treedist.py test() ---- *)
Definition leaf (l : string) (i : nat) : tree pystr nat := Node (str l) [Leaf i].
Definition nd (l : string) (ts : list (tree pystr nat)) : tree pystr nat := Node (str l) ts.
Definition ex_a := nd "f" [nd "d" [leaf "a" 0; nd "c" [leaf "b" 1]]; leaf "e" 2].
Definition ex_b := nd "f" [nd "c" [nd "d" [leaf "a" 0; leaf "b" 1]; leaf "e" 2]].
Definition ex_c := nd "f" [nd "d" [nd "x" [leaf "a" 0]; leaf "b" 1; leaf "c" 2]; leaf "z" 3].
Definition ex_d := nd "f" [nd "c" [nd "d" [leaf "a" 0; nd "x" [leaf "b" 1]; leaf "c" 2]; leaf "z" 3]].
Definition ex_a' := nd "f" [leaf "e" 2; nd "d" [nd "c" [leaf "b" 1]; leaf "a" 0]].
Example ex_wf : wf ex_a /\ wf ex_b /\ wf ex_c /\ wf ex_d /\ NoDup (leaves ex_a).
Proof.
  assert (W : forall l ts, ts <> [] -> Forall wf ts -> wf (nd l ts)) by (intros; now constructor). assert (P : forall l i, wf (leaf l i)) by (intros; constructor).
  repeat split; try (repeat (first [apply P|apply W; [discriminate|]|constructor])); cbn; intuition discriminate.
Qed.
Example ex_distances : treedist ex_a ex_b = Some 2 /\ option_map distance (newtreedist ex_a ex_b) = Some 2 /\ treedist ex_c ex_d = Some 3 /\ option_map distance (newtreedist ex_c ex_d) = Some 3 /\ treedist ex_a ex_a' = Some 0 /\ treedist ex_a ex_c = Some 4.
Proof. vm_compute. repeat split. Qed.
Example ex_same : same ex_a ex_a'.
Proof. apply C47_zero; [apply ex_wf| |apply ex_wf|vm_compute; reflexivity]. repeat (first [apply (wf_pre (str _))|apply wf_node; [discriminate|]|constructor]). Qed.
(** without the roots the denominator can be exceeded when the roots have different labels *)
Example ex_denominator : treedisteval (nd "S" [leaf "A" 0]) (nd "T" [leaf "B" 0; leaf "C" 1]) false = Some (3, 3) /\ treedisteval (nd "S" [nd "X" [leaf "A" 0]; leaf "U" 1]) (leaf "T" 0) false = Some (4, 3).
Proof. vm_compute. auto. Qed.
Print Assumptions C47_treedist.
Print Assumptions C47_newtreedist.
Print Assumptions C47_zero.
Print Assumptions C47_normalised.
