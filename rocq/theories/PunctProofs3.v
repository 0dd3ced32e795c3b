(** Proofs for C46 (3): balancedpunctraise *)
From Coq Require Import String.
From Coq Require Import List Bool Arith NArith Lia Permutation Sorted.
From Verif Require Import PyStr TreeModel TreeProps TransformModel SortProofs TransformProps PunctModel PunctSpec PunctProofs PunctProofs2.
Import ListNotations.
Open Scope list_scope.
Open Scope nat_scope.

Definition qs (ts : list ptr) : Prop := forall c, In c ts -> qtree c.
Lemma qs_app : forall A B, qs A -> qs B -> qs (A ++ B).
Proof. intros A B HA HB c C. apply in_app_or in C. destruct C; auto. Qed.
Lemma qs_l : forall A B, qs (A ++ B) -> qs A.
Proof. intros A B H c C. apply H, in_or_app. now left. Qed.
Lemma qs_r : forall A B, qs (A ++ B) -> qs B.
Proof. intros A B H c C. apply H, in_or_app. now right. Qed.
Lemma qs_cons : forall c B, qtree c -> qs B -> qs (c :: B).
Proof. intros c B HC HB d [<-|D]; auto. Qed.
Lemma qs_hd : forall c B, qs (c :: B) -> qtree c.
Proof. intros c B H. apply H. now left. Qed.
Lemma qs_tl : forall c B, qs (c :: B) -> qs B.
Proof. intros c B H d D. apply H. now right. Qed.
Lemma qpret_leaves : forall c, qtree c -> map snd (preterminals c) = leaves c.
Proof.
  induction c as [x|l ts IH] using tree_ind'; intros Q; inversion Q as [? a|? ? H]; subst; [reflexivity|]. rewrite pret_node by auto. rewrite Forall_forall in IH. cbn [leaves]. clear Q. induction ts as [|c ts IHt]; auto. cbn [flat_map]. rewrite map_app, IH by (try apply H; now left). f_equal. apply IHt; intros; [apply IH; auto; now right|apply H; now right].
Qed.
Lemma qprets_leaves : forall ts, qs ts -> map snd (flat_map preterminals ts) = flat_map leaves ts.
Proof. induction ts as [|c ts IH]; intros Q; auto. cbn [flat_map]. rewrite map_app, IH by (eapply qs_tl; eauto). f_equal. apply qpret_leaves. eapply qs_hd; eauto. Qed.
(** ---- an edit at the parent of a terminal ---- *)
Section Edit.
Variables (S : nat -> pystr -> bool) (y : nat) (g : list ptr -> list ptr) (X Y : list (pystr * nat)) (m : pystr).
Definition edit (us us' : list ptr) : Prop := qs us' /\ Permutation (X ++ flat_map preterminals us) (Y ++ flat_map preterminals us') /\ flat_map (rest S) us' = flat_map (rest S) us.
Hypothesis HG : forall us, qs us -> NoDup (flat_map leaves us) -> existsb (preof y) us = true -> (forall m', In (m', y) (flat_map preterminals us) -> m' = m) -> edit us (g us).
Lemma atparent_id : forall t : ptr, ~ In y (leaves t) -> atparent y g t = t.
Proof using.
  induction t as [a|l ts IH] using tree_ind'; intros N; auto. cbn [atparent]. assert (E : existsb (preof y) ts = false). { destruct (existsb (preof y) ts) eqn:E; auto. exfalso. apply existsb_exists in E. destruct E as (c & C1 & C2). apply N. cbn. apply in_flat_map. exists c. split; auto. destruct c as [a|k [|[a|] r]]; try discriminate. cbn in C2. apply Nat.eqb_eq in C2. subst. now left. }
  rewrite E. f_equal. rewrite Forall_forall in IH. rewrite <- (map_id ts) at 2. apply map_ext_in. intros c C. apply IH; auto. intros Q. apply N. cbn. apply in_flat_map. eauto.
Qed.
Lemma edit_mid : forall A B k us us', qs (A ++ Node k us :: B) -> qs us -> edit us us' -> edit (A ++ Node k us :: B) (A ++ Node k us' :: B).
Proof using.
  clear HG. intros A B k us us' Q QU (E1 & E2 & E3). split; [|split].
  - apply qs_app; [eapply qs_l; eauto|]. apply qs_cons; [now apply q_node|]. apply qs_r in Q. eapply qs_tl; eauto.
  - rewrite !flat_map_app. cbn [flat_map]. rewrite !pret_node by auto. rewrite (Permutation_app_comm (flat_map preterminals A) (flat_map preterminals us ++ flat_map preterminals B)), (Permutation_app_comm (flat_map preterminals A) (flat_map preterminals us' ++ flat_map preterminals B)). rewrite !app_assoc. apply Permutation_app_tail, Permutation_app_tail. exact E2.
  - rewrite !flat_map_app. cbn [flat_map]. rewrite !rest_node by auto. now rewrite E3.
Qed.
Lemma atparent_edit : forall (t : ptr) l ts, t = Node l ts -> qs ts -> NoDup (flat_map leaves ts) -> In y (flat_map leaves ts) -> (forall m', In (m', y) (flat_map preterminals ts) -> m' = m) -> exists ts', atparent y g (Node l ts) = Node l ts' /\ edit ts ts'.
Proof using HG.
  induction t as [a|l ts IH] using tree_ind'; intros l0 ts0 E Q N H U; [discriminate|]. injection E as <- <-. cbn [atparent]. destruct (existsb (preof y) ts) eqn:EX; [exists (g ts); split; auto|].
  apply in_flat_map in H. destruct H as (c & C1 & C2). apply in_split in C1. destruct C1 as (A & B & ->). rewrite Forall_forall in IH. assert (QC : qtree c) by (apply Q, in_or_app; right; now left). destruct (nodup_mid A B c y N C2) as [N1 N2].
  inversion QC as [k a|k us QU]; subst.
  - exfalso. cbn in C2. destruct C2 as [->|[]]. rewrite existsb_app in EX. cbn in EX. rewrite Nat.eqb_refl in EX. rewrite orb_true_r in EX. discriminate.
  - destruct (IH (Node k us) ltac:(apply in_or_app; right; now left) k us eq_refl QU N2 C2) as (us' & E & ED). { intros m' M. apply U. rewrite flat_map_app. apply in_or_app. right. cbn [flat_map]. apply in_or_app. left. rewrite pret_node by auto. exact M. }
    exists (A ++ Node k us' :: B). split; [|now apply edit_mid]. f_equal. rewrite map_app. cbn [map]. rewrite E. f_equal; [|f_equal]; (rewrite <- map_id; apply map_ext_in; intros d D; apply atparent_id; apply N1, in_or_app; auto).
Qed.
End Edit.
Lemma drop_edit : forall S x m, S x m = true -> forall us, qs us -> NoDup (flat_map leaves us) -> existsb (preof x) us = true -> (forall m', In (m', x) (flat_map preterminals us) -> m' = m) -> edit S [] [(m, x)] us (dropfirst (preof x) us).
Proof.
  intros S x m H. induction us as [|c us IH]; intros Q N EX U; [discriminate|]. cbn [existsb] in EX. cbn [dropfirst]. assert (QC := qs_hd _ _ Q). assert (QU := qs_tl _ _ Q). destruct (preof x c) eqn:E.
  - assert (c = Node m [Leaf x]). { inversion QC as [k a|k vs QV]; subst. - cbn in E. apply Nat.eqb_eq in E. subst a. f_equal. apply U. cbn. now left. - destruct vs as [|[a|] r]; try discriminate. exfalso. apply (qleaf a). apply QV. now left. } subst c.
    split; auto. split; [cbn; reflexivity|]. cbn [flat_map]. now rewrite rest_pre, H.
  - cbn [orb] in EX. cbn [flat_map] in N. assert (N2 : NoDup (flat_map leaves us)) by (clear - N; induction (leaves c) as [|b r IHr]; auto; inversion N; auto).
    destruct (IH QU N2 EX) as (A & B & C). { intros m' M. apply U. cbn [flat_map]. apply in_or_app. now right. }
    split; [now apply qs_cons|]. split; [|cbn [flat_map]; now rewrite C]. cbn [flat_map app] in *. rewrite B. symmetry. apply Permutation_middle.
Qed.
Lemma snoc_edit : forall S x m us, S x m = true -> qs us -> edit S [(m, x)] [] us (us ++ [Node m [Leaf x]]).
Proof.
  intros S x m us H Q. split; [apply qs_app; auto; apply qs_cons; [constructor|intros c []]|]. rewrite !flat_map_app. cbn [flat_map]. rewrite rest_pre, H. cbn. rewrite !app_nil_r. split; auto. apply Permutation_cons_append.
Qed.
Lemma cons_edit : forall S x m us, S x m = true -> qs us -> edit S [(m, x)] [] us (Node m [Leaf x] :: us).
Proof. intros S x m us H Q. split; [apply qs_cons; auto; constructor|]. cbn [flat_map]. rewrite rest_pre, H. cbn. split; auto. Qed.
(** ---- removing the empty nodes ---- *)
Definition nonempty (c : ptr) : bool := match c with Node _ [] => false | _ => true end.
Lemma dropempty_node : forall l ts, dropempty (Node l ts) = Node l (filter nonempty (map dropempty ts)).
Proof. reflexivity. Qed.
Lemma dropempty_facts : forall c, qtree c -> qtree (dropempty c) /\ (nonempty (dropempty c) = true -> ptree (dropempty c)) /\ preterminals (dropempty c) = preterminals c /\ forall S, rest S (dropempty c) = rest S c.
Proof.
  induction c as [x|l ts IH] using tree_ind'; intros Q; inversion Q as [? a|? ? H]; subst.
  - cbn. repeat split; auto. constructor.
  - rewrite dropempty_node. rewrite Forall_forall in IH.
    assert (G : (forall d, In d (filter nonempty (map dropempty ts)) -> ptree d) /\ flat_map preterminals (filter nonempty (map dropempty ts)) = flat_map preterminals ts /\ forall S, flat_map (rest S) (filter nonempty (map dropempty ts)) = flat_map (rest S) ts).
    { clear Q. induction ts as [|c ts IHt]; [repeat split; auto; intros d []|]. destruct (IH c (or_introl eq_refl) (H c (or_introl eq_refl))) as (A0 & A1 & A2 & A3). destruct IHt as (B1 & B2 & B3); [intros; apply IH; auto; now right|intros; apply H; now right|].
      cbn [map filter]. destruct (nonempty (dropempty c)) eqn:NE.
      - split; [intros d [<-|D]; auto|]. cbn [flat_map]. rewrite A2, B2. split; auto. intros S. now rewrite A3, B3.
      - split; auto. rewrite B2. cbn [flat_map]. rewrite <- A2. destruct (dropempty c) as [|k [|]] eqn:Ek; try discriminate. cbn. split; auto. intros S. rewrite B3. assert (RE := A3 S). cbn in RE. rewrite <- RE. reflexivity. }
    destruct G as (G1 & G2 & G3). split; [apply q_node; intros; now apply ptree_qtree, G1|]. split; [|split].
    + intros NE. destruct (filter nonempty (map dropempty ts)) as [|v vs] eqn:E; [discriminate|]. constructor; [discriminate|auto].
    + rewrite !pret_node; auto. intros; now apply ptree_qtree, G1.
    + intros S. rewrite !rest_node; auto; [|intros; now apply ptree_qtree, G1]. now rewrite G3.
Qed.
Lemma dropempty_root : forall l ts, qs ts -> exists ts', dropempty (Node l ts) = Node l ts' /\ (forall c, In c ts' -> ptree c) /\ preterminals (Node l ts' : ptr) = preterminals (Node l ts : ptr) /\ forall S, flat_map (rest S) ts' = flat_map (rest S) ts.
Proof.
  intros l ts Q. exists (filter nonempty (map dropempty ts)). rewrite dropempty_node. split; auto.
  assert (PT : forall c, In c (filter nonempty (map dropempty ts)) -> ptree c). { intros c C. apply filter_In in C. destruct C as [C1 C2]. apply in_map_iff in C1. destruct C1 as (d & <- & D). now apply dropempty_facts, C2; auto. }
  split; auto. split.
  - destruct (dropempty_facts (Node l ts) (q_node l ts Q)) as (_ & _ & E & _). rewrite dropempty_node in E. exact E.
  - intros S. clear PT. induction ts as [|c ts IH]; auto. destruct (dropempty_facts c (qs_hd _ _ Q)) as (_ & _ & _ & R). cbn [map filter flat_map]. rewrite <- (IH (qs_tl _ _ Q)). destruct (nonempty (dropempty c)) eqn:NE; [cbn [flat_map]; now rewrite R|]. rewrite <- (R S). destruct (dropempty c) as [|k [|]]; try discriminate. reflexivity.
Qed.
(** ---- moving one preterminal x to the parent of y ---- *)
Lemma move_moved : forall S x m y g t, S x m = true -> (forall us, qs us -> edit S [(m, x)] [] us (g us)) -> rooted t -> In (m, x) (preterminals t) -> In y (leaves t) -> x <> y -> moved S t (dropempty (atparent y g (atparent x (dropfirst (preof x)) t))).
Proof.
  intros S x m y g t H HG R M L NE. assert (R' := R). destruct R' as (l & ts & -> & P & N). assert (Q : qs ts) by (intros c C; now apply ptree_qtree, P).
  assert (U : forall m', In (m', x) (flat_map preterminals ts) -> m' = m). { intros m' M'. apply (pret_unique (Node l ts) m' m x); eauto. rewrite pret_node by auto. exact M'. }
  assert (LX : In x (flat_map leaves ts)) by (apply (pret_in_leaves _ _ _ M)).
  destruct (atparent_edit S x (dropfirst (preof x)) [] [(m, x)] m (drop_edit S x m H) (Node l ts) l ts eq_refl Q N LX U) as (ts1 & -> & Q1 & P1 & S1).
  assert (LP : Permutation (flat_map leaves ts) (x :: flat_map leaves ts1)). { rewrite <- !qprets_leaves by auto. apply (Permutation_map snd) in P1. rewrite map_app in P1. exact P1. }
  assert (N1 : NoDup (flat_map leaves ts1)) by (apply (Permutation_NoDup LP) in N; now inversion N).
  assert (LY : In y (flat_map leaves ts1)). { cbn in L. apply (Permutation_in _ LP) in L. destruct L as [L|L]; [contradiction|exact L]. }
  rewrite <- qprets_leaves in LY by auto. apply in_map_iff in LY. destruct LY as ([my y'] & EY & LY). cbn in EY. subst y'.
  assert (U1 : forall m', In (m', y) (flat_map preterminals ts1) -> m' = my). { intros m' M'. apply (pret_unique (Node l ts1) m' my y); eauto; rewrite pret_node by auto; auto. }
  destruct (atparent_edit S y g [(m, x)] [] my (fun us a _ _ _ => HG us a) (Node l ts1) l ts1 eq_refl Q1 N1 ltac:(rewrite <- qprets_leaves by auto; apply (in_map snd) in LY; exact LY) U1) as (ts2 & -> & Q2 & P2 & S2).
  destruct (dropempty_root l ts2 Q2) as (ts3 & -> & P3 & PP & S3).
  assert (PM : Permutation (preterminals (Node l ts : ptr)) (preterminals (Node l ts3 : ptr))). { rewrite PP, !pret_node by auto. rewrite <- (app_nil_l (flat_map preterminals ts)), P1. exact P2. }
  split; [now apply (rooted_perm (Node l ts))|]. split; auto. cbn [skeleton]. f_equal. rewrite S3, S2. exact S1.
Qed.
(** ---- the found preterminal ---- *)
Lemma pre_kids : forall (t : ptr), ptree t -> forall n c, In n (TreeProps.pre t) -> In c (PunctModel.kids n) -> forall x, preof x c = true -> exists m, c = Node m [Leaf x] /\ In (m, x) (preterminals t).
Proof.
  induction t as [a|l ts IH] using tree_ind'; intros P n c Hn Hc x E; [destruct Hn|]. inversion P as [? a|? ? NE PC]; subst.
  - cbn in Hn. destruct Hn as [<-|[]]. destruct Hc as [<-|[]]. discriminate.
  - assert (QC : qs ts) by (intros d D; now apply ptree_qtree, PC). rewrite pret_node by auto. cbn [TreeProps.pre] in Hn. destruct Hn as [<-|Hn].
    + cbn in Hc. assert (PX := PC c Hc). inversion PX as [k a|k us NU PU]; subst; [cbn in E; apply Nat.eqb_eq in E; subst a; exists k; split; auto; apply in_flat_map; exists (Node k [Leaf x]); split; auto; now left|]. destruct us as [|[a|] r]; try discriminate. exfalso. apply (noleaf (L := pystr) a). apply PU. now left.
    + apply in_flat_map in Hn. destruct Hn as (d & D1 & D2). rewrite Forall_forall in IH. destruct (IH d D1 (PC d D1) n c D2 Hc x E) as (m & -> & M). exists m. split; auto. apply in_flat_map. eauto.
Qed.
Lemma pre_kids_root : forall t, rooted t -> forall n c, In n (TreeProps.pre t) -> In c (PunctModel.kids n) -> forall x, preof x c = true -> exists m, c = Node m [Leaf x] /\ In (m, x) (preterminals t).
Proof.
  intros t (l & ts & -> & P & N) n c Hn Hc x E. assert (QC : qs ts) by (intros d D; now apply ptree_qtree, P). rewrite pret_node by auto. cbn [TreeProps.pre] in Hn. destruct Hn as [<-|Hn].
  - cbn in Hc. assert (PX := P c Hc). inversion PX as [k a|k us NU PU]; subst; [cbn in E; apply Nat.eqb_eq in E; subst a; exists k; split; auto; apply in_flat_map; exists (Node k [Leaf x]); split; auto; now left|]. destruct us as [|[a|] r]; try discriminate. exfalso. apply (noleaf (L := pystr) a). apply PU. now left.
  - apply in_flat_map in Hn. destruct Hn as (d & D1 & D2). destruct (pre_kids d (P d D1) n c D2 Hc x E) as (m & -> & M). exists m. split; auto. apply in_flat_map. eauto.
Qed.
Lemma parentof_sound : forall t x p c, rooted t -> parentof x t = Some p -> find (preof x) (PunctModel.kids p) = Some c -> exists m, c = Node m [Leaf x] /\ In (m, x) (preterminals t).
Proof.
  intros t x p c R E F. unfold parentof in E. rewrite C16_subtrees_preorder in E. apply find_some in E. destruct E as [E _]. apply filter_In in E. destruct E as [E _]. apply find_some in F. destruct F as [F1 F2]. exact (pre_kids_root t R p c E F1 x F2).
Qed.
Lemma parentof_in : forall t x p, rooted t -> parentof x t = Some p -> In x (leaves t).
Proof.
  intros t x p R E. unfold parentof in E. rewrite C16_subtrees_preorder in E. apply find_some in E. destruct E as [E X]. apply filter_In in E. destruct E as [E _]. apply existsb_exists in X. destruct X as (c & C1 & C2). destruct (pre_kids_root t R p c E C1 x C2) as (m & _ & M). eapply pret_in_leaves; eauto.
Qed.
(** ---- one step ---- *)
Lemma balancestep_moved : forall S sent t pm x tag t' pm', rooted t -> (forall m, In (m, x) (preterminals t) -> S x m = true) -> (forall r i, In (r, i) pm -> i <> x /\ forall m, In (m, i) (preterminals t) -> S i m = true) -> balancestep sent (t, pm) (x, tag) = (t', pm') ->
  moved S t t' /\ forall r i, In (r, i) pm' -> i = x \/ exists r', In (r', i) pm.
Proof.
  intros S sent t pm x tag t' pm' R SX SP E. unfold balancestep in E.
  assert (D : (t, pm) = (t', pm') -> moved S t t' /\ forall r i, In (r, i) pm' -> i = x \/ exists r', In (r', i) pm). { intros Z. injection Z as <- <-. split; [now apply moved_refl|]. intros r i Hi. right. eauto. }
  destruct (wordof sent x) as [w|]; auto. destruct (find (fun e => eqs (fst e) w) pm) as [[w' lft]|] eqn:F.
  - destruct (mem tag PUNCTTAGS); auto. injection E as E <-. split; [|intros r i Hi; right; apply filter_In in Hi; destruct Hi; eauto]. apply find_some in F. destruct F as [F _]. destruct (SP w' lft F) as [NX SL]. clear D.
    destruct (parentof lft t) as [lp|] eqn:LP; [|subst; now apply moved_refl]. destruct (parentof x t) as [rp|] eqn:RP; [|subst; now apply moved_refl].
    assert (IL := parentof_in t lft lp R LP). assert (IX := parentof_in t x rp R RP).
    destruct (maxleaf lp =? x - 1); [|destruct (minleaf rp =? lft + 1); [|subst; now apply moved_refl]].
    + destruct (find (preof x) (PunctModel.kids rp)) as [c|] eqn:FX; [|subst; now apply moved_refl]. destruct (parentof_sound t x rp c R RP FX) as (m & -> & M). subst t'. apply (move_moved S x m lft); auto. intros us Q. apply snoc_edit; auto.
    + destruct (find (preof lft) (PunctModel.kids lp)) as [c|] eqn:FX; [|subst; now apply moved_refl]. destruct (parentof_sound t lft lp c R LP FX) as (m & -> & M). subst t'. apply (move_moved S lft m x); auto. intros us Q. apply cons_edit; auto.
  - destruct (find (fun e => eqs (fst e) w) BALANCEDPUNCTMATCH) as [[w' r0]|]; auto. destruct (mem tag PUNCTTAGS); auto. injection E as <- <-. split; [now apply moved_refl|]. intros r i [Hi|Hi]; [left; congruence|right]. apply filter_In in Hi. destruct Hi; eauto.
Qed.
Lemma balance_moved : forall S sent its t pm, rooted t -> NoDup (map fst its) -> (forall x tag m, In (x, tag) its -> In (m, x) (preterminals t) -> S x m = true) -> (forall r i, In (r, i) pm -> ~ In i (map fst its) /\ forall m, In (m, i) (preterminals t) -> S i m = true) -> moved S t (fst (fold_left (balancestep sent) its (t, pm))).
Proof.
  induction its as [|[x tag] its IH]; intros t pm R N SI SP; [now apply moved_refl|]. cbn [fold_left]. destruct (balancestep sent (t, pm) (x, tag)) as [t' pm'] eqn:E. cbn [map fst] in N. inversion N as [|? ? N1 N2]; subst.
  destruct (balancestep_moved S sent t pm x tag t' pm' R) as [M K]; auto; [intros m; apply (SI x tag); now left|intros r i Hi; destruct (SP r i Hi) as [A B]; split; auto; intros ->; apply A; now left|].
  assert (PT : forall p, In p (preterminals t') -> In p (preterminals t)) by (intros p; apply Permutation_in; symmetry; apply M).
  eapply moved_trans; [exact M|]. apply IH; auto; [apply M|intros; eapply SI; [right; eauto|auto]|]. intros r i Hi. destruct (K r i Hi) as [->|(r' & Hr)]; [split; auto; intros m Hm; apply (SI x tag); auto; now left|]. destruct (SP r' i Hr) as [A B]. split; auto. intros Q. apply A. now right.
Qed.
(** ---- termparent ---- *)
Definition tp (sent : list word) (n : ptr) : list (nat * pystr) := match n with Node l (Leaf i :: _) => if ispunct (wordof sent i) l then [(i, l)] else [] | _ => [] end.
Definition swap (p : pystr * nat) : nat * pystr := (snd p, fst p).
Lemma tp_pre : forall sent t, ptree t -> flat_map (tp sent) (TreeProps.pre t) = map swap (filter (fun p => ispunct (wordof sent (snd p)) (fst p)) (preterminals t)).
Proof.
  intros sent. induction t as [a|l ts IH] using tree_ind'; intros P; [inversion P|]. inversion P as [? a|? ? NE PC]; subst.
  - cbn. destruct (ispunct (wordof sent a) l); reflexivity.
  - rewrite pret_node by (intros; now apply ptree_qtree, PC). cbn [TreeProps.pre flat_map]. assert (E : tp sent (Node l ts) = []). { destruct ts as [|[a|] r]; auto. exfalso. apply (noleaf (L := pystr) a). apply PC. now left. } rewrite E. cbn [app]. rewrite Forall_forall in IH. clear E P NE. induction ts as [|c ts IHt]; auto. cbn [flat_map]. rewrite flat_map_app, filter_app, map_app, IH by (try apply PC; now left). f_equal. apply IHt; intros; [apply IH; auto; now right|apply PC; now right].
Qed.
Lemma termparent_spec : forall sent l ts, (forall c, In c ts -> ptree c) -> termparent sent (Node l ts) = map swap (filter (fun p => ispunct (wordof sent (snd p)) (fst p)) (preterminals (Node l ts : ptr))).
Proof.
  intros sent l ts P. unfold termparent. rewrite C16_subtrees_preorder. change (flat_map (tp sent) (filter (fun _ => true) (TreeProps.pre (Node l ts : ptr))) = map swap (filter (fun p => ispunct (wordof sent (snd p)) (fst p)) (preterminals (Node l ts : ptr)))).
  assert (F : forall X (r : list X), filter (fun _ => true) r = r) by (intros X r; induction r; cbn; congruence). rewrite F. destruct ts as [|c r] eqn:E; [reflexivity|]. rewrite <- E in *. apply tp_pre. constructor; [subst; discriminate|auto].
Qed.
Lemma map_fst_swap : forall ps, map fst (map swap ps) = map snd ps.
Proof. intros. rewrite map_map. reflexivity. Qed.
Lemma balanced_moved : forall sent t, rooted t -> moved (punctsel sent) t (balancedpunctraise t sent).
Proof.
  intros sent t R. unfold balancedpunctraise. assert (R' := R). destruct R' as (l & ts & -> & P & N). rewrite (termparent_spec sent l ts P).
  set (ps := filter (fun p => ispunct (wordof sent (snd p)) (fst p)) (preterminals (Node l ts : ptr))). set (le := fun a b : nat * pystr => fst a <=? fst b).
  apply balance_moved; auto.
  - assert (N1 : NoDup (map fst (map swap ps))). { rewrite map_fst_swap. unfold ps. apply NoDup_filter_map. rewrite preterminals_leaves by eauto. exact N. }
    eapply Permutation_NoDup; [|exact N1]. apply Permutation_map. apply sort_perm.
  - intros x tag m Hx Hm. apply (Permutation_in _ (Permutation_sym (sort_perm le _))) in Hx. apply in_map_iff in Hx. destruct Hx as ([m' x'] & Ex & Hx). injection Ex as -> ->. unfold ps in Hx. apply filter_In in Hx. destruct Hx as [H1 H2]. assert (tag = m) by (apply (pret_unique (Node l ts) tag m x); eauto). subst. exact H2.
Qed.
(** ---- reordering children ---- *)
Lemma tperm_rest : forall S (c d : ptr), qtree c -> tperm c d -> Forall2 tperm (rest S c) (rest S d) /\ qtree d.
Proof.
  intros S. induction c as [x|l ts IH] using tree_ind'; intros d Q H; inversion Q as [? a|? ? QC]; subst; inversion H as [|? ? us vs F P]; subst.
  - inversion F as [|? y ? ? Hy F']; subst. inversion Hy; subst. inversion F'; subst. apply Permutation_length_1_inv in P. subst vs. split; [|constructor]. rewrite !rest_pre. destruct (S a l); [constructor|constructor; [exact H|constructor]].
  - rewrite Forall_forall in IH. assert (G : Forall2 tperm (flat_map (rest S) ts) (flat_map (rest S) us) /\ qs us). { clear Q H P. induction F as [|x y ts us Hxy F IHF]; [split; [constructor|intros c []]|]. destruct (IH x (or_introl eq_refl) y (QC x (or_introl eq_refl)) Hxy) as [A1 A2]. destruct IHF as [B1 B2]; [intros; apply IH; auto; now right|intros; apply QC; now right|]. split; [|now apply qs_cons]. cbn [flat_map]. now apply Forall2_app. }
    destruct G as [G1 G2]. assert (QV : qs vs) by (intros c C; apply G2; eapply Permutation_in; [symmetry; exact P|exact C]). split; [|now apply q_node]. rewrite !rest_node by auto.
    assert (PV := Permutation_flat_map (rest S) P). destruct (flat_map (rest S) ts) as [|v r] eqn:E1.
    + destruct (flat_map (rest S) us) as [|z zs]; [|inversion G1]. apply Permutation_nil in PV. rewrite PV. constructor.
    + destruct (flat_map (rest S) us) as [|v' r']; [inversion G1|]. destruct (flat_map (rest S) vs) as [|w ws] eqn:E2; [apply Permutation_sym, Permutation_nil in PV; discriminate|]. constructor; [|constructor]. apply (tp_node l (v :: r) (v' :: r') (w :: ws)); auto.
Qed.
Lemma tperm_skeleton : forall S l ts d, qs ts -> tperm (Node l ts : ptr) d -> tperm (skeleton S (Node l ts)) (skeleton S d).
Proof.
  intros S l ts d Q H. inversion H as [|? ? us vs F P]; subst. cbn [skeleton]. apply (tp_node l _ (flat_map (rest S) us)); [|now apply Permutation_flat_map].
  clear P H. induction F as [|x y ts us Hxy F IHF]; [constructor|]. cbn [flat_map]. apply Forall2_app; [apply tperm_rest; auto; eapply qs_hd; eauto|apply IHF; eapply qs_tl; eauto].
Qed.
Lemma tperm_pret : forall (c d : ptr), qtree c -> tperm c d -> Permutation (preterminals c) (preterminals d).
Proof.
  induction c as [x|l ts IH] using tree_ind'; intros d Q H; [inversion Q|]. assert (HD := proj2 (tperm_rest (fun _ _ => false) _ _ Q H)). inversion Q as [? a|? ? QC]; subst; inversion H as [|? ? us vs F P]; subst.
  - inversion F as [|? y ? ? Hy F']; subst. inversion Hy; subst. inversion F'; subst. apply Permutation_length_1_inv in P. now subst vs.
  - rewrite Forall_forall in IH. assert (G : Permutation (flat_map preterminals ts) (flat_map preterminals us) /\ qs us). { clear Q H P HD. induction F as [|x y ts us Hxy F IHF]; [split; [constructor|intros c []]|]. assert (A1 := IH x (or_introl eq_refl) y (QC x (or_introl eq_refl)) Hxy). assert (A2 := proj2 (tperm_rest (fun _ _ => false) x y (QC x (or_introl eq_refl)) Hxy)). destruct IHF as [B1 B2]; [intros; apply IH; auto; now right|intros; apply QC; now right|]. split; [|now apply qs_cons]. cbn [flat_map]. now apply Permutation_app. }
    destruct G as [G1 G2]. assert (QV : qs vs) by (intros c C; apply G2; eapply Permutation_in; [symmetry; exact P|exact C]). rewrite !pret_node by auto. rewrite G1. now apply Permutation_flat_map.
Qed.
