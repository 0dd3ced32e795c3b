(** Occurrence of items in derivations, and the filtered chart *)
From Coq Require Import QArith Qcanon List Bool Lia Permutation.
From Verif Require Import InOutModel InOutSpec InOutProofs.
Import ListNotations.
Open Scope Qc_scope.

(** * occurrences *)
Lemma contains_occ : forall x d item, contains x item d = negb (Nat.eqb (occ x item d) 0).
Proof.
  intros x. induction d as [e|e d IH|e d1 IH1 d2 IH2]; intros item; cbn [contains occ].
  - destruct (Nat.eqb item x); reflexivity.
  - destruct e as [p|v|p l|p l r]; try rewrite IH; destruct (Nat.eqb item x); reflexivity.
  - destruct e as [p|v|p l|p l r]; try rewrite IH1, IH2; destruct (Nat.eqb item x); try reflexivity.
    cbn [orb Nat.add]. destruct (occ x l d1), (occ x r d2); reflexivity.
Qed.

Section Chart.
Variables (ch : chart) (cover : nat -> list nat).
Hypothesis BU : bottomup ch.

(** everything below an item comes before it *)
Lemma occ_before : forall d l1 y l2 x, order ch = l1 ++ y :: l2 -> isderiv ch y d -> occ x y d <> 0%nat -> x = y \/ In x l1.
Proof.
  assert (B : forall c l1 y l2 e, order ch = l1 ++ y :: l2 -> In e (forest ch y) -> In c (children e) ->
            exists a b, order ch = a ++ c :: b /\ incl a l1 /\ In c l1).
  { intros c l1 y l2 e E He Hc. pose proof (proj1 (before ch BU _ _ _ _ _ E He Hc)) as Hl. destruct (in_split _ _ Hl) as (a & b & ->).
    exists a, (b ++ y :: l2). split; [rewrite E, <- app_assoc; reflexivity|]. split; auto. intros z Hz. apply in_or_app. now left. }
  induction d as [e|e d IH|e d1 IH1 d2 IH2]; intros l1 y l2 x E D O; cbn [occ] in O.
  - left. destruct (Nat.eqb_spec y x); auto. cbn in O. lia.
  - destruct e as [p|v|p l|p l r]; cbn [isderiv] in D; try contradiction. destruct D as [He D].
    destruct (Nat.eqb_spec y x); auto. right. destruct (B l _ _ _ _ E He (or_introl eq_refl)) as (a & b & E' & Ha & Hl).
    destruct (IH _ _ _ x E' D) as [->|H]; auto.
  - destruct e as [p|v|p l|p l r]; cbn [isderiv] in D; try contradiction. destruct D as (He & D1 & D2).
    destruct (Nat.eqb_spec y x); auto. right. destruct (B l _ _ _ _ E He (or_introl eq_refl)) as (a & b & E' & Ha & Hl).
    destruct (B r _ _ _ _ E He (or_intror (or_introl eq_refl))) as (a' & b' & E'' & Ha' & Hr).
    destruct (Nat.eq_dec (occ x l d1) 0) as [Z|N].
    + destruct (IH2 _ _ _ x E'' D2 ltac:(cbn in O; lia)) as [->|H]; auto.
    + destruct (IH1 _ _ _ x E' D1 N) as [->|H]; auto.
Qed.
Lemma deriv_in_order : forall d y, isderiv ch y d -> In y (order ch).
Proof.
  intros d y D. destruct (in_dec Nat.eq_dec y (order ch)) as [H|H]; auto. destruct BU as (_ & _ & _ & _ & F). specialize (F y H).
  destruct d as [e|e d|e d1 d2]; destruct e; cbn in D; try contradiction; rewrite F in D; cbn in D; tauto.
Qed.
Hypothesis SP : spanned ch cover.
Lemma occ_cover : forall d y x, isderiv ch y d -> occ x y d <> 0%nat -> x = y \/ (cover x <> [] /\ incl (cover x) (cover y)).
Proof.
  induction d as [e|e d IH|e d1 IH1 d2 IH2]; intros y x D O; cbn [occ] in O.
  - left. destruct (Nat.eqb_spec y x); auto. cbn in O. lia.
  - destruct e as [p|v|p l|p l r]; cbn [isderiv] in D; try contradiction. destruct D as [He D].
    destruct (Nat.eqb_spec y x); auto. right. destruct (proj1 (SP _ _ He) l (or_introl eq_refl)) as [N S].
    destruct (IH l x D O) as [->|[Nx Sx]]; auto. split; auto. intros i Hi. auto.
  - destruct e as [p|v|p l|p l r]; cbn [isderiv] in D; try contradiction. destruct D as (He & D1 & D2).
    destruct (Nat.eqb_spec y x); auto. right. destruct (proj1 (SP _ _ He) l (or_introl eq_refl)) as [N S].
    destruct (proj1 (SP _ _ He) r (or_intror (or_introl eq_refl))) as [N' S'].
    destruct (Nat.eq_dec (occ x l d1) 0) as [Z|NZ].
    + destruct (IH2 r x D2 ltac:(cbn in O; lia)) as [->|[Nx Sx]]; auto. split; auto. intros i Hi. auto.
    + destruct (IH1 l x D1 NZ) as [->|[Nx Sx]]; auto. split; auto. intros i Hi. auto.
Qed.
Lemma occ_once : forall d y x, isderiv ch y d -> (occ x y d <= 1)%nat.
Proof.
  assert (NB : forall c y e d, In e (forest ch y) -> In c (children e) -> isderiv ch c d -> In y (order ch) -> occ y c d = 0%nat).
  { intros c y e d He Hc D Hy. destruct (in_split _ _ Hy) as (l1 & l2 & E). destruct (before ch BU _ _ _ _ _ E He Hc) as [Hl N].
    destruct (Nat.eq_dec (occ y c d) 0) as [|NZ]; auto. exfalso.
    destruct (in_split _ _ Hl) as (a & b & E1). assert (E2 : order ch = a ++ c :: (b ++ y :: l2)) by (rewrite E, E1, <- app_assoc; reflexivity).
    destruct (occ_before _ _ _ _ _ E2 D NZ) as [->|H]; [congruence|].
    destruct BU as (ND & _). rewrite E in ND. apply NoDup_remove_2 in ND. apply ND. apply in_or_app. left. rewrite E1. apply in_or_app. now left. }
  induction d as [e|e d IH|e d1 IH1 d2 IH2]; intros y x D; pose proof (deriv_in_order _ _ D) as Hy; cbn [occ].
  - destruct (Nat.eqb y x); cbn; lia.
  - destruct e as [p|v|p l|p l r]; cbn [isderiv] in D; try contradiction. destruct D as [He D].
    destruct (Nat.eqb_spec y x) as [<-|N]; [rewrite (NB l y _ d He (or_introl eq_refl) D Hy); lia|]. specialize (IH l x D). cbn. lia.
  - destruct e as [p|v|p l|p l r]; cbn [isderiv] in D; try contradiction. destruct D as (He & D1 & D2).
    destruct (Nat.eqb_spec y x) as [<-|N].
    + rewrite (NB l y _ d1 He (or_introl eq_refl) D1 Hy), (NB r y _ d2 He (or_intror (or_introl eq_refl)) D2 Hy). lia.
    + specialize (IH1 l x D1). specialize (IH2 r x D2). cbn [Nat.add].
      destruct (Nat.eq_dec (occ x l d1) 0) as [|N1]; [lia|]. destruct (Nat.eq_dec (occ x r d2) 0) as [|N2]; [lia|]. exfalso.
      destruct (SP _ _ He) as [Hc DJ]. destruct (Hc l (or_introl eq_refl)) as [Nl _]. destruct (Hc r (or_intror (or_introl eq_refl))) as [Nr _].
      assert (X1 : cover x <> [] /\ incl (cover x) (cover l)) by (destruct (occ_cover d1 l x D1 N1) as [->|H]; [split; [auto|apply incl_refl]|exact H]).
      assert (X2 : incl (cover x) (cover r)) by (destruct (occ_cover d2 r x D2 N2) as [->|H]; [apply incl_refl|exact (proj2 H)]).
      destruct X1 as [Nx X1]. destruct (cover x) as [|i t] eqn:Ex; [congruence|]. apply (DJ i); [apply X1|apply X2]; now left.
Qed.
End Chart.

(** * the filtered chart *)
Section Dfs.
Variables (A : Type) (eqb : A -> A -> bool) (edges : A -> list (list A)).
Hypothesis eqb_eq : forall x y, eqb x y = true <-> x = y.
Hypothesis arity : forall x e, In e (edges x) -> (length e <= 2)%nat.
Local Notation mem := (mem A eqb).
Local Notation filtersubtree := (filtersubtree A eqb edges).
Lemma mem_In : forall x l, mem x l = true <-> In x l.
Proof. intros. unfold InOutModel.mem. rewrite existsb_exists. split; [intros (y & H & E); apply eqb_eq in E; now subst|intros H; exists x; split; auto; now apply eqb_eq]. Qed.
Inductive sreach : A -> A -> Prop :=
  | sreach_self : forall x, sreach x x
  | sreach_edge : forall x e c y, In e (edges x) -> In c e -> sreach c y -> sreach x y.
Definition sub (f : nat) (items : list A) (c : A) : list A := if mem c items then items else filtersubtree f c items.
Lemma fold_flat : forall (B C : Type) (g : C -> B -> C) (ll : list (list B)) (a : C), fold_left (fun a e => fold_left g e a) ll a = fold_left g (concat ll) a.
Proof using. clear. induction ll as [|e ll IH]; intros a; cbn [fold_left concat]; auto. now rewrite fold_left_app, IH. Qed.
Lemma filtersubtree_S : forall f item items, filtersubtree (S f) item items = fold_left (sub f) (concat (edges item)) (item :: items).
Proof.
  intros. cbn [InOutModel.filtersubtree]. rewrite <- fold_flat. pose proof (arity item) as AR. revert AR. generalize (item :: items).
  induction (edges item) as [|e es IH]; intros it AR; cbn [fold_left]; auto.
  rewrite IH by (intros e' H'; apply (AR e'); now right). f_equal.
  specialize (AR e (or_introl eq_refl)). destruct e as [|l [|r [|z e]]]; cbn in AR; try lia; reflexivity.
Qed.
Lemma in_concat : forall x c, In c (concat (edges x)) <-> exists e, In e (edges x) /\ In c e.
Proof. intros. rewrite in_concat. firstorder. Qed.
Lemma incl_sub : forall f, (forall c items, incl items (filtersubtree f c items)) -> forall cs items, incl items (fold_left (sub f) cs items).
Proof.
  intros f H. induction cs as [|c cs IH]; intros items; [apply incl_refl|]. cbn [fold_left]. eapply incl_tran; [|apply IH]. unfold sub. destruct (mem c items); [apply incl_refl|apply H].
Qed.
Lemma dfs_incl : forall f c items, incl items (filtersubtree f c items).
Proof.
  induction f as [|f IH]; intros c items; [apply incl_refl|]. rewrite filtersubtree_S. eapply incl_tran; [|apply incl_sub; exact IH].
  intros z Hz. now right.
Qed.
Lemma dfs_sound : forall f c items z, In z (filtersubtree f c items) -> In z items \/ sreach c z.
Proof.
  induction f as [|f IH]; intros c items z H; [now left|]. rewrite filtersubtree_S in H.
  assert (HS : forall cs it, (forall c', In c' cs -> exists e, In e (edges c) /\ In c' e) ->
      In z (fold_left (sub f) cs it) -> In z it \/ sreach c z).
  { induction cs as [|c' cs IHc]; intros it Hc Hz; [now left|]. cbn [fold_left] in Hz. apply IHc in Hz; [|intros; apply Hc; now right].
    destruct Hz as [Hz|Hz]; [|now right]. unfold sub in Hz. destruct (mem c' it); [now left|]. apply IH in Hz. destruct Hz as [Hz|Hz]; [now left|].
    right. destruct (Hc c' (or_introl eq_refl)) as (e & He & Hce). eapply sreach_edge; eauto. }
  destruct (HS _ _ (fun c' => proj1 (in_concat c c')) H) as [[<-|Hz]|Hz]; auto. right. constructor.
Qed.
(** the universe: everything reachable is in U *)
Variable U : list A.
Hypothesis U_closed : forall x e c, In x U -> In e (edges x) -> In c e -> In c U.
Definition closed (open items : list A) : Prop :=
  forall x e c, In x items -> ~ In x open -> In e (edges x) -> In c e -> In c items.
Definition todo (items : list A) : nat := length (filter (fun x => negb (mem x items)) U).
Lemma todo_mono : forall a b, incl a b -> (todo b <= todo a)%nat.
Proof.
  intros a b H. unfold todo. clear U_closed. induction U as [|u us IH]; [apply le_n|]. cbn [filter].
  destruct (mem u a) eqn:E.
  - apply mem_In, H, mem_In in E. rewrite E. cbn [negb length]. exact IH.
  - destruct (mem u b); cbn [negb length]; lia.
Qed.
Lemma todo_lt : forall x a, In x U -> ~ In x a -> (todo (x :: a) < todo a)%nat.
Proof.
  intros x a HU Ha. unfold todo. clear U_closed. induction U as [|u us IH]; [destruct HU|]. cbn [filter].
  assert (MONO : (length (filter (fun y => negb (mem y (x :: a))) us) <= length (filter (fun y => negb (mem y a)) us))%nat).
  { clear IH HU. induction us as [|w us IH]; [apply le_n|]. cbn [filter]. destruct (mem w a) eqn:E.
    - apply mem_In in E. rewrite (proj2 (mem_In w (x :: a)) (or_intror E)). cbn [negb length]. exact IH.
    - destruct (mem w (x :: a)); cbn [negb length]; lia. }
  destruct HU as [->|HU].
  - rewrite (proj2 (mem_In x (x :: a)) (or_introl eq_refl)). destruct (mem x a) eqn:E; [apply mem_In in E; contradiction|]. cbn [negb length]. lia.
  - specialize (IH HU). destruct (mem u a) eqn:E.
    + apply mem_In in E. rewrite (proj2 (mem_In u (x :: a)) (or_intror E)). cbn [negb length]. exact IH.
    + destruct (mem u (x :: a)); cbn [negb length]; lia.
Qed.
Lemma dfs_closed : forall f c items open, In c U -> ~ In c items -> (todo items <= f)%nat -> closed open items ->
  closed open (filtersubtree f c items) /\ In c (filtersubtree f c items).
Proof.
  induction f as [|f IH]; intros c items open HU Nc L CL; [pose proof (todo_lt c items HU Nc); lia|]. rewrite filtersubtree_S.
  pose proof (todo_lt c items HU Nc) as LT.
  assert (HS : forall cs it, (forall c', In c' cs -> In c' U) -> (todo it <= f)%nat -> closed (c :: open) it ->
      closed (c :: open) (fold_left (sub f) cs it) /\ forall c', In c' cs -> In c' (fold_left (sub f) cs it)).
  { induction cs as [|c' cs IHc]; intros it Hcs Lit Cit; [split; [exact Cit|intros c' []]|]. cbn [fold_left].
    assert (X : closed (c :: open) (sub f it c') /\ In c' (sub f it c') /\ incl it (sub f it c')).
    { unfold sub. destruct (mem c' it) eqn:E; [split; [exact Cit|split; [now apply mem_In|apply incl_refl]]|].
      destruct (IH c' it (c :: open)) as [X1 X2]; auto; [apply Hcs; now left|intros H; apply mem_In in H; congruence|].
      split; [exact X1|split; [exact X2|apply dfs_incl]]. }
    destruct X as (X1 & X2 & X3). destruct (IHc (sub f it c')) as [Y1 Y2]; [intros; apply Hcs; now right|pose proof (todo_mono _ _ X3); lia|exact X1|]. split; [exact Y1|].
    intros c'' [<-|H]; [|now apply Y2]. apply (incl_sub f (dfs_incl f)). exact X2. }
  destruct (HS (concat (edges c)) (c :: items)) as [Y1 Y2].
  - intros c' H. apply in_concat in H. destruct H as (e & He & Hc). apply (U_closed c e c'); auto.
  - lia.
  - intros x e c' [<-|Hx] No He Hc'; [destruct No; now left|]. right. apply (CL x e c'); auto. intros Ho. apply No. now right.
  - split; [|apply (incl_sub f (dfs_incl f)); now left].
    intros x e c' Hx No He Hc'. destruct (eqb x c) eqn:Exc.
    + apply eqb_eq in Exc. subst x. apply Y2. apply in_concat. eauto.
    + apply (Y1 x e c'); auto. intros [H|H]; [|contradiction]. symmetry in H. apply eqb_eq in H. congruence.
Qed.
Variable rt : A.
Hypothesis rt_U : In rt U.
Lemma dfs_reach : forall x, In x (itemstokeep A eqb edges rt U) <-> sreach rt x.
Proof.
  intros x. unfold itemstokeep. split.
  - intros H. apply dfs_sound in H. destruct H as [[]|H]; exact H.
  - destruct (dfs_closed (S (length U)) rt [] []) as [CL Hin].
    + exact rt_U.
    + intros [].
    + unfold todo. clear. induction U as [|u us IH]; cbn; [lia|]. cbn in IH. lia.
    + intros y e c [].
    + intros H. clear rt_U. revert Hin CL. generalize (filtersubtree (S (length U)) rt []). intros its Hin CL. revert Hin.
      induction H as [y|y e c z He Hc H IH]; auto. intros Hy. apply IH. apply (CL y e c); auto.
Qed.
Lemma sreach_U : forall x y, sreach x y -> In x U -> In y U.
Proof. intros x y H. induction H as [x|x e c y He Hc H IH]; auto. intros Hx. apply IH. exact (U_closed x e c Hx He Hc). Qed.
Lemma filtereditems_ok : forall E (forest : A -> list E) x, In x (filtereditems A eqb edges forest rt U) <-> sreach rt x /\ forest x <> [].
Proof.
  intros E forest x. unfold filtereditems, filteredforest. rewrite filter_In. split.
  - intros [Hx H]. apply mem_In in Hx. rewrite Hx in H. cbn [andb] in H.
    destruct (mem x (itemstokeep A eqb edges rt U)) eqn:EM; cbn [negb] in H; [|discriminate].
    apply mem_In, dfs_reach in EM. split; auto. intros F. rewrite F in H. discriminate.
  - intros [R F]. pose proof (sreach_U _ _ R rt_U) as Hx. split; auto.
    apply dfs_reach, mem_In in R. rewrite R. rewrite andb_false_r. destruct (forest x); [congruence|reflexivity].
Qed.
End Dfs.

Section Filtered.
Variable ch : chart.
Hypothesis BU : bottomup ch.
Local Notation dedges := (fun i => map daughters (forest ch i)).
Lemma child_order : forall x e c, In x (order ch) -> In e (forest ch x) -> In c (children e) -> In c (order ch).
Proof.
  intros x e c Hx He Hc. destruct (in_split _ _ Hx) as (l1 & l2 & E). destruct (before ch BU _ _ _ _ _ E He Hc) as [Hl N]. rewrite E. apply in_or_app. now left.
Qed.
Lemma d_arity : forall x e, In e (dedges x) -> (length e <= 2)%nat.
Proof. intros x e H. apply in_map_iff in H. destruct H as (e' & <- & _). destruct e'; cbn; lia. Qed.
Lemma d_closed : forall x e c, In x (order ch) -> In e (dedges x) -> In c e -> In c (order ch).
Proof. intros x e c Hx H Hc. apply in_map_iff in H. destruct H as (e' & <- & H). exact (child_order x e' c Hx H Hc). Qed.
Lemma d_reach : forall x y, sreach nat dedges x y <-> reach ch x y.
Proof.
  intros x y. split; intros H.
  - induction H as [x|x e c y He Hc H IH]; [constructor|]. apply in_map_iff in He. destruct He as (e' & <- & He). eapply reach_edge; eauto.
  - induction H as [x|x e c y He Hc H IH]; [constructor|]. eapply sreach_edge; [apply in_map_iff; exists e; eauto|exact Hc|exact IH].
Qed.
Lemma reach_order : forall x y, reach ch x y -> In x (order ch) -> In y (order ch).
Proof. intros x y H. induction H as [x|x e c y He Hc H IH]; auto. intros Hx. apply IH. exact (child_order x e c Hx He Hc). Qed.
Lemma keptitems_ok : forall x, In x (keptitems ch) <-> reach ch (root ch) x /\ forest ch x <> [].
Proof.
  intros x. unfold keptitems. rewrite (filtereditems_ok nat Nat.eqb dedges Nat.eqb_eq d_arity (order ch) d_closed (root ch)).
  - now rewrite d_reach.
  - apply BU.
Qed.
Lemma filter_keep : forall x, reach ch (root ch) x -> forest (chartfilter ch) x = forest ch x.
Proof.
  intros x R. cbn [forest chartfilter]. unfold filteredforest. apply d_reach in R.
  apply (dfs_reach nat Nat.eqb dedges Nat.eqb_eq d_arity (order ch) d_closed (root ch)) in R; [|apply BU].
  apply (mem_In nat Nat.eqb Nat.eqb_eq) in R. rewrite R. now rewrite andb_false_r.
Qed.
(** reachable = part of a derivation, when every item can be derived *)
Lemma contains_reach : forall x d y, isderiv ch y d -> contains x y d = true -> reach ch y x.
Proof.
  intros x. induction d as [e|e d IH|e d1 IH1 d2 IH2]; intros y D H; cbn [contains] in H; apply orb_prop in H; destruct H as [H|H]; try (apply Nat.eqb_eq in H; subst; constructor).
  - discriminate.
  - destruct e as [p|v|p l|p l r]; cbn [isderiv] in D; try contradiction. destruct D as [He D]. eapply reach_edge; [exact He|now left|]. now apply IH.
  - destruct e as [p|v|p l|p l r]; cbn [isderiv] in D; try contradiction. destruct D as (He & D1 & D2). apply orb_prop in H. destruct H as [H|H].
    + eapply reach_edge; [exact He|now left|]. now apply IH1.
    + eapply reach_edge; [exact He|right; now left|]. now apply IH2.
Qed.
Lemma reach_contains : productive ch -> forall y x, reach ch y x -> In y (order ch) -> exists d, isderiv ch y d /\ contains x y d = true.
Proof.
  intros PR y x H. induction H as [x|x e c y He Hc H IH]; intros Hx.
  - destruct (PR x Hx) as (d & D). exists d. split; auto. destruct d; cbn; now rewrite Nat.eqb_refl.
  - pose proof (child_order x e c Hx He Hc) as Hco. destruct (IH Hco) as (d & D & C).
    destruct e as [p|v|p l|p l r]; cbn [children] in Hc.
    + destruct Hc.
    + destruct Hc.
    + destruct Hc as [->|[]]. exists (DUn (EUn p c) d). split; [split; auto|]. cbn. rewrite C. apply orb_true_r.
    + assert (Hl : In l (order ch)) by exact (child_order x _ l Hx He (or_introl eq_refl)).
      assert (Hr : In r (order ch)) by exact (child_order x _ r Hx He (or_intror (or_introl eq_refl))).
      destruct (PR l Hl) as (dl & Dl). destruct (PR r Hr) as (dr & Dr). destruct Hc as [->|[->|[]]].
      * exists (DBin (EBin p c r) d dr). split; [repeat split; auto|]. cbn. rewrite C. now rewrite orb_true_r.
      * exists (DBin (EBin p l c) dl d). split; [repeat split; auto|]. cbn. rewrite C. now rewrite !orb_true_r.
Qed.
End Filtered.
