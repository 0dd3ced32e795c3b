(** Inside and outside values as sums over derivations *)
From Coq Require Import QArith Qcanon List Bool Lia Permutation.
From Verif Require Import InOutModel InOutSpec ExportProofs2 FragProofs2.
Import ListNotations.
Open Scope Qc_scope.

(** * sums *)
Lemma sum_cons : forall x l, sum (x :: l) = x + sum l.
Proof. reflexivity. Qed.
Local Ltac fs := change (fold_right Qcplus 0) with sum.
Lemma sum_app : forall l1 l2, sum (l1 ++ l2) = sum l1 + sum l2.
Proof. induction l1 as [|x l1 IH]; intros l2; cbn [app map sum fold_right]; fs; [ring|]. rewrite IH. ring. Qed.
Lemma sum_perm : forall l1 l2, Permutation l1 l2 -> sum l1 = sum l2.
Proof. induction 1; cbn [sum fold_right]; fs; auto; [congruence|ring|congruence]. Qed.
Lemma sum_ext : forall T (f g : T -> Qc) l, (forall x, In x l -> f x = g x) -> sum (map f l) = sum (map g l).
Proof. induction l as [|x l IH]; intros H; cbn [map sum fold_right]; auto. fs; rewrite (H x (or_introl eq_refl)). rewrite IH; auto. intros y Hy. apply H. now right. Qed.
Lemma sum_plus : forall T (f g : T -> Qc) l, sum (map (fun x => f x + g x) l) = sum (map f l) + sum (map g l).
Proof. induction l as [|x l IH]; cbn [app map sum fold_right]; fs; [ring|]. rewrite IH. ring. Qed.
Lemma sum_scale : forall T (f : T -> Qc) c l, sum (map (fun x => c * f x) l) = c * sum (map f l).
Proof. induction l as [|x l IH]; cbn [app map sum fold_right]; fs; [ring|]. rewrite IH. ring. Qed.
Lemma sum_zero : forall T (f : T -> Qc) l, (forall x, In x l -> f x = 0) -> sum (map f l) = 0.
Proof. induction l as [|x l IH]; intros H; cbn [map sum fold_right]; auto. fs; rewrite (H x (or_introl eq_refl)). rewrite IH; [ring|]. intros y Hy. apply H. now right. Qed.
Lemma sum_swap : forall A B (f : A -> B -> Qc) (la : list A) (lb : list B),
  sum (map (fun a => sum (map (f a) lb)) la) = sum (map (fun b => sum (map (fun a => f a b) la)) lb).
Proof.
  intros A B f la lb. induction la as [|a la IH].
  - symmetry. apply sum_zero. auto.
  - cbn [map]. rewrite sum_cons, IH. rewrite <- sum_plus. reflexivity.
Qed.
Lemma sum_flat : forall A B (f : B -> Qc) (g : A -> list B) l, sum (map f (flat_map g l)) = sum (map (fun a => sum (map f (g a))) l).
Proof. intros A B f g. induction l as [|a l IH]; cbn [flat_map map]; auto. rewrite map_app, sum_app, IH. reflexivity. Qed.
(** the sum with a single non-zero element *)
Lemma sum_single : forall (x : nat) (v : nat -> Qc) l, NoDup l -> In x l ->
  sum (map (fun y => (if Nat.eqb x y then 1 else 0) * v y) l) = v x.
Proof.
  intros x v. induction l as [|y l IH]; intros ND HI; [destruct HI|]. inversion ND as [|? ? N ND']; subst. cbn [map]. cbn [sum fold_right].
  fs. destruct (Nat.eqb_spec x y) as [->|NE].
  - rewrite sum_zero; [ring|]. intros z Hz. destruct (Nat.eqb_spec y z) as [->|]; [contradiction|ring].
  - destruct HI as [->|HI]; [congruence|]. rewrite IH by auto. ring.
Qed.

Section Chart.
Variables (expneg : Qc -> Qc) (ch : chart).
Local Notation lex := (lexvalue expneg ch).
Local Notation I := (getinside expneg ch).
Local Notation w := (weight lex).

(** the derivations built from given derivations of the daughters *)
Definition edgederivs (T : nat -> list deriv) (e : edge) : list deriv :=
  match e with
  | EUn p l => map (DUn e) (T l)
  | EBin p l r => flat_map (fun d1 => map (DBin e d1) (T r)) (T l)
  | _ => [DLex e]
  end.
Definition updT (T : nat -> list deriv) (i : nat) (v : list deriv) : nat -> list deriv := fun k => if Nat.eqb k i then v else T k.
Definition table (l : list nat) : nat -> list deriv :=
  fold_left (fun T x => updT T x (flat_map (edgederivs T) (forest ch x))) l (fun _ => []).
Definition Ssum (T : nat -> list deriv) (x : nat) : Qc := sum (map w (T x)).

Lemma edge_sum : forall T J e, (forall c, In c (children e) -> J c = Ssum T c) ->
  sum (map w (edgederivs T e)) = insidevalue expneg ch J e.
Proof.
  intros T J e H. destruct e as [p|v|p l|p l r]; cbn [edgederivs insidevalue].
  - cbn. ring.
  - cbn. ring.
  - rewrite map_map. cbn [weight]. rewrite sum_scale. rewrite (H l) by now left. reflexivity.
  - rewrite sum_flat. rewrite (H l) by now left. rewrite (H r) by (right; now left). unfold Ssum.
    transitivity (sum (map (fun d1 => (p * sum (map w (T r))) * w d1) (T l))).
    + apply sum_ext. intros d1 _. rewrite map_map. cbn [weight]. rewrite sum_scale. ring.
    + rewrite sum_scale. ring.
Qed.
Lemma inside_item_ok : forall J x (T : nat -> list deriv), J x = 0 -> (forall e c, In e (forest ch x) -> In c (children e) -> c <> x /\ J c = Ssum T c) ->
  forall k, inside_item expneg ch J x k = if Nat.eqb k x then sum (map w (flat_map (edgederivs T) (forest ch x))) else J k.
Proof.
  intros J x T J0 HC. unfold inside_item.
  assert (G : forall es K, (forall e, In e es -> In e (forest ch x)) -> (forall k, k <> x -> K k = J k) ->
    forall k, fold_left (fun K e => upd K x (K x + insidevalue expneg ch K e)) es K k =
      if Nat.eqb k x then K x + sum (map w (flat_map (edgederivs T) es)) else J k).
  { induction es as [|e es IH]; intros K He HK k; cbn [fold_left flat_map map].
    - destruct (Nat.eqb_spec k x) as [->|N]; [cbn; ring|auto].
    - rewrite IH.
      + destruct (Nat.eqb k x); auto. unfold upd at 1. rewrite Nat.eqb_refl. rewrite map_app, sum_app.
        rewrite (edge_sum T K e); [ring|]. intros c Hc. destruct (HC e c (He e (or_introl eq_refl)) Hc) as [N E]. rewrite HK by auto. exact E.
      + intros e' He'. apply He. now right.
      + intros k' N. unfold upd. destruct (Nat.eqb_spec k' x); [contradiction|auto]. }
  intros k. rewrite (G (forest ch x) J); auto. rewrite J0. destruct (Nat.eqb k x); auto. ring.
Qed.

Hypothesis BU : bottomup ch.
Lemma before : forall l1 x l2 e c, order ch = l1 ++ x :: l2 -> In e (forest ch x) -> In c (children e) -> In c l1 /\ c <> x.
Proof.
  intros l1 x l2 e c E He Hc. destruct BU as (ND & _ & B & _). pose proof (B l1 x l2 e c E He Hc) as H. split; auto.
  intros ->. rewrite E in ND. apply NoDup_remove_2 in ND. apply ND. apply in_or_app. now left.
Qed.
Lemma table_app : forall l x, table (l ++ [x]) = updT (table l) x (flat_map (edgederivs (table l)) (forest ch x)).
Proof. intros. unfold table. rewrite fold_left_app. reflexivity. Qed.
Lemma inside_app : forall l x, fold_left (inside_item expneg ch) (l ++ [x]) (fun _ => 0) = inside_item expneg ch (fold_left (inside_item expneg ch) l (fun _ => 0)) x.
Proof. intros. rewrite fold_left_app. reflexivity. Qed.
Lemma prefix_ok : forall l1 l2, order ch = l1 ++ l2 ->
  (forall k, fold_left (inside_item expneg ch) l1 (fun _ => 0) k = Ssum (table l1) k) /\
  (forall k, ~ In k l1 -> table l1 k = []) /\
  (forall k, In k l1 -> table l1 k = flat_map (edgederivs (table l1)) (forest ch k)).
Proof.
  induction l1 as [|x l1 IH] using rev_ind; intros l2 E.
  - cbn. split; [reflexivity|]. split; [auto|]. intros k [].
  - rewrite <- app_assoc in E. cbn [app] in E. destruct (IH _ E) as (H1 & H2 & H3).
    assert (Nx : ~ In x l1).
    { destruct BU as (ND & _). rewrite E in ND. apply NoDup_remove_2 in ND. intros H. apply ND. apply in_or_app. now left. }
    assert (SAME : forall e, (forall c, In c (children e) -> c <> x) -> edgederivs (table (l1 ++ [x])) e = edgederivs (table l1) e).
    { intros e He. rewrite table_app. destruct e as [p|v|p l|p l r]; cbn [edgederivs]; auto; unfold updT.
      - destruct (Nat.eqb_spec l x) as [->|]; auto. destruct (He x (or_introl eq_refl)). reflexivity.
      - destruct (Nat.eqb_spec l x) as [->|]; [destruct (He x (or_introl eq_refl)); reflexivity|].
        destruct (Nat.eqb_spec r x) as [->|]; [destruct (He x (or_intror (or_introl eq_refl))); reflexivity|]. reflexivity. }
    rewrite inside_app. split; [|split].
    + intros k. rewrite (inside_item_ok _ x (table l1)).
      * unfold Ssum. rewrite table_app. unfold updT. destruct (Nat.eqb k x); auto. apply H1.
      * rewrite H1. unfold Ssum. now rewrite H2.
      * intros e c He Hc. destruct (before _ _ _ _ _ E He Hc) as [_ N]. split; auto.
    + intros k Hk. rewrite table_app. unfold updT. destruct (Nat.eqb_spec k x) as [->|]; [destruct Hk; apply in_or_app; right; now left|].
      apply H2. intros H. apply Hk. apply in_or_app. now left.
    + intros k Hk. transitivity (flat_map (edgederivs (table l1)) (forest ch k)).
      * rewrite table_app. unfold updT. destruct (Nat.eqb_spec k x) as [->|N]; auto. apply H3.
        apply in_app_or in Hk. destruct Hk as [Hk|[Hk|[]]]; auto. congruence.
      * rewrite !flat_map_concat_map. f_equal. apply map_ext_in. intros e He. symmetry. apply SAME. intros c Hc ->.
        apply in_app_or in Hk. destruct Hk as [Hk|[->|[]]].
        -- apply in_split in Hk. destruct Hk as (a & b & ->). rewrite <- app_assoc in E. cbn [app] in E.
           destruct (before _ _ _ _ _ E He Hc) as [Hx _]. apply Nx. apply in_or_app. now left.
        -- destruct (before _ _ _ _ _ E He Hc) as [_ N]. congruence.
Qed.

Definition T := table (order ch).
Lemma inside_T : forall k, I k = Ssum T k.
Proof. intros k. apply (prefix_ok (order ch) []). now rewrite app_nil_r. Qed.
Lemma T_fix : forall k, T k = flat_map (edgederivs T) (forest ch k).
Proof.
  intros k. destruct (prefix_ok (order ch) [] ltac:(now rewrite app_nil_r)) as (_ & H2 & H3).
  destruct (in_dec Nat.eq_dec k (order ch)) as [HI|HI]; [exact (H3 k HI)|].
  unfold T. rewrite (H2 k HI). destruct BU as (_ & _ & _ & _ & F). now rewrite (F k HI).
Qed.
Lemma in_edgederivs : forall T' e d, In d (edgederivs T' e) -> match d with DLex e' => e' = e | DUn e' _ => e' = e | DBin e' _ _ => e' = e end.
Proof.
  intros T' e d H. destruct e; cbn in H.
  - destruct H as [<-|[]]. reflexivity.
  - destruct H as [<-|[]]. reflexivity.
  - apply in_map_iff in H. destruct H as (d' & <- & _). reflexivity.
  - apply in_flat_map in H. destruct H as (d1 & _ & H). apply in_map_iff in H. destruct H as (d' & <- & _). reflexivity.
Qed.
Lemma T_In : forall d k, In d (T k) <-> isderiv ch k d.
Proof.
  induction d as [e|e d IH|e d1 IH1 d2 IH2]; intros k; rewrite T_fix, in_flat_map.
  - split.
    + intros (e' & He & H). pose proof (in_edgederivs _ _ _ H) as E. cbn in E. subst e'. destruct e; cbn in H |- *; auto.
      * apply in_map_iff in H. destruct H as (? & E & _). discriminate.
      * apply in_flat_map in H. destruct H as (? & _ & H). apply in_map_iff in H. destruct H as (? & E & _). discriminate.
    + intros H. exists e. destruct e; cbn in *; try contradiction; auto.
  - split.
    + intros (e' & He & H). pose proof (in_edgederivs _ _ _ H) as E. cbn in E. subst e'. destruct e as [p|v|p l|p l r]; cbn in H |- *.
      * destruct H as [E|[]]. discriminate.
      * destruct H as [E|[]]. discriminate.
      * split; auto. apply in_map_iff in H. destruct H as (d' & E & H). injection E as ->. now apply IH.
      * apply in_flat_map in H. destruct H as (? & _ & H). apply in_map_iff in H. destruct H as (? & E & _). discriminate.
    + intros H. exists e. destruct e as [p|v|p l|p l r]; cbn in *; try contradiction. destruct H as [He H]. split; auto. apply in_map. now apply IH.
  - split.
    + intros (e' & He & H). pose proof (in_edgederivs _ _ _ H) as E. cbn in E. subst e'. destruct e as [p|v|p l|p l r]; cbn in H |- *.
      * destruct H as [E|[]]. discriminate.
      * destruct H as [E|[]]. discriminate.
      * apply in_map_iff in H. destruct H as (d' & E & H). discriminate.
      * apply in_flat_map in H. destruct H as (d1' & H1 & H). apply in_map_iff in H. destruct H as (d2' & E & H2). injection E as -> ->.
        split; auto. split; [now apply IH1|now apply IH2].
    + intros H. exists e. destruct e as [p|v|p l|p l r]; cbn in *; try contradiction. destruct H as (He & H1 & H2). split; auto.
      apply in_flat_map. exists d1. split; [now apply IH1|]. apply in_map. now apply IH2.
Qed.
Lemma nodup_flat : forall A B (g : A -> list B) l, NoDup l -> (forall a, In a l -> NoDup (g a)) ->
  (forall a a' b, In b (g a) -> In b (g a') -> a = a') -> NoDup (flat_map g l).
Proof using.
  clear. intros A B g. induction l as [|a l IH]; intros ND HG HD; cbn; [constructor|]. inversion ND as [|? ? N ND']; subst.
  apply ExportProofs2.nodup_app.
  - apply HG. now left.
  - apply IH; auto. intros a' Ha'. apply HG. now right.
  - intros b Hb Hb'. apply in_flat_map in Hb'. destruct Hb' as (a' & Ha' & Hb'). rewrite (HD a a' b Hb Hb') in N. contradiction.
Qed.
Lemma T_nodup : forall k, NoDup (T k).
Proof.
  assert (G : forall l1 l2, order ch = l1 ++ l2 -> forall k, NoDup (table l1 k)).
  { induction l1 as [|x l1 IH] using rev_ind; intros l2 E k; [constructor|].
    rewrite <- app_assoc in E. cbn [app] in E. specialize (IH _ E). rewrite table_app. unfold updT. destruct (Nat.eqb k x); auto.
    apply nodup_flat.
    - apply BU.
    - intros e _. destruct e as [p|v|p l|p l r]; cbn [edgederivs].
      + repeat constructor. auto.
      + repeat constructor. auto.
      + apply FinFun.Injective_map_NoDup; auto. intros a b Eab. congruence.
      + apply nodup_flat; auto.
        * intros d1 _. apply FinFun.Injective_map_NoDup; auto. intros a b Eab. congruence.
        * intros d1 d1' d H1 H2. apply in_map_iff in H1, H2. destruct H1 as (? & <- & _). destruct H2 as (? & Eq & _). congruence.
    - intros e e' d H1 H2. apply in_edgederivs in H1, H2. destruct d; congruence. }
  intros k. apply (G (order ch) []). now rewrite app_nil_r.
Qed.
Lemma T_enum : forall k, enumerates ch k (T k).
Proof. intros k. split; [apply T_nodup|]. intros d. apply T_In. Qed.
Lemma enum_sum : forall (f : deriv -> Qc) k l, enumerates ch k l -> sum (map f l) = sum (map f (T k)).
Proof.
  intros f k l [ND H]. apply sum_perm. apply Permutation_map. apply NoDup_Permutation; auto; [apply T_nodup|].
  intros d. rewrite H. symmetry. apply T_In.
Qed.
Lemma inside_ok : forall k l, enumerates ch k l -> I k = sum (map w l).
Proof. intros k l H. rewrite inside_T. unfold Ssum. symmetry. now apply enum_sum. Qed.

(** * outside *)
Definition contrib (e : edge) (z : nat) : Qc :=
  match e with
  | EUn p l => if Nat.eqb l z then p else 0
  | EBin p l r => (if Nat.eqb l z then p * I r else 0) + (if Nat.eqb r z then p * I l else 0)
  | _ => 0
  end.
Definition M (y z : nat) : Qc := sum (map (fun e => contrib e z) (forest ch y)).
Lemma outside_edge_ok : forall O y e z, (forall c, In c (children e) -> c <> y) ->
  outside_edge I y O e z = O z + contrib e z * O y /\ outside_edge I y O e y = O y.
Proof using.
  clear. intros O y e z H. destruct e as [p|v|p l|p l r]; cbn [outside_edge contrib].
  - split; [ring|reflexivity].
  - split; [ring|reflexivity].
  - unfold upd. split.
    + rewrite (Nat.eqb_sym l z). destruct (Nat.eqb_spec z l) as [->|]; ring.
    + destruct (Nat.eqb_spec y l) as [->|]; auto. destruct (H l (or_introl eq_refl)). reflexivity.
  - assert (Nl : l <> y) by (apply H; now left). assert (Nr : r <> y) by (apply H; right; now left).
    unfold upd. split.
    + rewrite (Nat.eqb_sym l z), (Nat.eqb_sym r z). destruct (Nat.eqb_spec z r) as [Er|Er]; destruct (Nat.eqb_spec r l) as [El|El];
        destruct (Nat.eqb_spec z l) as [Ez|Ez]; subst; try ring; congruence.
    + destruct (Nat.eqb_spec y r); [congruence|]. destruct (Nat.eqb_spec y l); [congruence|]. reflexivity.
Qed.
Lemma outside_item_ok : forall O y, (forall e c, In e (forest ch y) -> In c (children e) -> c <> y) ->
  (forall z, outside_item ch I O y z = O z + M y z * O y) /\ outside_item ch I O y y = O y.
Proof.
  intros O y H. unfold outside_item, M.
  assert (G : forall es O, (forall e, In e es -> In e (forest ch y)) ->
    (forall z, fold_left (outside_edge I y) es O z = O z + sum (map (fun e => contrib e z) es) * O y) /\
    fold_left (outside_edge I y) es O y = O y).
  { induction es as [|e es IH]; intros O' He; cbn [fold_left map].
    - split; auto. intros z. cbn. ring.
    - assert (He' : forall c, In c (children e) -> c <> y) by (intros c Hc; apply (H e c); auto; apply He; now left).
      destruct (IH (outside_edge I y O' e) ltac:(intros; apply He; now right)) as [I1 I2].
      pose proof (proj2 (outside_edge_ok O' y e y He')) as Ey. split.
      + intros z. rewrite I1, Ey. rewrite (proj1 (outside_edge_ok O' y e z He')). cbn [sum fold_right]. change (fold_right Qcplus 0) with sum. ring.
      + rewrite I2. exact Ey. }
  apply G. auto.
Qed.
Local Notation O := (getoutside expneg ch).
Definition start (z : nat) : Qc := if Nat.eqb (root ch) z then 1 else 0.
Lemma M_zero : forall y z, (forall e, In e (forest ch y) -> ~ In z (children e)) -> M y z = 0.
Proof.
  intros y z H. unfold M. apply sum_zero. intros e He. specialize (H e He). destruct e as [p|v|p l|p l r]; cbn in *; auto.
  - destruct (Nat.eqb_spec l z); [exfalso; apply H; auto|reflexivity].
  - destruct (Nat.eqb_spec l z); [exfalso; apply H; auto|]. destruct (Nat.eqb_spec r z); [exfalso; apply H; auto|]. ring.
Qed.
(** after the items of l2 have been processed *)
Lemma suffix_ok : forall l2 l1, order ch = l1 ++ l2 ->
  let O' := fold_left (outside_item ch I) (rev l2) (upd (fun _ => 0) (root ch) 1) in
  forall z, O' z = start z + sum (map (fun y => M y z * O' y) l2).
Proof.
  induction l2 as [|x l2 IH]; intros l1 E O' z; unfold O'.
  - cbn. unfold upd, start. rewrite Nat.eqb_sym. destruct (Nat.eqb (root ch) z); ring.
  - cbn [rev]. rewrite fold_left_app. cbn [fold_left].
    assert (E' : order ch = (l1 ++ [x]) ++ l2) by (rewrite <- app_assoc; exact E).
    specialize (IH _ E'). cbn zeta in IH. set (O1 := fold_left (outside_item ch I) (rev l2) (upd (fun _ => 0) (root ch) 1)) in *. clearbody O1.
    destruct (outside_item_ok O1 x) as [H1 H2].
    { intros e c He Hc. exact (proj2 (before _ _ _ _ _ E He Hc)). }
    assert (L2 : forall y, In y l2 -> outside_item ch I O1 x y = O1 y).
    { intros y Hy. rewrite H1, M_zero; [ring|]. intros e He Hc. pose proof (proj1 (before _ _ _ _ _ E He Hc)) as Hb.
      destruct BU as (ND & _). rewrite E in ND. apply (FragProofs2.nodup_app_inv _ l1 (x :: l2)) in ND. destruct ND as (_ & _ & D).
      apply (D y); auto. now right. }
    cbn [map sum fold_right]. change (fold_right Qcplus 0) with sum. rewrite H2.
    rewrite (sum_ext _ (fun y => M y z * outside_item ch I O1 x y) (fun y => M y z * O1 y)) by (intros y Hy; now rewrite L2).
    rewrite H1. rewrite (IH z) at 1. ring.
Qed.
Lemma outside_eq : forall z, O z = start z + sum (map (fun y => M y z * O y) (order ch)).
Proof. intros z. exact (suffix_ok (order ch) [] eq_refl z). Qed.

(** * the two together *)
Definition W (y x : nat) : Qc := sum (map (fun d => w d * ofnat (occ x y d)) (T y)).
Lemma ofnat_plus : forall a b, ofnat (a + b) = ofnat a + ofnat b.
Proof using.
  clear. intros a b. unfold ofnat. apply Qc_is_canon. unfold Qcplus, Q2Qc, this. rewrite !Qred_correct.
  rewrite Nat2Z.inj_add, inject_Z_plus. reflexivity.
Qed.
Lemma ofnat_if : forall b : bool, ofnat (if b then 1 else 0) = if b then 1 else 0.
Proof using. destruct b; reflexivity. Qed.
Lemma W_eq : forall y x, W y x = (if Nat.eqb y x then 1 else 0) * I y + sum (map (fun z => M y z * W z x) (order ch)).
Proof.
  intros y x. unfold W at 1.
  assert (OCC : forall d, ofnat (occ x y d) = (if Nat.eqb y x then 1 else 0) +
     match d with DUn (EUn _ l) d1 => ofnat (occ x l d1) | DBin (EBin _ l r) d1 d2 => ofnat (occ x l d1) + ofnat (occ x r d2) | _ => 0 end).
  { intros d. destruct d as [e|e d|e d1 d2]; cbn [occ]; rewrite ?ofnat_plus, ofnat_if.
    - reflexivity.
    - destruct e; reflexivity.
    - destruct e; try reflexivity. now rewrite ofnat_plus. }
  transitivity (sum (map (fun d => (if Nat.eqb y x then 1 else 0) * w d) (T y)) +
    sum (map (fun d => w d * match d with DUn (EUn _ l) d1 => ofnat (occ x l d1) | DBin (EBin _ l r) d1 d2 => ofnat (occ x l d1) + ofnat (occ x r d2) | _ => 0 end) (T y))).
  { rewrite <- sum_plus. apply sum_ext. intros d _. rewrite OCC. ring. }
  rewrite sum_scale. rewrite inside_T. unfold Ssum at 1. f_equal.
  rewrite (T_fix y). rewrite sum_flat.
  assert (INO : forall e c, In e (forest ch y) -> In c (children e) -> In c (order ch)).
  { intros e c He Hc. destruct (in_dec Nat.eq_dec y (order ch)) as [Hy|Hy].
    - apply in_split in Hy. destruct Hy as (l1 & l2 & E). rewrite E. apply in_or_app. left. exact (proj1 (before _ _ _ _ _ E He Hc)).
    - destruct BU as (_ & _ & _ & _ & F). rewrite (F y Hy) in He. destruct He. }
  transitivity (sum (map (fun e => sum (map (fun z => contrib e z * W z x) (order ch))) (forest ch y))).
  2:{ rewrite sum_swap. apply sum_ext. intros z _. unfold M. rewrite <- (Qcmult_comm (W z x)). rewrite <- sum_scale. apply sum_ext. intros; ring. }
  apply sum_ext. intros e He. destruct BU as (ND & _). destruct e as [p|v|p l|p l r]; cbn [edgederivs contrib].
  - cbn. rewrite sum_zero; [ring|intros; ring].
  - cbn. rewrite sum_zero; [ring|intros; ring].
  - rewrite map_map. cbn [weight].
    transitivity (sum (map (fun z => (if Nat.eqb l z then 1 else 0) * (p * W z x)) (order ch))).
    + rewrite (sum_single l (fun z => p * W z x) (order ch) ND (INO _ l He (or_introl eq_refl))). unfold W. rewrite <- sum_scale. apply sum_ext. intros; ring.
    + apply sum_ext. intros z _. destruct (Nat.eqb l z); ring.
  - transitivity (sum (map (fun z => (if Nat.eqb l z then 1 else 0) * (p * I r * W z x)) (order ch)) +
                  sum (map (fun z => (if Nat.eqb r z then 1 else 0) * (p * I l * W z x)) (order ch))).
    + rewrite (sum_single l (fun z => p * I r * W z x) (order ch) ND (INO _ l He (or_introl eq_refl))).
      rewrite (sum_single r (fun z => p * I l * W z x) (order ch) ND (INO _ r He (or_intror (or_introl eq_refl)))).
      rewrite !inside_T. unfold Ssum, W. rewrite sum_flat.
      transitivity (sum (map (fun d1 => (p * sum (map w (T r))) * (w d1 * ofnat (occ x l d1)) + (p * sum (map (fun d2 => w d2 * ofnat (occ x r d2)) (T r))) * w d1) (T l))).
      * apply sum_ext. intros d1 _. rewrite map_map. cbn [weight].
        transitivity (sum (map (fun d2 => (p * (w d1 * ofnat (occ x l d1))) * w d2 + (p * w d1) * (w d2 * ofnat (occ x r d2))) (T r))).
        -- apply sum_ext. intros; ring.
        -- rewrite sum_plus, !sum_scale. ring.
      * rewrite sum_plus, !sum_scale. ring.
    + rewrite <- sum_plus. apply sum_ext. intros z _. destruct (Nat.eqb l z), (Nat.eqb r z); ring.
Qed.
Lemma inside_outside : forall x, In x (order ch) -> I x * O x = W (root ch) x.
Proof.
  intros x Hx. pose proof BU as (ND & HR & _).
  (* sum_y O y * W y x, expanded in two ways *)
  assert (A : sum (map (fun y => O y * W y x) (order ch)) = O x * I x + sum (map (fun z => (O z - start z) * W z x) (order ch))).
  { transitivity (sum (map (fun y => (if Nat.eqb x y then 1 else 0) * (O y * I y)) (order ch)) +
                  sum (map (fun y => sum (map (fun z => O y * (M y z * W z x)) (order ch))) (order ch))).
    - rewrite <- sum_plus. apply sum_ext. intros y _. rewrite (W_eq y x) at 1. rewrite sum_scale. rewrite (Nat.eqb_sym y x). destruct (Nat.eqb x y); ring.
    - rewrite (sum_single x (fun y => O y * I y) (order ch) ND Hx). f_equal. rewrite sum_swap. apply sum_ext. intros z _.
      rewrite (outside_eq z) at 1.
      transitivity (W z x * sum (map (fun y => M y z * O y) (order ch))); [|ring]. rewrite <- sum_scale. apply sum_ext. intros; ring. }
  assert (B : sum (map (fun z => (O z - start z) * W z x) (order ch)) =
              sum (map (fun z => O z * W z x) (order ch)) + - W (root ch) x).
  { rewrite <- (sum_single (root ch) (fun z => - W z x) (order ch) ND HR). rewrite <- sum_plus. apply sum_ext. intros z _.
    unfold start. destruct (Nat.eqb (root ch) z); ring. }
  rewrite B in A. transitivity (O x * I x); [ring|].
  transitivity (O x * I x + (sum (map (fun z => O z * W z x) (order ch)) + - W (root ch) x) - sum (map (fun z => O z * W z x) (order ch)) + W (root ch) x); [ring|].
  rewrite <- A. ring.
Qed.
End Chart.
