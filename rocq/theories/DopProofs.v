(** Combinatorics of Goodman's reduction: the abstract argument, for a list of
    annotated tree nodes. *)
From Coq Require Import String.
From Coq Require Import List Bool Arith NArith ZArith QArith Qcanon Permutation Lia.
From Verif Require Import PyStr TreeModel BracketModel LcfrsModel TreebankModel TreebankProps DopModel DopSpec.
Import ListNotations.
Open Scope list_scope.
Open Scope nat_scope.

(** ---- sums and products ---- *)
Definition nsum (l : list N) : N := fold_right N.add 0%N l.
Definition nprod (l : list N) : N := fold_right N.mul 1%N l.
Lemma nsum_cons : forall x l, nsum (x :: l) = (x + nsum l)%N. Proof. reflexivity. Qed.
Lemma nprod_cons : forall x l, nprod (x :: l) = (x * nprod l)%N. Proof. reflexivity. Qed.
Lemma nsum_app : forall a b, nsum (a ++ b) = (nsum a + nsum b)%N.
Proof. induction a; intros; cbn [app]; [reflexivity|]. rewrite !nsum_cons, IHa. apply N.add_assoc. Qed.
Lemma nprod_app : forall a b, nprod (a ++ b) = (nprod a * nprod b)%N.
Proof. induction a; intros; cbn [app]; [symmetry; apply N.mul_1_l|]. rewrite !nprod_cons, IHa. apply N.mul_assoc. Qed.
Lemma fold_mul : forall l a, fold_left N.mul l a = (a * nprod l)%N.
Proof. induction l; intros; cbn [fold_left]; [symmetry; apply N.mul_1_r|]. rewrite IHl, nprod_cons. symmetry. apply N.mul_assoc. Qed.
Lemma nsum_perm : forall a b, Permutation a b -> nsum a = nsum b.
Proof. induction 1; rewrite ?nsum_cons; auto; lia. Qed.
Lemma nsum_flat_map : forall X Y (f : X -> list Y) (w : Y -> N) l, nsum (map w (flat_map f l)) = nsum (map (fun x => nsum (map w (f x))) l).
Proof. induction l; cbn [flat_map map]; [reflexivity|]. rewrite map_app, nsum_app, IHl. reflexivity. Qed.
Lemma nsum_scale : forall X (w : X -> N) c l, nsum (map (fun x => (c * w x)%N) l) = (c * nsum (map w l))%N.
Proof. induction l; cbn [map]; [symmetry; apply N.mul_0_r|]. rewrite !nsum_cons, IHl. symmetry. apply N.mul_add_distr_l. Qed.
Lemma nsum_ext : forall X (f g : X -> N) l, (forall x, In x l -> f x = g x) -> nsum (map f l) = nsum (map g l).
Proof. induction l; intros H; cbn [map]; [reflexivity|]. rewrite !nsum_cons, H by now left. rewrite IHl; auto. intros; apply H; now right. Qed.

(** ---- cartesian product ---- *)
Lemma flat_map_map : forall X Y Z (f : Y -> list Z) (g : X -> Y) l, flat_map f (map g l) = flat_map (fun x => f (g x)) l.
Proof. induction l; cbn; congruence. Qed.
Lemma flat_map_comp : forall X Y Z (f : Y -> list Z) (g : X -> list Y) l, flat_map f (flat_map g l) = flat_map (fun x => flat_map f (g x)) l.
Proof. induction l; cbn; [reflexivity|]. now rewrite flat_map_app, IHl. Qed.
Lemma map_flat_map' : forall X Y Z (f : Y -> Z) (g : X -> list Y) l, map f (flat_map g l) = flat_map (fun x => map f (g x)) l.
Proof. induction l; cbn; [reflexivity|]. now rewrite map_app, IHl. Qed.
Lemma flat_map_ext' : forall X Y (f g : X -> list Y) l, (forall x, In x l -> f x = g x) -> flat_map f l = flat_map g l.
Proof. induction l; intros H; cbn; [reflexivity|]. rewrite H by now left. rewrite IHl; auto. intros; apply H; now right. Qed.
Lemma cart_snoc : forall X (ls : list (list X)) o, cart (ls ++ [o]) = flat_map (fun b => map (fun a => b ++ [a]) o) (cart ls).
Proof.
  induction ls as [|p ls IH]; intros o; cbn [cart app].
  - cbn. rewrite app_nil_r. induction o; cbn in *; congruence.
  - rewrite flat_map_comp. apply flat_map_ext'. intros x _. rewrite IH, map_flat_map', flat_map_map. apply flat_map_ext'. intros b _. now rewrite map_map.
Qed.
Lemma cartpi_cart : forall X (ls : list (list X)), cartpi ls = cart ls.
Proof.
  intros X ls. unfold cartpi. rewrite <- (rev_involutive ls) at 2. generalize (rev ls) as l. induction l as [|o l IH]; [reflexivity|].
  cbn [cartpi_rev rev]. now rewrite cart_snoc, IH.
Qed.
Lemma cart_in : forall X (ls : list (list X)) c, In c (cart ls) <-> Forall2 (fun x o => In x o) c ls.
Proof.
  induction ls as [|o ls IH]; intros c; cbn [cart].
  - split; [intros [<-|[]]; constructor|]. intros H. inversion H. now left.
  - rewrite in_flat_map. split.
    + intros (x & Hx & Hc). apply in_map_iff in Hc. destruct Hc as (c' & <- & Hc). constructor; auto. now apply IH.
    + intros H. inversion H as [|x o' c' ls' Hx Hc]; subst. exists x. split; auto. apply in_map. now apply IH.
Qed.
Lemma nodup_flat : forall X Y (f : X -> list Y) l, NoDup l -> (forall x, In x l -> NoDup (f x)) ->
  (forall x x' y, In x l -> In x' l -> In y (f x) -> In y (f x') -> x = x') -> NoDup (flat_map f l).
Proof.
  induction l as [|x l IH]; intros ND H1 H2; cbn; [constructor|]. inversion ND as [|x' l' Hx ND']; subst.
  assert (A : NoDup (flat_map f l)) by (apply IH; auto; [intros; apply H1; now right|intros a b y Ha Hb; apply H2; now right]).
  assert (B : forall y, In y (f x) -> ~ In y (flat_map f l)).
  { intros y Hy Hy'. apply in_flat_map in Hy'. destruct Hy' as (z & Hz & Hy'). assert (x = z) by (apply (H2 x z y); auto; [now left|now right]). subst. contradiction. }
  assert (C := H1 x (or_introl eq_refl)). clear - A B C. induction (f x) as [|y r IHr]; cbn; auto. inversion C; subst. constructor.
  - rewrite in_app_iff. intros [F|F]; [contradiction|]. apply (B y); auto. now left.
  - apply IHr; auto. intros z Hz. apply B. now right.
Qed.
Lemma cart_nodup : forall X (ls : list (list X)), Forall (@NoDup X) ls -> NoDup (cart ls).
Proof.
  induction ls as [|o ls IH]; intros H; cbn [cart]; [repeat constructor; intros []|]. inversion H; subst.
  apply nodup_flat; auto.
  - intros x _. apply FinFun.Injective_map_NoDup; auto. intros a b E. now injection E.
  - intros x x' y _ _ Hy Hy'. apply in_map_iff in Hy. apply in_map_iff in Hy'. destruct Hy as (a & <- & _), Hy' as (b & E & _). now injection E.
Qed.
Lemma cart_sum : forall X (w : X -> N) (ls : list (list X)), nsum (map (fun c => nprod (map w c)) (cart ls)) = nprod (map (fun o => nsum (map w o)) ls).
Proof.
  induction ls as [|o ls IH]; [reflexivity|]. cbn [cart map]. rewrite nprod_cons, <- IH, nsum_flat_map.
  generalize (cart ls) as cs. intros cs. induction o as [|x o IHo]; [reflexivity|]. cbn [map]. rewrite !nsum_cons, IHo, map_map.
  rewrite (nsum_ext _ (fun x0 => nprod (map w (x :: x0))) (fun c => (w x * nprod (map w c))%N)) by (intros; cbn [map]; apply nprod_cons).
  rewrite nsum_scale. symmetry. apply N.mul_add_distr_r.
Qed.
Lemma length_nsum : forall Y (l : list Y), N.of_nat (length l) = nsum (map (fun _ => 1%N) l).
Proof. induction l; cbn [length map]; [reflexivity|]. rewrite nsum_cons, <- IHl. lia. Qed.
Lemma cart_length : forall X (ls : list (list X)), N.of_nat (length (cart ls)) = nprod (map (fun o => N.of_nat (length o)) ls).
Proof.
  intros X ls. rewrite length_nsum, (nsum_ext _ _ (fun c => nprod (map (fun _ : X => 1%N) c))).
  - rewrite cart_sum. f_equal. apply map_ext. intros o. now rewrite length_nsum.
  - intros c _. induction c; cbn [map]; [reflexivity|]. rewrite nprod_cons, <- IHc. reflexivity.
Qed.

(** ---- rational numbers ---- *)
Lemma Nq_mul : forall a b, Nq (a * b) = (Nq a * Nq b)%Qc.
Proof. intros. unfold Nq. rewrite N2Z.inj_mul. apply Qc_is_canon. unfold Qcmult, Q2Qc, this. rewrite !Qred_correct. reflexivity. Qed.
Lemma Nq_plus : forall a b, Nq (a + b) = (Nq a + Nq b)%Qc.
Proof. exact Nq_add. Qed.
Lemma Nq_inj : forall a b, Nq a = Nq b -> a = b.
Proof.
  intros a b H. unfold Nq in H. apply (f_equal this) in H. unfold Q2Qc, this in H. assert (E : (Z.of_N a # 1 == Z.of_N b # 1)%Q) by (rewrite <- (Qred_correct (Z.of_N a # 1)), H; apply Qred_correct).
  unfold Qeq in E. cbn in E. lia.
Qed.
Lemma Nq_neq0 : forall a, a <> 0%N -> Nq a <> 0%Qc.
Proof. intros a H E. apply H. apply Nq_inj. exact E. Qed.
Definition qsum (l : list Qc) : Qc := fold_right Qcplus 0%Qc l.
Definition qprod (l : list Qc) : Qc := fold_right Qcmult 1%Qc l.
Lemma Nq_nsum : forall l, Nq (nsum l) = qsum (map Nq l).
Proof. induction l; cbn [map]; [reflexivity|]. rewrite nsum_cons, Nq_plus, IHl. reflexivity. Qed.
Lemma qsum_cons : forall x l, qsum (x :: l) = (x + qsum l)%Qc. Proof. reflexivity. Qed.
Lemma qprod_cons : forall x l, qprod (x :: l) = (x * qprod l)%Qc. Proof. reflexivity. Qed.
Lemma qsum_div : forall X (f : X -> Qc) c l, qsum (map (fun x => (f x / c)%Qc) l) = (qsum (map f l) / c)%Qc.
Proof. intros. unfold Qcdiv. induction l; cbn [map]; [unfold qsum; cbn [fold_right]; ring|]. rewrite !qsum_cons, IHl. ring. Qed.
Lemma qsum_ext : forall X (f g : X -> Qc) l, (forall x, In x l -> f x = g x) -> qsum (map f l) = qsum (map g l).
Proof. induction l; intros H; cbn [map]; [reflexivity|]. rewrite !qsum_cons, H by now left. rewrite IHl; auto. intros; apply H; now right. Qed.

(** ---- counting ---- *)
Lemma rule_eqb_eq : forall a b, rule_eqb a b = true <-> a = b.
Proof.
  intros [a v] [b w]. unfold rule_eqb. cbn. rewrite andb_true_iff, (eqll_eq _ eqs eqs_eq).
  assert (V : pvar_eqb v w = true <-> v = w).
  { destruct v, w; cbn; try (split; discriminate).
    - rewrite eqs_eq. split; congruence.
    - rewrite (eqll_eq _ (eqll Nat.eqb)) by (intros; apply eqll_eq; intros; apply Nat.eqb_eq). split; congruence. }
  rewrite V. split; [intros [-> ->]; reflexivity|intros E; injection E; auto].
Qed.
Lemma pvar_eqb_eq : forall v w, pvar_eqb v w = true <-> v = w.
Proof.
  intros v w. pose proof (rule_eqb_eq ([], v) ([], w)) as H. unfold rule_eqb in H. cbn in H. rewrite H. split; [intros E; now injection E|now intros ->].
Qed.
Definition rule_dec (a b : rule) : {a = b} + {a <> b}.
Proof. destruct (rule_eqb a b) eqn:E; [left; now apply rule_eqb_eq|right; intros F; apply rule_eqb_eq in F; congruence]. Defined.
(** [G] lists every element of [RS] once, with its number of occurrences *)
Definition tallies (G : list (rule * N)) (RS : list rule) : Prop :=
  NoDup (map fst G) /\ (forall r, In r (map fst G) <-> In r RS) /\ (forall r n, In (r, n) G -> n = N.of_nat (count_occ rule_dec RS r)).
Lemma tallies_perm : forall G G' RS, Permutation G G' -> tallies G RS -> tallies G' RS.
Proof.
  intros G G' RS P (A & B & C). split; [|split].
  - eapply Permutation_NoDup; [|exact A]. now apply Permutation_map.
  - intros r. rewrite <- B. split; apply Permutation_in; [apply Permutation_map; now apply Permutation_sym|now apply Permutation_map].
  - intros r n H. apply C. eapply Permutation_in; [|exact H]. now apply Permutation_sym.
Qed.
Lemma radd_spec : forall r c, (In r (map fst c) /\ map fst (radd r c) = map fst c) \/ (~ In r (map fst c) /\ map fst (radd r c) = map fst c ++ [r]).
Proof.
  intros r. induction c as [|[p n] c IH]; cbn [radd]; [right; cbn; auto|]. destruct (rule_eqb r p) eqn:E.
  - apply rule_eqb_eq in E. subst. left. cbn. auto.
  - assert (r <> p) by (intros F; apply rule_eqb_eq in F; congruence). cbn [map fst]. destruct IH as [[I1 I2]|[I1 I2]]; [left|right]; rewrite I2; cbn; split; auto. intros [F|F]; auto.
Qed.
Lemma radd_in : forall r c q n, NoDup (map fst c) -> In (q, n) (radd r c) -> (q = r /\ (exists m, n = (m + 1)%N /\ In (q, m) c) \/ (q = r /\ n = 1%N /\ ~ In q (map fst c))) \/ (q <> r /\ In (q, n) c).
Proof.
  intros r. induction c as [|[p m] c IH]; intros q n ND H; cbn [radd] in H.
  - destruct H as [H|[]]. injection H as <- <-. left. right. auto.
  - inversion ND as [|? ? Hp ND']; subst. cbn in Hp. destruct (rule_eqb r p) eqn:E.
    + apply rule_eqb_eq in E. subst. destruct H as [H|H].
      * injection H as <- <-. left. left. split; auto. exists m. split; auto. now left.
      * right. split; [|now right]. intros ->. apply Hp. apply in_map_iff. exists (p, n). auto.
    + assert (r <> p) by (intros F; apply rule_eqb_eq in F; congruence). destruct H as [H|H].
      * injection H as <- <-. right. split; auto. now left.
      * destruct (IH q n ND' H) as [[(A & k & B & C)|(A & B & C)]|(A & B)].
        -- left. left. split; auto. exists k. split; auto. now right.
        -- left. right. repeat split; auto. cbn. intros [F|F]; [|contradiction]. congruence.
        -- right. split; auto. now right.
Qed.
Lemma count_occ_snoc : forall RS r q, count_occ rule_dec (RS ++ [r]) q = count_occ rule_dec RS q + (if rule_dec r q then 1 else 0).
Proof. intros. rewrite count_occ_app. cbn. destruct (rule_dec r q); reflexivity. Qed.
Lemma tallies_radd : forall G RS r, tallies G RS -> tallies (radd r G) (RS ++ [r]).
Proof.
  intros G RS r (A & B & C). split; [|split].
  - destruct (radd_spec r G) as [[I1 I2]|[I1 I2]]; rewrite I2; auto. eapply Permutation_NoDup; [apply Permutation_cons_append|]. now constructor.
  - intros q. rewrite in_app_iff, <- B. destruct (radd_spec r G) as [[I1 I2]|[I1 I2]]; rewrite I2.
    + split; auto. intros [|[<-|[]]]; auto.
    + rewrite in_app_iff. reflexivity.
  - intros q n H. rewrite count_occ_snoc. destruct (radd_in r G q n A H) as [[(E & m & F & I1)|(E & F & I1)]|(E & F)].
    + subst q n. destruct (rule_dec r r); [|congruence]. rewrite (C r m I1). lia.
    + subst q n. destruct (rule_dec r r); [|congruence]. rewrite B in I1. rewrite (proj1 (count_occ_not_In rule_dec RS r) I1). reflexivity.
    + destruct (rule_dec r q); [congruence|]. rewrite Nat.add_0_r. auto.
Qed.
Lemma tallies_fold : forall rs G RS, tallies G RS -> tallies (fold_left (fun c r => radd r c) rs G) (RS ++ rs).
Proof.
  induction rs as [|r rs IH]; intros G RS H; cbn [fold_left]; [now rewrite app_nil_r|].
  replace (RS ++ r :: rs) with ((RS ++ [r]) ++ rs) by (now rewrite <- app_assoc). apply IH. now apply tallies_radd.
Qed.
Lemma tallies_nil : tallies [] [].
Proof. split; [constructor|]. split; [tauto|intros r n []]. Qed.
(** weighted sum over a tally = sum over the occurrences *)
Lemma nsum_count : forall (w : rule -> N) ks RS, NoDup ks -> (forall r, In r RS -> In r ks) ->
  nsum (map (fun r => (N.of_nat (count_occ rule_dec RS r) * w r)%N) ks) = nsum (map w RS).
Proof.
  intros w ks RS ND. induction RS as [|r RS IH]; intros H.
  - cbn [map count_occ]. clear. induction ks; cbn [map]; [reflexivity|]. rewrite nsum_cons, IHks. reflexivity.
  - cbn [map]. rewrite nsum_cons. rewrite <- IH by (intros; apply H; now right). clear IH. assert (Hr := H r (or_introl eq_refl)). clear H.
    induction ks as [|k ks IHk]; [destruct Hr|]. inversion ND as [|? ? N1 N2]; subst. cbn [map]. rewrite !nsum_cons.
    destruct (rule_dec r k) as [E|E].
    + subst k. rewrite count_occ_cons_eq by reflexivity. rewrite (nsum_ext _ (fun r0 => (N.of_nat (count_occ rule_dec (r :: RS) r0) * w r0)%N) (fun r0 => (N.of_nat (count_occ rule_dec RS r0) * w r0)%N)); [lia|].
      intros x Hx. rewrite count_occ_cons_neq; auto. congruence.
    + rewrite count_occ_cons_neq by auto. rewrite IHk; [lia|auto|]. destruct Hr; [congruence|auto].
Qed.
