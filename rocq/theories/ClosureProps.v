(** C51: equivalence classes of labels. *)
From Coq Require Import String.
From Coq Require Import List Bool Arith Lia Permutation Relations.
From Verif Require Import PyStr EvalModel LevProps.
Import ListNotations.
Open Scope list_scope.
Open Scope nat_scope.

(** ** Specification *)
Definition given (pairs : list (pystr * pystr)) (a b : pystr) : Prop := In (a, b) pairs.
(** a chain of pairs, used in either direction *)
Definition equivalent (pairs : list (pystr * pystr)) : pystr -> pystr -> Prop := clos_refl_sym_trans pystr (given pairs).
Definition occurs (pairs : list (pystr * pystr)) (x : pystr) : Prop := exists y, In (x, y) pairs \/ In (y, x) pairs.

(** ** Edges *)
Definition adj (pairs : list (pystr * pystr)) (a b : pystr) : Prop := In (a, b) pairs \/ In (b, a) pairs.
Lemma sadd_in : forall x s y, In y (sadd x s) <-> y = x \/ In y s.
Proof. intros x s y. unfold sadd. destruct (mems x s) eqn:E; [apply mems_in in E|]; cbn; intuition (subst; auto). Qed.
Lemma sadd_nodup : forall x s, NoDup s -> NoDup (sadd x s).
Proof. intros x s N. unfold sadd. destruct (mems x s) eqn:E; [assumption|]. apply mems_false in E. now constructor. Qed.
Lemma eadd_get : forall e a b k x, In x (eget (eadd e a b) k) <-> In x (eget e k) \/ (k = a /\ x = b).
Proof.
  induction e as [|[k' s] e IH]; intros a b k x; cbn.
  - destruct (eqs k a) eqn:E; cbn; [apply eqs_eq in E; subst; intuition|]. apply eqs_neq in E. intuition.
  - destruct (eqs a k') eqn:E; cbn.
    + apply eqs_eq in E. subst. destruct (eqs k k') eqn:E2; [apply eqs_eq in E2; subst; rewrite sadd_in; tauto|]. apply eqs_neq in E2. intuition congruence.
    + destruct (eqs k k') eqn:E2; [|apply IH]. apply eqs_eq in E2. subst. apply eqs_neq in E. intuition congruence.
Qed.
Lemma eadd_keys : forall e a b k, In k (map fst (eadd e a b)) <-> In k (map fst e) \/ k = a.
Proof.
  induction e as [|[k' s] e IH]; intros a b k; cbn; [intuition|]. destruct (eqs a k') eqn:E; cbn.
  - apply eqs_eq in E. subst. intuition.
  - rewrite IH. tauto.
Qed.
Lemma eadd_nodup : forall e a b, NoDup (map fst e) -> NoDup (map fst (eadd e a b)).
Proof.
  induction e as [|[k' s] e IH]; intros a b N; cbn; [constructor; [tauto|constructor]|]. inversion N as [|? ? X Y]; subst. destruct (eqs a k') eqn:E; cbn; [assumption|]. constructor; [|now apply IH]. intros H. apply eadd_keys in H. destruct H as [H|H]; [contradiction|]. subst. rewrite eqs_refl in E. discriminate.
Qed.
Definition sets_nodup (e : edges) : Prop := forall k, NoDup (eget e k).
Lemma eadd_sets : forall e a b, sets_nodup e -> sets_nodup (eadd e a b).
Proof.
  intros e a b H k. specialize (H k). induction e as [|[k' s] e IH]; cbn; [destruct (eqs k a); [constructor; [intros []|constructor]|constructor]|]. cbn in H. destruct (eqs a k'); cbn; destruct (eqs k k'); auto. now apply sadd_nodup.
Qed.
Lemma mkedges_spec : forall pairs, (forall a b, In b (eget (mkedges pairs) a) <-> adj pairs a b) /\ (forall k, In k (map fst (mkedges pairs)) <-> occurs pairs k) /\ NoDup (map fst (mkedges pairs)) /\ sets_nodup (mkedges pairs).
Proof.
  intros pairs. unfold mkedges.
  assert (G : forall ps e, let e' := fold_left (fun e p => eadd (eadd e (fst p) (snd p)) (snd p) (fst p)) ps e in
    (forall a b, In b (eget e' a) <-> In b (eget e a) \/ adj ps a b) /\ (forall k, In k (map fst e') <-> In k (map fst e) \/ occurs ps k) /\ (NoDup (map fst e) -> NoDup (map fst e')) /\ (sets_nodup e -> sets_nodup e')).
  { induction ps as [|[a b] ps IH]; intros e; cbn [fold_left fst snd].
    - cbn. unfold adj, occurs. cbn. split; [intuition|]. split; [|auto]. intros k. split; [auto|]. intros [H|(y & [[]|[]])]. assumption.
    - destruct (IH (eadd (eadd e a b) b a)) as (A & B & C & D). cbv zeta in *. split; [|split; [|split]].
      + intros x y. rewrite A, !eadd_get. unfold adj. cbn [In]. split; [intros [[[H|[-> ->]]|[-> ->]]|H]; auto; tauto|]. intros [H|[[H|H]|[H|H]]]; auto; injection H as <- <-; auto.
      + intros k. rewrite B, !eadd_keys. unfold occurs. cbn [In]. split.
        * intros [[[H|H]|H]|(y & H)]; [now left|subst; right; exists b; auto|subst; right; exists a; auto|right; exists y; tauto].
        * intros [H|(y & [[H|H]|[H|H]])]; [auto|injection H as <- <-; auto|right; exists y; auto|injection H as <- <-; auto|right; exists y; auto].
      + intros N. apply C. now apply eadd_nodup, eadd_nodup.
      + intros N. apply D. now apply eadd_sets, eadd_sets. }
  destruct (G pairs []) as (A & B & C & D). split; [intros; rewrite A; cbn; tauto|]. split; [intros; rewrite B; cbn; tauto|]. split; [apply C; constructor|]. apply D. intros k. constructor.
Qed.
Lemma adj_sym : forall ps a b, adj ps a b -> adj ps b a. Proof. unfold adj. tauto. Qed.
Lemma adj_equiv : forall ps a b, adj ps a b -> equivalent ps a b.
Proof. intros ps a b [H|H]; [now apply rst_step|apply rst_sym; now apply rst_step]. Qed.
Lemma closed_equiv : forall ps (P : pystr -> Prop), (forall a b, P a -> adj ps a b -> P b) -> forall a b, equivalent ps a b -> (P a <-> P b).
Proof.
  intros ps P C a b H. induction H as [a b H|a|a b H IH|a b c H1 IH1 H2 IH2]; [|tauto|tauto|tauto]. split; intros X; eapply C; eauto; [now left|now right].
Qed.

(** ** The search *)
Section Search.
Variable pick : list pystr -> nat.
Variable pairs : list (pystr * pystr).
Let E := mkedges pairs.
Lemma pop_spec : forall ag, match pop pick ag with None => ag = [] | Some (x, r) => Permutation ag (x :: r) end.
Proof.
  intros [|x r]; [reflexivity|]. cbn [pop]. set (ag := x :: r). set (n := pick ag mod length ag). assert (L : n < length ag) by (apply Nat.mod_upper_bound; discriminate).
  rewrite <- (firstn_skipn n ag) at 1. assert (S : skipn n ag = nth n ag x :: skipn (Datatypes.S n) ag).
  { clearbody n. generalize dependent ag. induction n as [|n IH]; intros [|y ag] L; cbn in L; try lia; [reflexivity|]. cbn [skipn nth]. rewrite IH by lia. reflexivity. }
  rewrite S. apply Permutation_sym, Permutation_middle.
Qed.
Lemma fold_sadd_in : forall ys ag z, In z (fold_left (fun ag y => sadd y ag) ys ag) <-> In z ag \/ In z ys.
Proof. induction ys as [|y ys IH]; intros ag z; cbn; [tauto|]. rewrite IH, sadd_in. intuition. Qed.
Lemma fold_sadd_nodup : forall ys ag, NoDup ag -> NoDup (fold_left (fun ag y => sadd y ag) ys ag).
Proof. induction ys as [|y ys IH]; intros ag N; cbn; [assumption|]. apply IH. now apply sadd_nodup. Qed.
Definition unseen (seen : list pystr) : nat := length (filter (fun k => negb (mems k seen)) (map fst E)).
Lemma unseen_less : forall seen x, In x (map fst E) -> ~ In x seen -> unseen (sadd x seen) < unseen seen.
Proof.
  intros seen x. unfold unseen. pose proof (mkedges_spec pairs) as (_ & _ & N & _). fold E in N. induction (map fst E) as [|k ks IH]; intros H M; [contradiction|]. inversion N as [|? ? NK N']; subst. cbn [filter].
  assert (LE : length (filter (fun k => negb (mems k (sadd x seen))) ks) <= length (filter (fun k => negb (mems k seen)) ks)).
  { clear. induction ks as [|k ks IH]; [reflexivity|]. cbn. destruct (mems k seen) eqn:A.
    - replace (mems k (sadd x seen)) with true; [assumption|]. symmetry. apply mems_in, sadd_in. right. now apply mems_in.
    - destruct (mems k (sadd x seen)); cbn; lia. }
  destruct H as [->|H].
  - replace (mems x (sadd x seen)) with true by (symmetry; apply mems_in, sadd_in; now left). rewrite (proj2 (mems_false _ _) M). cbn. lia.
  - specialize (IH N' H M). destruct (mems k seen) eqn:A.
    + replace (mems k (sadd x seen)) with true; [assumption|]. symmetry. apply mems_in, sadd_in. right. now apply mems_in.
    + destruct (mems k (sadd x seen)); cbn; lia.
Qed.
Definition closed (seen : list pystr) : Prop := forall a b, In a seen -> adj pairs a b -> In b seen.
Definition agrees (e : edges) (seen : list pystr) : Prop := forall k, ~ In k seen -> eget e k = eget E k.
Lemma closure_loop_spec : forall x seen0 e fuel ag cls seen,
  closed seen0 -> (forall k, ~ In k seen0 -> k <> x -> eget e k = eget E k) -> (forall y, In y (eget e x) -> adj pairs x y) ->
  ~ In x seen0 -> unseen seen < fuel ->
  (forall y, In y seen <-> In y seen0 \/ In y cls) -> NoDup ag ->
  (forall y, In y cls \/ In y ag -> equivalent pairs x y /\ occurs pairs y /\ ~ In y seen0) -> (forall y, In y ag -> ~ In y seen) ->
  (forall a b, In a cls \/ a = x -> adj pairs a b -> In b cls \/ In b ag) ->
  let r := closure_loop pick fuel e ag cls seen in
  (forall y, In y (snd r) <-> In y seen0 \/ In y (fst r)) /\
  (forall y, In y (fst r) -> equivalent pairs x y /\ ~ In y seen0) /\
  (forall a b, In a (fst r) \/ a = x -> adj pairs a b -> In b (fst r)).
Proof.
  intros x seen0 e. induction fuel as [|f IH]; intros ag cls seen C A AX NX F S N Q U K; [lia|]. cbn [closure_loop].
  pose proof (pop_spec ag) as P. destruct (pop pick ag) as [[y r]|].
  - assert (Hy : In y ag) by (eapply Permutation_in; [apply Permutation_sym, P|now left]).
    assert (Hag : forall z, In z ag <-> z = y \/ In z r). { intros z. split; intros X; [eapply Permutation_in in X; [|exact P]; destruct X; auto|]. eapply Permutation_in; [apply Permutation_sym, P|]. destruct X; [now left|now right]. }
    assert (Nr : NoDup (y :: r)) by (eapply Permutation_NoDup; eauto). inversion Nr as [|? ? NYr NR]; subst.
    destruct (Q y (or_intror Hy)) as (Ey & Oy & Ny).
    assert (EY : forall z, In z (eget e y) -> adj pairs y z). { intros z Hz. destruct (eqs_dec y x) as [->|D]; [now apply AX|]. rewrite (A y Ny D) in Hz. now apply mkedges_spec in Hz. }
    apply IH; clear IH; auto.
    + assert (X : unseen (sadd y seen) < unseen seen); [|lia]. apply unseen_less; [now apply mkedges_spec|now apply U].
    + intros z. rewrite !sadd_in, S. tauto.
    + now apply fold_sadd_nodup.
    + intros z. rewrite sadd_in, fold_sadd_in, filter_In. intros [[->|H]|[H|[H M]]]; auto.
      * apply Q. right. apply Hag. now right.
      * pose proof (EY z H) as AZ. split; [eapply rst_trans; [exact Ey|now apply adj_equiv]|]. split; [exists y; destruct AZ; auto|]. apply negb_true_iff, mems_false in M. intros X. apply M. rewrite sadd_in. right. apply S. now left.
    + intros z. rewrite fold_sadd_in, filter_In, sadd_in. intros [H|[H M]].
      * intros [->|X]; [contradiction|]. apply (U z); [apply Hag; now right|assumption].
      * apply negb_true_iff, mems_false in M. rewrite sadd_in in M. exact M.
    + intros a b. rewrite sadd_in, sadd_in, fold_sadd_in, filter_In. intros H AB.
      assert (NB : ~ In b seen0). { intros X. pose proof (C b a X (adj_sym _ _ _ AB)) as Z. assert (~ In a seen0); [|contradiction]. destruct H as [[->|H]| ->]; [assumption|now apply Q; left|assumption]. }
      destruct (eqs_dec a y) as [->|D].
      * destruct (eqs_dec y x) as [->|D2].
        { destruct (K x b (or_intror eq_refl) AB) as [X|X]; [auto|]. apply Hag in X. destruct X as [->|X]; auto. }
        destruct (mems b (sadd y seen)) eqn:M.
        { apply mems_in, sadd_in in M. destruct M as [->|M]; [auto|]. apply S in M. destruct M as [M|M]; [contradiction|auto]. }
        right. right. split; [|reflexivity]. rewrite (A y Ny D2). now apply mkedges_spec.
      * assert (H' : In a cls \/ a = x) by tauto. destruct (K a b H' AB) as [X|X]; [auto|]. apply Hag in X. destruct X as [->|X]; auto.
  - subst ag. cbn [fst snd]. split; [assumption|]. split; [intros y Hy; destruct (Q y (or_introl Hy)) as (X & _ & Y); auto|]. intros a b H AB. destruct (K a b H AB) as [X|[]]. assumption.
Qed.
Lemma epop_get : forall e x k, eget (epop e x) k = if eqs k x then [] else eget e k.
Proof.
  unfold epop. induction e as [|[k' s] e IH]; intros x k; cbn; [now destruct (eqs k x)|]. destruct (eqs x k') eqn:E1; cbn.
  - apply eqs_eq in E1. subst. rewrite IH. now destruct (eqs k k').
  - destruct (eqs k k') eqn:E2; [|apply IH]. apply eqs_eq in E2. subst. replace (eqs k' x) with false; [reflexivity|]. symmetry. apply eqs_neq. intros ->. rewrite eqs_refl in E1. discriminate.
Qed.
Lemma classes_loop_spec : forall fuel, length (map fst E) < fuel -> forall elems e seen,
  (forall k, In k elems -> occurs pairs k) -> closed seen -> agrees e seen ->
  let rs := classes_loop pick elems e seen fuel in
  (forall c, In c rs -> occurs pairs (fst c) /\ (forall y, In y (snd c) <-> equivalent pairs (fst c) y) /\ (forall y, In y (snd c) -> ~ In y seen)) /\
  (forall k, In k elems -> In k seen \/ exists c, In c rs /\ In k (snd c)) /\
  ForallOrdPairs (fun c d => forall y, In y (snd c) -> ~ In y (snd d)) rs.
Proof.
  intros fuel F. induction elems as [|x elems IH]; intros e seen O C A; cbn [classes_loop]; [split; [intros c []|split; [intros k []|constructor]]|].
  destruct (mems x seen) eqn:M.
  - apply mems_in in M. destruct (IH e seen (fun k Hk => O k (or_intror Hk)) C A) as (I1 & I2 & I3). split; [assumption|]. split; [|assumption]. intros k [<-|Hk]; auto.
  - apply mems_false in M. pose proof (A x M) as AX. pose proof (mkedges_spec pairs) as (ME & MK & MN & MS). fold E in ME, MK, MN, MS.
    pose proof (closure_loop_spec x seen (epop e x) fuel (eget e x) [] seen C) as L.
    assert (L1 : forall k, ~ In k seen -> k <> x -> eget (epop e x) k = eget E k). { intros k Hk D. rewrite epop_get, (proj2 (eqs_neq _ _) D). now apply A. }
    assert (L2 : forall y, In y (eget (epop e x) x) -> adj pairs x y). { intros y. rewrite epop_get, eqs_refl. intros []. }
    assert (L3 : unseen seen < fuel). { unfold unseen. eapply Nat.le_lt_trans; [|exact F]. clear. induction (map fst E) as [|k ks IH]; [reflexivity|]. cbn. destruct (negb (mems k seen)); cbn; lia. }
    specialize (L L1 L2 M L3 ltac:(cbn; tauto)). rewrite AX in L. specialize (L (MS x)).
    assert (NS : forall y, adj pairs x y -> ~ In y seen) by (intros y Hy X; apply M; exact (C y x X (adj_sym _ _ _ Hy))).
    assert (L4 : forall y, In y [] \/ In y (eget E x) -> equivalent pairs x y /\ occurs pairs y /\ ~ In y seen).
    { intros y [[]|H]. apply ME in H. split; [now apply adj_equiv|]. split; [exists x; destruct H; auto|now apply NS]. }
    specialize (L L4 (fun y Hy => NS y (proj1 (ME x y) Hy))). assert (L5 : forall a b, In a [] \/ a = x -> adj pairs a b -> In b [] \/ In b (eget E x)) by (intros a b [[]| ->] AB; right; now apply ME). specialize (L L5). rewrite <- AX in L.
    destruct (closure_loop pick fuel (epop e x) (eget e x) [] seen) as [cls seen'] eqn:EL. cbv zeta in L. cbn [fst snd] in L. destruct L as (S1 & S2 & S3).
    assert (XC : In x cls). { destruct (O x (or_introl eq_refl)) as (z & Hz). assert (AZ : adj pairs x z) by (destruct Hz; [left|right]; assumption). pose proof (S3 x z (or_intror eq_refl) AZ) as Zc. exact (S3 z x (or_introl Zc) (adj_sym _ _ _ AZ)). }
    assert (CE : forall y, In y cls <-> equivalent pairs x y). { intros y. split; [intros Hy; now apply S2|]. intros Q. assert (CC : forall a b, In a cls -> adj pairs a b -> In b cls) by (intros a b Ha Hab; exact (S3 a b (or_introl Ha) Hab)). exact (proj1 (closed_equiv pairs (fun y => In y cls) CC x y Q) XC). }
    assert (C' : closed seen'). { intros a b H AB. apply S1 in H. apply S1. destruct H as [H|H]; [left; exact (C a b H AB)|right; exact (S3 a b (or_introl H) AB)]. }
    assert (A' : agrees (epop e x) seen'). { intros k Hk. apply L1; [intros X; apply Hk, S1; now left|]. intros ->. apply Hk, S1. now right. }
    destruct (IH (epop e x) seen' (fun k Hk => O k (or_intror Hk)) C' A') as (I1 & I2 & I3). split; [|split].
    + intros c [<-|Hc]; cbn [fst snd]; [split; [apply O; now left|split; [exact CE|intros y Hy; now apply S2]]|]. destruct (I1 c Hc) as (J1 & J2 & J3). split; [assumption|]. split; [assumption|]. intros y Hy X. apply (J3 y Hy), S1. now left.
    + intros k [<-|Hk]; [right; exists (x, cls); cbn; auto|]. destruct (I2 k Hk) as [H|(c & H1 & H2)]; [|right; exists c; split; [now right|assumption]]. apply S1 in H. destruct H as [H|H]; [now left|right; exists (x, cls); cbn; auto].
    + constructor; [|assumption]. apply Forall_forall. intros c Hc y Hy X. cbn in Hy. destruct (I1 c Hc) as (_ & _ & J3). apply (J3 y X), S1. now right.
Qed.
End Search.

(** ** Theorems *)
(** For any order in which sets are traversed and popped: the values are exactly
    the equivalence classes of the labels that occur, each once. *)
Theorem C51_classes : forall order pick pairs, (forall l, Permutation (order l) l) ->
  let rs := transitiveclosure order pick pairs in
  (forall c, In c rs -> occurs pairs (fst c) /\ forall y, In y (snd c) <-> equivalent pairs (fst c) y) /\
  (forall x, occurs pairs x -> exists c, In c rs /\ In x (snd c)) /\
  ForallOrdPairs (fun c d => forall y, In y (snd c) -> ~ In y (snd d)) rs.
Proof.
  intros order pick pairs O rs. pose proof (mkedges_spec pairs) as (_ & MK & _ & _).
  pose proof (classes_loop_spec pick pairs (S (length (mkedges pairs))) ltac:(rewrite map_length; lia) (order (map fst (mkedges pairs))) (mkedges pairs) []) as (A & B & C).
  - intros k Hk. apply MK. eapply Permutation_in; [apply O|exact Hk].
  - intros a b [].
  - intros k _. reflexivity.
  - fold rs in A, B, C. split; [intros c Hc; destruct (A c Hc) as (X & Y & _); auto|]. split; [|exact C]. intros x Hx. destruct (B x) as [[]|H]; [|assumption]. eapply Permutation_in; [apply Permutation_sym, O|]. now apply MK.
Qed.
Lemma find_ext_in : forall {X} (f g : X -> bool) l, (forall x, In x l -> f x = g x) -> find f l = find g l.
Proof. induction l as [|x l IH]; intros H; [reflexivity|]. cbn. rewrite (H x) by (now left). destruct (g x); [reflexivity|]. apply IH. intros; apply H; now right. Qed.
(** Every label that occurs has a representative, equivalent to it; other labels
    are not mapped. *)
Theorem C51_representative : forall order pick pairs, (forall l, Permutation (order l) l) -> forall x,
  match representative order pick pairs x with
  | Some r => occurs pairs x /\ equivalent pairs x r
  | None => ~ occurs pairs x
  end.
Proof.
  intros order pick pairs O x. destruct (C51_classes order pick pairs O) as (A & B & _). unfold representative. destruct (find _ _) as [c|] eqn:F; cbn [option_map].
  - apply find_some in F. destruct F as [F M]. apply in_rev in F. apply mems_in in M. destruct (A c F) as (X & Y). apply Y in M. split; [|now apply rst_sym]. 
    assert (CL : forall a b, occurs pairs a -> adj pairs a b -> occurs pairs b) by (intros a b _ [H|H]; exists a; auto). exact (proj1 (closed_equiv pairs (occurs pairs) CL (fst c) x M) X).
  - intros H. destruct (B x H) as (c & Hc & M). apply in_rev in Hc. pose proof (find_none _ _ F c Hc) as N. cbv beta in N. rewrite (proj2 (mems_in _ _) M) in N. discriminate.
Qed.
(** Two labels get the same representative exactly if they are equivalent. *)
Theorem C51_same_representative : forall order pick pairs, (forall l, Permutation (order l) l) -> forall x y,
  occurs pairs x -> occurs pairs y ->
  (representative order pick pairs x = representative order pick pairs y <-> equivalent pairs x y).
Proof.
  intros order pick pairs O x y Hx Hy. split.
  - intros E. pose proof (C51_representative order pick pairs O x) as RX. pose proof (C51_representative order pick pairs O y) as RY. rewrite <- E in RY. destruct (representative order pick pairs x) as [r|]; [|contradiction]. destruct RX as [_ RX], RY as [_ RY]. eapply rst_trans; [exact RX|now apply rst_sym].
  - intros Q. unfold representative. f_equal. apply find_ext_in. intros c Hc. apply in_rev in Hc. destruct (C51_classes order pick pairs O) as (A & _). destruct (A c Hc) as (_ & Y). apply Bool.eq_iff_eq_true. rewrite !mems_in, !Y. split; intros Z; (eapply rst_trans; [exact Z|]); [assumption|now apply rst_sym].
Qed.
(** the doctest, with another pair and a traversal in reverse order *)
Example C51_ex : let rep := representative (@rev pystr) (fun _ => 1) [(str "A", str "B"); (str "B", str "C"); (str "X", str "X"); (str "D", str "A")] in
  rep (str "A") = rep (str "C") /\ rep (str "D") = rep (str "C") /\ rep (str "X") = Some (str "X") /\ rep (str "Y") = None /\ rep (str "A") <> None.
Proof. vm_compute. repeat split; discriminate. Qed.
Print Assumptions C51_classes.
Print Assumptions C51_representative.
Print Assumptions C51_same_representative.
