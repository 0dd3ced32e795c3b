(** Proofs for C40 (2): all derivations of a chart, sorted by cost; writing out
    derivations *)
From Coq Require Import List Bool Arith NArith Lia Permutation Sorted.
From Verif Require Import KbestModel KbestSpec KbestProofs.
Import ListNotations.
Open Scope list_scope.
Open Scope nat_scope.

Lemma edge_dec : forall a b : edge, {a = b} + {a <> b}.
Proof. repeat decide equality. Defined.
Fixpoint ins (x : N) (l : list N) : list N := match l with [] => [x] | y :: r => if (x <=? y)%N then x :: l else y :: ins x r end.
Definition isort (l : list N) : list N := fold_right ins [] l.
Lemma ins_perm : forall x l, Permutation (ins x l) (x :: l).
Proof. induction l as [|y l IH]; cbn; auto. destruct (x <=? y)%N; auto. rewrite IH. apply perm_swap. Qed.
Lemma isort_perm : forall l, Permutation (isort l) l.
Proof. induction l as [|x l IH]; cbn; auto. rewrite ins_perm. now constructor. Qed.
Lemma ins_sorted : forall x l, StronglySorted N.le l -> StronglySorted N.le (ins x l).
Proof.
  intros x l H. induction H as [|y l S0 IH F]; cbn; [repeat constructor|]. destruct (N.leb_spec x y) as [L|L].
  - constructor; [constructor; auto|]. constructor; auto. eapply Forall_impl; [|exact F]. cbn. intros z. lia.
  - constructor; auto. apply Forall_forall. intros z Hz. apply (Permutation_in _ (ins_perm x l)) in Hz. destruct Hz as [<-|Hz]; [lia|]. rewrite Forall_forall in F. auto.
Qed.
Lemma isort_sorted : forall l, StronglySorted N.le (isort l).
Proof. induction l as [|x l IH]; cbn; [constructor|]. now apply ins_sorted. Qed.
Lemma flat_map_perm : forall {X Y} (f g : X -> list Y) l, (forall x, In x l -> Permutation (f x) (g x)) -> Permutation (flat_map f l) (flat_map g l).
Proof. induction l as [|x l IH]; intros H; cbn; auto. apply Permutation_app; [apply H; now left|apply IH; intros; apply H; now right]. Qed.
Lemma map_flat_map : forall {X Y Z} (f : Y -> Z) (g : X -> list Y) l, map f (flat_map g l) = flat_map (fun x => map f (g x)) l.
Proof. induction l as [|x l IH]; cbn; auto. now rewrite map_app, IH. Qed.
Lemma nodup_flat_map : forall {X Y} (f : X -> list Y) l, NoDup l -> (forall x, In x l -> NoDup (f x)) -> (forall x y z, In x l -> In y l -> In z (f x) -> In z (f y) -> x = y) -> NoDup (flat_map f l).
Proof.
  intros X Y f l H. induction H as [|x l N1 N2 IH]; intros A B; cbn; [constructor|].
  assert (D : NoDup (f x)) by (apply A; now left). assert (E : NoDup (flat_map f l)). { apply IH; [intros; apply A; now right|intros a b c Ha Hb; apply B; now right]. }
  assert (F : forall z, In z (f x) -> ~ In z (flat_map f l)). { intros z Hz Hf. apply in_flat_map in Hf. destruct Hf as (y & Hy & Hz'). assert (x = y) by (apply (B x y z); auto; [now left|now right]). subst. contradiction. }
  clear - D E F. induction D as [|z l' M1 M2 IH]; cbn; auto. constructor; [rewrite in_app_iff; intros [G|G]; [contradiction|exact (F z (or_introl eq_refl) G)]|]. apply IH. intros w Hw. apply F. now right.
Qed.
Lemma nth_seq : forall (l : list N), map (fun i => nth i l 0%N) (seq 0 (length l)) = l.
Proof.
  induction l as [|x l IH]; cbn; auto. f_equal. rewrite <- seq_shift, map_map. exact IH.
Qed.

Local Opaque MAX_DEPTH.
Section Ders0.
Variables (forest : nat -> list edge) (height : nat -> nat).
Hypothesis AC : forall v c, edges_between forest v c -> height c < height v.
Fixpoint ders (fuel v : nat) : list dtree :=
  match fuel with
  | O => []
  | S f => flat_map (fun e => match eno e with
      | None => [DLex e]
      | Some _ => match eright e with
                  | None => map (DUn e) (ders f (eleft e))
                  | Some r => flat_map (fun t => map (DBin e t) (ders f r)) (ders f (eleft e))
                  end
      end) (nodup edge_dec (forest v))
  end.
Lemma ders_in : forall fuel v t, height v < fuel -> (In t (ders fuel v) <-> derivation forest v t).
Proof using AC.
  induction fuel as [|f IH]; intros v t H; [lia|]. cbn. rewrite in_flat_map. split.
  - intros (e & He & Ht). apply nodup_In in He. destruct (eno e) as [n|] eqn:E; [|destruct Ht as [<-|[]]; now constructor]. assert (HL := AC _ _ (between_left _ v e n He E)). destruct (eright e) as [r|] eqn:ER.
    + assert (HR := AC _ _ (between_right _ v e n r He E ER)). apply in_flat_map in Ht. destruct Ht as (t1 & H1 & Ht). apply in_map_iff in Ht. destruct Ht as (t2 & <- & H2). apply IH in H1; [|lia]. apply IH in H2; [|lia]. econstructor; eauto.
    + apply in_map_iff in Ht. destruct Ht as (t1 & <- & H1). apply IH in H1; [|lia]. econstructor; eauto.
  - intros D. inversion D as [? e He E|? e n t1 He E ER D1|? e n r t1 t2 He E ER D1 D2]; subst; exists e; (split; [now apply nodup_In|]); rewrite E; [now left| |]; assert (HL := AC _ _ (between_left _ v e n He E)); rewrite ER.
    + apply in_map. apply IH; auto. lia.
    + assert (HR := AC _ _ (between_right _ v e n r He E ER)). apply in_flat_map. exists t1. split; [apply IH; auto; lia|]. apply in_map. apply IH; auto. lia.
Qed.
Lemma nodup_map_inj : forall {X Y} (f : X -> Y) l, (forall a b, f a = f b -> a = b) -> NoDup l -> NoDup (map f l).
Proof. intros X Y f l HI H. induction H as [|x l N1 N2 IH]; cbn; constructor; auto. rewrite in_map_iff. intros (y & E & Hy). apply HI in E. now subst. Qed.
Lemma ders_nodup : forall fuel v, NoDup (ders fuel v).
Proof.
  induction fuel as [|f IH]; intros v; [constructor|]. cbn. apply nodup_flat_map; [apply NoDup_nodup| |].
  - intros e _. destruct (eno e); [|repeat constructor; auto]. destruct (eright e) as [r|].
    + apply nodup_flat_map; auto; [intros t _; apply nodup_map_inj; auto; congruence|]. intros a b z _ _ Ha Hb. apply in_map_iff in Ha, Hb. destruct Ha as (x & <- & _), Hb as (y & E & _). congruence.
    + apply nodup_map_inj; auto. congruence.
  - assert (R : forall e t, In t (match eno e with None => [DLex e] | Some _ => match eright e with None => map (DUn e) (ders f (eleft e)) | Some r => flat_map (fun t => map (DBin e t) (ders f r)) (ders f (eleft e)) end end) -> match t with DLex e' | DUn e' _ | DBin e' _ _ => e' end = e).
    { intros e t H. destruct (eno e); [|destruct H as [<-|[]]; auto]. destruct (eright e) as [r|]; [apply in_flat_map in H; destruct H as (x & _ & H)|]; apply in_map_iff in H; destruct H as (y & <- & _); auto. }
    intros a b z _ _ Ha Hb. apply R in Ha, Hb. congruence.
Qed.
Lemma ders_fuel : forall f f' v, height v < f -> height v < f' -> ders f v = ders f' v.
Proof using AC.
  induction f as [|f IH]; intros [|f'] v H H'; try lia. cbn. rewrite !flat_map_concat_map. f_equal. apply map_ext_in. intros e He. apply nodup_In in He. destruct (eno e) as [n|] eqn:E; auto. assert (HL := AC _ _ (between_left _ v e n He E)). rewrite (IH f' (eleft e)) by lia. destruct (eright e) as [r|] eqn:ER; auto. assert (HR := AC _ _ (between_right _ v e n r He E ER)). now rewrite (IH f' r) by lia.
Qed.
End Ders0.
Section Ders.
Variables (forest : nat -> list edge) (sub : nat -> N) (height : nat -> nat).
Hypothesis OK : chart_ok forest sub height.
Notation ders := (ders forest).
Definition allders (v : nat) : list dtree := ders (S (height v)) v.
Definition costs (v : nat) : list N := isort (map dcost (allders v)).
Lemma allders_in : forall v t, In t (allders v) <-> derivation forest v t.
Proof using OK. intros. apply ders_in with (height := height); [apply OK|lia]. Qed.
Lemma costs_sorted : forall v, StronglySorted N.le (costs v).
Proof. intros. apply isort_sorted. Qed.
Lemma costs_perm : forall v, Permutation (costs v) (map dcost (allders v)).
Proof. intros. apply isort_perm. Qed.
Lemma costs_head : forall v, forest v <> [] -> exists l, costs v = sub v :: l.
Proof using OK.
  intros v FV. destruct (ok_viterbi _ _ _ OK v FV) as [(t & D & C) LO]. assert (SO := costs_sorted v). assert (PM := costs_perm v). assert (HS : In (sub v) (costs v)). { eapply Permutation_in; [symmetry; exact PM|]. rewrite <- C. apply in_map. now apply allders_in. }
  destruct (costs v) as [|a l] eqn:E; [destruct HS|]. exists l. f_equal. apply N.le_antisymm.
  - destruct HS as [->|HS]; [lia|]. inversion SO as [|? ? _ F]; subst. rewrite Forall_forall in F. auto.
  - assert (HA : In a (map dcost (allders v))) by (eapply Permutation_in; [exact PM|now left]). apply in_map_iff in HA. destruct HA as (u & <- & Hu). apply LO. now apply allders_in.
Qed.
Lemma costs_all : forall v, exists L, NoDup L /\ (forall x, In x L <-> inI forest costs v x) /\ Permutation (costs v) (map (icost sub costs v) L).
Proof using OK.
  intros v. set (g := fun e => match eno e with
    | None => [RE e None None]
    | Some _ => match eright e with
                | None => map (fun i => RE e (Some i) None) (seq 0 (length (costs (eleft e))))
                | Some r => flat_map (fun i => map (fun j => RE e (Some i) (Some j)) (seq 0 (length (costs r)))) (seq 0 (length (costs (eleft e))))
                end
    end).
  assert (GE : forall e x, In x (g e) -> re x = e). { intros e x. unfold g. destruct (eno e); [|intros [<-|[]]; auto]. destruct (eright e); [rewrite in_flat_map; intros (i & _ & H)|intros H]; apply in_map_iff in H; destruct H as (j & <- & _); auto. }
  exists (flat_map g (nodup edge_dec (forest v))). split; [|split].
  - apply nodup_flat_map; [apply NoDup_nodup| |intros a b z _ _ Ha Hb; apply GE in Ha, Hb; congruence]. intros e _. unfold g. destruct (eno e); [|repeat constructor; auto]. destruct (eright e).
    + apply nodup_flat_map; [apply seq_NoDup|intros; apply nodup_map_inj; [congruence|apply seq_NoDup]|]. intros a b z _ _ Ha Hb. apply in_map_iff in Ha, Hb. destruct Ha as (? & <- & _), Hb as (? & E & _). congruence.
    + apply nodup_map_inj; [congruence|apply seq_NoDup].
  - intros x. rewrite in_flat_map. unfold inI. split.
    + intros (e & He & Hx). assert (E := GE e x Hx). apply nodup_In in He. subst e. split; auto. unfold g in Hx. destruct (eno (re x)) as [n|]; [|destruct Hx as [<-|[]]; auto]. destruct (eright (re x)) as [r|].
      * apply in_flat_map in Hx. destruct Hx as (i & Hi & Hx). apply in_map_iff in Hx. destruct Hx as (j & E & Hj). apply in_seq in Hi, Hj. exists i. split; [rewrite <- E; reflexivity|]. split; [lia|]. exists j. split; [rewrite <- E; reflexivity|lia].
      * apply in_map_iff in Hx. destruct Hx as (i & E & Hi). apply in_seq in Hi. exists i. split; [rewrite <- E; reflexivity|]. split; [lia|rewrite <- E; reflexivity].
    + intros (He & Hx). exists (re x). split; [now apply nodup_In|]. unfold g. destruct x as [e a b]. cbn [re rl rr] in *. destruct (eno e); [|destruct Hx as [-> ->]; now left]. destruct Hx as (i & -> & Hi & Hx). destruct (eright e) as [r|].
      * destruct Hx as (j & -> & Hj). apply in_flat_map. exists i. split; [apply in_seq; lia|]. apply in_map_iff. exists j. split; auto. apply in_seq. lia.
      * subst b. apply in_map_iff. exists i. split; auto. apply in_seq. lia.
  - rewrite costs_perm. unfold allders. cbn [KbestProofs2.ders]. rewrite !map_flat_map. apply flat_map_perm. intros e He. apply nodup_In in He. unfold g. destruct (eno e) as [n|] eqn:E.
    2:{ cbn. unfold icost. cbn. rewrite E. rewrite (ok_lexical _ _ _ OK v e He E). auto. }
    assert (HL := ok_acyclic _ _ _ OK _ _ (between_left _ v e n He E)). rewrite (ders_fuel forest height (ok_acyclic _ _ _ OK) (height v) (S (height (eleft e))) (eleft e)) by lia. fold (allders (eleft e)). destruct (eright e) as [r|] eqn:ER.
    + assert (HR := ok_acyclic _ _ _ OK _ _ (between_right _ v e n r He E ER)). rewrite (ders_fuel forest height (ok_acyclic _ _ _ OK) (height v) (S (height r)) r) by lia. fold (allders r). rewrite !map_flat_map.
      transitivity (flat_map (fun p => map (fun q => (eprob e + p + q)%N) (map dcost (allders r))) (map dcost (allders (eleft e)))).
      { rewrite !flat_map_concat_map, map_map. erewrite map_ext; [reflexivity|]. intros t. cbn. rewrite !map_map. reflexivity. }
      transitivity (flat_map (fun p => map (fun q => (eprob e + p + q)%N) (costs r)) (costs (eleft e))).
      { rewrite (Permutation_flat_map _ (Permutation_sym (costs_perm (eleft e)))). apply flat_map_perm. intros p _. apply Permutation_map. symmetry. apply costs_perm. }
      rewrite <- (nth_seq (costs (eleft e))) at 1. rewrite flat_map_concat_map, map_map, <- flat_map_concat_map. apply flat_map_perm. intros i _. rewrite <- (nth_seq (costs r)) at 1. rewrite !map_map. erewrite map_ext; [reflexivity|]. intros j. unfold icost. cbn. rewrite E, ER. reflexivity.
    + rewrite !map_map. transitivity (map (fun p => (eprob e + p)%N) (costs (eleft e))).
      { rewrite (Permutation_map (fun p => (eprob e + p)%N) (costs_perm (eleft e))), map_map. auto. }
      rewrite <- (nth_seq (costs (eleft e))) at 1. rewrite map_map. erewrite map_ext; [reflexivity|]. intros i. unfold icost. cbn. rewrite E. lia.
Qed.

(** ---- writing out the derivations ---- *)
Notation okx := (okx forest sub).
Notation rinv := (rinv forest sub).
Lemma fill_ok : forall R c i, (forall u, rinv R u) -> forest c <> [] -> rank_ok R c i -> exists R', fill forest sub R c i = Some R' /\ (forall u, rinv R' u) /\ ext R R' /\ (forall u, u <> c -> R' u = R u) /\ i < length (R' c).
Proof using OK.
  intros R c i RI FC RO. unfold fill. destruct (R c) as [|x l] eqn:ER.
  2:{ exists R. split; auto. split; auto. split; [apply ext_refl|]. split; auto. destruct RO as [->|RO]; rewrite ER in *; cbn; cbn in *; lia. }
  destruct RO as [->|RO]; [|rewrite ER in RO; cbn in RO; lia]. cbn [Nat.eqb]. destruct (popmin (getcandidates forest sub c 1)) as [[x r]|] eqn:P.
  2:{ apply popmin_none in P. exfalso. revert P. eapply getcandidates_nonempty; eauto. }
  destruct (popmin_candidates _ _ _ OK c 1 x r (le_n 1) P) as (HS & HO & _). exists (put R c [x]). split; auto. assert (EX : ext R (put R c [x])). { intros u. unfold put. destruct (Nat.eqb_spec u c) as [->|]; [exists [x]; now rewrite ER|exists []; now rewrite app_nil_r]. }
  split; [|split; [exact EX|split; [intros u Hu; now apply put_other|rewrite put_same; cbn; lia]]]. intros u. destruct (Nat.eq_dec u c) as [->|NU]; [|eapply rinv_ext; [exact EX|now apply put_other|apply RI]].
  constructor; rewrite ?put_same.
  - constructor; [|constructor]. eapply ext_okx; [|exact HO]. intros w. eexists. reflexivity.
  - repeat constructor. intros [].
  - repeat constructor.
  - intros y l E. injection E as <- <-. exact HS.
Qed.
Lemma getderiv_ext : forall f R R' x t, ext R R' -> getderiv f R x = Some t -> getderiv f R' x = Some t.
Proof.
  induction f as [|f IH]; intros R R' x t E H; [discriminate|]. cbn [getderiv] in *. destruct (eno (re x)); auto. destruct (rl x) as [i|]; auto. destruct (nth_error (R (eleft (re x))) i) as [[y p]|] eqn:Y; [|discriminate]. rewrite (ext_nth _ _ _ _ _ E Y). destruct (getderiv f R y) as [t1|] eqn:T1; [|discriminate]. rewrite (IH _ _ _ _ E T1). destruct (rr x) as [j|]; auto. destruct (eright (re x)) as [r|]; auto. destruct (nth_error (R r) j) as [[z q]|] eqn:Z; [|discriminate]. rewrite (ext_nth _ _ _ _ _ E Z). destruct (getderiv f R z) as [t2|] eqn:T2; [|discriminate]. now rewrite (IH _ _ _ _ E T2).
Qed.
Lemma getderiv_fuel : forall f R x t, getderiv f R x = Some t -> getderiv (S f) R x = Some t.
Proof.
  induction f as [|f IH]; intros R x t H; [discriminate|]. remember (S f) as g eqn:G. cbn [getderiv] in *. subst g. cbn [getderiv] in H. destruct (eno (re x)); auto. destruct (rl x) as [i|]; auto. destruct (nth_error (R (eleft (re x))) i) as [[y p]|] eqn:Y; [|discriminate]. destruct (getderiv f R y) as [t1|] eqn:T1; [|discriminate]. rewrite (IH _ _ _ T1). destruct (rr x) as [j|]; auto. destruct (eright (re x)) as [r|]; auto. destruct (nth_error (R r) j) as [[z q]|] eqn:Z; [|discriminate]. destruct (getderiv f R z) as [t2|] eqn:T2; [|discriminate]. now rewrite (IH _ _ _ T2).
Qed.
(** only the items below v matter *)
Lemma getderiv_agree : forall f R R' v x t, (forall u, rinv R u) -> In (re x) (forest v) -> (forall u, height u < height v -> R' u = R u) -> getderiv f R x = Some t -> getderiv f R' x = Some t.
Proof using OK.
  induction f as [|f IH]; intros R R' v x t RI HX AG H; [discriminate|]. cbn [getderiv] in *. destruct (eno (re x)) as [n|] eqn:E; auto. assert (HL := ok_acyclic _ _ _ OK _ _ (between_left _ v (re x) n HX E)). destruct (rl x) as [i|]; auto. rewrite (AG _ HL).
  assert (IN : forall u j y p, nth_error (R u) j = Some (y, p) -> In (re y) (forest u)). { intros u j y p Y. apply nth_error_In in Y. assert (F := r_ok _ _ _ _ (RI u)). rewrite Forall_forall in F. exact (proj1 (F _ Y)). }
  destruct (nth_error (R (eleft (re x))) i) as [[y p]|] eqn:Y; [|discriminate]. destruct (getderiv f R y) as [t1|] eqn:T1; [|discriminate]. rewrite (IH R R' (eleft (re x)) y t1 RI (IN _ _ _ _ Y)) by (auto; intros; apply AG; lia). destruct (rr x) as [j|]; auto. destruct (eright (re x)) as [r|] eqn:ER; auto. assert (HR := ok_acyclic _ _ _ OK _ _ (between_right _ v (re x) n r HX E ER)). rewrite (AG _ HR). destruct (nth_error (R r) j) as [[z q]|] eqn:Z; [|discriminate]. destruct (getderiv f R z) as [t2|] eqn:T2; [|discriminate]. now rewrite (IH R R' r z t2 RI (IN _ _ _ _ Z)) by (auto; intros; apply AG; lia).
Qed.
Lemma getderiv_inj : forall f R v x y t p q, (forall u, rinv R u) -> okx R v (x, p) -> okx R v (y, q) -> getderiv f R x = Some t -> getderiv f R y = Some t -> x = y.
Proof using OK.
  induction f as [|f IH]; intros R v x y t p q RI OX OY H H'; [discriminate|]. destruct OX as [IX OX], OY as [IY OY]. cbn [fst snd] in *. cbn [getderiv] in *.
  assert (SAME : forall u i j a b p1 p2 t1, nth_error (R u) i = Some (a, p1) -> nth_error (R u) j = Some (b, p2) -> getderiv f R a = Some t1 -> getderiv f R b = Some t1 -> i = j).
  { intros u i j a b p1 p2 t1 A B TA TB. assert (F := r_ok _ _ _ _ (RI u)). rewrite Forall_forall in F. assert (a = b) by (eapply IH; eauto; apply F; eapply nth_error_In; eauto). subst b. assert (ND := r_nodup _ _ _ _ (RI u)). rewrite NoDup_nth_error in ND. apply ND.
    - rewrite map_length. apply nth_error_Some. unfold entry in *. congruence.
    - assert (M : forall n z w, nth_error (R u) n = Some (z, w) -> nth_error (map fst (R u)) n = Some z). { intros n z w Q. transitivity (option_map fst (nth_error (R u) n)); [apply nth_error_map|]. unfold entry in *. now rewrite Q. } rewrite (M _ _ _ A), (M _ _ _ B). auto. }
  destruct (eno (re x)) as [n|] eqn:EX.
  - destruct OX as (_ & i & RLX & _ & ORX). rewrite RLX in H. destruct (nth_error (R (eleft (re x))) i) as [[a p1]|] eqn:A; [|discriminate]. destruct (getderiv f R a) as [t1|] eqn:TA; [|discriminate]. 
    destruct (eno (re y)) as [m|] eqn:EY.
    2:{ injection H' as <-. destruct (rr x); [|discriminate]. destruct (eright (re x)); [|discriminate]. destruct (nth_error (R n1) n0) as [[? ?]|]; [|discriminate]. destruct (getderiv f R r); discriminate. }
    destruct OY as (_ & j & RLY & _ & ORY). rewrite RLY in H'. destruct (nth_error (R (eleft (re y))) j) as [[b p2]|] eqn:B; [|discriminate]. destruct (getderiv f R b) as [t2|] eqn:TB; [|discriminate].
    destruct (eright (re x)) as [r|] eqn:ERX.
    + destruct ORX as (i2 & RRX & _). rewrite RRX in H. destruct (nth_error (R r) i2) as [[c p3]|] eqn:C; [|discriminate]. destruct (getderiv f R c) as [t3|] eqn:TC; [|discriminate]. injection H as <-. destruct (eright (re y)) as [r'|] eqn:ERY.
      * destruct ORY as (j2 & RRY & _). rewrite RRY in H'. destruct (nth_error (R r') j2) as [[d p4]|] eqn:D; [|discriminate]. destruct (getderiv f R d) as [t4|] eqn:TD; [|discriminate]. injection H' as EE -> ->. rewrite EE in *. assert (r' = r) by congruence. subst r'. assert (i = j) by (eapply (SAME (eleft (re x))); eauto). assert (i2 = j2) by (eapply (SAME r); eauto). destruct x, y; cbn in *; congruence.
      * rewrite ORY in H'. discriminate.
    + rewrite ORX in H. injection H as <-. destruct (eright (re y)) as [r'|] eqn:ERY.
      * destruct ORY as (j2 & RRY & _). rewrite RRY in H'. destruct (nth_error (R r') j2) as [[d p4]|]; [|discriminate]. destruct (getderiv f R d); discriminate.
      * rewrite ORY in H'. injection H' as EE ->. rewrite EE in *. assert (i = j) by (eapply (SAME (eleft (re x))); eauto). destruct x, y; cbn in *; congruence.
  - injection H as <-. destruct (eno (re y)) as [m|] eqn:EY.
    + destruct (rl y) as [j|]; [|discriminate]. destruct (nth_error (R (eleft (re y))) j) as [[b p2]|]; [|discriminate]. destruct (getderiv f R b); [|discriminate]. destruct (rr y); [|discriminate]. destruct (eright (re y)); [|discriminate]. destruct (nth_error (R n0) n) as [[? ?]|]; [|discriminate]. destruct (getderiv f R r); discriminate.
    + injection H' as EE. destruct OX as (A & B & _), OY as (C & D & _). destruct x, y; cbn in *; congruence.
Qed.
Lemma rankprob_entry : forall R u i p x q, rinv R u -> rankprob sub R u i = Some p -> nth_error (R u) i = Some (x, q) -> q = p.
Proof.
  intros R u [|i] p x q RI P X.
  - cbn in P. destruct (R u) as [|y l] eqn:E; [discriminate|]. cbn in X. injection X as ->. assert (Z := r_head _ _ _ _ RI (x, q) l E). cbn in Z. congruence.
  - unfold rankprob in P. rewrite X in P. cbn in P. congruence.
Qed.
Lemma explore_ok : forall depth x p v R, (forall u, rinv R u) -> okx R v (x, p) -> height v < depth ->
  exists R' t, explorederivation forest sub depth x R = Some (R', true) /\ (forall u, rinv R' u) /\ ext R R' /\ (forall u, height v <= height u -> R' u = R u) /\
    getderiv depth R' x = Some t /\ derivation forest v t /\ dcost t = p.
Proof using OK.
  induction depth as [|d IH]; intros x p v R RI OX HD; [lia|]. assert (OX0 := OX). destruct OX as [IX OX]. cbn [fst snd] in *. cbn [explorederivation getderiv]. destruct (eno (re x)) as [n|] eqn:E.
  2:{ destruct OX as (_ & _ & ->). exists R, (DLex (re x)). split; auto. split; auto. split; [apply ext_refl|]. split; auto. split; auto. split; [now constructor|]. cbn. eapply ok_lexical; eauto. }
  destruct OX as (GP & i & RL & RO & OR). assert (BL := between_left _ v (re x) n IX E). assert (HL := ok_acyclic _ _ _ OK _ _ BL). assert (FL := ok_complete _ _ _ OK _ _ BL). rewrite RL.
  destruct (fill_ok R (eleft (re x)) i RI FL RO) as (R1 & E1 & RI1 & X1 & O1 & L1). rewrite E1. destruct (nth_error (R1 (eleft (re x))) i) as [[y py]|] eqn:Y; [|apply nth_error_None in Y; lia].
  assert (OY : okx R1 (eleft (re x)) (y, py)). { assert (F := r_ok _ _ _ _ (RI1 (eleft (re x)))). rewrite Forall_forall in F. apply F. eapply nth_error_In; eauto. }
  destruct (IH y py (eleft (re x)) R1 RI1 OY) as (R2 & t1 & E2 & RI2 & X2 & O2 & G2 & D2 & C2); [lia|]. rewrite E2.
  assert (GP2 := ext_getprob sub R R2 x p (ext_trans _ _ _ X1 X2) GP). assert (Y2 := ext_nth _ _ _ _ _ X2 Y). unfold getprob in GP2. rewrite RL in GP2. destruct (rankprob sub R2 (eleft (re x)) i) as [pl|] eqn:PL; [|discriminate]. assert (PY := rankprob_entry _ _ _ _ _ _ (RI2 _) PL Y2).
  destruct (eright (re x)) as [r|] eqn:ER.
  - destruct OR as (j & RR & RJ). rewrite RR in *. assert (BR := between_right _ v (re x) n r IX E ER). assert (HR := ok_acyclic _ _ _ OK _ _ BR). assert (FR := ok_complete _ _ _ OK _ _ BR).
    destruct (fill_ok R2 r j RI2 FR) as (R3 & E3 & RI3 & X3 & O3 & L3); [eapply ext_rank_ok; [|exact RJ]; eapply ext_trans; eauto|]. rewrite E3. destruct (nth_error (R3 r) j) as [[z pz]|] eqn:Z; [|apply nth_error_None in Z; lia].
    assert (OZ : okx R3 r (z, pz)). { assert (F := r_ok _ _ _ _ (RI3 r)). rewrite Forall_forall in F. apply F. eapply nth_error_In; eauto. }
    destruct (IH z pz r R3 RI3 OZ) as (R4 & t2 & E4 & RI4 & X4 & O4 & G4 & D4 & C4); [lia|]. rewrite E4.
    assert (X24 := ext_trans _ _ _ X3 X4). assert (Y4 := ext_nth _ _ _ _ _ X24 Y2). assert (Z4 := ext_nth _ _ _ _ _ X4 Z).
    destruct (rankprob sub R2 r j) as [pr|] eqn:PR; [|discriminate]. assert (PZ := rankprob_entry _ _ _ _ _ _ (RI4 _) (ext_rankprob sub _ _ _ _ _ X24 PR) Z4).
    exists R4, (DBin (re x) t1 t2). split; auto. split; auto. split; [eapply ext_trans; [exact X1|eapply ext_trans; eauto]|]. split; [intros u Hu; rewrite O4, O3, O2, O1 by (try lia; intros ->; lia); auto|]. rewrite Y4, (getderiv_ext _ _ _ _ _ X24 G2), Z4, G4. split; auto. split; [econstructor; eauto|]. cbn. injection GP2 as <-. lia.
  - rewrite OR in *. exists R2, (DUn (re x) t1). split; auto. split; auto. split; [eapply ext_trans; eauto|]. split; [intros u Hu; rewrite O2, O1 by (try lia; intros ->; lia); auto|]. rewrite Y2, G2. split; auto. split; [econstructor; eauto|]. cbn. injection GP2 as <-. lia.
Qed.
Lemma explore_all_ok : forall root es R, height root < MAX_DEPTH -> (forall u, rinv R u) -> Forall (okx R root) es ->
  exists R', explore_all forest sub es R = Some (R', es) /\ (forall u, rinv R' u) /\ ext R R' /\ forall e, In e es -> exists t, getderiv MAX_DEPTH R' (fst e) = Some t /\ derivation forest root t /\ dcost t = snd e.
Proof using OK.
  intros root. induction es as [|[x p] es IH]; intros R HR RI F; [exists R; split; auto; split; auto; split; [apply ext_refl|intros e []]|]. inversion F as [|? ? F1 F2]; subst. destruct (explore_ok MAX_DEPTH x p root R RI F1 HR) as (R1 & t & E1 & RI1 & X1 & _ & G1 & D1 & C1).
  destruct (IH R1 HR RI1) as (R2 & E2 & RI2 & X2 & H2). { eapply Forall_impl; [|exact F2]. intros a. now apply ext_okx. }
  exists R2. cbn [explore_all fst]. rewrite E1, E2. split; auto. split; auto. split; [eapply ext_trans; eauto|]. intros e [<-|He]; [|auto]. exists t. cbn [fst snd]. split; [exact (getderiv_ext _ _ _ _ _ X2 G1)|split; assumption].
Qed.
End Ders.
