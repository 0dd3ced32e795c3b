(** Proofs for C41 (2): unary rules *)
From Coq Require Import List Bool Arith NArith ZArith Lia Permutation.
From Verif Require Import CkyModel CkySpec CkyProofs.
Import ListNotations.
Open Scope list_scope.
Open Scope nat_scope.

Lemma set_keys : forall ag x p y, In y (map fst (setifbetter ag x p)) <-> y = x \/ In y (map fst ag).
Proof.
  induction ag as [|[z q] ag IH]; intros x p y; cbn; [intuition|]. destruct (Nat.eqb_spec z x) as [->|N]; [destruct (ltp p q); cbn; intuition|]. cbn. rewrite IH. intuition.
Qed.
Lemma set_nodup : forall ag x p, NoDup (map fst ag) -> NoDup (map fst (setifbetter ag x p)).
Proof.
  induction ag as [|[z q] ag IH]; intros x p H; cbn; [repeat constructor; auto|]. inversion H as [|? ? A B]; subst. destruct (Nat.eqb_spec z x) as [->|N]; [destruct (ltp p q); cbn; constructor; auto|]. cbn. constructor; auto. rewrite set_keys. intros [?|?]; auto.
Qed.
Lemma popmin_none : forall ag, popmin ag = None -> ag = [].
Proof. intros [|e ag] H; auto. cbn in H. destruct (popmin ag) as [[f t]|]; [destruct (ltp _ _)|]; discriminate. Qed.
Lemma ltp_total : forall a b, ltp a b = false -> ltp b a = true \/ a = b.
Proof. intros [x|] [y|]; cbn; auto; try discriminate. destruct (N.ltb_spec x y); [discriminate|]. destruct (N.ltb_spec y x); auto. intros _. right. f_equal. lia. Qed.
Definition lep (a b : option N) : Prop := ltp b a = false.
Lemma popmin_perm : forall ag e t, popmin ag = Some (e, t) -> Permutation ag (e :: t) /\ forall f, In f t -> lep (snd e) (snd f).
Proof.
  induction ag as [|g ag IH]; intros e t H; [discriminate|]. cbn in H. destruct (popmin ag) as [[f t']|] eqn:P.
  - destruct (IH _ _ eq_refl) as [PM LE]. destruct (ltp (snd f) (snd g)) eqn:L; injection H as <- <-.
    + split; [rewrite PM; apply perm_swap|]. intros h [<-|Hh]; [|auto]. unfold lep. destruct (snd f), (snd g); cbn in *; try discriminate; auto. apply N.ltb_lt in L. apply N.ltb_ge. lia.
    + split; auto. intros h Hh. apply (Permutation_in _ PM) in Hh. destruct Hh as [<-|Hh]; [exact L|]. specialize (LE h Hh). unfold lep in *. destruct (snd f), (snd g), (snd h); cbn in *; try discriminate; auto. apply N.ltb_ge in LE, L. apply N.ltb_ge. lia.
  - apply popmin_none in P. subst ag. injection H as <- <-. split; auto. intros f [].
Qed.
Lemma filter_lt : forall (f g : nat -> bool) l, (forall x, In x l -> g x = true -> f x = true) -> length (filter g l) <= length (filter f l).
Proof. induction l as [|x l IH]; intros H; cbn; auto. assert (IH' := IH (fun y Hy => H y (or_intror Hy))). destruct (g x) eqn:G; [rewrite (H x (or_introl eq_refl) G); cbn; lia|]. destruct (f x); cbn; lia. Qed.
Lemma filter_lt_strict : forall (f g : nat -> bool) l u, (forall x, In x l -> g x = true -> f x = true) -> In u l -> f u = true -> g u = false -> length (filter g l) < length (filter f l).
Proof.
  induction l as [|x l IH]; intros u H HU FU GU; [destruct HU|]. assert (H' := fun y Hy => H y (or_intror Hy)). cbn. destruct HU as [->|HU].
  - rewrite FU, GU. cbn. assert (X := filter_lt f g l H'). lia.
  - specialize (IH u H' HU FU GU). destruct (g x) eqn:G; [rewrite (H x (or_introl eq_refl) G); cbn; lia|]. destruct (f x); cbn; lia.
Qed.
Definition nsum (f : nat -> N) (l : list nat) : N := fold_right N.add 0%N (map f l).
Lemma nsum_le : forall f g l, (forall x, In x l -> (g x <= f x)%N) -> (nsum g l <= nsum f l)%N.
Proof. induction l as [|x l IH]; intros H; cbn; [lia|]. assert (A := H x (or_introl eq_refl)). assert (B := IH (fun y Hy => H y (or_intror Hy))). unfold nsum in B. lia. Qed.
Lemma nsum_lt : forall f g l u, (forall x, In x l -> (g x <= f x)%N) -> In u l -> (g u < f u)%N -> (nsum g l < nsum f l)%N.
Proof.
  induction l as [|x l IH]; intros u H HU L; [destruct HU|]. assert (H' := fun y Hy => H y (or_intror Hy)). cbn. destruct HU as [->|HU].
  - assert (B := nsum_le f g l H'). unfold nsum in B. lia.
  - assert (B := IH u H' HU L). assert (A := H x (or_introl eq_refl)). unfold nsum in B. lia.
Qed.

Section Unary.
Variables (rules : list rule) (mask : nat -> bool).
Variables left right : nat.
Hypothesis LR : left < right.
Variable n : nat.
Variable D : nat -> N -> Prop.
Hypothesis HD : forall r c, In r rules -> mask (rno r) = false -> rhs2 r = 0 -> D (rhs1 r) c -> D (lhs r) (rprob r + c)%N.
Notation here := (fun x => (left, right, x)).
Notation unary := (unary rules).
Notation relax := (relax mask left right).
Notation agree := (agree left right).
Variable ch0 : chart.
Variable m0 : midfilter.
Definition relaxed (ch : chart) (x : nat) (r : rule) : Prop :=
  forall p, prob ch (here x) = Some p -> exists q, prob ch (here (lhs r)) = Some q /\ (q <= rprob r + p)%N /\ In (Some r, right) (edges ch (here (lhs r))).
Record uinv (pend : nat -> rule -> Prop) (s : ustate) : Prop := {
  u_agree : agree (fst (fst s)) ch0;
  u_sound : forall x p, prob (fst (fst s)) (here x) = Some p -> D x p;
  u_mono : forall x q, prob ch0 (here x) = Some q -> exists p, prob (fst (fst s)) (here x) = Some p /\ (p <= q)%N;
  u_relaxed : forall x r, ~ In x (map fst (snd s)) -> In r (unary x) -> mask (rno r) = false -> ~ pend x r -> relaxed (fst (fst s)) x r;
  u_edges : forall x e, In e (edges (fst (fst s)) (here x)) -> In e (edges ch0 (here x)) \/
    exists r, e = (Some r, right) /\ In r rules /\ mask (rno r) = false /\ rhs2 r = 0 /\ lhs r = x /\ prob (fst (fst s)) (here (rhs1 r)) <> None;
  u_edges0 : forall x e, In e (edges ch0 (here x)) -> In e (edges (fst (fst s)) (here x));
  u_agenda : forall x, In x (map fst (snd s)) -> prob (fst (fst s)) (here x) <> None;
  u_sane : sane n (snd (fst s));
  u_wider : wider m0 (snd (fst s));
  u_covers : forall x, prob (fst (fst s)) (here x) <> None -> covers (snd (fst s)) left right x }.

(** what changes when a label gets a better probability *)
Definition better (ch ch' : chart) (it : item) (q : N) : Prop :=
  (forall u, prob ch' u = if item_dec u it then Some q else prob ch u) /\ ltp (Some q) (prob ch it) = true.
Lemma update_better : forall ch it q, ltp (Some q) (prob ch it) = true -> better ch (updateprob ch it q) it q.
Proof. intros ch it q H. split; auto. intros u. rewrite update_prob. destruct (item_dec u it); auto. unfold minp. cbn in H. destruct (prob ch it); auto. now rewrite H. Qed.
(** one step, described *)
Lemma relax_cases : forall p ch m ag r, mask (rno r) = false ->
  exists ch1 ag1, relax (Some p) (ch, m, ag) r = (addedge ch1 (here (lhs r)) right (Some r), updatemid m left right (lhs r), ag1) /\ edges ch1 = edges ch /\
    ((ltp (Some (rprob r + p)%N) (prob ch (here (lhs r))) = false /\ prob ch1 = prob ch /\ items ch1 = items ch /\ ag1 = ag) \/
     (better ch ch1 (here (lhs r)) (rprob r + p)%N /\ ag1 = setifbetter ag (lhs r) (Some (rprob r + p)%N) /\ items ch1 = items ch ++ if prob ch (here (lhs r)) then [] else [here (lhs r)])).
Proof.
  intros p ch m ag r MK. unfold CkyModel.relax. rewrite MK. cbn [option_map]. destruct (ltp (Some (rprob r + p)%N) (prob ch (left, right, lhs r))) eqn:L.
  - do 2 eexists. split; [reflexivity|]. split; [apply update_edges|]. right. split; [now apply update_better|]. split; auto. apply update_items.
  - exists ch, ag. split; [reflexivity|]. split; [reflexivity|]. left. auto.
Qed.
Lemma agree_here : forall (x : nat) (it : item), other left right it -> it <> here x.
Proof. intros x it O. apply O. Qed.
Lemma in_unary : forall x r, In r (unary x) <-> In r rules /\ rhs1 r = x /\ rhs2 r = 0.
Proof. intros x r. unfold CkyModel.unary. rewrite filter_In, andb_true_iff, !Nat.eqb_eq. tauto. Qed.
Lemma relax_ok : forall x p r todo s, uinv (fun y t => y = x /\ In t (r :: todo)) s -> prob (fst (fst s)) (here x) = Some p -> In r (unary x) ->
  uinv (fun y t => y = x /\ In t todo) (relax (Some p) s r) /\ prob (fst (fst (relax (Some p) s r))) (here x) = Some p.
Proof using LR HD.
  intros x p r todo [[ch m] ag] U PX HR. destruct U as [A S M R E E0 AG SA W CV]. cbn [fst snd] in *. destruct (mask (rno r)) eqn:MK.
  { unfold CkyModel.relax. rewrite MK. cbn [fst snd]. split; auto. constructor; cbn [fst snd]; auto. intros y t N Ht Mt P. apply R; auto. intros [-> [->|Q]]; [congruence|]. apply P. auto. }
  destruct (relax_cases p ch m ag r MK) as (ch1 & ag1 & -> & EE & CASES). cbn [fst snd]. apply in_unary in HR. destruct HR as (HR1 & HR2 & HR3).
  assert (DL : D (lhs r) (rprob r + p)%N) by (apply HD; auto; rewrite HR2; auto).
  assert (EDG : forall y e, In e (edges (addedge ch1 (here (lhs r)) right (Some r)) (here y)) <-> In e (edges ch (here y)) \/ (y = lhs r /\ e = (Some r, right))).
  { intros y e. cbn [edges addedge]. unfold iput. destruct (ieqb (here y) (here (lhs r))) eqn:Q.
    - apply ieqb_eq in Q. injection Q as ->. rewrite EE, in_app_iff. cbn. intuition.
    - rewrite EE. split; auto. intros [?|[-> _]]; auto. rewrite ieqb_refl in Q. discriminate. }
  destruct CASES as [(L & PE & IE & ->)|(B & -> & IE)].
  - assert (PEQ : forall u, prob (addedge ch1 (here (lhs r)) right (Some r)) u = prob ch u) by (intros u; cbn; now rewrite PE).
    assert (LQ : exists q, prob ch (here (lhs r)) = Some q /\ (q <= rprob r + p)%N). { cbn in L. destruct (prob ch (left, right, lhs r)) as [q|]; [|discriminate]. exists q. split; auto. apply N.ltb_ge in L. exact L. }
    split; [|cbn; rewrite PE; auto]. constructor; cbn [fst snd].
    + intros it O. cbn [prob edges addedge]. rewrite PE. rewrite iput_other by apply O. rewrite EE. apply A; auto.
    + intros y q. rewrite PEQ. apply S.
    + intros y q Hq. rewrite PEQ. apply M; auto.
    + intros y t N Ht Mt P q Pq. rewrite PEQ in Pq. rewrite PEQ. destruct (in_dec Nat.eq_dec y [x]) as [[<-|[]]|NX].
      * assert (DR : {t = r} + {t <> r}) by repeat decide equality. destruct DR as [->|NR].
        { rewrite PX in Pq. injection Pq as <-. destruct LQ as (q & Q1 & Q2). exists q. split; auto. split; auto. apply EDG. auto. }
        { destruct (R x t N Ht Mt) with (p := q) as (q' & Q1 & Q2 & Q3); auto; [intros [_ [?|?]]; [congruence|apply P; auto]|]. exists q'. split; auto. split; auto. apply EDG. auto. }
      * destruct (R y t N Ht Mt) with (p := q) as (q' & Q1 & Q2 & Q3); auto; [intros [-> _]; apply NX; now left|]. exists q'. split; auto. split; auto. apply EDG. auto.
    + intros y e He. apply EDG in He. destruct He as [He|[-> ->]].
      * destruct (E y e He) as [?|(t & T1 & T2 & T3 & T4 & T5 & T6)]; auto. right. exists t. rewrite PEQ. repeat (split; auto).
      * right. exists r. rewrite PEQ, HR2, PX. repeat (split; auto). discriminate.
    + intros y e He. apply EDG. left. auto.
    + intros y Hy. rewrite PEQ. auto.
    + now apply updatemid_sane.
    + eapply wider_trans; [exact W|apply updatemid_wider].
    + intros y Hy. rewrite PEQ in Hy. apply updatemid_wider. auto.
  - destruct B as [B1 B2]. assert (PEQ : forall u, prob (addedge ch1 (here (lhs r)) right (Some r)) u = if item_dec u (here (lhs r)) then Some (rprob r + p)%N else prob ch u) by (intros u; cbn; apply B1).
    assert (NX : x <> lhs r). { intros ->. rewrite <- HR2 in PX at 1. cbn in B2. rewrite HR2 in PX. rewrite PX in B2. apply N.ltb_lt in B2. lia. }
    assert (PO : forall y, y <> lhs r -> prob (addedge ch1 (here (lhs r)) right (Some r)) (here y) = prob ch (here y)). { intros y Hy. rewrite PEQ. destruct (item_dec (here y) (here (lhs r))) as [Q|Q]; auto. injection Q as ->. contradiction. }
    assert (PS : prob (addedge ch1 (here (lhs r)) right (Some r)) (here (lhs r)) = Some (rprob r + p)%N). { rewrite PEQ. destruct (item_dec (here (lhs r)) (here (lhs r))); congruence. }
    assert (LE : forall q, prob ch (here (lhs r)) = Some q -> (rprob r + p <= q)%N). { intros q Q. cbn in B2. rewrite Q in B2. apply N.ltb_lt in B2. lia. }
    split; [|rewrite PO; auto]. constructor; cbn [fst snd].
    + intros it O. rewrite PEQ. destruct (item_dec it (here (lhs r))) as [Q|_]; [exfalso; exact (O _ Q)|]. cbn [edges addedge]. rewrite iput_other by apply O. rewrite EE. apply A; auto.
    + intros y q Hq. destruct (Nat.eq_dec y (lhs r)) as [->|N]; [rewrite PS in Hq; injection Hq as <-; auto|rewrite PO in Hq; auto].
    + intros y q Hq. destruct (M y q Hq) as (q' & Q1 & Q2). destruct (Nat.eq_dec y (lhs r)) as [->|N]; [|exists q'; rewrite PO; auto]. exists (rprob r + p)%N. split; auto. specialize (LE _ Q1). lia.
    + intros y t N Ht Mt P q Pq. rewrite set_keys in N. assert (N1 : y <> lhs r) by tauto. assert (N2 : ~ In y (map fst ag)) by tauto. rewrite PO in Pq by auto.
      assert (X : In t (r :: todo) /\ y = x /\ t = r \/ relaxed ch y t).
      { destruct (Nat.eq_dec y x) as [->|NE]; [|right; apply R; auto; intros [? _]; auto]. assert (DR : {t = r} + {t <> r}) by repeat decide equality. destruct DR as [->|NR]; [left; split; [now left|auto]|]. right. apply R; auto. intros [_ [?|?]]; [congruence|apply P; auto]. }
      destruct X as [(_ & -> & ->)|X].
      * rewrite PX in Pq. injection Pq as <-. exists (rprob r + p)%N. split; auto. split; [lia|]. apply EDG. auto.
      * destruct (X q Pq) as (q' & Q1 & Q2 & Q3). destruct (Nat.eq_dec (lhs t) (lhs r)) as [EQ|NQ].
        { rewrite EQ in *. exists (rprob r + p)%N. split; auto. specialize (LE _ Q1). split; [lia|]. apply EDG. auto. }
        { exists q'. rewrite PO by auto. split; auto. split; auto. apply EDG. auto. }
    + intros y e He. apply EDG in He. destruct He as [He|[-> ->]].
      * destruct (E y e He) as [?|(t & T1 & T2 & T3 & T4 & T5 & T6)]; auto. right. exists t. repeat (split; auto). destruct (Nat.eq_dec (rhs1 t) (lhs r)) as [->|N]; [rewrite PS; discriminate|rewrite PO; auto].
      * right. exists r. repeat (split; auto). rewrite HR2, PO, PX by auto. discriminate.
    + intros y e He. apply EDG. left. auto.
    + intros y Hy. rewrite set_keys in Hy. destruct (Nat.eq_dec y (lhs r)) as [->|N]; [rewrite PS; discriminate|]. rewrite PO by auto. destruct Hy; [contradiction|auto].
    + now apply updatemid_sane.
    + eapply wider_trans; [exact W|apply updatemid_wider].
    + intros y Hy. destruct (Nat.eq_dec y (lhs r)) as [->|N]; [apply updatemid_covers|]. rewrite PO in Hy by auto. apply updatemid_wider. auto.
Qed.
Lemma relaxes_ok : forall x p todo s, uinv (fun y t => y = x /\ In t todo) s -> prob (fst (fst s)) (here x) = Some p -> (forall r, In r todo -> In r (unary x)) ->
  uinv (fun _ _ => False) (fold_left (relax (Some p)) todo s).
Proof using LR HD.
  intros x p. induction todo as [|r todo IH]; intros s U PX HT.
  - cbn. destruct U as [A S M R E E0 AG SA W CV]. constructor; auto. intros y t H1 H2 H3 _. apply R; auto. intros [_ []].
  - cbn [fold_left]. destruct (relax_ok x p r todo s U PX (HT r (or_introl eq_refl))) as [U' PX']. apply IH; auto. intros; apply HT; now right.
Qed.
(** ---- termination ---- *)
Definition labels : list nat := map lhs rules.
Definition ninf (ch : chart) : nat := length (filter (fun x => negb (finite (prob ch (here x)))) labels).
Definition psum (ch : chart) : N := nsum (fun x => match prob ch (here x) with Some p => p | None => 0%N end) labels.
Definition smaller (a b : chart) : Prop := ninf a < ninf b \/ (ninf a = ninf b /\ (psum a < psum b)%N).
Lemma smaller_trans : forall a b c, smaller a b -> smaller b c -> smaller a c.
Proof. intros a b c [H|[H1 H2]] [H'|[H1' H2']]; unfold smaller; [left; lia|left; lia|left; lia|right; lia]. Qed.
Lemma better_smaller : forall ch ch' x q, better ch ch' (here x) q -> In x labels -> smaller ch' ch.
Proof.
  intros ch ch' x q [B1 B2] HX. assert (PS : prob ch' (here x) = Some q) by (rewrite B1; destruct (item_dec (here x) (here x)); congruence). assert (PO : forall y, y <> x -> prob ch' (here y) = prob ch (here y)). { intros y Hy. rewrite B1. destruct (item_dec (here y) (here x)) as [Q|Q]; auto. injection Q as ->. contradiction. }
  destruct (prob ch (here x)) as [q0|] eqn:P0.
  - right. cbn in B2. apply N.ltb_lt in B2. split.
    + unfold ninf. f_equal. apply filter_ext. intros y. f_equal. destruct (Nat.eq_dec y x) as [->|N]; [now rewrite PS, P0|now rewrite PO].
    + unfold psum. apply (nsum_lt _ _ _ x); auto; [|rewrite PS, P0; auto]. intros y _. destruct (Nat.eq_dec y x) as [->|N]; [rewrite PS, P0; lia|rewrite PO by auto; lia].
  - left. unfold ninf. apply (filter_lt_strict _ _ _ x); auto; [|now rewrite P0|now rewrite PS]. intros y _. destruct (Nat.eq_dec y x) as [->|N]; [rewrite PS; discriminate|now rewrite PO].
Qed.
Lemma same_prob_smaller : forall a a' b, prob a = prob a' -> smaller a b -> smaller a' b.
Proof. intros a a' b E H. unfold smaller, ninf, psum in *. now rewrite <- E. Qed.
Lemma relax_measure : forall x p r s, In r (unary x) -> (prob (fst (fst (relax (Some p) s r))) = prob (fst (fst s)) /\ snd (relax (Some p) s r) = snd s) \/ smaller (fst (fst (relax (Some p) s r))) (fst (fst s)).
Proof.
  intros x p r [[ch m] ag] HR. destruct (mask (rno r)) eqn:MK; [left; unfold CkyModel.relax; rewrite MK; auto|]. destruct (relax_cases p ch m ag r MK) as (ch1 & ag1 & -> & _ & CASES). cbn [fst snd]. destruct CASES as [(_ & PE & _ & ->)|(B & _)].
  - left. cbn. auto.
  - right. apply (same_prob_smaller ch1); auto. apply (better_smaller ch ch1 (lhs r) _ B). apply in_map. apply in_unary in HR. tauto.
Qed.
Lemma relaxes_measure : forall x p todo s, (forall r, In r todo -> In r (unary x)) ->
  (prob (fst (fst (fold_left (relax (Some p)) todo s))) = prob (fst (fst s)) /\ snd (fold_left (relax (Some p)) todo s) = snd s) \/ smaller (fst (fst (fold_left (relax (Some p)) todo s))) (fst (fst s)).
Proof.
  intros x p. induction todo as [|r todo IH]; intros s HT; cbn [fold_left]; auto. destruct (relax_measure x p r s (HT r (or_introl eq_refl))) as [[E1 E2]|L]; destruct (IH (relax (Some p) s r) (fun t Ht => HT t (or_intror Ht))) as [[F1 F2]|L'].
  - left. split; congruence.
  - right. unfold smaller, ninf, psum in *. rewrite E1 in L'. exact L'.
  - right. eapply same_prob_smaller; [symmetry; exact F1|exact L].
  - right. eapply smaller_trans; eauto.
Qed.
Lemma uloop_ok : forall s, uinv (fun _ _ => False) s -> exists F ch m, (forall fuel, F <= fuel -> uloop rules mask left right fuel s = Some (ch, m)) /\ uinv (fun _ _ => False) (ch, m, []).
Proof using LR HD.
  intros s. remember (ninf (fst (fst s))) as ni eqn:En. revert s En. induction ni as [ni IHn] using lt_wf_ind. intros s. remember (psum (fst (fst s))) as w eqn:Ew. revert s Ew. induction w as [w IHw] using (well_founded_induction N.lt_wf_0). intros s. remember (length (snd s)) as k eqn:Ek. revert s Ek. induction k as [k IHk] using lt_wf_ind.
  intros [[ch m] ag] Ek Ew En U. cbn [fst snd] in *. destruct (popmin ag) as [[[x v] ag']|] eqn:P.
  - destruct (popmin_perm _ _ _ P) as [PM _].
    assert (HX : In x (map fst ag)) by (apply (Permutation_in (l := map fst ((x, v) :: ag'))); [symmetry; now apply Permutation_map|now left]). assert (PXN := u_agenda _ _ U x HX). cbn [fst snd] in PXN. destruct (prob ch (here x)) as [p|] eqn:PX; [|congruence].
    set (s' := fold_left (relax (Some p)) (unary x) (ch, m, ag')). assert (U' : uinv (fun _ _ => False) s').
    { apply (relaxes_ok x p (unary x)); auto. destruct U as [A S M R E E0 AG SA W CV]. cbn [fst snd] in *. constructor; cbn [fst snd]; auto.
      - intros y t N Ht Mt Q. apply R; auto. intros Hy. apply (Permutation_in _ (Permutation_map fst PM)) in Hy. destruct Hy as [<-|Hy]; [apply Q; auto|contradiction].
      - intros y Hy. apply AG. eapply Permutation_in; [symmetry; apply (Permutation_map fst); exact PM|now right]. }
    assert (REC : exists F ch' m', (forall fuel, F <= fuel -> uloop rules mask left right fuel s' = Some (ch', m')) /\ uinv (fun _ _ => False) (ch', m', [])).
    { assert (MM := relaxes_measure x p (unary x) (ch, m, ag') (fun r Hr => Hr)). fold s' in MM. cbn [fst snd] in MM. destruct MM as [[E1 E2]|L].
      - apply (IHk (length (snd s'))); auto.
        + rewrite E2, Ek. apply Permutation_length in PM. cbn in PM. rewrite PM. lia.
        + unfold psum. rewrite E1. exact Ew.
        + unfold ninf. rewrite E1. exact En.
      - destruct L as [L|[L1 L2]]; [apply (IHn (ninf (fst (fst s')))); auto; lia|]. apply (IHw (psum (fst (fst s')))); auto; congruence. }
    destruct REC as (F & ch' & m' & H & UR). exists (S F), ch', m'. split; auto. intros [|fuel] HF; [lia|]. cbn [uloop]. rewrite P, PX. apply H. lia.
  - assert (ag = []) by now apply popmin_none. subst ag. exists 1, ch, m. split; auto. intros [|fuel] HF; [lia|]. reflexivity.
Qed.
End Unary.
