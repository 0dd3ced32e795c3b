(** Proofs for C67, part 1: agendas, the inside costs. *)
From Coq Require Import List Bool Arith NArith Lia.
From Verif Require Import McpModel McpProofs EstModel EstSpec.
Import ListNotations.
Local Open Scope N_scope.
Local Open Scope list_scope.

Lemma ikey_ok : forall a b, ikey_eqb a b = true <-> a = b.
Proof.
  intros [a1 a2] [b1 b2]. unfold ikey_eqb. cbn [fst snd]. rewrite andb_true_iff, !Nat.eqb_eq.
  split; [intros [-> ->]; reflexivity|intros H; injection H; auto].
Qed.
Lemma okey_ok : forall a b, okey_eqb a b = true <-> a = b.
Proof.
  intros [a1 a2] [b1 b2]. unfold okey_eqb. cbn [fst snd]. rewrite andb_true_iff, ikey_ok, Nat.eqb_eq.
  split; [intros [-> ->]; reflexivity|intros H; injection H; auto].
Qed.

Section Ag.
  Context {K : Type}.
  Variable eqb : K -> K -> bool.
  Hypothesis eqb_ok : forall a b, eqb a b = true <-> a = b.

  Lemma dec_of : forall a b : K, {a = b} + {a <> b}.
  Proof. intros a b. destruct (eqb a b) eqn:E; [left; now apply eqb_ok|right; intros F; apply eqb_ok in F; congruence]. Qed.
  Lemma remove_get : forall k ag k', dget eqb k' (dremove eqb k ag)
    = if eqb k' k then None else dget eqb k' ag.
  Proof.
    intros k ag k'. induction ag as [|[k1 v1] ag IH]; cbn [dremove filter dget].
    - now destruct (eqb k' k).
    - cbn [fst]. unfold dremove in IH. destruct (eqb k1 k) eqn:E1; cbn [negb].
      + rewrite IH. destruct (eqb k' k) eqn:E; [reflexivity|].
        destruct (eqb k' k1) eqn:E2; [|reflexivity]. apply eqb_ok in E1, E2. subst.
        assert (X : eqb k k = true) by now apply eqb_ok. congruence.
      + cbn [dget]. destruct (eqb k' k1) eqn:E2; [|exact IH].
        destruct (eqb k' k) eqn:E; [|reflexivity]. apply eqb_ok in E, E2. subst.
        assert (X : eqb k1 k1 = true) by now apply eqb_ok. congruence.
  Qed.
  Lemma remove_nodup : forall k ag, NoDup (map fst ag) -> NoDup (map fst (dremove eqb k ag)).
  Proof.
    intros k ag. induction ag as [|[k1 v1] ag IH]; cbn; intros ND; [constructor|]. inversion ND; subst.
    destruct (eqb k1 k); cbn; [auto|]. constructor; [|auto]. intros I. apply H1.
    apply in_map_iff in I. destruct I as (x & E & I). apply filter_In in I. rewrite <- E. apply in_map, I.
  Qed.
  Lemma pops_exist : forall ag, ag <> [] -> exists k x, pops eqb ag k x (dremove eqb k ag).
  Proof.
    intros ag NE.
    assert (G : exists k x, In (k, x) ag /\ forall k' x', In (k', x') ag -> x <= x').
    { induction ag as [|[k v] ag IH]; [congruence|]. destruct ag as [|e ag'].
      - exists k, v. split; [now left|]. intros k' x' [E|[]]. injection E as <- <-. lia.
      - destruct IH as (k0 & x0 & I & M); [discriminate|]. destruct (Nlt_le_dec v x0) as [L|L].
        + exists k, v. split; [now left|]. intros k' x' [E|I']; [injection E as <- <-; lia|].
          specialize (M _ _ I'). lia.
        + exists k0, x0. split; [now right|]. intros k' x' [E|I']; [injection E as <- <-; lia|eauto]. }
    destruct G as (k & x & I & M). exists k, x. split; [exact I|]. split; [exact M|reflexivity].
  Qed.

  (** a sequence of updates *)
  Definition covers (ag : list (K * N)) (k : K) (c : N) : Prop := exists v, dget eqb k ag = Some v /\ v <= c.
  Lemma set_covers : forall ag kv, covers (setifbetter eqb ag kv) (fst kv) (snd kv)
    /\ (forall k c, covers ag k c -> covers (setifbetter eqb ag kv) k c)
    /\ (forall k v, dget eqb k (setifbetter eqb ag kv) = Some v -> dget eqb k ag = Some v \/ (k, v) = kv)
    /\ (NoDup (map fst ag) -> NoDup (map fst (setifbetter eqb ag kv))).
  Proof using eqb_ok.
    intros ag [k v]. unfold setifbetter. cbn [fst snd].
    destruct (dget eqb k ag) as [old|] eqn:G; [destruct (Nlt_le_dec v old) as [L|L]|].
    - split; [|split; [|split]].
      + exists v. rewrite (dget_put_same _ eqb_ok). split; [reflexivity|lia].
      + intros k' c (w & E & LE). destruct (dec_of k' k) as [->|N].
        * exists v. rewrite (dget_put_same _ eqb_ok). split; [reflexivity|].
          rewrite G in E. injection E as <-. lia.
        * exists w. rewrite (dget_put_other _ eqb_ok) by exact N. auto.
      + intros k' v'. destruct (dec_of k' k) as [->|N].
        * rewrite (dget_put_same _ eqb_ok). intros E. injection E as <-. now right.
        * rewrite (dget_put_other _ eqb_ok) by exact N. auto.
      + apply (dput_nodup _ eqb_ok).
    - split; [exists old; auto|]. split; [auto|]. split; auto.
    - split; [|split; [|split]].
      + exists v. rewrite (dget_put_same _ eqb_ok). split; [reflexivity|lia].
      + intros k' c (w & E & LE). destruct (dec_of k' k) as [->|N]; [congruence|].
        exists w. rewrite (dget_put_other _ eqb_ok) by exact N. auto.
      + intros k' v'. destruct (dec_of k' k) as [->|N].
        * rewrite (dget_put_same _ eqb_ok). intros E. injection E as <-. now right.
        * rewrite (dget_put_other _ eqb_ok) by exact N. auto.
      + apply (dput_nodup _ eqb_ok).
  Qed.
  Lemma fold_covers : forall us ag, 
    (forall k v, In (k, v) us -> covers (fold_left (setifbetter eqb) us ag) k v)
    /\ (forall k c, covers ag k c -> covers (fold_left (setifbetter eqb) us ag) k c)
    /\ (forall k v, dget eqb k (fold_left (setifbetter eqb) us ag) = Some v -> dget eqb k ag = Some v \/ In (k, v) us)
    /\ (NoDup (map fst ag) -> NoDup (map fst (fold_left (setifbetter eqb) us ag))).
  Proof using eqb_ok.
    induction us as [|u us IH]; intros ag; cbn [fold_left].
    - split; [intros ? ? []|]. split; [auto|]. split; auto.
    - destruct (set_covers ag u) as (A & B & C & D). destruct (IH (setifbetter eqb ag u)) as (E & F & G & H).
      split; [|split; [|split]].
      + intros k v [->|I]; [|auto]. apply F. exact A.
      + auto.
      + intros k v X. destruct (G _ _ X) as [Y|Y]; [|right; now right].
        destruct (C _ _ Y) as [Z|Z]; [now left|]. right. left. auto.
      + auto.
  Qed.
End Ag.

Section InsideProof.
  Variable g : egrammar.
  Variable maxlen : nat.
  Hypothesis COST : costs g.
  Hypothesis FEW : fewrules g.
  Hypothesis ML : (1 <= maxlen)%nat.

  Definition attained (l n : nat) (v : N) : Prop :=
    exists t, derivation g t /\ plabel t = l /\ psize t = n /\ pcost t = v.
  Lemma cost_nonneg : forall t, derivation g t -> 0 <= pcost t.
  Proof.
    destruct COST as [CR CL]. induction t as [l p|r t IH|r a IHa b IHb]; cbn [derivation pcost].
    - apply CL.
    - intros (I & _ & _ & D). apply CR in I. apply IH in D. lia.
    - intros (I & _ & _ & _ & Da & Db). apply CR in I. apply IHa in Da. apply IHb in Db. lia.
  Qed.
  Lemma size_pos : forall t, (1 <= psize t)%nat.
  Proof. clear. induction t; cbn; lia. Qed.
  Lemma attained_nonneg : forall l n v, attained l n v -> 0 <= v.
  Proof. intros l n v (t & D & _ & _ & E). apply cost_nonneg in D. lia. Qed.

  Definition known (ag ins : list (ikey * N)) (k : ikey) (c : N) : Prop :=
    covers ikey_eqb ins k c \/ covers ikey_eqb ag k c.
  Record iinv (ag ins : list (ikey * N)) : Prop := {
    i_nd1 : NoDup (map fst ag);
    i_nd2 : NoDup (map fst ins);
    i_dis : forall k v, dget ikey_eqb k ag = Some v -> dget ikey_eqb k ins = None;
    i_sound : forall l n v, dget ikey_eqb (l, n) ag = Some v \/ dget ikey_eqb (l, n) ins = Some v ->
                attained l n v /\ (n <= maxlen)%nat;
    i_bound : forall k v k' v', dget ikey_eqb k ins = Some v -> dget ikey_eqb k' ag = Some v' -> v <= v';
    i_lex : forall l p, In (l, p) (g_lexical g) -> known ag ins (l, 1%nat) p;
    i_un : forall r n x, In r (g_rules g) -> e_rhs2 r = 0%nat -> ilook ins (e_rhs1 r) n = Some x ->
             known ag ins (e_lhs r, n) (e_prob r + x);
    i_bin : forall r m n x y, In r (g_rules g) -> e_rhs2 r <> 0%nat ->
             ilook ins (e_rhs1 r) m = Some x -> ilook ins (e_rhs2 r) n = Some y -> (m + n <= maxlen)%nat ->
             known ag ins (e_lhs r, (m + n)%nat) (e_prob r + x + y) }.

  Lemma init_inv : iinv (inside_init g) [].
  Proof.
    clear FEW. unfold inside_init. set (us := map _ (g_lexical g)).
    destruct (fold_covers ikey_eqb ikey_ok us []) as (A & _ & C & D).
    constructor.
    - apply D. constructor.
    - constructor.
    - reflexivity.
    - intros l n v [H|H]; [|discriminate]. destruct (C _ _ H) as [X|X]; [discriminate|].
      unfold us in X. apply in_map_iff in X. destruct X as ([l' p] & E & I). cbn [fst snd] in E. injection E as <- <- <-.
      split; [|exact ML]. exists (PLex l' p). cbn. split; [exact I|]. repeat split; reflexivity.
    - discriminate.
    - intros l p I. right. apply A. unfold us. apply in_map_iff. exists (l, p). auto.
    - discriminate.
    - discriminate.
  Qed.

  Lemma limited_all : forall rs, (length rs <= g_nonterminals g)%nat -> limited g rs = rs.
  Proof. intros rs H. apply firstn_all2. exact H. Qed.
  Lemma iupd_in : forall ins l len x k v, In (k, v) (iupdates g maxlen ins l len x) <->
    (exists r, In r (g_rules g) /\ e_rhs2 r = 0%nat /\ e_rhs1 r = l /\ ilook ins (e_lhs r) len = None
       /\ k = (e_lhs r, len) /\ v = e_prob r + x)
    \/ (exists r n y, In r (g_rules g) /\ e_rhs2 r <> 0%nat /\ e_rhs1 r = l /\ ilook ins (e_rhs2 r) n = Some y
       /\ (1 <= n <= maxlen - len)%nat /\ ilook ins (e_lhs r) (len + n) = None
       /\ k = (e_lhs r, (len + n)%nat) /\ v = e_prob r + x + y)
    \/ (exists r n y, In r (g_rules g) /\ e_rhs2 r <> 0%nat /\ e_rhs2 r = l /\ ilook ins (e_rhs1 r) n = Some y
       /\ (1 <= n <= maxlen - len)%nat /\ ilook ins (e_lhs r) (n + len) = None
       /\ k = (e_lhs r, (n + len)%nat) /\ v = e_prob r + y + x).
  Proof.
    clear COST ML. intros ins l len x k v. unfold iupdates. destruct (FEW l) as (F1 & F2 & F3).
    rewrite (limited_all _ F1), (limited_all _ F2), (limited_all _ F3). clear F1 F2 F3.
    rewrite !in_app_iff, !in_flat_map. unfold unaryrules, lbinaryrules, rbinaryrules.
    assert (U : forall r, In r (filter (fun r => isunary r && Nat.eqb (e_rhs1 r) l) (g_rules g))
              <-> In r (g_rules g) /\ e_rhs2 r = 0%nat /\ e_rhs1 r = l).
    { intros r. rewrite filter_In, andb_true_iff. unfold isunary. rewrite !Nat.eqb_eq. tauto. }
    assert (L : forall r, In r (filter (fun r => negb (isunary r) && Nat.eqb (e_rhs1 r) l) (g_rules g))
              <-> In r (g_rules g) /\ e_rhs2 r <> 0%nat /\ e_rhs1 r = l).
    { intros r. rewrite filter_In, andb_true_iff, negb_true_iff. unfold isunary. rewrite Nat.eqb_eq, Nat.eqb_neq. tauto. }
    assert (R : forall r, In r (filter (fun r => negb (isunary r) && Nat.eqb (e_rhs2 r) l) (g_rules g))
              <-> In r (g_rules g) /\ e_rhs2 r <> 0%nat /\ e_rhs2 r = l).
    { intros r. rewrite filter_In, andb_true_iff, negb_true_iff. unfold isunary. rewrite Nat.eqb_eq, Nat.eqb_neq. tauto. }
    split; (intros [H|[H|H]]; [left|right; left|right; right]).
    - destruct H as (r & I & J). apply U in I. exists r.
      destruct (ilook ins (e_lhs r) len); [contradiction|]. destruct J as [J|[]]. injection J as <- <-. tauto.
    - destruct H as (r & I & J). apply L in I. apply in_flat_map in J. destruct J as (n & S & J).
      apply in_seq in S. destruct (ilook ins (e_rhs2 r) n) as [y|] eqn:E1; [|contradiction].
      destruct (ilook ins (e_lhs r) (len + n)) eqn:E2; [contradiction|]. destruct J as [J|[]]. injection J as <- <-.
      exists r, n, y. repeat split; try tauto; lia.
    - destruct H as (r & I & J). apply R in I. apply in_flat_map in J. destruct J as (n & S & J).
      apply in_seq in S. destruct (ilook ins (e_rhs1 r) n) as [y|] eqn:E1; [|contradiction].
      destruct (ilook ins (e_lhs r) (n + len)) eqn:E2; [contradiction|]. destruct J as [J|[]]. injection J as <- <-.
      exists r, n, y. repeat split; try tauto; lia.
    - destruct H as (r & I & A & B & C & -> & ->). exists r. split; [now apply U|]. rewrite C. now left.
    - destruct H as (r & n & y & I & A & B & C & D & E & -> & ->). exists r. split; [now apply L|].
      apply in_flat_map. exists n. split; [apply in_seq; lia|]. rewrite C, E. now left.
    - destruct H as (r & n & y & I & A & B & C & D & E & -> & ->). exists r. split; [now apply R|].
      apply in_flat_map. exists n. split; [apply in_seq; lia|]. rewrite C, E. now left.
  Qed.

  Lemma step_inv : forall ag ins k x ag', iinv ag ins -> pops ikey_eqb ag k x ag' ->
    istore ins k x = dput ikey_eqb k x ins /\ dget ikey_eqb k ins = None
    /\ iinv (fold_left (setifbetter ikey_eqb) (iupdates g maxlen (istore ins k x) (fst k) (snd k) x) ag')
            (istore ins k x).
  Proof.
    intros ag ins k x ag' IV (P1 & P2 & ->).
    assert (Gk : dget ikey_eqb k ag = Some x) by (apply (in_dget _ ikey_ok); [apply IV|exact P1]).
    assert (Nk : dget ikey_eqb k ins = None) by (eapply i_dis; eassumption).
    assert (MIN : forall k' v, dget ikey_eqb k' ag = Some v -> x <= v).
    { intros k' v G. apply (P2 k'). now apply (dget_in _ ikey_ok). }
    assert (EI : istore ins k x = dput ikey_eqb k x ins) by (unfold istore; now rewrite Nk).
    split; [exact EI|]. split; [exact Nk|]. rewrite EI.
    set (ins' := dput ikey_eqb k x ins). set (us := iupdates g maxlen ins' (fst k) (snd k) x).
    destruct k as [l len]. cbn [fst snd] in us.
    destruct (fold_covers ikey_eqb ikey_ok us (dremove ikey_eqb (l, len) ag)) as (A & B & C & D).
    set (ag2 := fold_left (setifbetter ikey_eqb) us (dremove ikey_eqb (l, len) ag)) in *.
    assert (GI : forall k', dget ikey_eqb k' ins' = if ikey_eqb k' (l, len) then Some x else dget ikey_eqb k' ins).
    { intros k'. unfold ins'. destruct (ikey_eqb k' (l, len)) eqn:E.
      - apply ikey_ok in E. subst. apply (dget_put_same _ ikey_ok).
      - apply (dget_put_other _ ikey_ok). intros F. apply ikey_ok in F. congruence. }
    assert (LE : forall k' v, dget ikey_eqb k' ins' = Some v -> v <= x).
    { intros k' v. rewrite GI. destruct (ikey_eqb k' (l, len)); [intros E; injection E as <-; lia|].
      intros E. exact (i_bound _ _ IV _ _ _ _ E Gk). }
    assert (S' : forall l n v, dget ikey_eqb (l, n) ins' = Some v -> attained l n v /\ (n <= maxlen)%nat).
    { intros l' n v. rewrite GI. destruct (ikey_eqb (l', n) (l, len)) eqn:E.
      - apply ikey_ok in E. injection E as -> ->. intros E. injection E as <-. apply (i_sound _ _ IV). now left.
      - intros E'. apply (i_sound _ _ IV). now right. }
    assert (Sx : attained l len x /\ (len <= maxlen)%nat) by (apply (i_sound _ _ IV); now left).
    pose proof (attained_nonneg _ _ _ (proj1 Sx)) as X0.
    destruct COST as [CR _].
    (* what the updates are *)
    assert (US : forall l' n v, In ((l', n), v) us ->
              x <= v /\ dget ikey_eqb (l', n) ins' = None /\ attained l' n v /\ (n <= maxlen)%nat).
    { intros l' n v I. apply iupd_in in I. destruct Sx as [(t & Dt & Lt & St & Ct) Mx].
      destruct I as [(r & I & U & R1 & N & E & ->)|[(r & m & y & I & U & R1 & Y & M & N & E & ->)|(r & m & y & I & U & R1 & Y & M & N & E & ->)]];
        injection E as -> ->; pose proof (CR _ I) as CP.
      - split; [lia|]. split; [exact N|]. split; [|exact Mx]. exists (PUn r t). cbn.
        split; [repeat split; congruence|]. split; [reflexivity|]. split; [exact St|]. rewrite Ct. lia.
      - destruct (S' _ _ _ Y) as [(t' & Dt' & Lt' & St' & Ct') _]. pose proof (cost_nonneg _ Dt').
        split; [lia|]. split; [exact N|]. split; [|lia]. exists (PBin r t t'). cbn.
        split; [repeat split; congruence|]. split; [reflexivity|]. split; [congruence|]. rewrite Ct, Ct'. lia.
      - destruct (S' _ _ _ Y) as [(t' & Dt' & Lt' & St' & Ct') _]. pose proof (cost_nonneg _ Dt').
        split; [lia|]. split; [exact N|]. split; [|lia]. exists (PBin r t' t). cbn.
        split; [repeat split; congruence|]. split; [reflexivity|]. split; [congruence|]. rewrite Ct, Ct'. lia. }
    assert (KN : forall k' c, known ag ins k' c -> known ag2 ins' k' c).
    { intros k' c [(v & E & L)|(v & E & L)].
      - left. exists v. split; [|exact L]. rewrite GI. destruct (ikey_eqb k' (l, len)) eqn:Q; [|exact E].
        apply ikey_ok in Q. subst. congruence.
      - destruct (ikey_eqb k' (l, len)) eqn:Q.
        + apply ikey_ok in Q. subst. left. exists x. rewrite GI.
          assert (R : ikey_eqb (l, len) (l, len) = true) by now apply ikey_ok.
          rewrite R. split; [reflexivity|]. rewrite Gk in E. injection E as <-. exact L.
        + right. apply B. exists v. rewrite (remove_get ikey_eqb ikey_ok), Q. auto. }
    assert (KN2 : forall l' n c, In ((l', n), c) us -> known ag2 ins' (l', n) c).
    { intros l' n c I. right. now apply A. }
    constructor.
    - apply D. apply (remove_nodup ikey_eqb). apply IV.
    - apply (dput_nodup _ ikey_ok). apply IV.
    - intros [l' n] v G. destruct (C _ _ G) as [H|H].
      + rewrite (remove_get ikey_eqb ikey_ok) in H. rewrite GI. destruct (ikey_eqb (l', n) (l, len)); [discriminate|].
        eapply i_dis; eassumption.
      + now destruct (US _ _ _ H).
    - intros l' n v [G|G]; [|now apply S']. destruct (C _ _ G) as [H|H].
      + rewrite (remove_get ikey_eqb ikey_ok) in H. destruct (ikey_eqb (l', n) (l, len)); [discriminate|].
        apply (i_sound _ _ IV). now left.
      + now destruct (US _ _ _ H).
    - intros k1 v [l' n] v' G1 G2. apply LE in G1. destruct (C _ _ G2) as [H|H].
      + rewrite (remove_get ikey_eqb ikey_ok) in H. destruct (ikey_eqb (l', n) (l, len)); [discriminate|].
        apply MIN in H. lia.
      + destruct (US _ _ _ H). lia.
    - intros l' p I. apply KN. now apply (i_lex _ _ IV).
    - intros r n y I U G. unfold ilook in G. rewrite GI in G. pose proof (CR _ I) as CP.
      destruct (ikey_eqb (e_rhs1 r, n) (l, len)) eqn:Q.
      + apply ikey_ok in Q. injection Q as Q1 Q2. injection G as <-. subst n.
        destruct (ilook ins' (e_lhs r) len) as [v|] eqn:E.
        * left. exists v. split; [exact E|]. apply LE in E. lia.
        * apply KN2. apply iupd_in. left. exists r. auto 10.
      + apply KN. now apply (i_un _ _ IV).
    - intros r m n y z I U G1 G2 M. pose proof (CR _ I) as CP.
      assert (Y0 : 0 <= y) by (destruct (S' _ _ _ G1) as [W _]; now apply attained_nonneg in W).
      assert (Z0 : 0 <= z) by (destruct (S' _ _ _ G2) as [W _]; now apply attained_nonneg in W).
      assert (Pm : (1 <= m)%nat) by (destruct (S' _ _ _ G1) as [(t & _ & _ & <- & _) _]; apply size_pos).
      assert (Pn : (1 <= n)%nat) by (destruct (S' _ _ _ G2) as [(t & _ & _ & <- & _) _]; apply size_pos).
      pose proof G1 as G1'. pose proof G2 as G2'. unfold ilook in G1, G2. rewrite GI in G1, G2.
      destruct (ikey_eqb (e_rhs1 r, m) (l, len)) eqn:Q1.
      + apply ikey_ok in Q1. injection Q1 as Qa Qb. injection G1 as <-. subst m.
        destruct (ilook ins' (e_lhs r) (len + n)) as [v|] eqn:E.
        * left. exists v. split; [exact E|]. apply LE in E. lia.
        * apply KN2. apply iupd_in. right. left. exists r, n, z.
          split; [exact I|]. split; [exact U|]. split; [exact Qa|]. split; [exact G2'|]. split; [lia|]. auto.
      + destruct (ikey_eqb (e_rhs2 r, n) (l, len)) eqn:Q2.
        * apply ikey_ok in Q2. injection Q2 as Qa Qb. injection G2 as <-. subst n.
          destruct (ilook ins' (e_lhs r) (m + len)) as [v|] eqn:E.
          -- left. exists v. split; [exact E|]. apply LE in E. lia.
          -- apply KN2. apply iupd_in. right. right. exists r, m, y.
             split; [exact I|]. split; [exact U|]. split; [exact Qa|]. split; [exact G1'|]. split; [lia|]. auto.
        * apply KN. now apply (i_bin _ _ IV).
  Qed.

  (** the final table *)
  Definition exact_inside (ins : list (ikey * N)) : Prop :=
    (forall l n v, ilook ins l n = Some v -> attained l n v /\ (n <= maxlen)%nat)
    /\ (forall t, derivation g t -> (psize t <= maxlen)%nat ->
          exists v, ilook ins (plabel t) (psize t) = Some v /\ v <= pcost t).
  Lemma final_exact : forall ins, iinv [] ins -> exact_inside ins.
  Proof.
    intros ins IV. split; [intros l n v H; apply (i_sound _ _ IV); now right|].
    assert (KK : forall k c, known [] ins k c -> covers ikey_eqb ins k c).
    { intros k c [H|(v & E & _)]; [exact H|discriminate]. }
    induction t as [l p|r t IH|r a IHa b IHb]; cbn [derivation plabel psize pcost]; intros DV SZ.
    - apply KK. now apply (i_lex _ _ IV).
    - destruct DV as (I & U & R & D). destruct (IH D SZ) as (v & E & L). rewrite <- R in E.
      destruct (KK _ _ (i_un _ _ IV r _ _ I U E)) as (w & E' & L'). exists w. split; [exact E'|]. lia.
    - destruct DV as (I & U & R1 & R2 & Da & Db). destruct (IHa Da) as (v1 & E1 & L1); [lia|].
      destruct (IHb Db) as (v2 & E2 & L2); [lia|]. rewrite <- R1 in E1. rewrite <- R2 in E2.
      destruct (KK _ _ (i_bin _ _ IV r _ _ _ _ I U E1 E2 SZ)) as (w & E' & L'). exists w. split; [exact E'|]. lia.
  Qed.
  Lemma loop_exact : forall n ag ins res, inside_loop g maxlen n ag ins res -> iinv ag ins -> exact_inside res.
  Proof.
    intros n ag ins res H. induction H as [ins|n ag k x ag' ins res P _ IH]; intros IV.
    - now apply final_exact.
    - apply IH. now destruct (step_inv ag ins k x ag' IV P) as (_ & _ & S).
  Qed.
  Theorem inside_exact : forall res, pcfginsidesx g maxlen res -> exact_inside res.
  Proof. intros res [n H]. apply (loop_exact n _ _ _ H). exact init_inv. Qed.

  (** termination *)
  Definition labelset : list nat := map e_lhs (g_rules g) ++ map fst (g_lexical g).
  Definition iuniverse : list ikey := list_prod labelset (seq 1 maxlen).
  Lemma attained_label : forall l n v, attained l n v -> In l labelset.
  Proof.
    intros l n v (t & D & <- & _). unfold labelset. apply in_or_app.
    destruct t as [l0 p|r t|r a b]; cbn in *.
    - right. change l0 with (fst (l0, p)). now apply in_map.
    - left. apply in_map. tauto.
    - left. apply in_map. tauto.
  Qed.
  Lemma ins_bound : forall ag ins, iinv ag ins -> (length ins <= length iuniverse)%nat.
  Proof.
    intros ag ins IV. rewrite <- (map_length fst ins). apply NoDup_incl_length; [apply IV|].
    intros [l n] I. apply (dget_some _ ikey_ok) in I. destruct I as [v E].
    destruct (i_sound _ _ IV l n v) as [A L]; [now right|]. apply in_prod; [eapply attained_label; eassumption|].
    destruct A as (t & _ & _ & <- & _). pose proof (size_pos t). apply in_seq. lia.
  Qed.
  Lemma dput_new_length : forall (k : ikey) (x : N) m, dget ikey_eqb k m = None -> length (dput ikey_eqb k x m) = S (length m).
  Proof.
    clear. intros k x m. induction m as [|[k1 v1] m IH]; cbn; [reflexivity|].
    destruct (ikey_eqb k k1); [discriminate|]. intros H. cbn. now rewrite IH.
  Qed.
  Lemma iloop_bound : forall n ag ins res, inside_loop g maxlen n ag ins res -> iinv ag ins ->
    (n + length ins <= length iuniverse)%nat.
  Proof.
    intros n ag ins res H. induction H as [ins|n ag k x ag' ins res P _ IH]; intros IV.
    - now apply (ins_bound [] ins).
    - destruct (step_inv ag ins k x ag' IV P) as (E & N & S). specialize (IH S).
      rewrite E, (dput_new_length _ _ _ N) in IH. lia.
  Qed.
  Lemma iloop_total : forall m ag ins, (length iuniverse - length ins <= m)%nat -> iinv ag ins ->
    exists n res, inside_loop g maxlen n ag ins res.
  Proof.
    induction m as [|m IH]; intros ag ins L IV; (destruct ag as [|e ag0] eqn:EA;
      [exists 0%nat, ins; apply il_empty|]); rewrite <- EA in *;
      (destruct (pops_exist ikey_eqb ikey_ok ag) as (k & x & P); [rewrite EA; discriminate|]);
      destruct (step_inv ag ins k x _ IV P) as (E & N & S);
      pose proof (ins_bound _ _ S) as B; rewrite E, (dput_new_length _ _ _ N) in B.
    - lia.
    - assert (L2 : (length iuniverse - length (istore ins k x) <= m)%nat)
        by (rewrite E, (dput_new_length _ _ _ N); lia).
      destruct (IH _ _ L2 S) as (n & res & R).
      exists (Datatypes.S n), res. econstructor; eassumption.
  Qed.
End InsideProof.
