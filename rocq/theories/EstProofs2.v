(** Proofs for C67, part 2: the outside costs. *)
From Coq Require Import List Bool Arith NArith Lia.
From Verif Require Import McpModel McpProofs EstModel EstSpec EstProofs.
Import ListNotations.
Local Open Scope N_scope.
Local Open Scope list_scope.

Lemma occurs_trans : forall T s m n, occurs T s m n -> forall u m' n', occurs s u m' n' ->
  occurs T u (m + m') (n' + n).
Proof.
  intros T s m n H. induction H as [t|r t s m n H IH|r a b s m n H IH|r a b s m n H IH]; intros u m' n' H'.
  - now rewrite Nat.add_0_r.
  - constructor. now apply IH.
  - rewrite Nat.add_assoc. constructor. now apply IH.
  - rewrite <- Nat.add_assoc. constructor. now apply IH.
Qed.
Lemma occurs_size : forall T s m n, occurs T s m n -> psize T = (m + psize s + n)%nat.
Proof. intros T s m n H. induction H; cbn; lia. Qed.
Lemma occurs_derivation : forall g T s m n, occurs T s m n -> derivation g T -> derivation g s.
Proof. intros g T s m n H. induction H; cbn; tauto. Qed.

Section OutsideProof.
  Variable g : egrammar.
  Variable maxlen goal : nat.
  Variable ins : list (ikey * N).
  Hypothesis COST : costs g.
  Hypothesis ML : (1 <= maxlen)%nat.
  Hypothesis INS : exact_inside g maxlen ins.

  (** a context of the given shape and cost *)
  Definition context (l m n : nat) (v : N) : Prop :=
    forall s, derivation g s -> plabel s = l ->
    exists T, derivation g T /\ plabel T = goal /\ occurs T s m n /\ pcost T = v + pcost s.

  Lemma oupd_in : forall l m n x k v, In (k, v) (oupdates g maxlen ins l m n x) <->
    (exists r, In r (g_rules g) /\ e_lhs r = l /\ e_rhs2 r = 0%nat /\ k = (e_rhs1 r, m, n) /\ v = e_prob r + x)
    \/ (exists r s y, In r (g_rules g) /\ e_lhs r = l /\ e_rhs2 r <> 0%nat /\ ilook ins (e_rhs2 r) s = Some y
          /\ (1 <= s <= maxlen - m - n - 1)%nat /\ k = (e_rhs1 r, m, (n + s)%nat) /\ v = e_prob r + x + y)
    \/ (exists r s y, In r (g_rules g) /\ e_lhs r = l /\ e_rhs2 r <> 0%nat /\ ilook ins (e_rhs1 r) s = Some y
          /\ (1 <= s <= maxlen - m - n - 1)%nat /\ k = (e_rhs2 r, (m + s)%nat, n) /\ v = e_prob r + y + x).
  Proof.
    clear COST ML INS. intros l m n x k v. unfold oupdates. rewrite in_flat_map.
    assert (B : forall r, In r (bylhsrules g l) <-> In r (g_rules g) /\ e_lhs r = l).
    { intros r. unfold bylhsrules. now rewrite filter_In, Nat.eqb_eq. }
    split.
    - intros (r & I & J). apply B in I. unfold isunary in J. destruct (Nat.eqb_spec (e_rhs2 r) 0) as [U|U].
      + left. destruct J as [J|[]]. injection J as <- <-. exists r. tauto.
      + right. apply in_app_or in J. destruct J as [J|J]; [left|right]; apply in_flat_map in J;
          destruct J as (s & S & J); apply in_seq in S.
        * destruct (ilook ins (e_rhs2 r) s) as [y|] eqn:E; [|contradiction]. destruct J as [J|[]]. injection J as <- <-.
          exists r, s, y. repeat split; try tauto; lia.
        * destruct (ilook ins (e_rhs1 r) s) as [y|] eqn:E; [|contradiction]. destruct J as [J|[]]. injection J as <- <-.
          exists r, s, y. repeat split; try tauto; lia.
    - intros [(r & I & L & U & -> & ->)|[(r & s & y & I & L & U & E & S & -> & ->)|(r & s & y & I & L & U & E & S & -> & ->)]];
        exists r; (split; [now apply B|]); unfold isunary.
      + rewrite U. now left.
      + apply Nat.eqb_neq in U. rewrite U. apply in_or_app. left. apply in_flat_map. exists s.
        split; [apply in_seq; lia|]. rewrite E. now left.
      + apply Nat.eqb_neq in U. rewrite U. apply in_or_app. right. apply in_flat_map. exists s.
        split; [apply in_seq; lia|]. rewrite E. now left.
  Qed.
  Lemma oupd_ok : forall l m n x l' m' n' v, context l m n x -> 0 <= x -> (m + n < maxlen)%nat ->
    In ((l', m', n'), v) (oupdates g maxlen ins l m n x) ->
    x <= v /\ context l' m' n' v /\ (m' + n' < maxlen)%nat
    /\ exists r, In r (g_rules g) /\ (l' = e_rhs1 r \/ l' = e_rhs2 r).
  Proof.
    intros l m n x l' m' n' v CT X0 MN I. apply oupd_in in I. destruct COST as [CR _]. destruct INS as [IS _].
    destruct I as [(r & I & L & U & E & ->)|[(r & s & y & I & L & U & Y & S & E & ->)|(r & s & y & I & L & U & Y & S & E & ->)]];
      injection E as -> -> ->; pose proof (CR _ I) as CP.
    - split; [lia|]. split; [|split; [exact MN|eauto]]. intros t D LT.
      destruct (CT (PUn r t)) as (T & DT & LG & OC & C); [cbn; auto|exact L|].
      exists T. split; [exact DT|]. split; [exact LG|]. split.
      + replace m with (m + 0)%nat by lia. change n with (0 + n)%nat. eapply occurs_trans; [exact OC|].
        constructor. constructor.
      + cbn [pcost] in C. lia.
    - destruct (IS _ _ _ Y) as [(b & Db & Lb & Sb & Cb) _].
      split; [lia|]. split; [|split; [lia|eauto]]. intros t D LT.
      destruct (CT (PBin r t b)) as (T & DT & LG & OC & C); [cbn; auto 10|exact L|].
      exists T. split; [exact DT|]. split; [exact LG|]. split.
      + replace m with (m + 0)%nat by lia. replace (n + s)%nat with ((0 + psize b) + n)%nat by lia.
        eapply occurs_trans; [exact OC|]. constructor. constructor.
      + cbn [pcost] in C. lia.
    - destruct (IS _ _ _ Y) as [(b & Db & Lb & Sb & Cb) _].
      split; [lia|]. split; [|split; [lia|eauto]]. intros t D LT.
      destruct (CT (PBin r b t)) as (T & DT & LG & OC & C); [cbn; auto 10|exact L|].
      exists T. split; [exact DT|]. split; [exact LG|]. split.
      + replace (m + s)%nat with (m + (psize b + 0))%nat by lia. change n with (0 + n)%nat.
        eapply occurs_trans; [exact OC|]. constructor. constructor.
      + cbn [pcost] in C. lia.
  Qed.

  Notation get := (dget okey_eqb).
  Definition relaxed (out : otable) (k : okey) (v : N) : Prop :=
    forall k' v', In (k', v') (oupdates g maxlen ins (fst (fst k)) (snd (fst k)) (snd k) v) -> covers okey_eqb out k' v'.
  (** [D]: the items that have been popped *)
  Record oinv (D : list okey) (ag : list (okey * N)) (out : otable) : Prop := {
    o_nd : NoDup (map fst ag);
    o_dn : NoDup D;
    o_ag : forall k v, get k ag = Some v -> get k out = Some v;
    o_done : forall k, In k D -> exists v, get k out = Some v /\ get k ag = None /\ relaxed out k v
               /\ forall k' v', get k' ag = Some v' -> v <= v';
    o_all : forall k v, get k out = Some v -> In k D \/ get k ag = Some v;
    o_sound : forall l m n v, get (l, m, n) out = Some v -> context l m n v /\ 0 <= v /\ (m + n < maxlen)%nat
               /\ (l = goal \/ exists r, In r (g_rules g) /\ (l = e_rhs1 r \/ l = e_rhs2 r));
    o_goal : covers okey_eqb out (goal, 0%nat, 0%nat) 0 }.

  Lemma oinit_inv : oinv [] [((goal, 0%nat, 0%nat), 0)] [((goal, 0%nat, 0%nat), 0)].
  Proof.
    constructor.
    - repeat constructor; auto.
    - constructor.
    - auto.
    - intros k [].
    - auto.
    - intros l m n v H. apply (dget_in _ okey_ok) in H. destruct H as [H|[]]. injection H as <- <- <- <-.
      split; [|split; [lia|split; [lia|now left]]]. intros s Ds Ls. exists s.
      split; [exact Ds|]. split; [exact Ls|]. split; [constructor|lia].
    - exists 0. cbn [dget]. assert (E : okey_eqb (goal, 0%nat, 0%nat) (goal, 0%nat, 0%nat) = true) by now apply okey_ok.
      rewrite E. split; [reflexivity|lia].
  Qed.

  (** relaxing a list of updates that are all at least x; DX: popped items *)
  Lemma relax_loop : forall (DX : list okey) x us ag out, 
    NoDup (map fst ag) ->
    (forall k v, get k ag = Some v -> get k out = Some v /\ x <= v) ->
    (forall k, In k DX -> exists v, get k out = Some v /\ v <= x /\ get k ag = None) ->
    (forall k v, In (k, v) us -> x <= v) ->
    let st := fold_left relax us (ag, out) in
    NoDup (map fst (fst st))
    /\ (forall k v, get k (fst st) = Some v -> get k (snd st) = Some v /\ x <= v)
    /\ (forall k, In k DX -> get k (snd st) = get k out /\ get k (fst st) = None)
    /\ (forall k v, In (k, v) us -> covers okey_eqb (snd st) k v)
    /\ (forall k c, covers okey_eqb out k c -> covers okey_eqb (snd st) k c)
    /\ (forall k v, get k (snd st) = Some v ->
          (get k out = Some v /\ (get k ag = Some v -> get k (fst st) = Some v)) 
          \/ (In (k, v) us /\ get k (fst st) = Some v)).
  Proof.
    clear. intros DX x us. induction us as [|[k0 v0] us IH]; intros ag out ND AG DN US; cbn [fold_left]; cbv zeta.
    - cbn [fst snd]. split; [exact ND|]. split; [exact AG|]. split; [|split; [intros ? ? []|split; [auto|]]].
      + intros k I. destruct (DN k I) as (v & _ & _ & E). auto.
      + intros k v G. left. auto.
    - cbv zeta in IH.
      set (better := match get k0 out with Some cur => if Nlt_le_dec v0 cur then true else false | None => true end).
      assert (RE : relax (ag, out) (k0, v0)
        = if better then (dput okey_eqb k0 v0 ag, dput okey_eqb k0 v0 out) else (ag, out)) by reflexivity.
      rewrite RE. clear RE.
      assert (X0 : x <= v0) by (apply (US k0); now left).
      destruct better eqn:BB; unfold better in BB.
      + assert (NK : ~ In k0 DX).
        { intros I. destruct (DN k0 I) as (v & G & L & _). rewrite G in BB. destruct (Nlt_le_dec v0 v); [lia|discriminate]. }
        cbn [fst snd].
        set (ag1 := dput okey_eqb k0 v0 ag). set (out1 := dput okey_eqb k0 v0 out).
        assert (GO : forall k, get k out1 = if okey_eqb k k0 then Some v0 else get k out).
        { intros k. unfold out1. destruct (okey_eqb k k0) eqn:E; [apply okey_ok in E; subst; apply (dget_put_same _ okey_ok)|].
          apply (dget_put_other _ okey_ok). intros F. apply okey_ok in F. congruence. }
        assert (GA : forall k, get k ag1 = if okey_eqb k k0 then Some v0 else get k ag).
        { intros k. unfold ag1. destruct (okey_eqb k k0) eqn:E; [apply okey_ok in E; subst; apply (dget_put_same _ okey_ok)|].
          apply (dget_put_other _ okey_ok). intros F. apply okey_ok in F. congruence. }
        assert (CV : forall k c, covers okey_eqb out k c -> covers okey_eqb out1 k c).
        { intros k c (w & E & L). unfold covers. rewrite GO. destruct (okey_eqb k k0) eqn:Q; [|eauto].
          apply okey_ok in Q. subst. exists v0. split; [reflexivity|]. rewrite E in BB. destruct (Nlt_le_dec v0 w); [lia|discriminate]. }
        destruct (IH ag1 out1) as (A & B & C & D & E & F).
        * now apply (dput_nodup _ okey_ok).
        * intros k v. rewrite GA, GO. destruct (okey_eqb k k0); [intros E; injection E as <-; auto|apply AG].
        * intros k I. destruct (DN k I) as (v & G & L & N). exists v. rewrite GA, GO.
          destruct (okey_eqb k k0) eqn:Q; [apply okey_ok in Q; subst; contradiction|auto].
        * intros k v I. apply (US k). now right.
        * split; [exact A|]. split; [exact B|]. split; [|split; [|split]].
          -- intros k I. destruct (C k I) as [C1 C2]. split; [|exact C2]. rewrite C1, GO.
             destruct (okey_eqb k k0) eqn:Q; [apply okey_ok in Q; subst; contradiction|reflexivity].
          -- intros k v [H|I]; [injection H as <- <-|now apply D]. apply E. exists v0. rewrite GO.
             assert (R : okey_eqb k0 k0 = true) by now apply okey_ok. rewrite R. split; [reflexivity|lia].
          -- intros k c H. apply E. now apply CV.
          -- intros k v G. destruct (F k v G) as [[F1 F2]|[F1 F2]]; [|right; split; [now right|exact F2]].
             rewrite GO in F1. rewrite GA in F2. destruct (okey_eqb k k0) eqn:Q.
             ++ apply okey_ok in Q. subst. injection F1 as <-. right. split; [now left|auto].
             ++ left. auto.
      + destruct (get k0 out) as [cur|] eqn:G0; [|discriminate].
        destruct (Nlt_le_dec v0 cur) as [L0|L0]; [discriminate|].
        destruct (IH ag out ND AG DN) as (A & B & C & D & E & F).
        * intros k v I. apply (US k). now right.
        * split; [exact A|]. split; [exact B|]. split; [exact C|]. split; [|split; [exact E|]].
          -- intros k v [H|I]; [injection H as <- <-|now apply D]. apply E. exists cur. auto.
          -- intros k v G. destruct (F k v G) as [H|[F1 F2]]; [now left|right; split; [now right|exact F2]].
  Qed.

  Lemma ostep_inv : forall D ag out k x ag', oinv D ag out -> pops okey_eqb ag k x ag' ->
    ~ In k D
    /\ let st := fold_left relax (oupdates g maxlen ins (fst (fst k)) (snd (fst k)) (snd k) x) (ag', out) in
       oinv (k :: D) (fst st) (snd st).
  Proof.
    intros D ag out k x ag' IV (P1 & P2 & ->).
    assert (Gk : get k ag = Some x) by (apply (in_dget _ okey_ok); [apply IV|exact P1]).
    assert (NK : ~ In k D).
    { intros I. destruct (o_done _ _ _ IV k I) as (v & _ & N & _). congruence. }
    split; [exact NK|].
    assert (Ok : get k out = Some x) by now apply (o_ag _ _ _ IV).
    destruct k as [[l m] n]. cbn [fst snd].
    destruct (o_sound _ _ _ IV _ _ _ _ Ok) as (CT & X0 & MN & _).
    set (us := oupdates g maxlen ins l m n x).
    assert (US : forall k v, In (k, v) us -> x <= v).
    { intros [[l' m'] n'] v I. now destruct (oupd_ok _ _ _ _ _ _ _ _ CT X0 MN I). }
    set (ag1 := dremove okey_eqb (l, m, n) ag).
    assert (GA : forall k, get k ag1 = if okey_eqb k (l, m, n) then None else get k ag).
    { intros k. apply (remove_get okey_eqb okey_ok). }
    assert (R : okey_eqb (l, m, n) (l, m, n) = true) by now apply okey_ok.
    destruct (relax_loop ((l, m, n) :: D) x us ag1 out) as (A & B & C & E & F & G).
    - apply (remove_nodup okey_eqb). apply IV.
    - intros k v. rewrite GA. destruct (okey_eqb k (l, m, n)); [discriminate|]. intros H.
      split; [now apply (o_ag _ _ _ IV)|]. apply (P2 k). now apply (dget_in _ okey_ok).
    - intros k [<-|I].
      + exists x. split; [exact Ok|]. split; [lia|]. now rewrite GA, R.
      + destruct (o_done _ _ _ IV k I) as (v & H1 & H2 & _ & H3). exists v. split; [exact H1|].
        split; [now apply (H3 (l, m, n))|]. rewrite GA, H2. now destruct (okey_eqb k (l, m, n)).
    - exact US.
    - set (st := fold_left relax us (ag1, out)) in *. cbv zeta.
      assert (RX : forall k v, relaxed out k v -> relaxed (snd st) k v).
      { intros k v H k' v' I. apply F. now apply H. }
      constructor.
      + exact A.
      + constructor; [exact NK|apply IV].
      + intros k v H. now destruct (B k v H).
      + intros k [<-|I].
        * exists x. destruct (C (l, m, n) (or_introl eq_refl)) as [C1 C2]. split; [exact (eq_trans C1 Ok)|]. split; [exact C2|]. split.
          -- intros k' v' I. cbn [fst snd] in I. now apply E.
          -- intros k' v' H. now destruct (B k' v' H).
        * destruct (o_done _ _ _ IV k I) as (v & H1 & H2 & H3 & H4). exists v.
          destruct (C k (or_intror I)) as [C1 C2]. split; [exact (eq_trans C1 H1)|]. split; [exact C2|]. split; [now apply RX|].
          intros k' v' H. destruct (B k' v' H) as [_ L]. specialize (H4 _ _ Gk). lia.
      + intros k v H. destruct (G k v H) as [[G1 G2]|[_ G2]]; [|now right].
        destruct (o_all _ _ _ IV k v G1) as [I|I]; [left; now right|].
        destruct (okey_eqb k (l, m, n)) eqn:Q.
        * apply okey_ok in Q. left. left. congruence.
        * right. apply G2. now rewrite GA, Q.
      + intros l' m' n' v H. destruct (G _ v H) as [[G1 _]|[G1 _]]; [now apply (o_sound _ _ _ IV)|].
        destruct (oupd_ok _ _ _ _ _ _ _ _ CT X0 MN G1) as (H1 & H2 & H3 & H4).
        split; [exact H2|]. split; [lia|]. split; [exact H3|now right].
      + apply F. apply IV.
  Qed.

  (** the final table *)
  Definition exact_outside (out : otable) : Prop :=
    (forall l m n v, get (l, m, n) out = Some v -> context l m n v /\ (m + n < maxlen)%nat)
    /\ (forall k v, get k out = Some v -> relaxed out k v)
    /\ covers okey_eqb out (goal, 0%nat, 0%nat) 0.
  Lemma ofinal : forall D out, oinv D [] out -> exact_outside out.
  Proof.
    intros D out IV. split; [|split].
    - intros l m n v H. destruct (o_sound _ _ _ IV _ _ _ _ H) as (A & _ & B & _). auto.
    - intros k v H. destruct (o_all _ _ _ IV k v H) as [I|I]; [|discriminate].
      destruct (o_done _ _ _ IV k I) as (w & H1 & _ & H2 & _). rewrite H in H1. injection H1 as <-. exact H2.
    - apply IV.
  Qed.
  Lemma oloop_exact : forall c ag out res, outside_loop g maxlen ins c ag out res ->
    forall D, oinv D ag out -> exact_outside res.
  Proof.
    intros c ag out res H. induction H as [out|c ag k x ag' out res P _ IH]; intros D IV.
    - now apply (ofinal D).
    - destruct (ostep_inv D ag out k x ag' IV P) as [_ S]. exact (IH _ S).
  Qed.
  Theorem outside_exact : forall res, pcfgoutsidesx g maxlen ins goal res -> exact_outside res.
  Proof. intros res [c H]. exact (oloop_exact c _ _ _ H [] oinit_inv). Qed.

  Lemma outside_lower : forall out, exact_outside out -> forall T s m n, occurs T s m n -> derivation g T ->
    forall m0 n0 v0, get (plabel T, m0, n0) out = Some v0 -> (m0 + psize T + n0 <= maxlen)%nat ->
    exists v, get (plabel s, (m0 + m)%nat, (n + n0)%nat) out = Some v /\ v + pcost s <= v0 + pcost T.
  Proof.
    intros out (_ & RX & _) T s m n H.
    induction H as [t|r t s m n H IH|r a b s m n H IH|r a b s m n H IH]; intros DV m0 n0 v0 G0 SZ.
    - exists v0. rewrite Nat.add_0_r. split; [exact G0|lia].
    - destruct DV as (I & U & R & D). cbn [plabel psize pcost] in *.
      destruct (RX _ _ G0 (e_rhs1 r, m0, n0) (e_prob r + v0)) as (w & Gw & Lw).
      { cbn [fst snd]. apply oupd_in. left. exists r. auto. }
      rewrite R in Gw. destruct (IH D _ _ _ Gw SZ) as (v & G & L). exists v. split; [exact G|]. lia.
    - destruct DV as (I & U & R1 & R2 & Da & Db). cbn [plabel psize pcost] in *.
      destruct INS as [_ IC]. destruct (IC b Db) as (y & Y & Ly); [lia|].
      pose proof (size_pos a). pose proof (size_pos b).
      destruct (RX _ _ G0 (e_rhs1 r, m0, (n0 + psize b)%nat) (e_prob r + v0 + y)) as (w & Gw & Lw).
      { cbn [fst snd]. apply oupd_in. right. left. exists r, (psize b), y. rewrite R2.
        split; [exact I|]. split; [reflexivity|]. split; [congruence|]. split; [exact Y|]. split; [lia|]. auto. }
      rewrite R1 in Gw. destruct (IH Da _ _ _ Gw) as (v & G & L); [lia|]. exists v.
      split; [|lia]. replace (n + psize b + n0)%nat with (n + (n0 + psize b))%nat by lia. exact G.
    - destruct DV as (I & U & R1 & R2 & Da & Db). cbn [plabel psize pcost] in *.
      destruct INS as [_ IC]. destruct (IC a Da) as (y & Y & Ly); [lia|].
      pose proof (size_pos a). pose proof (size_pos b).
      destruct (RX _ _ G0 (e_rhs2 r, (m0 + psize a)%nat, n0) (e_prob r + y + v0)) as (w & Gw & Lw).
      { cbn [fst snd]. apply oupd_in. right. right. exists r, (psize a), y. rewrite R1.
        split; [exact I|]. split; [reflexivity|]. split; [exact U|]. split; [exact Y|]. split; [lia|]. auto. }
      rewrite R2 in Gw. destruct (IH Db _ _ _ Gw) as (v & G & L); [lia|]. exists v.
      split; [|lia]. replace (m0 + (psize a + m))%nat with (m0 + psize a + m)%nat by lia. exact G.
  Qed.

  (** termination *)
  Definition ouniverse : list okey :=
    list_prod (list_prod (goal :: map e_rhs1 (g_rules g) ++ map e_rhs2 (g_rules g)) (seq 0 maxlen)) (seq 0 maxlen).
  Lemma o_bound : forall D ag out, oinv D ag out -> (length D <= length ouniverse)%nat.
  Proof.
    intros D ag out IV. apply NoDup_incl_length; [apply IV|]. intros [[l m] n] I.
    destruct (o_done _ _ _ IV _ I) as (v & G & _). destruct (o_sound _ _ _ IV _ _ _ _ G) as (_ & _ & MN & L).
    apply in_prod; [apply in_prod|]; [|apply in_seq; lia|apply in_seq; lia].
    destruct L as [->|(r & Ir & [-> | ->])]; [now left| |]; right; apply in_or_app; [left|right]; now apply in_map.
  Qed.
  Lemma oloop_bound : forall c ag out res, outside_loop g maxlen ins c ag out res ->
    forall D, oinv D ag out -> (c + length D <= length ouniverse)%nat.
  Proof.
    intros c ag out res H. induction H as [out|c ag k x ag' out res P _ IH]; intros D IV.
    - exact (o_bound D [] out IV).
    - destruct (ostep_inv D ag out k x ag' IV P) as [_ S]. specialize (IH _ S). cbn [length] in IH. lia.
  Qed.
  Lemma oloop_total : forall w D ag out, (length ouniverse - length D <= w)%nat -> oinv D ag out ->
    exists c res, outside_loop g maxlen ins c ag out res.
  Proof.
    induction w as [|w IH]; intros D ag out L IV; (destruct ag as [|e ag0] eqn:EA;
      [exists 0%nat, out; apply ol_empty|]); rewrite <- EA in *;
      (destruct (pops_exist okey_eqb okey_ok ag) as (k & x & P); [rewrite EA; discriminate|]);
      destruct (ostep_inv D ag out k x _ IV P) as (N & S); cbv zeta in S;
      pose proof (o_bound _ _ _ S) as B; cbn [length] in B.
    - lia.
    - destruct (IH (k :: D) _ _ ltac:(cbn [length]; lia) S) as (c & res & R).
      exists (Datatypes.S c), res. econstructor; [exact P|exact R].
  Qed.
End OutsideProof.
