From Coq Require Import NArith ZArith List Bool Lia ZifyBool ZifyN ZifyNat.
From Verif Require Import BitsModel BitsSpec BitsProofs FanoutProofs ArrayProofs ConcatModel ConcatSpec ConcatProofs.
Import ListNotations.
Local Open Scope N_scope.
Local Arguments nbits : simpl never.
Local Arguments N.add : simpl never.
Local Arguments N.sub : simpl never.

Definition zpos (l : list interval) : Z := match l with [] => (-1)%Z | (a, _) :: _ => Z.of_N a end.

Fixpoint cfl (F : list (bool * bool)) (al ar : list N) (lpos rpos : Z) : bool :=
  match F with
  | [] => (lpos =? rpos)%Z && (rpos =? -1)%Z
  | (s, last) :: F' =>
      if s : bool then
        if (rpos =? -1)%Z || (negb (lpos =? -1)%Z && (lpos <=? rpos)%Z) then false
        else
          let rpos := anextunset ar (Z.to_N rpos) in
          if negb (lpos =? -1)%Z && (lpos <? rpos)%Z then false
          else if (if last : bool then TESTBIT al (Z.to_N rpos)
                   else negb (TESTBIT al (Z.to_N rpos))) then false
          else cfl F' al ar lpos (anextset ar (Z.to_N rpos))
      else
        if (lpos =? -1)%Z || (negb (rpos =? -1)%Z && (rpos <=? lpos)%Z) then false
        else
          let lpos := anextunset al (Z.to_N lpos) in
          if negb (rpos =? -1)%Z && (rpos <? lpos)%Z then false
          else if (if last then TESTBIT ar (Z.to_N lpos)
                   else negb (TESTBIT ar (Z.to_N lpos))) then false
          else cfl F' al ar (anextset al (Z.to_N lpos)) rpos
  end.
Lemma cfl_ok : forall F n e al ar lp rp, spells F n e -> n + N.of_nat (length F) <= 64 ->
  concat_fat_loop (length F) n e al ar lp rp = cfl F al ar lp rp.
Proof.
  induction F as [|[s last] F IH]; intros n e al ar lp rp S H; [reflexivity|].
  destruct (spells_tail _ _ _ _ S) as (S1 & S2 & S3). cbn [length] in H.
  cbn [concat_fat_loop cfl length]. rewrite !testbit_ok by lia. rewrite S1, S2. cbn [fst snd].
  assert (IH' : forall lp rp, concat_fat_loop (length F) (n + 1) e al ar lp rp = cfl F al ar lp rp)
    by (intros; apply IH; auto; lia).
  cbv zeta. rewrite !IH'. reflexivity.
Qed.

(** One side of the state: array [v] seen from position [e] on has components [l]. *)
Definition side_ok (v : list N) (e : N) (l : list interval) : Prop :=
  words v /\ separated e l /\ (forall i, e <= i -> (amember v i <-> covered l i)) /\
  Forall (fun iv => snd iv < nbits v) l.

Lemma side_unset : forall v e a b l, side_ok v e ((a, b) :: l) -> anextunset v a = Z.of_N b.
Proof.
  intros v e a b l (W & S & C & B). cbn in S. destruct S as (S1 & S2 & S3).
  inversion B as [|? ? B1 B2]; subst. cbn in B1.
  assert (Nb : ~ amember v b).
  { rewrite C by lia. rewrite covered_cons. intros [K|K]; [lia|].
    apply (separated_covered_ge _ _ _ S3) in K. lia. }
  destruct (anextunset_ok v a W ltac:(lia)) as [[H1 H2]|(r & H1 & H2 & H3 & H4)].
  - exfalso. apply Nb. apply H2. lia.
  - rewrite H1. f_equal. destruct (N.lt_trichotomy r b) as [K|[K|K]]; auto; exfalso.
    + apply H3. apply C; [lia|]. apply covered_cons. lia.
    + apply Nb. apply H4. lia.
Qed.
Lemma side_next : forall v e l p, side_ok v e l -> e <= p -> starts_ge p l -> anextset v p = zpos l.
Proof.
  intros v e l p (W & S & C & B) Hp G.
  destruct (anextset_ok v p W) as [[H1 H2]|(r & H1 & (H2 & H3 & H4))]; rewrite H1.
  - destruct l as [|[a b] l]; auto. exfalso. inversion G; subst. inversion B; subst. cbn in *.
    destruct S as (S1 & S2 & S3). apply (H2 a); [lia|]. apply C; [lia|]. apply covered_cons. lia.
  - destruct l as [|[a b] l].
    + exfalso. apply C in H3; [|lia]. now apply covered_nil in H3.
    + cbn. f_equal. cbn in S. destruct S as (S1 & S2 & S3). inversion G; subst. cbn in *.
      apply C in H3; [|lia].
      assert (a <= r).
      { apply covered_cons in H3. destruct H3 as [H3|H3]; [lia|].
        apply (separated_covered_ge _ _ _ S3) in H3. lia. }
      destruct (N.eq_dec r a); auto. exfalso. apply (H4 a); [lia|]. apply C; [lia|]. apply covered_cons. lia.
Qed.
Lemma side_tail : forall v e a b l, side_ok v e ((a, b) :: l) -> side_ok v b l.
Proof.
  intros v e a b l (W & S & C & B). cbn in S. destruct S as (S1 & S2 & S3).
  split; auto. split; [apply (separated_weaken _ (b + 1)); auto; lia|]. split.
  - intros i Hi. rewrite C by lia. rewrite covered_cons. intuition lia.
  - now inversion B.
Qed.
Lemma side_advance : forall v e l b, side_ok v e l -> e <= b -> starts_ge b l -> side_ok v b l.
Proof.
  intros v e l b (W & S & C & B) Hb G. split; auto. split; [|split; auto].
  - destruct l as [|[x y] l]; auto. cbn in *. inversion G; subst. cbn in *. tauto.
  - intros i Hi. apply C. lia.
Qed.
Lemma side_testbit : forall v e l b, side_ok v e l -> e <= b -> starts_ge b l ->
  TESTBIT v b = match head l with Some a => a =? b | None => false end.
Proof.
  intros v e l b (W & S & C & B) Hb G. apply eq_iff_eq_true. rewrite TESTBIT_ok, C by assumption.
  destruct l as [|[x y] l]; cbn [head].
  - split; [intros K; now apply covered_nil in K|discriminate].
  - inversion G; subst. cbn in *. destruct S as (S1 & S2 & S3). rewrite covered_cons, N.eqb_eq. split.
    + intros [K|K]; [lia|]. apply (separated_covered_ge _ _ _ S3) in K. lia.
    + intros ->. lia.
Qed.

Definition disjoint_ivs (L R : list interval) : Prop := forall i, covered L i -> covered R i -> False.
Lemma disjoint_heads : forall a b L R e, disjoint_ivs ((a, b) :: L) R -> separated e R -> a < b ->
  match head R with Some x => x <> a /\ (a < x -> starts_ge b R) | None => starts_ge b R end.
Proof.
  intros a b L [|[x y] R] e D S Hab; cbn [head]; [constructor|].
  cbn in S. destruct S as (S1 & S2 & S3). split.
  - intros ->. apply (D a); apply covered_cons; lia.
  - intros H. assert (b <= x).
    { destruct (N.le_gt_cases b x); auto. exfalso. apply (D x); apply covered_cons; lia. }
    constructor; [cbn; lia|]. apply sep_tail_gt in S3.
    apply (Forall_impl _ (P := fun iv => y < fst iv)); auto. intros. lia.
Qed.

Definition cond (e : option N) (pl : bool) (L R : list interval) : Prop :=
  match e with
  | None => True
  | Some x => if pl then starts_gt x L /\ starts_gt x R else minhead L R = Some x
  end.
Definition base (e : option N) : N := match e with None => 0 | Some x => x end.

Lemma disjoint_tail_l : forall iv L R, disjoint_ivs (iv :: L) R -> disjoint_ivs L R.
Proof. intros [a b] L R D i H1 H2. apply (D i); auto. apply covered_cons. auto. Qed.
Lemma disjoint_sym : forall L R, disjoint_ivs L R -> disjoint_ivs R L.
Proof. intros L R D i H1 H2. apply (D i); auto. Qed.
Lemma minhead_sym : forall L R, minhead L R = minhead R L.
Proof. intros [|[a b] L] [|[x y] R]; cbn; auto. f_equal. lia. Qed.
Lemma cond_sym : forall e pl L R, cond e pl L R -> cond e pl R L.
Proof. intros [x|] [|] L R; cbn; try tauto. rewrite minhead_sym. auto. Qed.

(** The step, written once for "this side" X (array vx) and "other side" Y (vy). *)
Lemma fat_step : forall vx vy X Y e (pl last : bool) (K : Z -> bool)
  (FlowX : option N -> bool -> list interval -> Prop)  (* the flow of the whole step, by components of X *)
  (FlowTail : N -> bool -> list interval -> Prop),
  side_ok vx (base e) X -> side_ok vy (base e) Y -> disjoint_ivs X Y -> cond e pl X Y ->
  (* the rest of the loop decides the tail *)
  (forall a b X', X = (a, b) :: X' -> a < b -> side_ok vx b X' -> side_ok vy b Y -> disjoint_ivs X' Y ->
      cond (Some b) last X' Y -> (K (zpos X') = true <-> FlowTail b last X')) ->
  (* shape of the flow *)
  (forall P, FlowX e pl P <-> exists a b X', P = (a, b) :: X' /\
      match e with None => True | Some x => if pl then x < a else a = x end /\ a < b /\ FlowTail b last X') ->
  (forall b X', FlowTail b last X' -> starts_ge b Y /\ (last = true -> starts_gt b Y) /\
       (last = false -> exists p, minhead X' Y = Some p /\ p = b)) ->
  ((if (zpos X =? -1)%Z || (negb (zpos Y =? -1)%Z && (zpos Y <=? zpos X)%Z) then false
    else
      let xpos := anextunset vx (Z.to_N (zpos X)) in
      if negb (zpos Y =? -1)%Z && (zpos Y <? xpos)%Z then false
      else if (if last then TESTBIT vy (Z.to_N xpos) else negb (TESTBIT vy (Z.to_N xpos))) then false
      else K (anextset vx (Z.to_N xpos))) = true <-> FlowX e pl X).
Proof.
  intros vx vy X Y e pl last K FlowX FlowTail SX SY D C HK HF HT.
  rewrite HF. destruct X as [|[a b] X].
  { cbn. split; [discriminate|]. intros (? & ? & ? & E & _). discriminate. }
  assert (Hab : a < b) by (destruct SX as (_ & S & _); cbn in S; lia).
  assert (Hea : base e <= a) by (destruct SX as (_ & S & _); cbn in S; lia).
  pose proof (disjoint_heads a b X Y (base e) D (proj1 (proj2 SY)) Hab) as DH.
  cbn [zpos]. destruct (Z.eqb_spec (Z.of_N a) (-1)); [lia|]. cbn [orb].
  destruct (negb (zpos Y =? -1)%Z && (zpos Y <=? Z.of_N a)%Z) eqn:T.
  { (* other side's head comes first *)
    split; [discriminate|]. intros (a0 & b0 & X' & E & _ & _ & FT). inversion E; subst a0 b0 X'. exfalso.
    destruct (HT _ _ FT) as (G & _ & _). destruct Y as [|[x y] Y]; cbn in T; [discriminate|].
    inversion G; subst. cbn in *. lia. }
  assert (GY : starts_ge b Y).
  { destruct Y as [|[x y] Y]; cbn [head] in DH; auto. cbn [zpos] in T.
    destruct DH as [D1 D2]. apply D2. destruct (Z.eqb_spec (Z.of_N x) (-1)); [lia|]. cbn in T. lia. }
  rewrite N2Z.id, (side_unset _ _ _ _ _ SX). cbv zeta. rewrite N2Z.id.
  assert (T2 : negb (zpos Y =? -1)%Z && (zpos Y <? Z.of_N b)%Z = false).
  { destruct Y as [|[x y] Y]; auto. inversion GY; subst. cbn in *. lia. }
  rewrite T2.
  rewrite (side_testbit vy (base e) Y b SY) by (auto; lia).
  pose proof (side_tail _ _ _ _ _ SX) as SX'.
  pose proof (side_advance _ _ _ b SY ltac:(lia) GY) as SY'.
  assert (GX : starts_gt b X).
  { destruct SX as (_ & S & _). cbn in S. destruct S as (_ & _ & S). now apply sep_tail_gt. }
  assert (GXe : starts_ge b X).
  { apply (Forall_impl _ (P := fun iv => b < fst iv)); [intros; lia|exact GX]. }
  rewrite (side_next vx b X b SX' ltac:(lia) GXe).
  assert (REQ : match e with None => True | Some x => if pl then x < a else a = x end).
  { destruct e as [x|]; auto. cbn in C. destruct pl.
    - destruct C as [C _]. inversion C; subst. auto.
    - destruct Y as [|[u w] Y]; cbn in C; inversion C; auto.
      inversion GY; subst. cbn in *. lia. }
  set (hit := match head Y with Some a0 => a0 =? b | None => false end).
  assert (HS : hit = true -> ~ starts_gt b Y).
  { intros E G. unfold hit in E. destruct Y as [|[u w] Y]; cbn in E; [discriminate|].
    inversion G; subst. cbn in *. lia. }
  assert (HS2 : hit = false -> starts_gt b Y).
  { intros E. unfold hit in E. destruct Y as [|[u w] Y]; [constructor|]. cbn in E.
    inversion GY; subst. cbn in *. assert (b < u) by lia.
    destruct SY' as (_ & S & _). cbn in S. destruct S as (_ & Suw & S). constructor; [cbn; lia|].
    apply sep_tail_gt in S. apply (Forall_impl _ (P := fun iv => w < fst iv)); auto. intros. lia. }
  assert (MAIN : (if last then hit else negb hit) = false -> (K (zpos X) = true <-> FlowTail b last X)).
  { intros E. apply (HK a b X); auto.
    - now apply disjoint_tail_l in D.
    - cbn. destruct last.
      + split; auto.
      + apply negb_false_iff in E. unfold hit in E. destruct Y as [|[u w] Y]; cbn in E; [discriminate|].
        apply N.eqb_eq in E. subst u. destruct X as [|[x y] X]; cbn; auto.
        inversion GX; subst. cbn in *. f_equal. lia. }
  destruct (if last then hit else negb hit) eqn:E.
  - split; [discriminate|]. intros (a0 & b0 & X' & E' & _ & _ & FT). inversion E'; subst a0 b0 X'. exfalso.
    destruct (HT _ _ FT) as (_ & H1 & H2). destruct last.
    + apply (HS E). auto.
    + destruct (H2 eq_refl) as (p & M1 & ->). apply negb_true_iff in E. specialize (HS2 E).
      destruct X as [|[x y] X], Y as [|[u w] Y]; cbn in M1; inversion M1; subst;
        try (inversion HS2; subst; cbn in *; lia); try (inversion GX; subst; cbn in *; lia).
  - rewrite (MAIN eq_refl). split.
    + intros FT. exists a, b, X. auto.
    + intros (a0 & b0 & X' & E' & _ & _ & FT). inversion E'; subst. auto.
Qed.

Lemma Flow_min : forall b F L R, Flow (Some b) false F L R -> minhead L R = Some b.
Proof.
  intros b F L R H. inversion H; subst.
  - destruct (Flow_starts _ _ _ _ _ H2 _ eq_refl) as (_ & G & _).
    destruct R as [|[x y] R]; cbn; auto. inversion G; subst. cbn in *. f_equal. lia.
  - destruct (Flow_starts _ _ _ _ _ H2 _ eq_refl) as (G & _ & _).
    destruct L as [|[x y] L]; cbn; auto. inversion G; subst. cbn in *. f_equal. lia.
Qed.

Lemma cfl_flow : forall F al ar L R e pl,
  side_ok al (base e) L -> side_ok ar (base e) R -> disjoint_ivs L R -> cond e pl L R ->
  (F = [] -> pl = true) -> (forall F1 x, F = F1 ++ [x] -> snd x = true) ->
  (cfl F al ar (zpos L) (zpos R) = true <-> Flow e pl F L R).
Proof.
  induction F as [|[s last] F IH]; intros al ar L R e pl SL SR D C HF HW.
  - rewrite (HF eq_refl). cbn [cfl]. rewrite andb_true_iff, !Z.eqb_eq. split.
    + intros [H1 H2]. rewrite H2 in H1. destruct L as [|[a b] L]; cbn in H1; [|lia].
      destruct R as [|[a b] R]; cbn in H2; [|lia]. constructor.
    + intros H. inversion H; subst. auto.
  - assert (HW' : forall F1 x, F = F1 ++ [x] -> snd x = true).
    { intros F1 x E. apply (HW ((s, last) :: F1) x). rewrite E. reflexivity. }
    assert (HF' : F = [] -> last = true).
    { intros ->. apply (HW [] (s, last) eq_refl). }
    destruct s; cbn [cfl].
    + apply (fat_step ar al R L e pl last (fun z => cfl F al ar (zpos L) z)
              (fun e pl P => Flow e pl ((true, last) :: F) L P)
              (fun b last R' => Flow (Some b) last F L R')); auto.
      * now apply disjoint_sym.
      * now apply cond_sym.
      * intros a b R' -> Hab S1 S2 D' C'. apply IH; auto.
        -- now apply disjoint_sym.
        -- now apply cond_sym.
      * intros P. split.
        -- intros H. apply Flow_right_inv in H. exact H.
        -- intros (a & b & R' & -> & H1 & H2 & H3). now constructor.
      * intros b R' H. destruct (Flow_starts _ _ _ _ _ H b eq_refl) as (G1 & G2 & G3).
        split; auto. split; [intros ->; tauto|]. intros ->. exists b. split; auto.
        rewrite minhead_sym. eapply Flow_min; eauto.
    + apply (fat_step al ar L R e pl last (fun z => cfl F al ar z (zpos R))
              (fun e pl P => Flow e pl ((false, last) :: F) P R)
              (fun b last L' => Flow (Some b) last F L' R)); auto.
      * intros P. split.
        -- intros H. apply Flow_left_inv in H. exact H.
        -- intros (a & b & L' & -> & H1 & H2 & H3). now constructor.
      * intros b L' H. destruct (Flow_starts _ _ _ _ _ H b eq_refl) as (G1 & G2 & G3).
        split; auto. split; [intros ->; tauto|]. intros ->. exists b. split; auto.
        eapply Flow_min; eauto.
Qed.

Lemma overlap_spec : forall a b, words a -> words b -> length a = length b ->
  (overlap a b = true <-> exists i, amember a i /\ amember b i).
Proof.
  induction a as [|x a IH]; intros [|y b] Wa Wb HL; cbn in HL; try discriminate.
  - cbn. split; [discriminate|]. intros (i & H & _). now apply amember_nil in H.
  - inversion Wa as [|? ? Hx Wa']; inversion Wb as [|? ? Hy Wb']; subst. cbn [overlap]. destruct (N.eqb_spec (N.land x y) 0) as [E|E]; cbn [negb].
    + rewrite IH by (auto; lia). split.
      * intros (i & H1 & H5). exists (i + 64). rewrite !amember_cons.
        replace (i + 64 - 64) with i by lia. split; right; split; auto; lia.
      * intros (i & H1 & H5). apply amember_cons in H1. apply amember_cons in H5.
        destruct H1 as [[H1 H1']|[H1 H1']], H5 as [[H5 H5']|[H5 H5']]; try lia.
        -- exfalso. assert (T : N.testbit (N.land x y) i = false) by (rewrite E; apply N.bits_0).
           rewrite N.land_spec in T. unfold member in *. rewrite H1', H5' in T. discriminate.
        -- exists (i - 64). auto.
    + split; auto. intros _. destruct (nonzero_has_bit _ E) as [i Hi]. rewrite N.land_spec in Hi.
      apply andb_true_iff in Hi. destruct Hi as [Hi1 Hi2]. exists i. rewrite !amember_cons.
      pose proof (member_word x i Hx Hi1). split; left; auto.
Qed.

Lemma concat_fat_flow : forall yf al ar L R,
  wf_yf yf -> (length (concat yf) <= 64)%nat -> words al -> words ar -> length al = length ar ->
  acomponents al L -> acomponents ar R ->
  ~ amember al (nbits al - 1) -> ~ amember ar (nbits ar - 1) ->
  (concat_fat (getyf yf) al ar = true <-> Flow None true (flat yf) L R).
Proof.
  intros yf al ar L R W HL Wl Wr HLen CL CR TL TR. rewrite <- flat_length in HL.
  unfold concat_fat. pose proof (overlap_spec al ar Wl Wr HLen) as OV.
  destruct (overlap al ar) eqn:EO.
  { split; [discriminate|]. intros K. exfalso. destruct OV as [OV _]. destruct (OV eq_refl) as (i & H1 & H2).
    apply CL in H1. apply CR in H2. apply (Flow_disjoint _ _ _ _ _ K i H1 H2). }
  assert (D : disjoint_ivs L R).
  { intros i H1 H2. destruct OV as [_ OV]. assert (false = true); [|discriminate]. apply OV.
    exists i. split; [now apply CL|now apply CR]. }
  rewrite (getyf_bitlength yf W HL), Nat2N.id.
  destruct (getyf_spells yf W) as [SP _].
  rewrite (cfl_ok _ _ _ _ _ _ _ SP) by lia.
  assert (SIDE : forall v X, words v -> acomponents v X -> ~ amember v (nbits v - 1) -> side_ok v 0 X).
  { intros v X Wv [S C] T. split; auto. split; auto. split; [intros; apply C|].
    apply Forall_forall. intros [x y] Hin. cbn.
    assert (Hxy : x < y).
    { apply separated_nonempty in S. unfold nonempty_ivs in S. rewrite Forall_forall in S. apply (S _ Hin). }
    assert (M : amember v (y - 1)) by (apply C; exists x, y; split; auto; lia).
    pose proof (amember_lt v _ M). destruct (N.eq_dec (y - 1) (nbits v - 1)) as [E|]; [rewrite E in M; contradiction|]. lia. }
  pose proof (SIDE al L Wl CL TL) as SL. pose proof (SIDE ar R Wr CR TR) as SR.
  assert (G0 : forall X, starts_ge 0 X) by (intros X; apply Forall_forall; intros; lia).
  rewrite (side_next al 0 L 0 SL), (side_next ar 0 R 0 SR) by (auto; lia).
  destruct (flat_last yf W) as (F0 & x0 & EF).
  apply cfl_flow; auto.
  - cbn. exact I.
  - intros F1 x E. rewrite EF in E. apply app_inj_tail in E. destruct E as [_ <-]. reflexivity.
Qed.

(** The result span. *)
Lemma Yield_covered : forall yf L R U, Yield yf L R U -> nonempty_ivs L -> nonempty_ivs R ->
  forall i, covered U i <-> covered L i \/ covered R i.
Proof.
  assert (A : forall p L R a b L' R', Arg p L R a b L' R' -> nonempty_ivs L -> nonempty_ivs R ->
     a < b /\ nonempty_ivs L' /\ nonempty_ivs R' /\
     forall i, (covered L i \/ covered R i) <-> (a <= i < b \/ covered L' i \/ covered R' i)).
  { induction 1; intros NL NR.
    - inversion NL; subst. repeat split; auto; rewrite ?covered_cons; tauto.
    - inversion NR; subst. repeat split; auto; rewrite ?covered_cons; tauto.
    - inversion NL; subst. destruct (IHArg H3 NR) as (I1 & I2 & I3 & I4). cbn in *.
      split; [lia|]. split; auto. split; auto. intros i. rewrite covered_cons. specialize (I4 i).
      assert ((a <= i < c) <-> (a <= i < b \/ b <= i < c)) by lia. tauto.
    - inversion NR; subst. destruct (IHArg NL H3) as (I1 & I2 & I3 & I4). cbn in *.
      split; [lia|]. split; auto. split; auto. intros i. rewrite covered_cons. specialize (I4 i).
      assert ((a <= i < c) <-> (a <= i < b \/ b <= i < c)) by lia. tauto. }
  induction 1; intros NL NR i.
  - split; [intros C; now apply covered_nil in C|intros [C|C]; now apply covered_nil in C].
  - destruct (A _ _ _ _ _ _ _ H NL NR) as (A1 & A2 & A3 & A4).
    rewrite covered_cons, (IHYield A2 A3), A4. tauto.
Qed.
Lemma Yield_length : forall yf L R U, Yield yf L R U -> length U = length yf.
Proof. induction 1; cbn; auto. Qed.
