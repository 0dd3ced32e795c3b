From Coq Require Import List Bool Arith NArith Lia.
From Verif Require Import BitsProofs FanoutProofs ConcatModel ConcatSpec ConcatProofs VocabModel VocabSpec.
Import ListNotations.
Open Scope N_scope.

(** * numbers in memory *)
Lemma get_le : forall n r, n < 2 ^ 32 -> get32 (le32 n ++ r) = n.
Proof.
  intros n r H. cbn [le32 app get32]. change (2 ^ 32) with 4294967296 in H.
  pose proof (N.div_mod n 256 ltac:(lia)) as H0. pose proof (N.div_mod (n / 256) 256 ltac:(lia)) as H1.
  pose proof (N.div_mod (n / 256 / 256) 256 ltac:(lia)) as H2.
  assert (E1 : n / 65536 = n / 256 / 256) by (rewrite N.div_div by lia; reflexivity).
  assert (E2 : n / 16777216 = n / 256 / 256 / 256) by (rewrite !N.div_div by lia; reflexivity).
  rewrite E1, E2. assert (n / 256 / 256 / 256 < 256) by (rewrite <- E2; apply N.div_lt_upper_bound; lia).
  rewrite (N.mod_small (n / 256 / 256 / 256)) by lia. lia.
Qed.
Lemma le_length : forall n, length (le32 n) = 4%nat.
Proof. reflexivity. Qed.
Lemma le_inj : forall a b, a < 2 ^ 32 -> b < 2 ^ 32 -> le32 a = le32 b -> a = b.
Proof. intros a b A B E. rewrite <- (get_le a [] A), <- (get_le b [] B), E. reflexivity. Qed.
Lemma app_split : forall A (a a' b b' : list A), length a = length a' -> a ++ b = a' ++ b' -> a = a' /\ b = b'.
Proof.
  induction a as [|x a IH]; intros [|y a'] b b' L E; try discriminate; auto. cbn in *. injection E as -> E.
  destruct (IH a' b b' ltac:(lia) E) as [-> ->]. auto.
Qed.
Lemma rule_length : forall a b c d e, length (rulebytes a b c d e) = 20%nat.
Proof. reflexivity. Qed.
Lemma rule_inj : forall a b c d e a' b' c' d' e',
  a < 2 ^ 32 -> b < 2 ^ 32 -> c < 2 ^ 32 -> d < 2 ^ 32 -> e < 2 ^ 32 -> a' < 2 ^ 32 -> b' < 2 ^ 32 -> c' < 2 ^ 32 -> d' < 2 ^ 32 -> e' < 2 ^ 32 ->
  rulebytes a b c d e = rulebytes a' b' c' d' e' -> a = a' /\ b = b' /\ c = c' /\ d = d' /\ e = e'.
Proof.
  intros. unfold rulebytes in *. repeat match goal with H : _ ++ _ = _ ++ _ |- _ => apply app_split in H; [destruct H|reflexivity] end.
  repeat match goal with H : le32 _ = le32 _ |- _ => apply le_inj in H; [|assumption|assumption] end. auto.
Qed.

(** * dictionaries *)
Lemma beq_eq : forall a b, beq a b = true <-> a = b.
Proof.
  induction a as [|x a IH]; intros [|y b]; cbn; split; intros H; try discriminate; auto.
  - apply andb_prop in H. destruct H as [H1 H2]. apply N.eqb_eq in H1. apply IH in H2. congruence.
  - injection H as -> ->. rewrite N.eqb_refl. now apply IH.
Qed.
Lemma beq_refl : forall a, beq a a = true.
Proof. intros. now apply beq_eq. Qed.
Fixpoint number (s : N) (l : list bytes) : dict := match l with [] => [] | x :: l => (x, s) :: number (s + 1) l end.
Fixpoint pos (k : bytes) (l : list bytes) : N := match l with [] => 0 | x :: l => if beq k x then 0 else 1 + pos k l end.
Lemma number_length : forall l s, length (number s l) = length l.
Proof. induction l; intros; cbn; auto. Qed.
Lemma number_app : forall a b s, number s (a ++ b) = number s a ++ number (s + size a) b.
Proof.
  induction a as [|x a IH]; intros b s; [cbn; now rewrite N.add_0_r|]. cbn [app number]. rewrite IH. f_equal. f_equal. f_equal.
  unfold size. cbn [length]. lia.
Qed.
Lemma lookup_number : forall l k s, lookup k (number s l) = if existsb (beq k) l then Some (s + pos k l) else None.
Proof.
  induction l as [|x l IH]; intros k s; cbn [number lookup existsb pos]; auto. destruct (beq k x); cbn [orb]; [f_equal; lia|].
  rewrite IH. destruct (existsb (beq k) l); [f_equal; lia|reflexivity].
Qed.
Lemma exists_In : forall k l, existsb (beq k) l = true <-> In k l.
Proof. intros. rewrite existsb_exists. split; [intros (x & H & E); apply beq_eq in E; now subst|intros H; exists k; split; auto; apply beq_refl]. Qed.
Lemma lookup_in : forall l k s, In k l -> lookup k (number s l) = Some (s + pos k l).
Proof. intros l k s H. rewrite lookup_number. apply exists_In in H. now rewrite H. Qed.
Lemma lookup_notin : forall l k s, ~ In k l -> lookup k (number s l) = None.
Proof. intros l k s H. rewrite lookup_number. destruct (existsb (beq k) l) eqn:E; auto. apply exists_In in E. contradiction. Qed.
Lemma assign_new : forall l k s, ~ In k l -> assign k (s + size l) (number s l) = number s (l ++ [k]).
Proof.
  intros l k. induction l as [|x l IH]; intros s H; cbn [number assign app]; [unfold size; cbn [length N.of_nat]; now rewrite N.add_0_r|].
  destruct (beq k x) eqn:E; [apply beq_eq in E; subst; destruct H; now left|]. f_equal. rewrite <- IH by (intros X; apply H; now right).
  f_equal. unfold size. cbn [length]. lia.
Qed.
Lemma pos_app : forall l e k, In k l -> pos k (l ++ e) = pos k l.
Proof.
  induction l as [|x l IH]; intros e k H; [destruct H|]. cbn. destruct (beq k x) eqn:E; auto. rewrite IH; auto. destruct H as [->|H]; auto. rewrite beq_refl in E. discriminate.
Qed.
Lemma pos_lt : forall l k, In k l -> pos k l < size l.
Proof.
  unfold size. induction l as [|x l IH]; intros k H; [destruct H|]. cbn [pos length]. destruct (beq k x) eqn:E; [lia|].
  destruct H as [->|H]; [rewrite beq_refl in E; discriminate|]. specialize (IH k H). lia.
Qed.
Lemma pos_nth : forall l k, In k l -> nth_error l (N.to_nat (pos k l)) = Some k.
Proof.
  induction l as [|x l IH]; intros k H; [destruct H|]. cbn [pos]. destruct (beq k x) eqn:E; [apply beq_eq in E; subst; reflexivity|].
  destruct H as [->|H]; [rewrite beq_refl in E; discriminate|]. rewrite N2Nat.inj_add. cbn. now apply IH.
Qed.
Lemma pos_inj : forall l a b, In a l -> In b l -> pos a l = pos b l -> a = b.
Proof. intros l a b A B E. apply pos_nth in A, B. rewrite E in A. congruence. Qed.
Lemma pos_end : forall l k, ~ In k l -> pos k (l ++ [k]) = size l.
Proof.
  unfold size. induction l as [|x l IH]; intros k H; cbn [app pos length]; [now rewrite beq_refl|].
  destruct (beq k x) eqn:E; [apply beq_eq in E; subst; destruct H; now left|]. rewrite IH by (intros X; apply H; now right). lia.
Qed.
Lemma nodup_snoc : forall (l : list bytes) k, NoDup l -> ~ In k l -> NoDup (l ++ [k]).
Proof.
  induction l as [|x l IH]; intros k ND H; cbn; [constructor; [intros []|constructor]|]. inversion ND; subst. constructor.
  - rewrite in_app_iff. intros [X|[X|[]]]; [auto|subst; apply H; now left].
  - apply IH; auto. intros X. apply H. now right.
Qed.

(** * the state of a vocabulary *)
Definition ends (names : list bytes) : list N := map (fun k => size (concat (firstn k names)) mod 2 ^ 32) (seq 0 (S (length names))).
Record Inv (v : vocab) (names keys : list bytes) : Prop := {
  i_labels : labels v = number 0 names;
  i_prods : prods v = number 0 keys;
  i_names : NoDup names;
  i_eps : nth_error names 0 = Some epsilon;
  i_keys : NoDup keys;
  i_len : Forall (fun k => length k = 20%nat) keys;
  i_lbuf : labelbuf v = concat names;
  i_pbuf : prodbuf v = concat keys;
  i_idx : labelidx v = ends names }.
Lemma inv_init : Inv init [epsilon] [].
Proof. constructor; try reflexivity; try constructor; auto. constructor. Qed.
Lemma ends_app : forall names k, ends (names ++ [k]) = ends names ++ [size (concat (names ++ [k])) mod 2 ^ 32].
Proof.
  intros names k. unfold ends. rewrite app_length. cbn [length]. rewrite Nat.add_1_r. rewrite (seq_S (S (length names))), map_app. cbn [map]. f_equal.
  - apply map_ext_in. intros j Hj. apply in_seq in Hj. rewrite firstn_app. replace (j - length names)%nat with 0%nat by lia. cbn [firstn]. now rewrite app_nil_r.
  - cbn [Nat.add]. rewrite firstn_all2; [reflexivity|]. rewrite app_length. cbn. lia.
Qed.
Lemma labelid_ok : forall v names keys l, Inv v names keys -> exists names',
  Inv (snd (getlabelid v l)) names' keys /\ (exists e, names' = names ++ e) /\ In l names' /\ fst (getlabelid v l) = pos l names' /\
  (In l names -> getlabelid v l = (pos l names, v) /\ names' = names).
Proof.
  intros v names keys l IV. unfold getlabelid. rewrite (i_labels _ _ _ IV). destruct (existsb (beq l) names) eqn:E.
  - apply exists_In in E. rewrite (lookup_in _ _ _ E). cbn [fst snd]. exists names. split; auto. split; [exists []; now rewrite app_nil_r|]. split; auto.
  - assert (NI : ~ In l names) by (rewrite <- exists_In, E; discriminate). rewrite (lookup_notin _ _ _ NI). cbn [fst snd].
    exists (names ++ [l]). split; [|split; [now exists [l]|split; [apply in_or_app; right; now left|split; [|contradiction]]]].
    + assert (Sz : size (number 0 names) = 0 + size names) by (unfold size; now rewrite number_length).
      destruct IV as [H1 H2 H3 H4 H5 H6 H7 H8 H9]. constructor; cbn [labels prods labelbuf prodbuf labelidx]; auto.
      * rewrite Sz. now apply assign_new.
      * now apply nodup_snoc.
      * destruct names; [discriminate|exact H4].
      * rewrite H7, concat_app. cbn. now rewrite app_nil_r.
      * rewrite ends_app, H9, H7, concat_app. cbn [concat]. now rewrite app_nil_r.
    + rewrite pos_end by exact NI. unfold size. now rewrite number_length.
Qed.
Lemma prodid_ok : forall v names keys p, Inv v names keys -> length p = 20%nat -> exists keys',
  Inv (snd (getprodid v p)) names keys' /\ (exists e, keys' = keys ++ e) /\ In p keys' /\ fst (getprodid v p) = pos p keys' /\
  (forall k, In k keys' <-> In k keys \/ k = p) /\ (In p keys -> getprodid v p = (pos p keys, v)).
Proof.
  intros v names keys p IV L. unfold getprodid. rewrite (i_prods _ _ _ IV). destruct (existsb (beq p) keys) eqn:E.
  - apply exists_In in E. rewrite (lookup_in _ _ _ E). cbn [fst snd]. exists keys. split; auto. split; [exists []; now rewrite app_nil_r|]. split; auto.
    split; auto. split; auto. intros k. split; [auto|intros [H| ->]; auto].
  - assert (NI : ~ In p keys) by (rewrite <- exists_In, E; discriminate). rewrite (lookup_notin _ _ _ NI). cbn [fst snd].
    exists (keys ++ [p]). split; [|split; [now exists [p]|split; [apply in_or_app; right; now left|split; [|split; [|contradiction]]]]].
    + assert (Sz : size (number 0 keys) = 0 + size keys) by (unfold size; now rewrite number_length).
      destruct IV as [H1 H2 H3 H4 H5 H6 H7 H8 H9]. constructor; cbn [labels prods labelbuf prodbuf labelidx]; auto.
      * rewrite Sz. now apply assign_new.
      * now apply nodup_snoc.
      * apply Forall_app. split; auto.
      * rewrite H8, concat_app. cbn. now rewrite app_nil_r.
    + rewrite pos_end by exact NI. unfold size. now rewrite number_length.
    + intros k. rewrite in_app_iff. cbn. intuition.
Qed.

(** * the key of a production *)
Definition key (names : list bytes) (p : production) : bytes :=
  match p with
  | ([l; r1; r2], YVars y) => rulebytes (pos l names) (pos r1 names) (pos r2 names) (args (getyf y)) (lengths (getyf y))
  | ([l; r1], YVars y) => rulebytes (pos l names) (pos r1 names) 0 (args (getyf y)) (lengths (getyf y))
  | ([l; r1], YWords w) => rulebytes (pos l names) 0 0 (pos w names) 0
  | (l :: _, _) => rulebytes (pos l names) 0 0 0 0
  | _ => []
  end.
Definition named (names : list bytes) (p : production) : Prop :=
  (forall l, In l (fst p) -> In l names) /\ match snd p with YWords w => In w names | _ => True end.
Lemma key_ext : forall names e p, wfprod p -> named names p -> key (names ++ e) p = key names p.
Proof.
  intros names e p W [N1 N2]. destruct W as [l|l w Hw|l r1 yf H1 Hy HL|l r1 r2 yf H1 H2 Hy HL]; cbn [key fst snd] in *.
  - rewrite pos_app; auto. apply N1. now left.
  - rewrite !pos_app; auto. apply N1. now left.
  - rewrite !pos_app; auto; apply N1; cbn; auto.
  - rewrite !pos_app; auto; apply N1; cbn; auto.
Qed.
Lemma named_ext : forall names e p, named names p -> named (names ++ e) p.
Proof. intros names e p [N1 N2]. split; [intros l Hl; apply in_or_app; left; auto|]. destruct (snd p); auto. apply in_or_app. now left. Qed.
Lemma pos_eps : forall names l, nth_error names 0 = Some epsilon -> In l names -> (pos l names = 0 <-> l = epsilon).
Proof.
  intros names l E H. destruct names as [|x names]; [discriminate|]. injection E as ->. cbn [pos]. destruct (beq l epsilon) eqn:B.
  - apply beq_eq in B. tauto.
  - split; [intros X; lia|]. intros ->. rewrite beq_refl in B. discriminate.
Qed.
Lemma getprod_ok : forall v names keys p, Inv v names keys -> wfprod p -> exists n v' names' keys',
  getprod v p = Some (n, v') /\ Inv v' names' keys' /\ (exists e, names' = names ++ e) /\ (exists e, keys' = keys ++ e) /\
  named names' p /\ In (key names' p) keys' /\ n = pos (key names' p) keys' /\ (forall k, In k keys' <-> In k keys \/ k = key names' p) /\
  (named names p -> In (key names p) keys -> v' = v /\ n = pos (key names p) keys).
Proof.
  intros v names keys p IV W.
  assert (FIN : forall v0 names0 p0, Inv v0 names0 keys -> (exists e, names0 = names ++ e) -> named names0 p0 -> length (key names0 p0) = 20%nat ->
    wfprod p0 -> (named names p0 -> v0 = v /\ names0 = names) ->
    exists n v' names' keys', Some (getprodid v0 (key names0 p0)) = Some (n, v') /\ Inv v' names' keys' /\ (exists e, names' = names ++ e) /\ (exists e, keys' = keys ++ e) /\
    named names' p0 /\ In (key names' p0) keys' /\ n = pos (key names' p0) keys' /\ (forall k, In k keys' <-> In k keys \/ k = key names' p0) /\
    (named names p0 -> In (key names p0) keys -> v' = v /\ n = pos (key names p0) keys)).
  { intros v0 names0 p0 IV0 EX NA L WP SAME. destruct (prodid_ok v0 names0 keys (key names0 p0) IV0 L) as (keys' & I' & E' & M' & F' & A' & S').
    exists (fst (getprodid v0 (key names0 p0))), (snd (getprodid v0 (key names0 p0))), names0, keys'.
    split; [f_equal; apply surjective_pairing|]. split; [exact I'|]. split; [exact EX|]. split; [exact E'|]. split; [exact NA|]. split; [exact M'|]. split; [exact F'|]. split; [exact A'|].
    intros NA0 HK. destruct (SAME NA0) as [-> ->]. rewrite (S' HK). auto. }
  destruct W as [l|l w Hw|l r1 yf H1 Hy HL|l r1 r2 yf H1 H2 Hy HL]; cbn [getprod].
  - destruct (labelid_ok v names keys l IV) as (n1 & I1 & (e1 & E1) & M1 & F1 & S1).
    rewrite (surjective_pairing (getlabelid v l)). rewrite F1. cbn [N.eqb negb andb].
    apply (FIN (snd (getlabelid v l)) n1 ([l], YVars [])); auto; [eauto| |constructor|].
    + split; [intros x [<-|[]]; auto|exact Logic.I].
    + intros [N1 _]. assert (X : In l names) by (apply N1; now left). destruct (S1 X) as [-> ->]. auto.
  - destruct (labelid_ok v names keys l IV) as (n1 & I1 & (e1 & E1) & M1 & F1 & S1).
    rewrite (surjective_pairing (getlabelid v l)). set (v1 := snd (getlabelid v l)) in *. rewrite F1.
    destruct (labelid_ok v1 n1 keys epsilon I1) as (n2 & I2 & (e2 & E2) & M2 & F2 & S2).
    rewrite (surjective_pairing (getlabelid v1 epsilon)). set (v2 := snd (getlabelid v1 epsilon)) in *. rewrite F2.
    assert (Z : pos epsilon n2 = 0) by (apply (pos_eps n2 epsilon (i_eps _ _ _ I2) M2); reflexivity). rewrite Z. cbn [N.eqb negb andb].
    destruct (labelid_ok v2 n2 keys w I2) as (n3 & I3 & (e3 & E3) & M3 & F3 & S3).
    rewrite (surjective_pairing (getlabelid v2 w)). set (v3 := snd (getlabelid v2 w)) in *. rewrite F3.
    assert (K : rulebytes (pos l n1) 0 0 (pos w n3) 0 = key n3 ([l; epsilon], YWords w)).
    { cbn [key]. subst n3 n2. rewrite <- !app_assoc. now rewrite (pos_app n1 _ l M1). }
    rewrite K. apply (FIN v3 n3 ([l; epsilon], YWords w)); [exact I3| | |reflexivity|now constructor|].
    + exists (e1 ++ e2 ++ e3). subst n3 n2 n1. now rewrite !app_assoc.
    + split; [|exact M3]. intros x [<-|[<-|[]]]; subst n3; apply in_or_app; left; [subst n2; apply in_or_app; now left|exact M2].
    + intros [N1 N2]. cbn [snd fst] in N1, N2. destruct (S1 (N1 l (or_introl eq_refl))) as [X1 Y1]. assert (v1 = v) by (unfold v1; now rewrite X1).
      rewrite Y1 in *. destruct (S2 (N1 epsilon (or_intror (or_introl eq_refl)))) as [X2 Y2]. assert (v2 = v1) by (unfold v2; now rewrite X2).
      rewrite Y2 in *. destruct (S3 N2) as [X3 Y3]. assert (v3 = v2) by (unfold v3; now rewrite X3). split; congruence.
  - destruct (labelid_ok v names keys l IV) as (n1 & I1 & (e1 & E1) & M1 & F1 & S1).
    rewrite (surjective_pairing (getlabelid v l)). set (v1 := snd (getlabelid v l)) in *. rewrite F1.
    destruct (labelid_ok v1 n1 keys r1 I1) as (n2 & I2 & (e2 & E2) & M2 & F2 & S2).
    rewrite (surjective_pairing (getlabelid v1 r1)). set (v2 := snd (getlabelid v1 r1)) in *. rewrite F2.
    assert (Z : pos r1 n2 =? 0 = false) by (apply N.eqb_neq; intros X; apply H1; now apply (pos_eps n2 r1 (i_eps _ _ _ I2) M2)). rewrite Z. cbn [negb andb].
    assert (K : rulebytes (pos l n1) (pos r1 n2) 0 (args (getyf yf)) (lengths (getyf yf)) = key n2 ([l; r1], YVars yf)).
    { cbn [key]. subst n2. now rewrite (pos_app n1 _ l M1). }
    rewrite K. apply (FIN v2 n2 ([l; r1], YVars yf)); [exact I2| | |reflexivity|now constructor|].
    + exists (e1 ++ e2). subst n2 n1. now rewrite !app_assoc.
    + split; [|exact Logic.I]. intros x [<-|[<-|[]]]; [subst n2; apply in_or_app; now left|exact M2].
    + intros [N1 _]. cbn [snd fst] in N1. destruct (S1 (N1 l (or_introl eq_refl))) as [X1 Y1]. assert (v1 = v) by (unfold v1; now rewrite X1).
      rewrite Y1 in *. destruct (S2 (N1 r1 (or_intror (or_introl eq_refl)))) as [X2 Y2]. assert (v2 = v1) by (unfold v2; now rewrite X2). split; congruence.
  - destruct (labelid_ok v names keys l IV) as (n1 & I1 & (e1 & E1) & M1 & F1 & S1).
    rewrite (surjective_pairing (getlabelid v l)). set (v1 := snd (getlabelid v l)) in *. rewrite F1.
    destruct (labelid_ok v1 n1 keys r1 I1) as (n2 & I2 & (e2 & E2) & M2 & F2 & S2).
    rewrite (surjective_pairing (getlabelid v1 r1)). set (v2 := snd (getlabelid v1 r1)) in *. rewrite F2.
    destruct (labelid_ok v2 n2 keys r2 I2) as (n3 & I3 & (e3 & E3) & M3 & F3 & S3).
    rewrite (surjective_pairing (getlabelid v2 r2)). set (v3 := snd (getlabelid v2 r2)) in *. rewrite F3.
    assert (Z : pos r1 n2 =? 0 = false) by (apply N.eqb_neq; intros X; apply H1; now apply (pos_eps n2 r1 (i_eps _ _ _ I2) M2)). rewrite Z. cbn [negb andb].
    assert (K : rulebytes (pos l n1) (pos r1 n2) (pos r2 n3) (args (getyf yf)) (lengths (getyf yf)) = key n3 ([l; r1; r2], YVars yf)).
    { cbn [key]. subst n3. rewrite (pos_app n2 _ r1 M2). subst n2. rewrite <- app_assoc. now rewrite (pos_app n1 _ l M1). }
    rewrite K. apply (FIN v3 n3 ([l; r1; r2], YVars yf)); [exact I3| | |reflexivity|now constructor|].
    + exists (e1 ++ e2 ++ e3). subst n3 n2 n1. now rewrite !app_assoc.
    + split; [|exact Logic.I]. intros x [<-|[<-|[<-|[]]]]; [subst n3 n2; apply in_or_app; left; apply in_or_app; now left|subst n3; apply in_or_app; left; exact M2|exact M3].
    + intros [N1 _]. cbn [snd fst] in N1. destruct (S1 (N1 l (or_introl eq_refl))) as [X1 Y1]. assert (v1 = v) by (unfold v1; now rewrite X1).
      rewrite Y1 in *. destruct (S2 (N1 r1 (or_intror (or_introl eq_refl)))) as [X2 Y2]. assert (v2 = v1) by (unfold v2; now rewrite X2).
      rewrite Y2 in *. destruct (S3 (N1 r2 (or_intror (or_intror (or_introl eq_refl))))) as [X3 Y3]. assert (v3 = v2) by (unfold v3; now rewrite X3). split; congruence.
Qed.
