From Coq Require Import NArith ZArith List Bool Lia ZifyBool ZifyN ZifyNat Ascii.
From Verif Require Import BitsModel BitsSpec BitsProofs ConcatModel ConcatSpec ConcatProofs.
Import ListNotations.
Local Open Scope N_scope.
Local Arguments N.add : simpl never.
Local Arguments N.sub : simpl never.

Lemma yftext_cons2 : forall p q r, yftext (p :: q :: r) = yfpart_text p ++ ","%char :: yftext (q :: r).
Proof. reflexivity. Qed.

(** * Reading *)
Definition cnt (s : bool) (p : list bool) : N := N.of_nat (length (filter (Bool.eqb s) p)).
Lemma readyf_part : forall p s e m fan r1 r2,
  readyf_loop (yfpart_text p ++ s) (mkCnt e m fan r1 r2) =
  readyf_loop s (mkCnt (mkYf (snd (getyf_part p m (args e))) (lengths e)) (m + N.of_nat (length p)) fan
                       (r1 + cnt false p) (r2 + cnt true p)).
Proof.
  induction p as [|x p IH]; intros s e m fan r1 r2.
  - cbn. unfold cnt. cbn. rewrite !N.add_0_r. destruct e; reflexivity.
  - unfold yfpart_text in *. cbn [map app getyf_part]. destruct x; cbn [readyf_loop Ascii.eqb Bool.eqb andb yc_enc yc_m yc_fan yc_r1 yc_r2 args lengths];
      rewrite IH; cbn [args lengths]; f_equal; f_equal; unfold cnt; cbn [length filter Bool.eqb]; lia.
Qed.
Lemma getyf_part_m : forall p m a, fst (getyf_part p m a) = m + N.of_nat (length p).
Proof. induction p; intros m a0; cbn [getyf_part length fst]; [lia|]. rewrite IHp. lia. Qed.

Lemma readyf_loop_ok : forall yf e m fan r1 r2, yf <> [] ->
  exists c, readyf_loop (yftext yf) (mkCnt e m fan r1 r2) = Some c /\
    mkYf (args (yc_enc c)) (N.lor (lengths (yc_enc c)) (2 ^ (yc_m c - 1))) = getyf_loop yf m e /\
    yc_m c = m + N.of_nat (length (concat yf)) /\ yc_fan c + 1 = fan + N.of_nat (length yf) /\
    yc_r1 c = r1 + cnt false (concat yf) /\ yc_r2 c = r2 + cnt true (concat yf).
Proof.
  induction yf as [|p [|q yf] IH]; intros e m fan r1 r2 H; [congruence| |].
  - cbn [yftext]. rewrite <- (app_nil_r (yfpart_text p)), readyf_part. cbn [readyf_loop].
    eexists. split; [reflexivity|]. cbn [yc_enc yc_m yc_fan yc_r1 yc_r2 args lengths getyf_loop concat].
    rewrite !app_nil_r. pose proof (getyf_part_m p m (args e)) as HM.
    destruct (getyf_part p m (args e)) as [m' a']. cbn [fst snd] in *. subst m'.
    split; [reflexivity|]. split; [lia|]. split; [cbn; lia|]. split; reflexivity.
  - rewrite yftext_cons2, readyf_part.
    cbn [readyf_loop Ascii.eqb Bool.eqb andb yc_enc yc_m yc_fan yc_r1 yc_r2 args lengths].
    pose proof (getyf_part_m p m (args e)) as HM.
    change (getyf_loop (p :: q :: yf) m e) with
      (let (m', a') := getyf_part p m (args e) in
       getyf_loop (q :: yf) m' (mkYf a' (N.lor (lengths e) (2 ^ (m' - 1))))).
    destruct (getyf_part p m (args e)) as [m' a']. cbn [fst snd] in *. subst m'.
    set (e1 := mkYf a' (N.lor (lengths e) (2 ^ (m + N.of_nat (length p) - 1)))).
    destruct (IH e1 (m + N.of_nat (length p)) (fan + 1) (r1 + cnt false p) (r2 + cnt true p) ltac:(discriminate))
      as (c & R1 & R2 & R3 & R4 & R5 & R6).
    exists c. split; [exact R1|]. split; [exact R2|].
    assert (CA : forall s, cnt s (concat (p :: q :: yf)) = cnt s p + cnt s (concat (q :: yf))).
    { intros s. unfold cnt. cbn [concat]. rewrite !filter_app, !app_length. lia. }
    rewrite !CA. cbn [concat] in *. rewrite !app_length in *. cbn [length] in *. lia.
Qed.

Lemma readyf_ok : forall yf, yf <> [] -> (length (concat yf) < 32)%nat ->
  readyf (yftext yf) = Some (mkCnt (getyf yf) (N.of_nat (length (concat yf))) (N.of_nat (length yf))
                                   (cnt false (concat yf)) (cnt true (concat yf))).
Proof.
  intros yf H HL. unfold readyf.
  destruct (readyf_loop_ok yf (mkYf 0 0) 0 1 0 0 H) as (c & R1 & R2 & R3 & R4 & R5 & R6).
  rewrite R1, R2. cbn [yc_m]. destruct (N.leb_spec 32 (yc_m c)); [lia|].
  rewrite R3, R5, R6. f_equal. unfold getyf. f_equal; lia.
Qed.

(** * Printing *)
Lemma yfstr_part : forall p k n m fan e, p <> [] -> spells (flat_part p) n e ->
  yfstr_loop (length p + k) n m fan e =
  if m + 1 =? fan then Some (yfpart_text p)
  else option_map (fun s => yfpart_text p ++ ","%char :: s) (yfstr_loop k (n + N.of_nat (length p)) (m + 1) fan e).
Proof.
  induction p as [|x [|y r] IH]; intros k n m fan e H S; [congruence| |].
  - cbn [flat_part] in S. destruct (spells_tail _ _ _ _ S) as (S1 & S2 & _). cbn [fst snd] in *.
    cbn [length Nat.add yfstr_loop]. rewrite S1, S2.
    unfold yfpart_text. cbn [map app]. change (N.of_nat 1) with 1. destruct (m + 1 =? fan); reflexivity.
  - rewrite flat_part_cons2 in S. destruct (spells_tail _ _ _ _ S) as (S1 & S2 & S3). cbn [fst snd] in *.
    change (length (x :: y :: r) + k)%nat with (Datatypes.S (length (y :: r) + k)).
    cbn [yfstr_loop]. rewrite S1, S2, IH by (auto; discriminate).
    replace (n + 1 + N.of_nat (length (y :: r))) with (n + N.of_nat (length (x :: y :: r))) by (cbn [length]; lia).
    destruct (m + 1 =? fan); [reflexivity|].
    destruct (yfstr_loop k _ _ _ _); reflexivity.
Qed.
Lemma spells_app : forall F G n e, spells (F ++ G) n e ->
  spells F n e /\ spells G (n + N.of_nat (length F)) e.
Proof.
  induction F as [|x F IH]; intros G n e S.
  - cbn. rewrite N.add_0_r. split; auto. intros i Hi. cbn in Hi. lia.
  - cbn [app] in S. destruct (spells_tail _ _ _ _ S) as (S1 & S2 & S3). destruct (IH _ _ _ S3) as [I1 I2]. split.
    + intros [|i] Hi; [rewrite N.add_0_r; auto|]. cbn [nth length] in *. destruct (I1 i ltac:(lia)).
      replace (n + N.of_nat (Datatypes.S i)) with (n + 1 + N.of_nat i) by lia. auto.
    + cbn [length]. replace (n + N.of_nat (Datatypes.S (length F))) with (n + 1 + N.of_nat (length F)) by lia. auto.
Qed.
Lemma yfstr_loop_ok : forall yf k n m fan e, wf_yf yf -> spells (flat yf) n e ->
  (length (concat yf) <= k)%nat -> m + N.of_nat (length yf) = fan ->
  yfstr_loop k n m fan e = Some (yftext yf).
Proof.
  induction yf as [|p [|q yf] IH]; intros k n m fan e [H W] S HL HM; [congruence| |]; inversion W; subst.
  - unfold flat in S. cbn [flat_map] in S. rewrite app_nil_r in S. cbn [concat] in HL. rewrite app_nil_r in HL.
    replace k with (length p + (k - length p))%nat by lia.
    rewrite yfstr_part by auto. cbn [length]. rewrite (proj2 (N.eqb_eq _ _)) by lia. reflexivity.
  - unfold flat in S. cbn [flat_map] in S. destruct (spells_app _ _ _ _ S) as [SA SB].
    rewrite flat_part_length in SB. cbn [concat] in HL. rewrite app_length in HL.
    replace k with (length p + (k - length p))%nat by lia.
    rewrite yfstr_part by auto. cbn [length] in *. rewrite (proj2 (N.eqb_neq _ _)) by lia.
    rewrite (IH (k - length p)%nat); auto.
    + split; [discriminate|assumption].
    + cbn [concat]. lia.
    + cbn [length]. lia.
Qed.
Lemma yfstr_ok : forall yf, wf_yf yf -> (length (concat yf) <= 32)%nat ->
  yfstr (getyf yf) (N.of_nat (length yf)) = Some (yftext yf).
Proof.
  intros yf W HL. unfold yfstr. destruct (getyf_spells yf W) as [S _].
  apply yfstr_loop_ok; auto.
Qed.
(** Injectivity of the encoding *)
Lemma yftext_inj : forall yf yf', wf_yf yf -> wf_yf yf' -> yftext yf = yftext yf' -> yf = yf'.
Proof.
  assert (P : forall p p' s s', (s = [] \/ exists t, s = ","%char :: t) -> (s' = [] \/ exists t, s' = ","%char :: t) ->
     yfpart_text p ++ s = yfpart_text p' ++ s' -> p = p' /\ s = s').
  { induction p as [|x p IH]; intros [|x' p'] s s' Hs Hs' E; cbn in E; auto.
    - exfalso. destruct Hs as [->|[t ->]]; [discriminate|]. destruct x'; discriminate.
    - exfalso. destruct Hs' as [->|[t ->]]; [discriminate|]. destruct x; discriminate.
    - inversion E as [[E1 E2]]. destruct (IH p' s s' Hs Hs' E2) as [-> ->]. split; auto. f_equal.
      destruct x, x'; auto; discriminate. }
  induction yf as [|p [|q yf] IH]; intros yf' [H W] [H' W'] E; [congruence| |].
  - destruct yf' as [|p' [|q' yf']]; [congruence| |].
    + cbn in E. destruct (P p p' [] []) as [-> _]; auto. now rewrite !app_nil_r.
    + rewrite yftext_cons2 in E. cbn [yftext] in E.
      destruct (P p p' [] (","%char :: yftext (q' :: yf'))) as [_ C]; eauto; [|discriminate]. now rewrite app_nil_r.
  - destruct yf' as [|p' [|q' yf']]; [congruence| |].
    + rewrite yftext_cons2 in E. cbn [yftext] in E.
      destruct (P p p' (","%char :: yftext (q :: yf)) []) as [_ C]; eauto; [|discriminate]. now rewrite app_nil_r.
    + rewrite !yftext_cons2 in E.
      destruct (P p p' (","%char :: yftext (q :: yf)) (","%char :: yftext (q' :: yf'))) as [-> C]; eauto.
      f_equal. inversion W; inversion W'; subst. apply IH.
      * split; [discriminate|auto].
      * split; [discriminate|auto].
      * inversion C. auto.
Qed.
Lemma getyf_inj : forall yf yf', wf_yf yf -> wf_yf yf' ->
  (length (concat yf) <= 32)%nat -> (length (concat yf') <= 32)%nat -> length yf = length yf' ->
  getyf yf = getyf yf' -> yf = yf'.
Proof.
  intros yf yf' W W' H H' HL E. apply yftext_inj; auto.
  pose proof (yfstr_ok yf W H) as A. pose proof (yfstr_ok yf' W' H') as B.
  rewrite E, HL, B in A. congruence.
Qed.
