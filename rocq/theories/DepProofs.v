(** Proofs about the conversion to dependencies. *)
From Coq Require Import String.
From Coq Require Import List Bool Arith NArith ZArith Lia Permutation Sorted.
From Verif Require Import PyStr TreeModel TransformModel SortProofs PunctModel HeadModel HeadProofs.
Import ListNotations.
Open Scope list_scope.
Open Scope nat_scope.
Notation leaves := HeadModel.leaves.

(** some child of every node is a head *)
Inductive marked : htree -> Prop :=
| marked_pre : forall a i, marked (Pre a i)
| marked_con : forall a ts, existsb ishead ts = true -> Forall marked ts -> marked (Con a ts).
Lemma headed_marked : forall t, headed t -> marked t.
Proof.
  induction t as [a i|a ts IH] using htree_ind'; intros H; inversion H as [|? ? C F]; subst; constructor.
  - destruct (filter ishead ts) as [|x l] eqn:E; [discriminate|]. assert (I : In x (filter ishead ts)) by (rewrite E; now left). apply filter_In in I. apply existsb_exists. eauto.
  - rewrite Forall_forall in *. auto.
Qed.
Definition tokens (t : htree) : list nat := map S (leaves t).
Lemma tokens_con : forall a ts, tokens (Con a ts) = flat_map tokens ts.
Proof. intros a ts. unfold tokens. cbn [HeadModel.leaves]. induction ts as [|t ts IH]; cbn; [reflexivity|]. now rewrite map_app, IH. Qed.
Lemma headidx_spec : forall ts, (headidx ts = None /\ existsb ishead ts = false) \/ (exists k c pre post, headidx ts = Some k /\ ts = pre ++ c :: post /\ length pre = k /\ ishead c = true).
Proof.
  induction ts as [|t ts IH]; cbn [headidx existsb]; [now left|]. destruct (ishead t) eqn:E.
  - right. exists 0, t, [], ts. auto.
  - destruct IH as [[-> H]|(k & c & pre & post & -> & -> & L & H)]; [left; now split|]. right. exists (S k), c, (t :: pre), post. cbn. auto.
Qed.
Lemma others_none : forall h ts rs, length rs = length ts -> forall out, others None h ts rs = Some out ->
  exists ps, rs = map Some ps /\ out = concat (map (fun cp => snd (snd cp) ++ [(fst (snd cp), relname (fst cp), h)]) (combine ts ps)).
Proof.
  intros h. induction ts as [|c ts IH]; intros [|r rs] L out E; cbn in L; try discriminate; cbn [others option_map] in E.
  - injection E as <-. exists []. auto.
  - destruct r as [[h' ds]|]; [|discriminate]. destruct (others None h ts rs) as [rest|] eqn:Q; [|discriminate]. injection E as <-.
    destruct (IH rs ltac:(lia) rest Q) as (ps & -> & ->). exists ((h', ds) :: ps). split; [reflexivity|]. cbn. now rewrite <- app_assoc.
Qed.
Lemma others_some : forall h pre c post rs1 r rs2, length rs1 = length pre -> length rs2 = length post -> forall out, others (Some (length pre)) h (pre ++ c :: post) (rs1 ++ r :: rs2) = Some out ->
  exists ps1 ps2, rs1 = map Some ps1 /\ rs2 = map Some ps2 /\
    out = concat (map (fun cp => snd (snd cp) ++ [(fst (snd cp), relname (fst cp), h)]) (combine (pre ++ post) (ps1 ++ ps2))).
Proof.
  intros h. induction pre as [|x pre IH]; intros c post [|r1 rs1] r rs2 L1 L2 out E; cbn in L1; try discriminate; cbn [app length others] in E.
  - destruct (others_none _ _ _ L2 _ E) as (ps & -> & ->). exists [], ps. auto.
  - cbn [option_map pred] in E. destruct r1 as [[h' ds]|]; [|discriminate]. destruct (others (Some (length pre)) h (pre ++ c :: post) (rs1 ++ r :: rs2)) as [rest|] eqn:Q; [|discriminate]. injection E as <-.
    destruct (IH _ _ rs1 _ _ ltac:(lia) L2 _ Q) as (ps1 & ps2 & -> & -> & ->). exists ((h', ds) :: ps1), ps2. split; [reflexivity|]. split; [reflexivity|]. cbn. now rewrite <- app_assoc.
Qed.
(** what a node contributes *)
Lemma makedep_con : forall a ts h ds, makedep (Con a ts) = Some (h, ds) ->
  exists pre c post dc ps, ts = pre ++ c :: post /\ ishead c = true /\ existsb ishead pre = false /\ makedep c = Some (h, dc) /\
    map makedep (pre ++ post) = map Some ps /\
    ds = dc ++ concat (map (fun cp => snd (snd cp) ++ [(fst (snd cp), relname (fst cp), h)]) (combine (pre ++ post) ps)).
Proof.
  intros a ts h ds E. cbn [makedep] in E.
  assert (HI : forall ts, match headidx ts with Some k => exists pre c post, ts = pre ++ c :: post /\ length pre = k /\ ishead c = true /\ existsb ishead pre = false | None => True end).
  { clear. induction ts as [|t ts IH]; cbn [headidx]; [exact I|]. destruct (ishead t) eqn:Q; [exists [], t, ts; auto|].
    destruct (headidx ts) as [k|]; [|exact I]. cbn. destruct IH as (pre & c & post & -> & L & H1 & H2). exists (t :: pre), c, post. cbn. rewrite Q, H2. auto. }
  specialize (HI ts). destruct (headidx ts) as [k|]; [|discriminate]. destruct HI as (pre & c & post & -> & L & HC & HP).
  rewrite !map_app in E. cbn [map] in E. rewrite app_nth2 in E by (rewrite map_length; lia). rewrite map_length, L, Nat.sub_diag in E. cbn [nth] in E.
  destruct (makedep c) as [[h' dc]|] eqn:MC; [|discriminate]. rewrite <- L in E.
  destruct (others (Some (length pre)) h' (pre ++ c :: post) (map makedep pre ++ Some (h', dc) :: map makedep post)) as [rest|] eqn:Q; [|discriminate]. injection E as -> <-.
  destruct (others_some _ _ _ _ _ _ _ (map_length _ _) (map_length _ _) _ Q) as (ps1 & ps2 & E1 & E2 & ->).
  exists pre, c, post, dc, (ps1 ++ ps2). split; [reflexivity|]. split; [exact HC|]. split; [exact HP|]. split; [exact MC|]. rewrite !map_app, E1, E2. auto.
Qed.
Lemma others_total : forall h ts rs k, length rs = length ts -> (forall r, In r rs -> r <> None) -> exists out, others k h ts rs = Some out.
Proof.
  intros h. induction ts as [|c ts IH]; intros [|r rs] k L H; cbn in L; try discriminate; [exists []; reflexivity|]. cbn [others].
  assert (H' : forall r, In r rs -> r <> None) by (intros x I; apply H; now right).
  destruct k as [[|k]|].
  - apply IH; [lia|exact H'].
  - destruct r as [[h' ds]|]; [|exfalso; apply (H None); [now left|reflexivity]]. destruct (IH rs (option_map pred (Some (S k))) ltac:(lia) H') as [out ->]. eauto.
  - destruct r as [[h' ds]|]; [|exfalso; apply (H None); [now left|reflexivity]]. destruct (IH rs (option_map pred None) ltac:(lia) H') as [out ->]. eauto.
Qed.
Lemma makedep_total : forall t, marked t -> exists h ds, makedep t = Some (h, ds).
Proof.
  induction t as [a i|a ts IH] using htree_ind'; intros M; [exists (i + 1), []; reflexivity|]. inversion M as [|? ? E F]; subst. cbn [makedep].
  destruct (headidx_spec ts) as [[_ X]|(k & c & pre & post & -> & -> & L & _)]; [congruence|].
  assert (T : forall t, In t (pre ++ c :: post) -> makedep t <> None).
  { intros t I. rewrite Forall_forall in IH, F. destruct (IH t I (F t I)) as (h & ds & ->). discriminate. }
  rewrite map_app. cbn [map]. rewrite app_nth2 by (rewrite map_length; lia). rewrite map_length, L, Nat.sub_diag. cbn [nth].
  destruct (makedep c) as [[h ds]|] eqn:MC; [|exfalso; apply (T c); [apply in_elt|exact MC]].
  destruct (others_total h (pre ++ c :: post) (map makedep pre ++ Some (h, ds) :: map makedep post) (Some k)) as [out ->].
  - rewrite !app_length. cbn [length]. now rewrite !map_length.
  - intros r I. rewrite <- MC in I. change (makedep c :: map makedep post) with (map makedep (c :: post)) in I. rewrite <- map_app in I. apply in_map_iff in I. destruct I as (t & <- & I). now apply T.
  - eauto.
Qed.

Lemma pairs_of : forall ts ps, map makedep ts = map Some ps -> forall t p, In (t, p) (combine ts ps) -> In t ts /\ makedep t = Some p.
Proof.
  induction ts as [|t ts IH]; intros [|p ps] E; cbn in E; try discriminate; cbn [combine In]; [tauto|]. injection E as E1 E2. intros u q [X|X].
  - injection X as <- <-. auto.
  - destruct (IH _ E2 _ _ X). auto.
Qed.
Lemma pairs_in : forall ts ps, map makedep ts = map Some ps -> forall t, In t ts -> exists p, In (t, p) (combine ts ps) /\ makedep t = Some p.
Proof.
  induction ts as [|t ts IH]; intros [|p ps] E; cbn in E; try discriminate; cbn [combine In]; [tauto|]. injection E as E1 E2. intros u [<-|I]; [eauto|].
  destruct (IH _ E2 _ I) as (q & A & B). eauto.
Qed.
(** each token but the head is a dependent exactly once *)
Lemma makedep_tokens : forall t h ds, makedep t = Some (h, ds) -> Permutation (h :: map d_tok ds) (tokens t).
Proof.
  induction t as [a i|a ts IH] using htree_ind'; intros h ds E.
  - cbn in E. injection E as <- <-. unfold tokens. cbn. rewrite Nat.add_1_r. reflexivity.
  - destruct (makedep_con _ _ _ _ E) as (pre & c & post & dc & ps & -> & _ & _ & MC & MP & ->). rewrite tokens_con.
    assert (P : Permutation (flat_map tokens (pre ++ c :: post)) (tokens c ++ flat_map tokens (pre ++ post))).
    { rewrite !flat_map_app. cbn [flat_map]. apply Permutation_app_swap_app. }
    rewrite P. rewrite Forall_forall in IH. rewrite <- (IH c (in_elt _ _ _) _ _ MC). cbn [app]. constructor. rewrite map_app. apply Permutation_app_head.
    assert (IH' : forall t, In t (pre ++ post) -> forall h ds, makedep t = Some (h, ds) -> Permutation (h :: map d_tok ds) (tokens t)).
    { intros t I. apply IH. apply in_app_or in I. apply in_or_app. destruct I; [now left|right; now right]. }
    clear - MP IH'. revert ps MP IH'. generalize (pre ++ post) as ts. induction ts as [|t ts IHt]; intros [|p ps] MP IH'; cbn in MP; try discriminate; [constructor|]. injection MP as M1 M2.
    cbn [combine map concat flat_map fst snd]. rewrite !map_app. cbn [map]. unfold d_tok at 2. cbn [fst].
    apply Permutation_app; [|apply IHt; [exact M2|intros; apply IH'; auto; now right]]. destruct p as [h' ds']. cbn [fst snd].
    rewrite <- (IH' t (or_introl eq_refl) _ _ M1). apply Permutation_sym, Permutation_cons_append.
Qed.
Lemma makedep_head : forall t h ds, makedep t = Some (h, ds) -> In h (tokens t).
Proof. intros t h ds E. eapply Permutation_in; [apply makedep_tokens; exact E|now left]. Qed.

(** ---- following the heads ---- *)
Inductive reach (ds : list dep) : nat -> nat -> Prop :=
| reach_refl : forall x, reach ds x x
| reach_step : forall x r y z, In (x, r, y) ds -> reach ds y z -> reach ds x z.
Lemma reach_mono : forall ds ds' x y, (forall d, In d ds -> In d ds') -> reach ds x y -> reach ds' x y.
Proof. intros ds ds' x y H. induction 1; [constructor|econstructor; eauto]. Qed.
Lemma reach_trans : forall ds x y z, reach ds x y -> reach ds y z -> reach ds x z.
Proof. intros ds x y z H. induction H; intros; [assumption|econstructor; eauto]. Qed.
Lemma makedep_reach : forall t h ds, makedep t = Some (h, ds) -> forall x, In x (tokens t) -> reach ds x h.
Proof.
  induction t as [a i|a ts IH] using htree_ind'; intros h ds E x I.
  - cbn in E. injection E as <- <-. unfold tokens in I. cbn in I. destruct I as [<-|[]]. rewrite Nat.add_1_r. constructor.
  - destruct (makedep_con _ _ _ _ E) as (pre & c & post & dc & ps & -> & _ & _ & MC & MP & ->). rewrite tokens_con in I. apply in_flat_map in I. destruct I as (t & It & Ix).
    rewrite Forall_forall in IH. assert (D : t = c \/ In t (pre ++ post)) by (apply in_app_or in It; cbn [In] in It; rewrite in_app_iff; intuition).
    destruct D as [->|D].
    + eapply reach_mono; [|eapply IH; eauto]. intros d. rewrite in_app_iff. tauto.
    + destruct (pairs_in _ _ MP t D) as ([h' ds'] & A & B).
      assert (J : forall d, In d (ds' ++ [(h', relname t, h)]) -> In d (dc ++ concat (map (fun cp => snd (snd cp) ++ [(fst (snd cp), relname (fst cp), h)]) (combine (pre ++ post) ps)))).
      { intros d Jd. apply in_or_app. right. apply in_concat. exists (ds' ++ [(h', relname t, h)]). split; [|exact Jd]. apply in_map_iff. exists (t, (h', ds')). auto. }
      eapply reach_trans.
      * eapply reach_mono; [|eapply IH; [exact It|exact B|exact Ix]]. intros d Jd. apply J. apply in_or_app. now left.
      * eapply reach_step; [|constructor]. apply J. apply in_or_app. right. now left.
Qed.
(** a dependency is between tokens of the node *)
Lemma makedep_inside : forall t h ds, makedep t = Some (h, ds) -> forall d, In d ds -> In (d_tok d) (tokens t) /\ In (d_head d) (tokens t).
Proof.
  intros t h ds E d I. split.
  - eapply Permutation_in; [apply makedep_tokens; exact E|]. right. now apply in_map.
  - revert h ds E d I. induction t as [a i|a ts IH] using htree_ind'; intros h ds E d I.
    + cbn in E. injection E as <- <-. contradiction.
    + pose proof (makedep_head _ _ _ E) as HH. destruct (makedep_con _ _ _ _ E) as (pre & c & post & dc & ps & -> & _ & _ & MC & MP & ->). rewrite tokens_con in *. rewrite Forall_forall in IH.
      apply in_app_or in I. destruct I as [I|I].
      * apply in_flat_map. exists c. split; [apply in_elt|]. eapply IH; eauto. apply in_elt.
      * apply in_concat in I. destruct I as (l & Il & I). apply in_map_iff in Il. destruct Il as ([t [h' ds']] & <- & J). cbn [fst snd] in I.
        destruct (pairs_of _ _ MP _ _ J) as [J1 J2]. apply in_app_or in I. destruct I as [I|[<-|[]]]; [|exact HH].
        assert (J3 : In t (pre ++ c :: post)) by (apply in_app_or in J1; apply in_or_app; destruct J1; [now left|right; now right]).
        apply in_flat_map. exists t. split; [exact J3|]. eapply IH; eauto.
Qed.

(** the nodes that are not the head of their parent (the first head, if there are more) *)
Inductive maxproj : htree -> htree -> Prop :=
| mp_here : forall a pre c post t, ishead c = true -> existsb ishead pre = false -> In t (pre ++ post) -> maxproj (Con a (pre ++ c :: post)) t
| mp_deep : forall a ts c t, In c ts -> maxproj c t -> maxproj (Con a ts) t.
Lemma first_unique : forall (pre pre' : list htree) c c' post post', pre ++ c :: post = pre' ++ c' :: post' -> ishead c = true -> ishead c' = true -> existsb ishead pre = false -> existsb ishead pre' = false ->
  pre = pre' /\ c = c' /\ post = post'.
Proof.
  induction pre as [|x pre IH]; intros [|y pre'] c c' post post' E H H' N N'; cbn in *.
  - injection E as -> ->. auto.
  - injection E as -> _. rewrite H in N'. discriminate.
  - injection E as -> _. rewrite H' in N. discriminate.
  - injection E as -> E. apply orb_false_iff in N, N'. destruct (IH _ _ _ _ _ E H H' (proj2 N) (proj2 N')) as (-> & -> & ->). auto.
Qed.
Lemma maxproj_tokens : forall t u, maxproj t u -> forall x, In x (tokens u) -> In x (tokens t).
Proof.
  induction 1 as [a pre c post t H1 H2 I|a ts c t I M IH]; intros x Ix; rewrite tokens_con; apply in_flat_map.
  - exists t. split; [|exact Ix]. apply in_app_or in I. apply in_or_app. destruct I; [now left|right; now right].
  - eauto.
Qed.
Lemma nodup_disj : forall ts, NoDup (flat_map tokens ts) -> forall i j t u x, nth_error ts i = Some t -> nth_error ts j = Some u -> In x (tokens t) -> In x (tokens u) -> i = j.
Proof.
  induction ts as [|s ts IH]; intros ND i j t u x A B X Y; [destruct i; discriminate|]. cbn [flat_map] in ND.
  assert (N2 : NoDup (flat_map tokens ts)) by (clear - ND; induction (tokens s) as [|y l IHl]; [exact ND|inversion ND; auto]).
  assert (D : forall y, In y (tokens s) -> ~ In y (flat_map tokens ts)).
  { clear - ND. induction (tokens s) as [|z l IHl]; [contradiction|]. cbn [app] in ND. inversion ND as [|? ? N1 N2]; subst. intros y [<-|I]; [|now apply IHl]. intros J. apply N1, in_or_app. now right. }
  destruct i as [|i], j as [|j]; cbn [nth_error] in A, B; [reflexivity| | |f_equal; eapply IH; eauto].
  - injection A as ->. exfalso. apply (D x X). apply in_flat_map. exists u. split; [eapply nth_error_In; eauto|exact Y].
  - injection B as ->. exfalso. apply (D x Y). apply in_flat_map. exists t. split; [eapply nth_error_In; eauto|exact X].
Qed.
Lemma nodup_sub : forall ts t, NoDup (flat_map tokens ts) -> In t ts -> NoDup (tokens t).
Proof.
  induction ts as [|s ts IH]; intros t ND I; [contradiction|]. cbn [flat_map] in ND. destruct I as [->|I].
  - clear - ND. induction (tokens t) as [|y l IHl]; [constructor|]. cbn [app] in ND. inversion ND as [|? ? N1 N2]; subst. constructor; [|auto]. intros J. apply N1, in_or_app. now left.
  - apply IH; [|exact I]. clear - ND. induction (tokens s) as [|y l IHl]; [exact ND|inversion ND; auto].
Qed.
(** the head and another child have nothing in common *)
Lemma head_disj : forall pre c post t x, NoDup (flat_map tokens (pre ++ c :: post)) -> In t (pre ++ post) -> In x (tokens c) -> ~ In x (tokens t).
Proof.
  intros pre c post t x ND I X Y.
  assert (NC : nth_error (pre ++ c :: post) (length pre) = Some c) by (rewrite nth_error_app2, Nat.sub_diag by lia; reflexivity).
  apply in_app_or in I. destruct I as [I|I]; apply In_nth_error in I; destruct I as [n I].
  - assert (L : n < length pre) by (apply nth_error_Some; congruence). assert (NT : nth_error (pre ++ c :: post) n = Some t) by (rewrite nth_error_app1 by exact L; exact I).
    pose proof (nodup_disj _ ND _ _ _ _ _ NC NT X Y). lia.
  - assert (NT : nth_error (pre ++ c :: post) (length pre + S n) = Some t) by (rewrite nth_error_app2 by lia; replace (length pre + S n - length pre) with (S n) by lia; exact I).
    pose proof (nodup_disj _ ND _ _ _ _ _ NC NT X Y). lia.
Qed.
(** the head of a node is outside its maximal projections *)
Lemma head_outside : forall t u, maxproj t u -> forall h ds, makedep t = Some (h, ds) -> NoDup (tokens t) -> ~ In h (tokens u).
Proof.
  induction 1 as [a pre c post t H1 H2 I|a ts c t I M IH]; intros h ds E ND X; rewrite tokens_con in ND.
  - destruct (makedep_con _ _ _ _ E) as (pre' & c' & post' & dc & ps & EQ & HC & HP & MC & _). destruct (first_unique _ _ _ _ _ _ EQ H1 HC H2 HP) as (<- & <- & <-).
    eapply head_disj; [exact ND|exact I|eapply makedep_head; exact MC|exact X].
  - destruct (makedep_con _ _ _ _ E) as (pre & c' & post & dc & ps & -> & HC & HP & MC & _).
    pose proof (nodup_sub _ _ ND I) as NC. assert (D : c = c' \/ In c (pre ++ post)) by (apply in_app_or in I; cbn [In] in I; rewrite in_app_iff; intuition).
    destruct D as [->|D]; [exact (IH _ _ MC NC X)|]. eapply head_disj; [exact ND|exact D|eapply makedep_head; exact MC|eapply maxproj_tokens; eauto].
Qed.
(** the tokens of a maximal projection are closed under dependents *)
Lemma closed_below : forall t u, maxproj t u -> forall h ds, makedep t = Some (h, ds) -> NoDup (tokens t) -> forall d, In d ds -> In (d_head d) (tokens u) -> In (d_tok d) (tokens u).
Proof.
  induction 1 as [a pre c post t H1 H2 I|a ts c t I M IH]; intros h ds E ND d Id X; rewrite tokens_con in ND.
  - destruct (makedep_con _ _ _ _ E) as (pre' & c' & post' & dc & ps & EQ & HC & HP & MC & MP & ->). destruct (first_unique _ _ _ _ _ _ EQ H1 HC H2 HP) as (<- & <- & <-).
    apply in_app_or in Id. destruct Id as [Id|Id].
    + exfalso. destruct (makedep_inside _ _ _ MC d Id) as [_ Y]. eapply head_disj; eauto.
    + apply in_concat in Id. destruct Id as (l & Il & Id). apply in_map_iff in Il. destruct Il as ([t' [h' ds']] & <- & J). cbn [fst snd] in Id.
      destruct (pairs_of _ _ MP _ _ J) as [J1 J2]. apply in_app_or in Id. destruct Id as [Id|[<-|[]]].
      * destruct (makedep_inside _ _ _ J2 d Id) as [Y1 Y2].
        assert (EQT : t' = t); [|now subst].
        assert (W : forall v, In v (pre ++ post) -> exists k, nth_error (pre ++ c :: post) k = Some v).
        { intros v Iv. apply In_nth_error. apply in_app_or in Iv. apply in_or_app. destruct Iv; [now left|right; now right]. }
        destruct (W _ J1) as [k1 K1]. destruct (W _ I) as [k2 K2]. pose proof (nodup_disj _ ND _ _ _ _ _ K1 K2 Y2 X) as EK. subst k2. congruence.
      * exfalso. cbn [d_head snd] in X. eapply head_disj; [exact ND|exact I|eapply makedep_head; exact MC|exact X].
  - destruct (makedep_con _ _ _ _ E) as (pre & c' & post & dc & ps & -> & HC & HP & MC & MP & ->).
    assert (W : forall v, In v (pre ++ post) -> In v (pre ++ c' :: post)) by (intros v Iv; apply in_app_or in Iv; apply in_or_app; destruct Iv; [now left|right; now right]).
    assert (SAME : forall v, In v (pre ++ c' :: post) -> In (d_head d) (tokens v) -> v = c).
    { intros v Iv Y. pose proof (maxproj_tokens _ _ M _ X) as Z. apply In_nth_error in Iv, I. destruct Iv as [k1 K1], I as [k2 K2]. pose proof (nodup_disj _ ND _ _ _ _ _ K1 K2 Y Z) as EK. subst k2. congruence. }
    apply in_app_or in Id. destruct Id as [Id|Id].
    + pose proof (SAME c' (in_elt _ _ _) (proj2 (makedep_inside _ _ _ MC d Id))) as EC. subst c'. eapply IH; eauto. eapply nodup_sub; eauto.
    + apply in_concat in Id. destruct Id as (l & Il & Id). apply in_map_iff in Il. destruct Il as ([t' [h' ds']] & <- & J). cbn [fst snd] in Id.
      destruct (pairs_of _ _ MP _ _ J) as [J1 J2]. apply in_app_or in Id. destruct Id as [Id|[<-|[]]].
      * pose proof (SAME t' (W _ J1) (proj2 (makedep_inside _ _ _ J2 d Id))) as EC. subst t'. eapply IH; eauto. eapply nodup_sub; eauto.
      * exfalso. cbn [d_head snd] in X, SAME. pose proof (SAME c' (in_elt _ _ _) (makedep_head _ _ _ MC)) as EC. subst c'.
        eapply head_outside; [exact M|exact MC|eapply nodup_sub; eauto|exact X].
Qed.
Lemma maxproj_dep : forall t u, maxproj t u -> forall h ds, makedep t = Some (h, ds) -> exists h' ds', makedep u = Some (h', ds') /\ (forall d, In d ds' -> In d ds).
Proof.
  induction 1 as [a pre c post t H1 H2 I|a ts c t I M IH]; intros h ds E.
  - destruct (makedep_con _ _ _ _ E) as (pre' & c' & post' & dc & ps & EQ & HC & HP & MC & MP & ->). destruct (first_unique _ _ _ _ _ _ EQ H1 HC H2 HP) as (<- & <- & <-).
    destruct (pairs_in _ _ MP _ I) as ([h' ds'] & J1 & J2). exists h', ds'. split; [exact J2|]. intros d Id. apply in_or_app. right. apply in_concat. eexists. split; [apply in_map_iff; eexists; split; [reflexivity|exact J1]|]. cbn [fst snd]. apply in_or_app. now left.
  - destruct (makedep_con _ _ _ _ E) as (pre & c' & post & dc & ps & -> & HC & HP & MC & MP & ->).
    assert (D : c = c' \/ In c (pre ++ post)) by (apply in_app_or in I; cbn [In] in I; rewrite in_app_iff; intuition). destruct D as [->|D].
    + destruct (IH _ _ MC) as (h' & ds' & A & B). exists h', ds'. split; [exact A|]. intros d Id. apply in_or_app. left. auto.
    + destruct (pairs_in _ _ MP _ D) as ([h1 ds1] & J1 & J2). destruct (IH _ _ J2) as (h' & ds' & A & B). exists h', ds'. split; [exact A|].
      intros d Id. apply in_or_app. right. apply in_concat. eexists. split; [apply in_map_iff; eexists; split; [reflexivity|exact J1]|]. cbn [fst snd]. apply in_or_app. left. auto.
Qed.
(** every token is the head of the node or of a maximal projection in it *)
Lemma token_projects : forall t h ds, makedep t = Some (h, ds) -> forall x, In x (tokens t) -> x = h \/ exists u ds', maxproj t u /\ makedep u = Some (x, ds').
Proof.
  induction t as [a i|a ts IH] using htree_ind'; intros h ds E x I.
  - cbn in E. injection E as <- <-. unfold tokens in I. cbn in I. destruct I as [<-|[]]. left. lia.
  - destruct (makedep_con _ _ _ _ E) as (pre & c & post & dc & ps & -> & HC & HP & MC & MP & ->). rewrite tokens_con in I. apply in_flat_map in I. destruct I as (t & It & Ix). rewrite Forall_forall in IH.
    assert (D : t = c \/ In t (pre ++ post)) by (apply in_app_or in It; cbn [In] in It; rewrite in_app_iff; intuition). destruct D as [->|D].
    + destruct (IH c It _ _ MC x Ix) as [->|(u & ds' & M & U)]; [now left|]. right. exists u, ds'. split; [eapply mp_deep; eauto|exact U].
    + destruct (pairs_in _ _ MP _ D) as ([h1 ds1] & J1 & J2). destruct (IH t It _ _ J2 x Ix) as [->|(u & ds' & M & U)]; right.
      * exists t, ds1. split; [now apply mp_here|exact J2].
      * exists u, ds'. split; [eapply mp_deep; eauto|exact U].
Qed.
Lemma getheadpos_makedep : forall t h ds, makedep t = Some (h, ds) -> exists a i, getheadpos t = Some (Pre a i) /\ h = i + 1.
Proof.
  induction t as [a i|a ts IH] using htree_ind'; intros h ds E; [cbn in E; injection E as <- <-; cbn; eauto|].
  destruct (makedep_con _ _ _ _ E) as (pre & c & post & dc & ps & -> & HC & HP & MC & _). rewrite Forall_forall in IH. destruct (IH c (in_elt _ _ _) _ _ MC) as (b & i & G & ->). exists b, i. split; [|reflexivity].
  cbn [getheadpos]. clear - HC HP G. induction pre as [|p pre IH]; cbn [app] in *; [now rewrite HC|]. cbn in HP. apply orb_false_iff in HP. destruct HP as [-> HP]. auto.
Qed.
