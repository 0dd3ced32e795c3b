(** Proofs for C63 *)
From Coq Require Import NArith ZArith QArith Qcanon List Bool Arith Lia Permutation.
From Verif Require Import PyStr EvalModel EvalProps ExpModel.
Import ListNotations.

(** * scores do not depend on the order *)
Lemma recall_perm : forall K (eqb : K -> K -> bool), (forall a b, eqb a b = true <-> a = b) -> forall g g' c c', Permutation g g' -> Permutation c c' ->
  recall eqb (counter eqb g) (counter eqb c) = recall eqb (counter eqb g') (counter eqb c') /\
  precision eqb (counter eqb g) (counter eqb c) = precision eqb (counter eqb g') (counter eqb c') /\
  f_measure eqb (counter eqb g) (counter eqb c) half = f_measure eqb (counter eqb g') (counter eqb c') half.
Proof.
  intros K eqb EQ g g' c c' P1 P2. destruct (C44_intersection_exists eqb EQ g c) as (i & I). pose proof (intersection_perm _ _ _ _ _ P1 P2 I) as I'.
  pose proof (Permutation_length P1) as L1. pose proof (Permutation_length P2) as L2.
  destruct (C44_undefined eqb EQ g c) as [U1 U2]. destruct (C44_undefined eqb EQ g' c') as [U1' U2']. split; [|split].
  - destruct g as [|x g]; [apply Permutation_nil in P1; subst; now rewrite (proj2 U1 eq_refl), (proj2 U1' eq_refl)|].
    rewrite (C44_recall eqb EQ _ _ _ I), (C44_recall eqb EQ _ _ _ I') by (intros E; subst; discriminate). now rewrite L1.
  - destruct c as [|x c]; [apply Permutation_nil in P2; subst; now rewrite (proj2 U2 eq_refl), (proj2 U2' eq_refl)|].
    rewrite (C44_precision eqb EQ _ _ _ I), (C44_precision eqb EQ _ _ _ I') by (intros E; subst; discriminate). now rewrite L2.
  - rewrite (C44_f_measure eqb EQ _ _ _ I), (C44_f_measure eqb EQ _ _ _ I'). now rewrite L1, L2.
Qed.
Lemma counter_length_perm : forall K (eqb : K -> K -> bool), (forall a b, eqb a b = true <-> a = b) -> forall g g', Permutation g g' -> length (counter eqb g) = length (counter eqb g').
Proof.
  intros K eqb EQ g g' P. rewrite <- (map_length fst (counter eqb g)), <- (map_length fst (counter eqb g')). apply Permutation_length.
  destruct (counter_spec eqb EQ g) as [W G]. destruct (counter_spec eqb EQ g') as [W' G'].
  apply NoDup_Permutation; [apply W|apply W'|]. intros k. rewrite <- (cget_pos eqb EQ _ W), <- (cget_pos eqb EQ _ W'), G, G'. now rewrite (cnt_perm eqb g g' k P).
Qed.
Lemma flat_map_perm : forall A B (f : A -> list B) l l', Permutation l l' -> Permutation (flat_map f l) (flat_map f l').
Proof.
  intros A B f l l' P. induction P; cbn; auto.
  - now apply Permutation_app_head.
  - rewrite !app_assoc. apply Permutation_app_tail, Permutation_app_comm.
  - eapply Permutation_trans; eauto.
Qed.
Lemma filter_perm : forall A (f : A -> bool) l l', Permutation l l' -> Permutation (filter f l) (filter f l').
Proof.
  intros A f l l' P. induction P; cbn; auto.
  - destruct (f x); auto.
  - destruct (f x), (f y); auto. constructor.
  - eapply Permutation_trans; eauto.
Qed.
Lemma mean_perm : forall l l', Permutation l l' -> mean l = mean l'.
Proof.
  intros l l' P. unfold mean.
  assert (G : forall l l', Permutation l l' -> forall a, fold_left (fun acc x => match acc, x with Some u, Some b => Some (u + b)%Qc | _, _ => None end) l a =
     fold_left (fun acc x => match acc, x with Some u, Some b => Some (u + b)%Qc | _, _ => None end) l' a).
  { clear. intros l l' P. induction P; intros a; cbn [fold_left]; auto.
    - f_equal. destruct a, x, y; auto. f_equal. ring.
    - now rewrite IHP1. }
  pose proof (Permutation_length P) as L. destruct l as [|x l], l' as [|y l']; try discriminate; [reflexivity|]. rewrite (G _ _ P), L. reflexivity.
Qed.
Lemma oadd_perm : forall (f : pair -> option Qc) l l', Permutation l l' -> forall a, fold_left (fun a p => oadd a (f p)) l a = fold_left (fun a p => oadd a (f p)) l' a.
Proof.
  intros f l l' P. induction P; intros a; cbn [fold_left]; auto.
  - f_equal. destruct a, (f x), (f y); cbn; auto. f_equal. ring.
  - now rewrite IHP1.
Qed.
Lemma dice_gen : forall d ps s, dicenoms (fold_left (addpair d) ps s) = fold_left (fun a p => oadd a (p_ted p)) ps (dicenoms s) /\
  dicedenoms (fold_left (addpair d) ps s) = fold_left (fun a p => oadd a (p_denom p)) ps (dicedenoms s).
Proof. intros d. induction ps as [|p ps IH]; intros s; cbn [fold_left]; auto. destruct (IH (addpair d s p)) as [-> ->]. cbn [addpair dicenoms dicedenoms]. auto. Qed.
(** pairs of tags *)
Lemma accuracy_blocks : forall (ps : list pair), (forall p, In p ps -> length (p_gpos p) = length (p_cpos p)) ->
  combine (flat_map p_gpos ps) (flat_map p_cpos ps) = flat_map (fun p => combine (p_gpos p) (p_cpos p)) ps /\ length (flat_map p_gpos ps) = length (flat_map p_cpos ps).
Proof.
  induction ps as [|p ps IH]; intros H; cbn [flat_map]; [auto|]. destruct (IH ltac:(intros; apply H; now right)) as [E L]. specialize (H p (or_introl eq_refl)).
  rewrite !app_length. split; [|lia]. rewrite <- E. clear - H. revert H. generalize (p_cpos p). induction (p_gpos p) as [|x l IH]; intros [|y m] H; cbn in *; try discriminate; auto. f_equal. apply IH. lia.
Qed.
Lemma accuracy_perm : forall ps ps', Permutation ps ps' -> (forall p, In p ps -> length (p_gpos p) = length (p_cpos p)) ->
  accuracy eqs (flat_map p_gpos ps) (flat_map p_cpos ps) = accuracy eqs (flat_map p_gpos ps') (flat_map p_cpos ps').
Proof.
  intros ps ps' P H. assert (H' : forall p, In p ps' -> length (p_gpos p) = length (p_cpos p)) by (intros p Hp; apply H; exact (Permutation_in _ (Permutation_sym P) Hp)).
  destruct (accuracy_blocks ps H) as [E L]. destruct (accuracy_blocks ps' H') as [E' L'].
  pose proof (Permutation_length (flat_map_perm _ _ p_gpos _ _ P)) as LG. unfold accuracy. rewrite L, L', !Nat.eqb_refl. cbn [negb]. rewrite E, E'.
  rewrite (Permutation_length (filter_perm _ (fun p => eqs (fst p) (snd p)) _ _ (flat_map_perm _ _ (fun p => combine (p_gpos p) (p_cpos p)) _ _ P))).
  rewrite <- L, <- L'. rewrite <- LG. destruct (flat_map p_gpos ps), (flat_map p_gpos ps'); try discriminate; reflexivity.
Qed.
Lemma max_perm : forall ps ps', Permutation ps ps' -> fold_right (fun p m => max (p_lengpos p) m) 0 ps = fold_right (fun p m => max (p_lengpos p) m) 0 ps'.
Proof. intros ps ps' P. induction P; cbn; auto; [|congruence]. rewrite !Nat.max_assoc. f_equal. apply Nat.max_comm. Qed.
Lemma scores_perm : forall d ps ps', Permutation ps ps' -> (forall p, In p ps -> length (p_gpos p) = length (p_cpos p)) ->
  scores (accumulate d ps) = scores (accumulate d ps').
Proof.
  intros d ps ps' P H. unfold scores, accumulate.
  pose proof (accumulate_gen d ps acc0) as A. pose proof (accumulate_gen d ps' acc0) as A'. pose proof (dice_gen d ps acc0) as D. pose proof (dice_gen d ps' acc0) as D'. cbv zeta in A, A'.
  destruct A as (-> & -> & -> & -> & -> & -> & -> & ->). destruct A' as (-> & -> & -> & -> & -> & -> & -> & ->). destruct D as [-> ->]. destruct D' as [-> ->].
  cbn [acc0 goldb candb goldpos candpos lascores exact sentcount maxlenseen dicenoms dicedenoms app Nat.add].
  assert (PG : forall sel, Permutation (tagged sel ps) (tagged sel ps')) by (intros sel; now apply flat_map_perm).
  destruct (recall_perm _ nbeqb nbeqb_eq _ _ _ _ (PG p_gbrack) (PG p_cbrack)) as (R1 & R2 & R3). unfold counter in R1, R2, R3. unfold half in R3. rewrite R1, R2, R3.
  rewrite (accuracy_perm ps ps' P H), (mean_perm _ _ (Permutation_map p_lascore P)), (oadd_perm p_ted _ _ P), (oadd_perm p_denom _ _ P), (max_perm _ _ P).
  pose proof (counter_length_perm _ nbeqb nbeqb_eq _ _ (PG p_gbrack)) as L1. pose proof (counter_length_perm _ nbeqb nbeqb_eq _ _ (PG p_cbrack)) as L2. unfold counter in L1, L2. rewrite L1, L2.
  rewrite !(Permutation_length (filter_perm _ _ _ _ P)). reflexivity.
Qed.

(** * dictionaries *)
Section Dicts.
Context {V : Type}.
Implicit Types d : list (nat * V).
Lemma lookup_assign : forall d i j v, lookup j (assign i v d) = if i =? j then Some v else lookup j d.
Proof.
  induction d as [|[k w] d IH]; intros i j v; cbn [assign lookup].
  - reflexivity.
  - destruct (Nat.eqb_spec k i) as [->|N]; cbn [lookup].
    + destruct (i =? j); reflexivity.
    + rewrite IH. destruct (Nat.eqb_spec k j) as [->|]; auto. destruct (Nat.eqb_spec i j); congruence.
Qed.
Lemma lookup_fromkeys : forall ids (v : V) i, lookup i (fromkeys ids v) = if in_dec Nat.eq_dec i ids then Some v else None.
Proof.
  intros ids v i. unfold fromkeys. induction ids as [|j ids IH]; [reflexivity|]. cbn [map lookup]. destruct (Nat.eqb_spec j i) as [->|N].
  - destruct (in_dec Nat.eq_dec i (i :: ids)) as [|X]; auto. destruct X. now left.
  - rewrite IH. destruct (in_dec Nat.eq_dec i ids) as [Y|Y], (in_dec Nat.eq_dec i (j :: ids)) as [Z|Z]; auto; exfalso.
    + apply Z. now right.
    + destruct Z; [congruence|contradiction].
Qed.
Lemma lookup_In : forall d i v, NoDup (map fst d) -> In (i, v) d -> lookup i d = Some v.
Proof.
  induction d as [|[j w] d IH]; intros i v ND H; [destruct H|]. cbn in ND. inversion ND as [|? ? N1 N2]; subst. cbn [lookup]. destruct H as [H|H].
  - injection H as -> ->. now rewrite Nat.eqb_refl.
  - destruct (Nat.eqb_spec j i) as [->|]; [|auto]. exfalso. apply N1. apply in_map_iff. now exists (i, v).
Qed.
End Dicts.

(** * the main loop *)
Section Loop.
Variables Tree Sent Float : Type.
Variable log : Qc -> Float.
Variables nan c300 : Float.
Notation stageresult := (stageresult Tree Float).
Notation test := (test Tree Sent).
Notation stage := (stage Tree Sent Float).
Variable parse : Sent -> Tree -> list stageresult.
Variable evalpair : nat -> Tree -> Sent -> Tree -> Sent -> pair.
Variable disconly : bool.
Variable cutoff : option nat.
Variable testset : list (nat * test).
Hypothesis ND : NoDup (map fst testset).
Notation addresult := (addresult Tree Sent Float log nan c300 evalpair disconly cutoff).
Notation addresults := (addresults Tree Sent Float log nan c300 evalpair disconly cutoff).
Notation mainloop := (mainloop Tree Sent Float log nan c300 evalpair disconly cutoff).
Notation t_sent := (t_sent Tree Sent). Notation t_gold := (t_gold Tree Sent). Notation t_goldsent := (t_goldsent Tree Sent).
Notation score := (fun r => scoreof Tree Float log c300 r nan (Some 0%Z)).
(** what a stage holds after the sentences of [done], with results [res] *)
Definition valfor {V} (done : list (nat * test * stageresult)) (f : nat * test * stageresult -> V) (default : V) (i : nat) : V :=
  match find (fun x => fst (fst x) =? i) done with Some x => f x | None => default end.
Definition pairof (x : nat * test * stageresult) : pair := let '(i, t, r) := x in evalpair i (t_gold t) (t_goldsent t) (r_tree _ _ r) (t_sent t).
Definition evalof (ps : list pair) : evaluator :=
  mkEval (accumulate disconly ps) (match cutoff with Some k => Some (accumulate disconly (filter (fun p => p_lengpos p <=? k) ps)) | None => None end).
Record Holds (done : list (nat * test * stageresult)) (s : stage) : Prop := {
  h_trees : forall i, In i (map fst testset) -> lookup i (s_trees _ _ _ s) = Some (valfor done (fun x => Some (r_tree _ _ (snd x))) None i);
  h_sents : forall i, In i (map fst testset) -> lookup i (s_sents _ _ _ s) = Some (valfor done (fun x => Some (t_sent (snd (fst x)))) None i);
  h_logprob : forall i, In i (map fst testset) -> lookup i (s_logprob _ _ _ s) = Some (valfor done (fun x => fst (score (snd x))) nan i);
  h_frags : forall i, In i (map fst testset) -> lookup i (s_frags _ _ _ s) = Some (valfor done (fun x => snd (score (snd x))) (Some 0%Z) i);
  h_numitems : forall i, In i (map fst testset) -> lookup i (s_numitems _ _ _ s) = Some (valfor done (fun x => r_numitems _ _ (snd x)) 0 i);
  h_golditems : forall i, In i (map fst testset) -> lookup i (s_golditems _ _ _ s) = Some (valfor done (fun x => r_golditems _ _ (snd x)) 0 i);
  h_totalgolditems : forall i, In i (map fst testset) -> lookup i (s_totalgolditems _ _ _ s) = Some (valfor done (fun x => r_totalgolditems _ _ (snd x)) 0 i);
  h_elapsed : forall i, In i (map fst testset) -> lookup i (s_elapsed _ _ _ s) = Some (valfor done (fun x => Some (r_elapsed _ _ (snd x))) None i);
  h_eval : s_eval _ _ _ s = evalof (map pairof done);
  h_noparse : s_noparse _ _ _ s = length (filter (fun x => r_noparse _ _ (snd x)) done) }.
Lemma find_app : forall A (f : A -> bool) l m, find f (l ++ m) = match find f l with Some x => Some x | None => find f m end.
Proof. induction l as [|x l IH]; intros m; cbn; auto. destruct (f x); auto. Qed.
Lemma valfor_snoc : forall V done i t r (f : nat * test * stageresult -> V) v j, ~ In i (map (fun x => fst (fst x)) done) ->
  valfor (done ++ [(i, t, r)]) f v j = if i =? j then f (i, t, r) else valfor done f v j.
Proof.
  intros V done i t r f v j H. unfold valfor. rewrite find_app. cbn [find fst].
  destruct (find (fun x => fst (fst x) =? j) done) as [x|] eqn:E.
  - apply find_some in E. destruct E as [E1 E2]. apply Nat.eqb_eq in E2. destruct (Nat.eqb_spec i j) as [->|]; auto. exfalso. apply H. apply in_map_iff. exists x. auto.
  - destruct (i =? j); reflexivity.
Qed.
Lemma valfor_new : forall V done i (f : nat * test * stageresult -> V) v, ~ In i (map (fun x => fst (fst x)) done) -> valfor done f v i = v.
Proof.
  intros V done i f v H. unfold valfor. destruct (find _ done) as [x|] eqn:E; auto. apply find_some in E. destruct E as [E1 E2]. apply Nat.eqb_eq in E2. exfalso. apply H.
  apply in_map_iff. exists x. auto.
Qed.
Lemma holds_start : Holds [] (stage0 Tree Sent Float nan cutoff (map fst testset)).
Proof.
  assert (G : forall V (v : V) i, In i (map fst testset) -> lookup i (fromkeys (map fst testset) v) = Some v).
  { intros V v i H. rewrite lookup_fromkeys. destruct (in_dec Nat.eq_dec i (map fst testset)); [reflexivity|contradiction]. }
  split; try (intros i Hi; cbn [s_trees s_sents s_logprob s_frags s_numitems s_golditems s_totalgolditems s_elapsed stage0]; now rewrite G by exact Hi).
  - cbn. unfold evaluator0, evalof. destruct cutoff; reflexivity.
  - reflexivity.
Qed.
Lemma accumulate_snoc : forall ps p, accumulate disconly (ps ++ [p]) = addpair disconly (accumulate disconly ps) p.
Proof. intros ps p. unfold accumulate. now rewrite fold_left_app. Qed.
Lemma holds_step : forall done s i t r, Holds done s -> In i (map fst testset) -> ~ In i (map (fun x => fst (fst x)) done) ->
  exists s', addresult i t s r = Some s' /\ Holds (done ++ [(i, t, r)]) s'.
Proof.
  intros done s i t r H Hi Hn. unfold ExpModel.addresult, get.
  rewrite (h_trees _ _ H i Hi), (h_elapsed _ _ H i Hi), (h_logprob _ _ H i Hi), (h_frags _ _ H i Hi), !valfor_new by exact Hn.
  destruct (scoreof Tree Float log c300 r nan (Some 0%Z)) as [l f] eqn:E. eexists. split; [reflexivity|].
  split; try (intros j Hj; cbn [s_trees s_sents s_logprob s_frags s_numitems s_golditems s_totalgolditems s_elapsed]; rewrite lookup_assign, valfor_snoc by exact Hn; cbn [snd fst];
    destruct (i =? j); [|apply H; exact Hj]; try rewrite E; reflexivity).
  - cbn [s_eval]. rewrite (h_eval _ _ H). unfold evalof, evaladd. cbn [e_acc e_acc40]. rewrite map_app. cbn [map pairof]. rewrite accumulate_snoc. f_equal.
    destruct cutoff as [k|]; auto. rewrite filter_app. cbn [filter]. destruct (_ <=? k); [now rewrite accumulate_snoc|now rewrite app_nil_r].
  - cbn [s_noparse]. rewrite filter_app, app_length, <- (h_noparse _ _ H). cbn [filter snd]. destruct (r_noparse Tree Float r); cbn; lia.
Qed.
(** the k-th results of the sentences in [items] *)
Definition results_of (items : list (nat * test)) (k : nat) : list (nat * test * stageresult) :=
  flat_map (fun it => match nth_error (parse (t_sent (snd it)) (t_gold (snd it))) k with Some r => [(fst it, snd it, r)] | None => [] end) items.
Lemma results_ids : forall items k i, In i (map (fun x => fst (fst x)) (results_of items k)) -> In i (map fst items).
Proof.
  intros items k i H. apply in_map_iff in H. destruct H as (x & <- & H). unfold results_of in H. apply in_flat_map in H. destruct H as (it & Hi & H).
  destruct (nth_error _ k); [|destruct H]. destruct H as [<-|[]]. cbn. now apply in_map.
Qed.
Lemma addresults_ok : forall rs ss i t (dones : nat -> list (nat * test * stageresult)) k0, length rs = length ss -> In i (map fst testset) ->
  (forall k s, nth_error ss k = Some s -> Holds (dones (k0 + k)) s /\ ~ In i (map (fun x => fst (fst x)) (dones (k0 + k)))) ->
  exists ss', addresults i t ss rs = Some ss' /\ length ss' = length ss /\
    forall k s r, nth_error ss' k = Some s -> nth_error rs k = Some r -> Holds (dones (k0 + k) ++ [(i, t, r)]) s.
Proof.
  induction rs as [|r rs IH]; intros ss i t dones k0 L Hi H; destruct ss as [|s ss]; try discriminate; cbn [ExpModel.addresults].
  - exists []. split; auto. split; auto. intros [|k]; discriminate.
  - destruct (H 0 s eq_refl) as [H1 H2]. destruct (holds_step _ s i t r H1 Hi H2) as (s' & -> & Hs').
    destruct (IH ss i t dones (S k0)) as (ss' & -> & L' & Hk); [cbn in L; lia|exact Hi| |].
    { intros k s0 E. specialize (H (S k) s0 E). now rewrite <- Nat.add_succ_comm in H. }
    exists (s' :: ss'). split; auto. split; [cbn; lia|]. intros [|k] s0 r0 E1 E2; cbn in E1, E2.
    + injection E1 as <-. injection E2 as <-. exact Hs'.
    + specialize (Hk k s0 r0 E1 E2). now rewrite <- Nat.add_succ_comm.
Qed.
Lemma mainloop_ok : forall numstages todo done ss, (forall it, In it testset -> length (parse (t_sent (snd it)) (t_gold (snd it))) = numstages) ->
  (forall it, In it (done ++ todo) -> In it testset) -> NoDup (map fst (done ++ todo)) -> length ss = numstages ->
  (forall k s, nth_error ss k = Some s -> Holds (results_of done k) s) ->
  exists ss', mainloop testset ss (map (worker Tree Sent Float parse) todo) = Some ss' /\ length ss' = numstages /\
    forall k s, nth_error ss' k = Some s -> Holds (results_of (done ++ todo) k) s.
Proof.
  intros numstages. induction todo as [|[i t] todo IH]; intros done ss HL HI HN L H; cbn [map ExpModel.mainloop].
  - exists ss. rewrite app_nil_r. auto.
  - unfold worker at 1. cbn [fst snd].
    assert (Hin : In (i, t) testset) by (apply HI; apply in_or_app; right; now left).
    rewrite (lookup_In _ i t ND Hin).
    assert (Hi : In i (map fst testset)) by (apply in_map_iff; exists (i, t); auto).
    assert (Hd : ~ In i (map fst done)).
    { rewrite map_app in HN. apply NoDup_remove_2 in HN. intros X. apply HN. apply in_or_app. now left. }
    destruct (addresults_ok (parse (t_sent t) (t_gold t)) ss i t (results_of done) 0) as (ss1 & -> & L1 & H1); auto.
    { rewrite L. exact (HL (i, t) Hin). }
    { intros k s E. cbn [Nat.add]. split; [now apply H|]. intros X. apply Hd. exact (results_ids _ _ _ X). }
    assert (EA : (done ++ [(i, t)]) ++ todo = done ++ (i, t) :: todo) by (now rewrite <- app_assoc).
    destruct (IH (done ++ [(i, t)]) ss1 HL) as (ss' & E' & L' & H'); rewrite ?EA; auto; [lia| |].
    { intros k s E. specialize (HL (i, t) Hin). cbn [fst snd] in HL.
      destruct (nth_error (parse (t_sent t) (t_gold t)) k) as [r|] eqn:Er; [|apply nth_error_None in Er; assert (k < length ss1) by (apply nth_error_Some; congruence); lia].
      unfold results_of. rewrite flat_map_app. cbn [flat_map fst snd]. rewrite Er. cbn [app]. exact (H1 k s r E Er). }
    exists ss'. rewrite EA in H'. auto.
Qed.
End Loop.
