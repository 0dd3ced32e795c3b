(** C84: the results of an experiment do not depend on the schedule. *)
From Coq Require Import List Bool Arith ZArith QArith Qcanon Lia Permutation.
From Verif Require Import PyStr EvalModel EvalProps RunModel.
Import ListNotations.
Open Scope list_scope.
Open Scope nat_scope.

(** ** Dictionaries as tables over the keys *)
Definition tab {V} (keys : list nat) (f : nat -> V) : list (nat * V) := map (fun k => (k, f k)) keys.
Lemma tab_ext : forall {V} keys (f g : nat -> V), (forall k, In k keys -> f k = g k) -> tab keys f = tab keys g.
Proof. intros V keys f g H. apply map_ext_in. intros k Hk. now rewrite (H k Hk). Qed.
Lemma tab_get : forall {V} keys (f : nat -> V) k, dget (tab keys f) k = if memn k keys then Some (f k) else None.
Proof.
  intros V keys f k. unfold memn. induction keys as [|a keys IH]; [reflexivity|]. cbn [tab map dget existsb]. fold (tab keys f).
  destruct (Nat.eqb_spec k a) as [->|N]; [reflexivity|]. cbn [orb]. exact IH.
Qed.
Lemma memn_in : forall k l, memn k l = true <-> In k l.
Proof. intros k l. unfold memn. rewrite existsb_exists. split; [intros (x & Hx & E); apply Nat.eqb_eq in E; now subst|intros H; exists k; split; [assumption|apply Nat.eqb_refl]]. Qed.
Lemma memn_not : forall k l, memn k l = false <-> ~ In k l.
Proof. intros k l. rewrite <- memn_in. destruct (memn k l); intuition congruence. Qed.
Lemma tab_set : forall {V} keys (f : nat -> V) k v, NoDup keys -> In k keys -> dset (tab keys f) k v = tab keys (fun x => if x =? k then v else f x).
Proof.
  intros V keys f k v. induction keys as [|a keys IH]; intros ND H; [destruct H|]. inversion ND as [|? ? NI ND']; subst. cbn [tab map dset]. fold (tab keys f).
  fold (tab keys (fun x => if x =? k then v else f x)). destruct (Nat.eqb_spec k a) as [->|N].
  - rewrite Nat.eqb_refl. f_equal. apply tab_ext. intros x Hx. destruct (Nat.eqb_spec x a) as [->|]; [contradiction|reflexivity].
  - destruct (Nat.eqb_spec a k) as [->|_]; [contradiction|]. f_equal. apply IH; [assumption|]. destruct H as [->|H]; [contradiction|assumption].
Qed.
Lemma fromkeys_tab : forall {V} keys (v : V), fromkeys keys v = tab keys (fun _ => v).
Proof. reflexivity. Qed.

(** ** Scores do not depend on the order in which the pairs are added *)
Lemma nozero_perm : forall (g g' c c' : list (nat * (pystr * N))), Permutation g g' -> Permutation c c' ->
  recall nbeqb (counter nbeqb g) (counter nbeqb c) = recall nbeqb (counter nbeqb g') (counter nbeqb c') /\
  precision nbeqb (counter nbeqb g) (counter nbeqb c) = precision nbeqb (counter nbeqb g') (counter nbeqb c').
Proof.
  intros g g' c c' P Q. destruct (C44_intersection_exists nbeqb nbeqb_eq g c) as (i & I).
  pose proof (intersection_perm _ _ _ _ _ P Q I) as I'. split.
  - destruct g as [|x g]; [apply Permutation_nil in P; subst; reflexivity|].
    assert (N : g' <> []) by (intros ->; apply Permutation_sym, Permutation_nil in P; discriminate).
    rewrite (C44_recall nbeqb nbeqb_eq _ _ _ I) by discriminate. rewrite (C44_recall nbeqb nbeqb_eq _ _ _ I' N). now rewrite (Permutation_length P).
  - destruct c as [|x c]; [apply Permutation_nil in Q; subst; reflexivity|].
    assert (N : c' <> []) by (intros ->; apply Permutation_sym, Permutation_nil in Q; discriminate).
    rewrite (C44_precision nbeqb nbeqb_eq _ _ _ I) by discriminate. rewrite (C44_precision nbeqb nbeqb_eq _ _ _ I' N). now rewrite (Permutation_length Q).
Qed.
Lemma flat_perm : forall {X Y} (f : X -> list Y) l l', Permutation l l' -> Permutation (flat_map f l) (flat_map f l').
Proof.
  intros X Y f l l' P. induction P; cbn; [constructor|now apply Permutation_app_head| |now transitivity (flat_map f l')].
  rewrite !app_assoc. apply Permutation_app_tail, Permutation_app_comm.
Qed.
Lemma filter_perm' : forall {X} (f : X -> bool) l l', Permutation l l' -> Permutation (filter f l) (filter f l').
Proof.
  intros X f l l' P. induction P; cbn; [constructor|destruct (f x); [now constructor|assumption]| |now transitivity (filter f l')].
  destruct (f x), (f y); try apply Permutation_refl. apply perm_swap.
Qed.
Lemma combine_flat : forall {X Y Z} (f : X -> list Y) (g : X -> list Z) l, (forall x, In x l -> length (f x) = length (g x)) ->
  combine (flat_map f l) (flat_map g l) = flat_map (fun x => combine (f x) (g x)) l /\ length (flat_map f l) = length (flat_map g l).
Proof.
  intros X Y Z f g. induction l as [|x l IH]; intros H; [auto|]. cbn [flat_map]. destruct IH as [A B]; [intros; apply H; now right|].
  assert (E := H x (or_introl eq_refl)). rewrite !app_length, E, B. split; [|reflexivity]. rewrite <- A. clear - E. revert E. generalize (g x). induction (f x) as [|a u IH]; intros [|b v] E; try discriminate; [reflexivity|]. cbn. f_equal. apply IH. now injection E.
Qed.
Lemma oadd_comm : forall a b c, oadd (oadd a b) c = oadd (oadd a c) b.
Proof. intros [a|] [b|] [c|]; cbn; try reflexivity. f_equal. ring. Qed.
Lemma fold_oadd_perm : forall l l', Permutation l l' -> forall a, fold_left oadd l a = fold_left oadd l' a.
Proof.
  intros l l' P. induction P; intros a; cbn; [reflexivity|apply IHP| |now rewrite IHP1]. now rewrite oadd_comm.
Qed.
Lemma mean_perm : forall l l', Permutation l l' -> mean l = mean l'.
Proof.
  intros l l' P. unfold mean. pose proof (Permutation_length P) as EL. pose proof (fold_oadd_perm l l' P (Some 0%Qc)) as EF. unfold oadd in EF.
  destruct l as [|x l], l' as [|x' l']; try discriminate; [reflexivity|]. rewrite EL, EF. reflexivity.
Qed.
Lemma dice_gen : forall d ps s, dicenoms (fold_left (addpair d) ps s) = fold_left oadd (map p_ted ps) (dicenoms s) /\ dicedenoms (fold_left (addpair d) ps s) = fold_left oadd (map p_denom ps) (dicedenoms s).
Proof. intros d. induction ps as [|p ps IH]; intros s; [auto|]. cbn [fold_left map]. rewrite (proj1 (IH _)), (proj2 (IH _)). auto. Qed.
Lemma max_perm : forall (f : pair -> nat) l l', Permutation l l' -> fold_right (fun p m => max (f p) m) 0 l = fold_right (fun p m => max (f p) m) 0 l'.
Proof. intros f l l' P. induction P; cbn; lia. Qed.

(** the tags compared are those of the same words *)
Definition aligned (p : pair) : Prop := length (p_gpos p) = length (p_cpos p).
Lemma scores_perm : forall d ps ps', Permutation ps ps' -> (forall p, In p ps -> aligned p) -> scores (accumulate d ps) = scores (accumulate d ps').
Proof.
  intros d ps ps' P AL. assert (AL' : forall p, In p ps' -> aligned p) by (intros p Hp; apply AL; eapply Permutation_in; [apply Permutation_sym, P|assumption]).
  pose proof (accumulate_gen d ps acc0) as A. cbv zeta in A. destruct A as (G & C & GP & CP & LS & EX & SC & ML).
  pose proof (accumulate_gen d ps' acc0) as A'. cbv zeta in A'. destruct A' as (G' & C' & GP' & CP' & LS' & EX' & SC' & ML').
  destruct (dice_gen d ps acc0) as [D1 D2]. destruct (dice_gen d ps' acc0) as [D1' D2'].
  fold (accumulate d ps) in *. fold (accumulate d ps') in *.
  assert (PG : Permutation (tagged p_gbrack ps) (tagged p_gbrack ps')) by (apply flat_perm, P).
  assert (PC : Permutation (tagged p_cbrack ps) (tagged p_cbrack ps')) by (apply flat_perm, P).
  destruct (nozero_perm _ _ _ _ PG PC) as [RC PR]. unfold counter in RC, PR.
  change (goldb acc0) with (@nil ((nat * (pystr * N)) * nat)) in G, G'. change (candb acc0) with (@nil ((nat * (pystr * N)) * nat)) in C, C'.
  rewrite <- G, <- C, <- G', <- C' in RC, PR.
  unfold scores. rewrite RC, PR. unfold f_measure. rewrite RC, PR.
  assert (E1 : exact (accumulate d ps) = exact (accumulate d ps')) by (rewrite EX, EX'; f_equal; apply Permutation_length, filter_perm', P).
  assert (E2 : sentcount (accumulate d ps) = sentcount (accumulate d ps')) by (rewrite SC, SC'; f_equal; apply Permutation_length, filter_perm', P).
  assert (E3 : maxlenseen (accumulate d ps) = maxlenseen (accumulate d ps')) by (rewrite ML, ML'; apply max_perm, P).
  assert (E4 : mean (lascores (accumulate d ps)) = mean (lascores (accumulate d ps'))) by (rewrite LS, LS'; apply mean_perm, Permutation_app_head, Permutation_map, P).
  assert (E5 : dicenoms (accumulate d ps) = dicenoms (accumulate d ps')) by (rewrite D1, D1'; apply fold_oadd_perm, Permutation_map, P).
  assert (E6 : dicedenoms (accumulate d ps) = dicedenoms (accumulate d ps')) by (rewrite D2, D2'; apply fold_oadd_perm, Permutation_map, P).
  assert (E7 : accuracy eqs (goldpos (accumulate d ps)) (candpos (accumulate d ps)) = accuracy eqs (goldpos (accumulate d ps')) (candpos (accumulate d ps'))).
  { rewrite GP, CP, GP', CP'. cbn [acc0 goldpos candpos app]. unfold accuracy.
    destruct (combine_flat p_gpos p_cpos ps AL) as [X Y]. destruct (combine_flat p_gpos p_cpos ps' AL') as [X' Y']. rewrite X, X', Y, Y', !Nat.eqb_refl. cbn [negb].
    pose proof (Permutation_length (flat_perm p_gpos _ _ P)) as LG. pose proof (Permutation_length (flat_perm p_cpos _ _ P)) as LC. rewrite LC.
    destruct (flat_map p_gpos ps), (flat_map p_gpos ps'); try discriminate; [reflexivity|]. do 3 f_equal. apply Permutation_length, filter_perm', flat_perm, P. }
  rewrite E1, E2, E3, E4, E5, E6, E7. reflexivity.
Qed.

Section Schedule.
Context {T G W F L E O : Type}.
Variable inrange : F -> bool.
Variable logf : F -> option L.
Variables (nan l300 : L).
Variable disconly : bool.
Variable cutoff : option nat.
Variable testset : list (nat * (G * list W)).
Variable mkpair : nat -> G -> list W -> T -> list W -> option pair.
Variable writetree : T -> list W -> nat -> O.
Notation stageres := (@stageres T F E).
Variable work : nat -> option (list W * list stageres).
Variable numstages : nat.
Notation keys := (map fst testset).
Notation results := (@results T W L E).
Notation loop := (@loop T G W F L E inrange logf l300 disconly cutoff testset mkpair).
Notation doparsing := (@doparsing T G W F L E inrange logf nan l300 disconly cutoff testset mkpair numstages).
Notation worker := (@worker T W F E work).
Notation initial := (@initial T G W L E nan cutoff testset).
Notation onestage := (@onestage T G W F L E inrange logf l300 disconly cutoff mkpair).
Notation stages := (@stages T G W F L E inrange logf l300 disconly cutoff mkpair).

(** ** Specification *)
(** a sentence can be parsed and compared with its gold tree: [p] the comparisons *)
Definition parsed (id : nat) (sent : list W) (rs : list stageres) (ps : list pair) : Prop :=
  work id = Some (sent, rs) /\ exists gold goldsent, In (id, (gold, goldsent)) testset /\
  Forall2 (fun r p => mkpair id gold goldsent (r_tree r) sent = Some p) rs ps.
(** the log probability recorded for a result *)
Definition logof (p : @pprob F) : L :=
  match p with
  | PTuple l => match allsome' (logs inrange logf l) with Some (x :: _) => x | _ => l300 end
  | PFloat x => match logf x with Some y => y | None => l300 end
  | POther => nan
  end.
(** the number of fragments recorded for a result *)
Definition fragsof (r : stageres) : option Z :=
  match r_frags r with
  | Some n => Some (Z.of_nat n)
  | None => match r_prob r with PTuple l => match ints l with z :: _ => Some z | [] => None end | _ => Some 0%Z end
  end.

Hypothesis ND : NoDup keys.

(** ** The state after the sentences [done] *)
Definition res (k : nat) (id : nat) : option (list W * stageres) :=
  match work id with Some (sent, rs) => match nth_error rs k with Some r => Some (sent, r) | None => None end | None => None end.
Definition pairof (k id : nat) : option pair :=
  match res k id, dget testset id with Some (sent, r), Some (g, gs) => mkpair id g gs (r_tree r) sent | _, _ => None end.
Definition opt {X Y} (o : option X) (f : X -> Y) (d : Y) : Y := match o with Some x => f x | None => d end.
Definition col {Y} (k : nat) (done : list nat) (f : list W * stageres -> Y) (d : Y) : list (nat * Y) :=
  tab keys (fun id => if memn id done then opt (res k id) f d else d).
Definition pairs (k : nat) (done : list nat) : list pair := flat_map (fun id => match pairof k id with Some p => [p] | None => [] end) done.
Definition short (p : pair) : bool := match cutoff with Some c => p_lengpos p <=? c | None => false end.
Definition state (done : list nat) (k : nat) : results :=
  mkRes (col k done (fun x => Some (r_tree (snd x))) None) (col k done (fun x => Some (fst x)) None)
    (col k done (fun x => logof (r_prob (snd x))) nan) (col k done (fun x => fragsof (snd x)) (Some 0%Z))
    (col k done (fun x => r_items (snd x)) 0) (col k done (fun x => r_gold (snd x)) 0) (col k done (fun x => r_total (snd x)) 0)
    (col k done (fun x => Some (r_time (snd x))) None)
    (accumulate disconly (pairs k done))
    (option_map (fun _ => accumulate disconly (filter short (pairs k done))) cutoff)
    (length (filter (fun id => opt (res k id) (fun x => r_noparse (snd x)) false) done)).

Lemma state_nil : forall k, state [] k = initial.
Proof. intros k. unfold state, RunModel.initial. destruct cutoff; reflexivity. Qed.
Lemma memn_app : forall x a b, memn x (a ++ b) = memn x a || memn x b.
Proof. intros. unfold memn. now rewrite existsb_app. Qed.
Lemma col_set : forall {Y} k done id (f : list W * stageres -> Y) d x, In id keys -> res k id = Some x ->
  dset (col k done f d) id (f x) = col k (done ++ [id]) f d.
Proof.
  intros Y k done id f d x I R. unfold col. rewrite tab_set by assumption. apply tab_ext. intros y _. rewrite memn_app. cbn [memn existsb]. rewrite orb_false_r.
  destruct (Nat.eqb_spec y id) as [->|N]; [rewrite orb_true_r, R; reflexivity|now rewrite orb_false_r].
Qed.
Lemma col_set' : forall {Y} k done id (f : list W * stageres -> Y) d x v, In id keys -> res k id = Some x -> f x = v ->
  dset (col k done f d) id v = col k (done ++ [id]) f d.
Proof. intros Y k done id f d x v I R <-. now apply col_set. Qed.
Lemma col_same : forall {Y} k done id (f : list W * stageres -> Y) d x, ~ In id done -> res k id = Some x -> f x = d ->
  col k done f d = col k (done ++ [id]) f d.
Proof.
  intros Y k done id f d x NI R E0. unfold col. apply tab_ext. intros y _. rewrite memn_app. cbn [memn existsb]. rewrite orb_false_r.
  destruct (Nat.eqb_spec y id) as [->|N]; [rewrite orb_true_r, R, (proj2 (memn_not _ _) NI); cbn; now symmetry|now rewrite orb_false_r].
Qed.
Lemma dget_testset : forall (ts : list (nat * (G * list W))) id g gs, NoDup (map fst ts) -> In (id, (g, gs)) ts <-> dget ts id = Some (g, gs).
Proof.
  induction ts as [|[a [x y]] ts IH]; intros id g gs N; [split; [intros []|discriminate]|]. cbn [map fst] in N. inversion N as [|? ? NI N']; subst. cbn [dget]. destruct (Nat.eqb_spec id a) as [->|Q].
  - split; [intros [H|H]; [now injection H as -> ->|]|intros H; injection H as -> ->; now left]. exfalso. apply NI. apply in_map_iff. now exists (a, (g, gs)).
  - rewrite <- IH by assumption. split; [intros [H|H]; [congruence|assumption]|now right].
Qed.
Lemma pairs_app : forall k a b, pairs k (a ++ b) = pairs k a ++ pairs k b.
Proof. intros. unfold pairs. apply flat_map_app. Qed.

Lemma onestage_state : forall k done id sent g gs r p, In (id, (g, gs)) testset -> ~ In id done -> res k id = Some (sent, r) ->
  mkpair id g gs (r_tree r) sent = Some p -> onestage id sent g gs (state done k) r = Some (state (done ++ [id]) k).
Proof.
  intros k done id sent g gs r p I NI R MP. assert (IK : In id keys) by (apply in_map_iff; now exists (id, (g, gs))).
  unfold RunModel.onestage. cbn [parsetrees elapsedtime state]. unfold col at 1 2. rewrite !tab_get, (proj2 (memn_in _ _) IK), (proj2 (memn_not _ _) NI), MP.
  assert (PO : pairof k id = Some p) by (unfold pairof; rewrite R, (proj1 (dget_testset _ _ _ _ ND) I); exact MP).
  assert (PP : pairs k (done ++ [id]) = pairs k done ++ [p]) by (rewrite pairs_app; unfold pairs at 2; cbn [flat_map]; now rewrite PO).
  destruct (addeval disconly cutoff (evacc (state done k)) (evacc40 (state done k)) p) as [a a40] eqn:AE.
  cbn [state evacc evacc40 parsetrees sents logprob frags numitems golditems totalgolditems elapsedtime noparse] in *. f_equal. unfold state.
  assert (EA : a = accumulate disconly (pairs k (done ++ [id])) /\ a40 = option_map (fun _ => accumulate disconly (filter short (pairs k (done ++ [id])))) cutoff).
  { unfold addeval in AE. injection AE as <- <-. rewrite PP, filter_app. unfold accumulate. rewrite !fold_left_app. split; [reflexivity|]. unfold short. destruct cutoff as [c|]; [|reflexivity]. cbn [option_map filter].
    destruct (p_lengpos p <=? c); reflexivity. }
  destruct EA as [-> ->]. f_equal.
  - exact (col_set' k done id (fun x => Some (r_tree (snd x))) None _ _ IK R eq_refl).
  - exact (col_set' k done id (fun x => Some (fst x)) None _ _ IK R eq_refl).
  - unfold setlog. destruct (r_prob r) eqn:PR.
    + apply (col_set' k done id (fun x => logof (r_prob (snd x))) nan _ _ IK R). cbn [snd]. now rewrite PR.
    + apply (col_set' k done id (fun x => logof (r_prob (snd x))) nan _ _ IK R). cbn [snd]. now rewrite PR.
    + apply (col_same k done id (fun x => logof (r_prob (snd x))) nan _ NI R). cbn [snd]. now rewrite PR.
  - unfold setfrags. destruct (r_frags r) as [n|] eqn:FR.
    + assert (DD : forall (d : list (nat * option Z)) v w, dset (dset d id v) id w = dset d id w).
      { clear. intros d v w. induction d as [|[a u] d IH]; cbn; [now rewrite Nat.eqb_refl|]. destruct (Nat.eqb_spec id a) as [->|N]; cbn; [now rewrite Nat.eqb_refl|]. apply Nat.eqb_neq in N. now rewrite N, IH. }
      transitivity (dset (col k done (fun x => fragsof (snd x)) (Some 0%Z)) id (Some (Z.of_nat n))).
      * destruct (r_prob r); [apply DD|reflexivity|reflexivity].
      * apply (col_set' k done id (fun x => fragsof (snd x)) (Some 0%Z) _ _ IK R). cbn [snd]. unfold fragsof. now rewrite FR.
    + destruct (r_prob r) eqn:PR.
      * apply (col_set' k done id (fun x => fragsof (snd x)) (Some 0%Z) _ _ IK R). cbn [snd]. unfold fragsof. now rewrite FR, PR.
      * apply (col_same k done id (fun x => fragsof (snd x)) (Some 0%Z) _ NI R). cbn [snd]. unfold fragsof. now rewrite FR, PR.
      * apply (col_same k done id (fun x => fragsof (snd x)) (Some 0%Z) _ NI R). cbn [snd]. unfold fragsof. now rewrite FR, PR.
  - exact (col_set' k done id (fun x => r_items (snd x)) 0 _ _ IK R eq_refl).
  - exact (col_set' k done id (fun x => r_gold (snd x)) 0 _ _ IK R eq_refl).
  - exact (col_set' k done id (fun x => r_total (snd x)) 0 _ _ IK R eq_refl).
  - exact (col_set' k done id (fun x => Some (r_time (snd x))) None _ _ IK R eq_refl).
  - rewrite filter_app, app_length. cbn [filter]. rewrite R. cbn [opt snd]. destruct (r_noparse r); cbn [length]; lia.
Qed.

Lemma stages_state : forall id sent g gs done, In (id, (g, gs)) testset -> ~ In id done ->
  forall rs k0, work id = Some (sent, firstn k0 (snd (match work id with Some p => p | None => ([], []) end)) ++ rs) ->
  forall ps, Forall2 (fun r p => mkpair id g gs (r_tree r) sent = Some p) rs ps ->
  k0 = length (firstn k0 (snd (match work id with Some p => p | None => ([], []) end))) ->
  stages id sent g gs (map (state done) (seq k0 (length rs))) rs = Some (map (state (done ++ [id])) (seq k0 (length rs))).
Proof.
  intros id sent g gs done I NI. destruct (work id) as [[s0 all]|] eqn:WK; [|intros rs k0 H; discriminate]. cbn [snd].
  induction rs as [|r rs IH]; intros k0 EW ps FP LK; [reflexivity|]. inversion FP as [|? p ? ps' MP FP']; subst. cbn [length seq map RunModel.stages].
  injection EW as -> EW. assert (NE : nth_error all k0 = Some r).
  { rewrite EW, nth_error_app2 by lia. rewrite <- LK, Nat.sub_diag. reflexivity. }
  assert (R : res k0 id = Some (sent, r)) by (unfold res; now rewrite WK, NE).
  rewrite (onestage_state k0 done id sent g gs r p I NI R MP).
  assert (F' : firstn (S k0) all = firstn k0 all ++ [r]).
  { rewrite EW at 1. rewrite firstn_app, firstn_firstn. replace (Nat.min (S k0) k0) with k0 by lia. rewrite <- LK. replace (S k0 - k0) with 1 by lia. reflexivity. }
  rewrite (IH (S k0)) with (ps := ps'); [reflexivity| |assumption|].
  - rewrite F', <- app_assoc. cbn [app]. now rewrite <- EW.
  - rewrite F', app_length, <- LK. cbn. lia.
Qed.
Lemma stages_fails : forall id sent g gs rs ss, ~ (exists ps, Forall2 (fun r p => mkpair id g gs (r_tree r) sent = Some p) rs ps) ->
  length rs <= length ss -> stages id sent g gs ss rs = None.
Proof.
  intros id sent g gs. induction rs as [|r rs IH]; intros ss H LE; [exfalso; apply H; exists []; constructor|]. destruct ss as [|s ss]; [cbn in LE; lia|]. cbn [RunModel.stages].
  destruct (mkpair id g gs (r_tree r) sent) as [p|] eqn:MP.
  - destruct (onestage id sent g gs s r); [|reflexivity]. rewrite IH; [reflexivity| |cbn in LE; lia]. intros [ps FP]. apply H. exists (p :: ps). now constructor.
  - unfold RunModel.onestage. destruct (dget (parsetrees s) id) as [[]|]; try reflexivity. destruct (dget (elapsedtime s) id) as [[]|]; try reflexivity. now rewrite MP.
Qed.

(** the parser returns one result for each stage *)
Hypothesis STAGES : forall id sent rs, In id keys -> work id = Some (sent, rs) -> length rs = numstages.
Definition good (id : nat) : Prop := exists sent rs ps, parsed id sent rs ps.

Lemma step_good : forall done id, In id keys -> ~ In id done -> good id ->
  step inrange logf l300 disconly cutoff testset mkpair (map (state done) (seq 0 numstages)) (worker id) = Some (map (state (done ++ [id])) (seq 0 numstages)).
Proof.
  intros done id IK NI (sent & rs & ps & WK & g & gs & I & FP). unfold RunModel.worker, RunModel.step. rewrite WK. cbn [option_map fst snd]. rewrite (proj1 (dget_testset _ _ _ _ ND) I).
  rewrite <- (STAGES id sent rs IK WK). apply stages_state with (ps := ps); try assumption; rewrite ?WK; reflexivity.
Qed.
Lemma step_bad : forall done id, In id keys -> ~ good id ->
  step inrange logf l300 disconly cutoff testset mkpair (map (state done) (seq 0 numstages)) (worker id) = None.
Proof.
  intros done id IK NG. unfold RunModel.worker, RunModel.step. destruct (work id) as [[sent rs]|] eqn:WK; [|reflexivity]. cbn [option_map fst snd]. destruct (dget testset id) as [[g gs]|] eqn:D; [|reflexivity].
  apply stages_fails.
  - intros [ps FP]. apply NG. exists sent, rs, ps. split; [assumption|]. exists g, gs. split; [now apply dget_testset|assumption].
  - rewrite map_length, seq_length, (STAGES id sent rs IK WK). lia.
Qed.
Lemma loop_state : forall ids done, NoDup (done ++ ids) -> (forall id, In id ids -> In id keys /\ good id) ->
  loop (map (state done) (seq 0 numstages)) (map worker ids) = Some (map (state (done ++ ids)) (seq 0 numstages)).
Proof.
  induction ids as [|id ids IH]; intros done N H; [now rewrite app_nil_r|]. cbn [map RunModel.loop]. destruct (H id (or_introl eq_refl)) as [IK GD].
  rewrite step_good; [|assumption| |assumption].
  - rewrite IH; [now rewrite <- app_assoc|now rewrite <- app_assoc|]. intros x Hx. apply H. now right.
  - apply NoDup_remove_2 in N. intros Hd. apply N, in_or_app. now left.
Qed.
Lemma loop_bad : forall ids done, NoDup (done ++ ids) -> (forall id, In id ids -> In id keys) -> (exists id, In id ids /\ ~ good id) ->
  (forall id, In id ids -> good id \/ ~ good id) ->
  loop (map (state done) (seq 0 numstages)) (map worker ids) = None.
Proof.
  induction ids as [|id ids IH]; intros done N H (b & Hb & NB) DEC; [destruct Hb|]. cbn [map RunModel.loop]. assert (IK := H id (or_introl eq_refl)).
  destruct (DEC id (or_introl eq_refl)) as [GD|NG].
  - rewrite step_good; [|assumption| |assumption].
    + apply IH; [now rewrite <- app_assoc|intros x Hx; apply H; now right| |intros x Hx; apply DEC; now right]. exists b. split; [destruct Hb as [->|Hb]; [contradiction|assumption]|assumption].
    + apply NoDup_remove_2 in N. intros Hd. apply N, in_or_app. now left.
  - rewrite step_bad by assumption. reflexivity.
Qed.
Lemma good_dec : forall id, good id \/ ~ good id.
Proof.
  intros id. destruct (work id) as [[sent rs]|] eqn:WK; [|right; intros (s & r & p & H & _); congruence]. destruct (dget testset id) as [[g gs]|] eqn:D.
  - assert (X : (exists ps, Forall2 (fun r p => mkpair id g gs (r_tree r) sent = Some p) rs ps) \/ ~ exists ps, Forall2 (fun r p => mkpair id g gs (r_tree r) sent = Some p) rs ps).
    { clear WK. induction rs as [|r rs IH]; [left; exists []; constructor|]. destruct (mkpair id g gs (r_tree r) sent) as [p|] eqn:MP.
      - destruct IH as [[ps FP]|NF]; [left; exists (p :: ps); now constructor|right]. intros [ps FP]. inversion FP; subst. apply NF. eauto.
      - right. intros [ps FP]. inversion FP; subst. congruence. }
    destruct X as [[ps FP]|NF].
    + left. exists sent, rs, ps. split; [assumption|]. exists g, gs. split; [now apply dget_testset|assumption].
    + right. intros (s & r & p & WK' & g' & gs' & I & FP). rewrite WK in WK'. injection WK' as <- <-. apply (proj1 (dget_testset _ _ _ _ ND)) in I. rewrite D in I. injection I as <- <-. apply NF. now exists p.
  - right. intros (s & r & p & WK' & g' & gs' & I & FP). apply (proj1 (dget_testset _ _ _ _ ND)) in I. congruence.
Qed.
Lemma initial_map : repeat initial numstages = map (state []) (seq 0 numstages).
Proof. assert (X : forall n k, repeat initial n = map (state []) (seq k n)); [|apply X]. induction n as [|n IH]; intros k; [reflexivity|]. cbn [repeat seq map]. rewrite state_nil. f_equal. apply IH. Qed.
Lemma run_cases : forall ids, Permutation ids keys ->
  (doparsing (map worker ids) = Some (map (state ids) (seq 0 numstages)) /\ forall id, In id keys -> good id) \/
  (doparsing (map worker ids) = None /\ exists id, In id keys /\ ~ good id).
Proof.
  intros ids P. assert (N : NoDup ids) by (eapply Permutation_NoDup; [apply Permutation_sym, P|exact ND]).
  assert (IN : forall id, In id ids -> In id keys) by (intros id H; eapply Permutation_in; eassumption).
  assert (IN' : forall id, In id keys -> In id ids) by (intros id H; eapply Permutation_in; [apply Permutation_sym|]; eassumption).
  unfold RunModel.doparsing. rewrite initial_map.
  assert (X : (forall id, In id ids -> good id) \/ exists id, In id ids /\ ~ good id).
  { clear -ND. induction ids as [|a ids IH]; [left; intros ? []|]. destruct (good_dec a) as [GA|NA]; [|right; exists a; split; [now left|assumption]].
    destruct IH as [H|(b & Hb & NB)]; [left; intros x [<-|Hx]; auto|right; exists b; split; [now right|assumption]]. }
  destruct X as [H|(b & Hb & NB)].
  - left. split; [apply (loop_state ids []); [assumption|intros id Hi; split; auto]|]. intros id Hi. apply H; auto.
  - right. split; [|exists b; auto]. apply (loop_bad ids []); [assumption|assumption|now exists b|intros; apply good_dec].
Qed.

(** ** Theorems *)
(** All or nothing: an experiment runs to the end if and only if every sentence can be
    parsed and compared; this does not depend on the order of arrival. *)
Theorem C84_all_or_nothing : forall ids, Permutation ids keys ->
  (exists rs, doparsing (map worker ids) = Some rs) <-> (forall id, In id keys -> exists sent rs ps, parsed id sent rs ps).
Proof.
  intros ids P. destruct (run_cases ids P) as [[R H]|[R (b & Hb & NB)]]; rewrite R; split; auto.
  - intros _. eauto.
  - intros (rs & X). discriminate.
  - intros H. exfalso. apply NB. exact (H b Hb).
Qed.
(** Nothing is mixed up: for every stage and sentence, what is recorded is what the
    parser returned for that stage and that sentence. *)
Theorem C84_recorded : forall ids rs, Permutation ids keys -> doparsing (map worker ids) = Some rs -> length rs = numstages /\
  forall k s, nth_error rs k = Some s -> forall id sent results r, In id keys -> work id = Some (sent, results) -> nth_error results k = Some r ->
  dget (parsetrees s) id = Some (Some (r_tree r)) /\ dget (sents s) id = Some (Some sent) /\
  dget (logprob s) id = Some (logof (r_prob r)) /\ dget (frags s) id = Some (fragsof r) /\
  dget (numitems s) id = Some (r_items r) /\ dget (golditems s) id = Some (r_gold r) /\ dget (totalgolditems s) id = Some (r_total r) /\
  dget (elapsedtime s) id = Some (Some (r_time r)).
Proof.
  intros ids rs P D. destruct (run_cases ids P) as [[R H]|[R _]]; rewrite R in D; [|discriminate]. injection D as <-. split; [now rewrite map_length, seq_length|].
  intros k s NS id sent results r IK WK NR. assert (LT : k < numstages).
  { rewrite <- (STAGES id sent results IK WK). apply nth_error_Some. congruence. }
  assert (ES : s = state ids k).
  { assert (X : nth_error (map (state ids) (seq 0 numstages)) k = Some (state ids k)) by (apply map_nth_error; rewrite nth_error_nth' with (d := 0) by (now rewrite seq_length); now rewrite seq_nth).
    rewrite NS in X. now injection X. }
  subst s. assert (RS : res k id = Some (sent, r)) by (unfold res; now rewrite WK, NR).
  assert (MI : memn id ids = true) by (apply memn_in; eapply Permutation_in; [apply Permutation_sym, P|assumption]).
  assert (MK : memn id keys = true) by (now apply memn_in).
  cbn [state parsetrees sents logprob frags numitems golditems totalgolditems elapsedtime]. unfold col. rewrite !tab_get, MK, MI, RS. cbn [opt snd fst]. auto 10.
Qed.
(** the recorded tables are the same for two orders of arrival *)
Definition sametables (a b : results) : Prop :=
  parsetrees a = parsetrees b /\ sents a = sents b /\ logprob a = logprob b /\ frags a = frags b /\ numitems a = numitems b /\
  golditems a = golditems b /\ totalgolditems a = totalgolditems b /\ elapsedtime a = elapsedtime b /\ noparse a = noparse b.
Lemma memn_perm : forall a b x, Permutation a b -> memn x a = memn x b.
Proof. intros a b x P. apply Bool.eq_iff_eq_true. rewrite !memn_in. split; apply Permutation_in; [assumption|now apply Permutation_sym]. Qed.
Lemma state_same : forall a b k, Permutation a b -> sametables (state a k) (state b k).
Proof.
  intros a b k P. unfold sametables, state. cbn [parsetrees sents logprob frags numitems golditems totalgolditems elapsedtime noparse].
  assert (X : forall Y (f : list W * stageres -> Y) d, col k a f d = col k b f d) by (intros; apply tab_ext; intros; now rewrite (memn_perm a b _ P)).
  rewrite !X. repeat split. apply Permutation_length, filter_perm', P.
Qed.
(** Every order of arrival gives the same results: tables, scores, number of sentences
    without parse and files; so does parsing without worker processes. *)
Theorem C84_schedule : forall ids ids' rs, Permutation ids keys -> Permutation ids' keys -> doparsing (map worker ids) = Some rs ->
  (forall id sent results ps p, parsed id sent results ps -> In p ps -> aligned p) ->
  exists rs', doparsing (map worker ids') = Some rs' /\
  Forall2 (fun s s' => sametables s s' /\ scores (evacc s) = scores (evacc s') /\ option_map scores (evacc40 s) = option_map scores (evacc40 s')) rs rs' /\
  map (fun s => treefile writetree s keys) rs = map (fun s => treefile writetree s keys) rs' /\ stats testset rs = stats testset rs'.
Proof.
  intros ids ids' rs P P' D AL. destruct (run_cases ids P) as [[R H]|[R _]]; rewrite R in D; [|discriminate]. injection D as <-.
  destruct (run_cases ids' P') as [[R' _]|[R' (b & Hb & NB)]]; [|exfalso; apply NB; now apply H].
  exists (map (state ids') (seq 0 numstages)). split; [assumption|]. assert (PP : Permutation ids ids') by (now rewrite P, <- P').
  assert (IA : forall k p, In p (pairs k ids) -> aligned p).
  { intros k p Hp. apply in_flat_map in Hp. destruct Hp as (id & Hi & Hp). assert (IK : In id keys) by (exact (Permutation_in id P Hi)). destruct (H id IK) as (sent & results & ps & PA).
    apply (AL id sent results ps p PA). destruct PA as (WK & g & gs & I & FP). unfold pairof, res in Hp. rewrite WK in Hp. apply (proj1 (dget_testset _ _ _ _ ND)) in I. rewrite I in Hp.
    destruct (nth_error results k) as [r|] eqn:NR; [|destruct Hp]. destruct (mkpair id g gs (r_tree r) sent) as [q|] eqn:MP; [|destruct Hp]. destruct Hp as [<-|[]].
    clear - FP NR MP. revert k NR. induction FP as [|r0 p0 rs0 ps0 MP0 FP IH]; intros k NR; [destruct k; discriminate|]. destruct k; cbn [nth_error] in NR; [apply some_inj in NR; subst r0; left; congruence|right; exact (IH k NR)]. }
  assert (PPK : forall k, Permutation (pairs k ids) (pairs k ids')) by (intros; now apply flat_perm).
  assert (FA : forall l, Forall2 (fun s s' => sametables s s' /\ scores (evacc s) = scores (evacc s') /\ option_map scores (evacc40 s) = option_map scores (evacc40 s')) (map (state ids) l) (map (state ids') l)).
  { induction l as [|k l IH]; [constructor|]. cbn [map]. constructor; [|assumption]. split; [now apply state_same|]. cbn [state evacc evacc40]. split.
    - apply scores_perm; [apply PPK|intros p Hp; eapply IA, Hp].
    - destruct cutoff; [|reflexivity]. cbn [option_map]. f_equal. apply scores_perm; [apply filter_perm', PPK|]. intros p Hp. apply filter_In in Hp. eapply IA, Hp. }
  split; [apply FA|]. split.
  - rewrite !map_map. apply map_ext. intros k. destruct (state_same _ _ k PP) as (A & B & _). generalize keys. induction l as [|x l IH]; [reflexivity|]. cbn [treefile]. now rewrite A, B, IH.
  - unfold stats. rewrite !map_length. apply flat_map_ext. intros [id [g gs]]. cbn [fst snd]. assert (X : forall l l0, map (fun ns => statrow id gs (fst ns) (snd ns)) (combine l0 (map (state ids) l)) = map (fun ns => statrow id gs (fst ns) (snd ns)) (combine l0 (map (state ids') l))); [|apply X].
    clear - PP ND. induction l as [|k l IH]; intros [|j l0]; cbn [map combine]; try reflexivity. rewrite IH. f_equal. cbn [fst snd]. unfold statrow.
    destruct (state_same _ _ k PP) as (_ & _ & C & D & E0 & F0 & G0 & H0 & _). now rewrite C, D, E0, F0, G0, H0.
Qed.
(** A tree file has the trees in the order of the test set, each with its own sentence. *)
Theorem C84_files : forall ids rs, Permutation ids keys -> doparsing (map worker ids) = Some rs ->
  forall k s, nth_error rs k = Some s -> exists lines, treefile writetree s keys = Some lines /\
  Forall2 (fun id line => exists sent results r, work id = Some (sent, results) /\ nth_error results k = Some r /\ line = writetree (r_tree r) sent id) keys lines.
Proof.
  intros ids rs P D k s NS. pose proof (C84_recorded ids rs P D) as [LR REC]. pose proof (proj1 (C84_all_or_nothing ids P) (ex_intro _ _ D)) as ALL.
  assert (LT : k < numstages) by (rewrite <- LR; apply nth_error_Some; congruence).
  assert (X : forall l, (forall id, In id l -> In id keys) -> exists lines, treefile writetree s l = Some lines /\
    Forall2 (fun id line => exists sent results r, work id = Some (sent, results) /\ nth_error results k = Some r /\ line = writetree (r_tree r) sent id) l lines); [|apply X; auto].
  induction l as [|id l IH]; intros SUB; [exists []; split; [reflexivity|constructor]|]. destruct IH as (lines & TF & FF); [intros; apply SUB; now right|].
  assert (IK := SUB id (or_introl eq_refl)). destruct (ALL id IK) as (sent & results & ps & WK & _). assert (LL := STAGES id sent results IK WK).
  destruct (nth_error results k) as [r|] eqn:NR; [|apply nth_error_None in NR; lia]. destruct (REC k s NS id sent results r IK WK NR) as (A & B & _).
  exists (writetree (r_tree r) sent id :: lines). split; [cbn [treefile]; now rewrite A, B, TF|]. constructor; [|assumption]. exists sent, results, r. auto.
Qed.
(** stats.tsv has a row for each sentence and stage, ordered by sentence *)
Theorem C84_stats_rows : forall rs : list results, map fst (map fst (map fst (stats testset rs))) = flat_map (fun id => repeat id (length rs)) keys.
Proof.
  intros rs. unfold stats. generalize testset. induction testset0 as [|e ts IH]; [reflexivity|]. cbn [flat_map map]. rewrite !map_app, IH. f_equal. rewrite !map_map. unfold statrow. cbn [fst].
  assert (LC : length (combine (seq 0 (length rs)) rs) = length rs) by (rewrite combine_length, seq_length; lia). revert LC. generalize (combine (seq 0 (length rs)) rs). intros c <-. induction c as [|x l IHl]; [reflexivity|]. cbn [map length repeat]. now f_equal.
Qed.
(** ... with the length of the sentence of the test set, the number of the stage, and the
    numbers of what the parser returned for that sentence and stage *)
Theorem C84_stats_columns : forall ids rs, Permutation ids keys -> doparsing (map worker ids) = Some rs ->
  exists rows, stats testset rs = concat rows /\
  Forall2 (fun (e : nat * (G * list W)) lines => exists sent results, work (fst e) = Some (sent, results) /\ length results = numstages /\
    Forall2 (fun (kr : nat * stageres) line =>
      line = (fst e, length (snd (snd e)), fst kr,
        (Some (Some (r_time (snd kr))), Some (logof (r_prob (snd kr))), Some (fragsof (snd kr)), Some (r_items (snd kr)), Some (r_gold (snd kr)), Some (r_total (snd kr)))))
      (combine (seq 0 numstages) results) lines) testset rows.
Proof.
  intros ids rs P D. pose proof (C84_recorded ids rs P D) as [LR REC]. pose proof (proj1 (C84_all_or_nothing ids P) (ex_intro _ _ D)) as ALL.
  exists (map (fun e : nat * (G * list W) => map (fun ns => statrow (fst e) (snd (snd e)) (fst ns) (snd ns)) (combine (seq 0 (length rs)) rs)) testset).
  split; [unfold stats; apply flat_map_concat_map|].
  assert (X : forall l, (forall e, In e l -> In (fst e) keys) -> Forall2 (fun (e : nat * (G * list W)) lines => exists sent results, work (fst e) = Some (sent, results) /\ length results = numstages /\
    Forall2 (fun (kr : nat * stageres) line =>
      line = (fst e, length (snd (snd e)), fst kr,
        (Some (Some (r_time (snd kr))), Some (logof (r_prob (snd kr))), Some (fragsof (snd kr)), Some (r_items (snd kr)), Some (r_gold (snd kr)), Some (r_total (snd kr)))))
      (combine (seq 0 numstages) results) lines) l (map (fun e : nat * (G * list W) => map (fun ns => statrow (fst e) (snd (snd e)) (fst ns) (snd ns)) (combine (seq 0 (length rs)) rs)) l)).
  2:{ apply X. intros e He. apply in_map. exact He. }
  induction l as [|e l IH]; intros SUB; [constructor|]. cbn [map]. constructor; [|apply IH; intros; apply SUB; now right].
  assert (IK := SUB e (or_introl eq_refl)). destruct (ALL (fst e) IK) as (sent & out & ps & WK & _). assert (LL := STAGES (fst e) sent out IK WK).
  exists sent, out. split; [exact WK|]. split; [exact LL|]. rewrite LR.
  assert (Y : forall m j (rs' : list results) (res' : list stageres), length rs' = m -> length res' = m ->
    (forall i s r, nth_error rs' i = Some s -> nth_error res' i = Some r -> nth_error rs (j + i) = Some s /\ nth_error out (j + i) = Some r) ->
    Forall2 (fun (kr : nat * stageres) line =>
      line = (fst e, length (snd (snd e)), fst kr,
        (Some (Some (r_time (snd kr))), Some (logof (r_prob (snd kr))), Some (fragsof (snd kr)), Some (r_items (snd kr)), Some (r_gold (snd kr)), Some (r_total (snd kr)))))
      (combine (seq j m) res') (map (fun ns => statrow (fst e) (snd (snd e)) (fst ns) (snd ns)) (combine (seq j m) rs'))).
  { induction m as [|m IHm]; intros j rs' res' L1 L2 N; [constructor|]. destruct rs' as [|s rs']; [discriminate|]. destruct res' as [|r res']; [discriminate|]. cbn [seq combine map]. constructor.
    - destruct (N 0 s r eq_refl eq_refl) as [N1 N2]. rewrite Nat.add_0_r in N1, N2. destruct (REC j s N1 (fst e) sent out r IK WK N2) as (_ & _ & A & B & C & D0 & E0 & F0).
      unfold statrow. cbn [fst snd]. now rewrite A, B, C, D0, E0, F0.
    - apply IHm; [cbn in L1; lia|cbn in L2; lia|]. intros i s' r' Hs Hr. rewrite Nat.add_succ_l, <- Nat.add_succ_r. now apply N. }
  apply Y; [exact LR|exact LL|]. intros i s r Hs Hr. auto.
Qed.
(** the number of sentences without parse *)
Theorem C84_noparse : forall ids rs, Permutation ids keys -> doparsing (map worker ids) = Some rs ->
  forall k s, nth_error rs k = Some s -> exists flags, noparse s = length (filter (fun b => b) flags) /\
  Forall2 (fun id b => exists sent results r, work id = Some (sent, results) /\ nth_error results k = Some r /\ b = r_noparse r) keys flags.
Proof.
  intros ids rs P D k s NS. pose proof (proj1 (C84_all_or_nothing ids P) (ex_intro _ _ D)) as ALL.
  destruct (run_cases ids P) as [[R _]|[R _]]; rewrite R in D; [|discriminate]. injection D as <-.
  assert (LT : k < numstages) by (rewrite <- (seq_length numstages 0), <- (map_length (state ids)); apply nth_error_Some; congruence).
  assert (ES : s = state ids k).
  { assert (X : nth_error (map (state ids) (seq 0 numstages)) k = Some (state ids k)) by (apply map_nth_error; rewrite nth_error_nth' with (d := 0) by (now rewrite seq_length); now rewrite seq_nth).
    rewrite NS in X. now injection X. }
  subst s. cbn [state noparse]. exists (map (fun id => opt (res k id) (fun x => r_noparse (snd x)) false) keys). split.
  - rewrite (Permutation_length (filter_perm' _ _ _ P)). clear. induction keys as [|a l IH]; [reflexivity|]. cbn [filter map]. destruct (opt _ _ _); cbn [length]; now rewrite ?IH.
  - assert (X : forall l, (forall id, In id l -> In id keys) -> Forall2 (fun id b => exists sent results r, work id = Some (sent, results) /\ nth_error results k = Some r /\ b = r_noparse r) l (map (fun id => opt (res k id) (fun x => r_noparse (snd x)) false) l)); [|apply X; auto].
    induction l as [|id l IH]; intros SUB; [constructor|]. cbn [map]. constructor; [|apply IH; intros; apply SUB; now right].
    assert (IK := SUB id (or_introl eq_refl)). destruct (ALL id IK) as (sent & results & ps & WK & _). assert (LL := STAGES id sent results IK WK).
    destruct (nth_error results k) as [r|] eqn:NR; [|apply nth_error_None in NR; lia]. exists sent, results, r. split; [assumption|]. split; [assumption|]. unfold res. now rewrite WK, NR.
Qed.
End Schedule.

(** ** Example: two sentences, two stages *)
Definition exwork (id : nat) : option (list nat * list (@stageres nat nat nat)) :=
  match id with
  | 1 => Some ([7; 8], [mkSR 11 (PFloat 5) None 3 2 1 40 true; mkSR 12 (PTuple [VInt (-4)%Z; VFloat 9]) (Some 6) 5 4 3 41 false])
  | 2 => Some ([9], [mkSR 21 POther None 1 1 1 50 false; mkSR 22 (PFloat 0) None 2 2 2 51 true])
  | _ => None
  end.
Definition expair (id g : nat) (gs : list nat) (t : nat) (s : list nat) : option pair :=
  if length gs =? length s then Some (mkPair id [((([] : pystr), N.of_nat g), 1)] [((([] : pystr), N.of_nat t), 1)] [[]] [[]] (length gs) None None None) else None.
Definition extest : list (nat * (nat * list nat)) := [(1, (11, [7; 8])); (2, (22, [9]))].
Definition exdo (ids : list nat) : option (list (@results nat nat nat nat)) :=
  doparsing (fun x => 0 <? x) (fun x => if x =? 0 then None else Some (100 + x)) 0 300 false (Some 1) extest expair 2 (map (worker exwork) ids).
Definition exshow (o : option (list (@results nat nat nat nat))) :=
  option_map (fun rs => (map (fun s => treefile (fun t s id => (id, t, s)) s [1; 2]) rs, map (fun s => (logprob s, frags s, noparse s, exact (evacc s), option_map exact (evacc40 s))) rs)) o.
Example C84_ex : exshow (exdo [1; 2]) = exshow (exdo [2; 1]) /\
  exshow (exdo [2; 1]) = Some
    ([Some [(1, 11, [7; 8]); (2, 21, [9])]; Some [(1, 12, [7; 8]); (2, 22, [9])]],
     [([(1, 105); (2, 0)], [(1, Some 0%Z); (2, Some 0%Z)], 1, 1, Some 0); ([(1, 109); (2, 300)], [(1, Some 6%Z); (2, Some 0%Z)], 1, 1, Some 1)]).
Proof. split; vm_compute; reflexivity. Qed.
(** a sentence that arrives twice, or an unknown one: an exception *)
Example C84_ex_twice : exdo [1; 1] = None /\ exdo [1; 3] = None.
Proof. split; vm_compute; reflexivity. Qed.
Lemma ex_parsed : forall id, In id [1; 2] -> good extest expair exwork id.
Proof.
  intros id [<-|[<-|[]]]; unfold good, parsed; cbn [exwork]; do 3 eexists; (split; [reflexivity|]).
  - exists 11, [7; 8]. split; [now left|]. constructor; [reflexivity|]. constructor; [reflexivity|]. constructor.
  - exists 22, [9]. split; [right; now left|]. constructor; [reflexivity|]. constructor; [reflexivity|]. constructor.
Qed.
