(** C40: the k-best derivations of a chart *)
From Coq Require Import List Bool Arith NArith Lia Permutation Sorted.
From Verif Require Import KbestModel KbestSpec KbestProofs KbestProofs2.
Import ListNotations.
Open Scope list_scope.
Open Scope nat_scope.

Local Opaque MAX_DEPTH.
Section Main.
Variables (forest : nat -> list edge) (sub : nat -> N) (height : nat -> nat).
Hypothesis OK : chart_ok forest sub height.
Let init := St (fun _ => []) (fun _ => None) [].
Lemma init_inv : forall k1, inv forest sub k1 init.
Proof. intros k1. split; [intros v; constructor; cbn; try constructor; discriminate|intros v; reflexivity]. Qed.
Lemma init_cinv : forall k1 costs, cinv forest sub k1 costs init.
Proof. intros. constructor; cbn; [reflexivity|discriminate|discriminate]. Qed.
Lemma mapM_spec : forall {X Y} (f : X -> option Y) l, (forall x, In x l -> exists y, f x = Some y) -> exists l', mapM f l = Some l' /\ Forall2 (fun x y => f x = Some y) l l'.
Proof.
  intros X Y f. induction l as [|x l IH]; intros H; [exists []; auto|]. destruct (H x (or_introl eq_refl)) as [y E]. destruct IH as (l' & E' & F); [intros; apply H; now right|]. exists (y :: l'). cbn. rewrite E, E'. auto.
Qed.
Lemma forall2_in_r : forall {X Y} (P : X -> Y -> Prop) l l' y, Forall2 P l l' -> In y l' -> exists x, In x l /\ P x y.
Proof. intros X Y P l l' y H. induction H as [|a b l l' HP F IH]; intros HY; [destruct HY|]. destruct HY as [<-|HY]; [exists a; split; auto; now left|]. destruct (IH HY) as (x & A & B). exists x. split; auto. now right. Qed.
Lemma forall2_impl_in : forall {X Y} (P Q : X -> Y -> Prop) l l', Forall2 P l l' -> (forall x y, In x l -> P x y -> Q x y) -> Forall2 Q l l'.
Proof. intros X Y P Q l l' F. induction F as [|x y l l' HP F IH]; intros H; constructor; [apply H; auto; now left|]. apply IH. intros a b Ha. apply H. now right. Qed.
Lemma sorted_firstn_e : forall l n, StronglySorted le_e l -> StronglySorted le_e (firstn n l).
Proof. intros l n H. revert n. induction H as [|x l S0 IH F]; intros [|n]; cbn; constructor; auto. apply Forall_forall. intros y Hy. rewrite Forall_forall in F. apply F. rewrite <- (firstn_skipn n l). apply in_app_iff. auto. Qed.
Lemma nodup_firstn : forall {X} (l : list X) n, NoDup l -> NoDup (firstn n l).
Proof. intros X l n H. rewrite <- (firstn_skipn n l) in H. now apply nodup_app_l in H. Qed.
Lemma main : forall root k, 1 <= k -> forest root <> [] -> height root < MAX_DEPTH -> exists l s,
  lazykbest forest sub root k = Some l /\ inv forest sub k s /\ map snd l = map snd (firstn k (ranked s root)) /\ NoDup (map fst l) /\ (forall t p, In (t, p) l -> derivation forest root t /\ dcost t = p) /\ ranked s root <> [] /\
  (unique_edges forest -> 2 <= k -> cinv forest sub k (costs forest height) s /\ Nat.min k (length (costs forest height root)) <= length (ranked s root)).
Proof using OK.
  intros root k HK FR HR. unfold lazykbest. destruct (forest root) as [|e0 fr] eqn:EF; [congruence|]. fold init.
  destruct (lazykthbest_ok forest sub height OK k HK (costs forest height) (costs_sorted forest height) (costs_head forest sub height OK) (costs_all forest sub height OK) MAX_DEPTH root k init (init_inv k)) as (s & E & IN & X & FRM & _ & NE & CM).
  rewrite E. rewrite Nat.max_r by exact HK. set (es := firstn k (ranked s root)) in *.
  assert (FO : Forall (okx forest sub (ranked s) root) es). { assert (F := r_ok _ _ _ _ (proj1 IN root)). unfold es. rewrite Forall_forall in *. intros x Hx. apply F. rewrite <- (firstn_skipn k (ranked s root)). apply in_app_iff. auto. }
  destruct (explore_all_ok forest sub height OK root es (ranked s) HR (proj1 IN) FO) as (R & ER & RI & XR & HG). rewrite ER.
  set (D1 := S MAX_DEPTH) in *. assert (GD : forall e, In e es -> exists t, getderiv D1 (put R root es) (fst e) = Some t /\ derivation forest root t /\ dcost t = snd e).
  { intros e He. destruct (HG e He) as (t & G & D & C). exists t. split; [|split; assumption]. apply (getderiv_agree forest sub height OK D1 R (put R root es) root (fst e) t RI).
    - rewrite Forall_forall in FO. exact (proj1 (FO e He)).
    - intros u Hu. apply put_other. intros ->. lia.
    - unfold D1. apply getderiv_fuel. exact G. }
  set (f := fun e : redge * N => match getderiv D1 (put R root es) (fst e) with Some t => Some (t, snd e) | None => None end).
  destruct (mapM_spec f es) as (l & EL & F2). { intros e He. destruct (GD e He) as (t & G & _). exists (t, snd e). unfold f. now rewrite G. }
  exists l, s. split; [exact EL|]. split; auto.
  assert (SND : map snd l = map snd es). { clear - F2. induction F2 as [|x y l1 l2 H F IH]; auto. cbn. rewrite IH. f_equal. unfold f in H. destruct (getderiv _ _ _); [injection H as <-|discriminate]. reflexivity. }
  split; [exact SND|]. split; [|split; [|split]].
  - assert (ND : NoDup (map fst es)). { assert (Z := r_nodup _ _ _ _ (proj1 IN root)). unfold es. rewrite <- firstn_map. now apply nodup_firstn. }
    assert (FO' : Forall (okx forest sub R root) es) by (eapply Forall_impl; [|exact FO]; intros a; now apply ext_okx).
    assert (GD' : forall e, In e es -> getderiv D1 (put R root es) (fst e) = getderiv D1 R (fst e)).
    { intros e He. destruct (HG e He) as (t & G & _). apply (getderiv_fuel MAX_DEPTH R (fst e) t) in G. fold D1 in G. rewrite G. apply (getderiv_agree forest sub height OK D1 R (put R root es) root (fst e) t RI).
      - rewrite Forall_forall in FO. exact (proj1 (FO e He)).
      - intros u Hu. apply put_other. intros ->. lia.
      - exact G. }
    rewrite Forall_forall in FO'. assert (F3 : Forall2 (fun x y => getderiv D1 R (fst x) = Some (fst y)) es l).
    { apply (forall2_impl_in _ _ _ _ F2). intros x y Hx H. unfold f in H. rewrite GD' in H by exact Hx. destruct (getderiv D1 R (fst x)); [|discriminate]. injection H as <-. reflexivity. }
    clear - ND FO' F3 OK RI. induction F3 as [|x y l1 l2 H F IH]; cbn; [constructor|]. cbn in ND. inversion ND as [|? ? N1 N2]; subst. constructor; [|apply IH; auto; intros z Hz; apply FO'; now right].
    rewrite in_map_iff. intros (z & EZ & Hz). destruct (forall2_in_r _ _ _ _ F Hz) as (w & Hw & Gw). apply N1. apply in_map_iff. exists w. split; auto. rewrite EZ in Gw. symmetry. apply (getderiv_inj forest sub height OK D1 R root (fst x) (fst w) (fst y) (snd x) (snd w) RI); auto; rewrite <- surjective_pairing; apply FO'; [now left|now right].
  - intros t p H. destruct (forall2_in_r _ _ _ _ F2 H) as (e & He & Fe). destruct (GD e He) as (t' & G & D & C). unfold f in Fe. rewrite G in Fe. injection Fe as <- <-. auto.
  - apply NE; auto. rewrite EF. discriminate.
  - intros UE K2. apply CM; auto; [apply init_cinv|lia].
Qed.
End Main.

Lemma sorted_map : forall (l : list (dtree * N)) (es : list entry), map snd l = map snd es -> StronglySorted le_e es -> StronglySorted (fun x y => (snd x <= snd y)%N) l.
Proof.
  intros l es E H. revert l E. induction H as [|x es S0 IH F]; intros [|y l] E; try discriminate; [constructor|]. cbn in E. injection E as E1 E2. constructor; auto. apply Forall_forall. intros z Hz. rewrite E1. apply (in_map snd) in Hz. rewrite E2 in Hz. apply in_map_iff in Hz. destruct Hz as (w & <- & Hw). rewrite Forall_forall in F. exact (F w Hw).
Qed.
(** ---- C40 ---- *)
(** for every chart: what is returned *)
Theorem C40_kbest_sound : forall forest sub height root k, chart_ok forest sub height -> 1 <= k -> forest root <> [] -> height root < 200 ->
  exists l, lazykbest forest sub root k = Some l /\
    l <> [] /\ length l <= k /\
    (forall t p, In (t, p) l -> derivation forest root t /\ p = dcost t) /\
    NoDup (map fst l) /\
    StronglySorted (fun x y => (snd x <= snd y)%N) l /\
    (forall t p r, l = (t, p) :: r -> forall u, derivation forest root u -> (dcost t <= dcost u)%N).
Proof.
  intros forest sub height root k OK HK FR HR. destruct (main forest sub height OK root k HK FR HR) as (l & s & E & IN & SND & ND & V & NE & _). exists l. split; auto.
  assert (LEN : length l = length (firstn k (ranked s root))). { rewrite <- (map_length snd l), SND. apply map_length. }
  split; [intros ->; destruct (ranked s root); [congruence|destruct k; [lia|discriminate]]|]. split; [rewrite LEN; apply firstn_le_length|]. split; [intros t p H; destruct (V t p H); auto|]. split; auto. split; [eapply sorted_map; [exact SND|]; apply sorted_firstn_e; apply (r_sorted _ _ _ _ (proj1 IN root))|].
  intros t p r -> u Du. destruct (V t p (or_introl eq_refl)) as [_ C]. destruct (ranked s root) as [|x rest] eqn:ER; [congruence|]. assert (Z := r_head _ _ _ _ (proj1 IN root) x rest ER). destruct k as [|k]; [lia|]. cbn in SND. injection SND as S1 _. rewrite C, S1, Z. apply (ok_viterbi _ _ _ OK root FR). exact Du.
Qed.
(** when a rule number and a position identify an edge: the k best ones *)
Theorem C40_kbest_complete : forall forest sub height root k, chart_ok forest sub height -> unique_edges forest -> 1 <= k -> forest root <> [] -> height root < 200 ->
  exists l, lazykbest forest sub root k = Some l /\
    forall t, derivation forest root t -> In t (map fst l) \/ (length l = k /\ forall p, In p (map snd l) -> (p <= dcost t)%N).
Proof.
  intros forest sub height root k OK UE HK FR HR. destruct (main forest sub height OK root k HK FR HR) as (l & s & E & IN & SND & ND & V & NE & CM). exists l. split; auto. intros t D.
  assert (LEN : length l = length (firstn k (ranked s root))). { rewrite <- (map_length snd l), SND. apply map_length. }
  assert (FST : forall a, In a (map fst l) -> derivation forest root a /\ In (dcost a) (map snd l)). { intros a Ha. apply in_map_iff in Ha. destruct Ha as ([a' p] & <- & H). destruct (V a' p H) as [A B]. split; auto. cbn. rewrite B. apply (in_map snd) in H. exact H. }
  assert (DC : map dcost (map fst l) = map snd l). { rewrite map_map. apply map_ext_in. intros [a p] H. destruct (V a p H) as [_ B]. exact B. }
  destruct (Nat.eq_dec k 1) as [->|K1].
  - destruct (ranked s root) as [|x rest] eqn:ER; [congruence|]. right. split; [rewrite LEN; reflexivity|]. intros p Hp. rewrite SND in Hp. cbn in Hp. destruct Hp as [<-|[]]. assert (Z := r_head _ _ _ _ (proj1 IN root) x rest ER). rewrite Z. apply (ok_viterbi _ _ _ OK root FR). exact D.
  - destruct CM as [CI LE]; auto; [lia|]. assert (CC := c_costs _ _ _ _ _ CI root). set (cs := costs forest height root) in *. assert (PC := costs_perm forest height root). fold cs in PC. assert (LC := Permutation_length PC). rewrite map_length in LC.
    assert (SC : map snd l = firstn k cs). { rewrite SND. transitivity (firstn k (map snd (ranked s root))); [symmetry; apply firstn_map|]. transitivity (firstn k (firstn (length (ranked s root)) cs)); [f_equal; exact CC|]. rewrite firstn_firstn. destruct (le_lt_dec k (length (ranked s root))) as [L|L]; [now rewrite Nat.min_l|]. rewrite Nat.min_r by lia. assert (length cs <= length (ranked s root)) by lia. rewrite !firstn_all2; auto; lia. }
    assert (INC : incl (map fst l) (allders forest height root)). { intros a Ha. apply (allders_in forest sub height OK). now apply FST. }
    assert (NA := ders_nodup forest (S (height root)) root). fold (allders forest height root) in NA.
    assert (DEC : forall a b : dtree, {a = b} + {a <> b}) by (repeat decide equality).
    destruct (in_dec DEC t (map fst l)) as [Ht|Ht]; [auto|right].
    assert (SPL : exists rest, Permutation (allders forest height root) (map fst l ++ rest)).
    { clear - ND NA INC. revert ND NA INC. generalize (map fst l) (allders forest height root). induction l0 as [|a A IH]; intros L NA NL HI; [exists L; auto|]. inversion NA as [|? ? N1 N2]; subst. destruct (in_split a L) as (l1 & l2 & ->); [apply HI; now left|]. destruct (IH (l1 ++ l2)) as [B PB]; auto; [now apply NoDup_remove in NL| |].
      - intros x Hx. assert (X := HI x (or_intror Hx)). rewrite in_app_iff in *. cbn in X. destruct X as [X|[X|X]]; auto. subst. contradiction.
      - exists B. cbn. rewrite <- PB. symmetry. apply Permutation_middle. }
    destruct SPL as [rest PR]. assert (TR : In t rest). { assert (X : In t (map fst l ++ rest)) by (eapply Permutation_in; [exact PR|apply (allders_in forest sub height OK); auto]). apply in_app_iff in X. destruct X; [contradiction|auto]. }
    assert (PS : Permutation (map dcost rest) (skipn k cs)). { apply (Permutation_app_inv_l (firstn k cs)). rewrite firstn_skipn. assert (PD := Permutation_map dcost PR). rewrite map_app, DC, SC in PD. rewrite <- PD. symmetry. exact PC. }
    split.
    + rewrite <- (map_length snd l), SC, firstn_length. apply Nat.min_l. destruct (le_lt_dec k (length cs)) as [L|L]; auto. exfalso. rewrite skipn_all2 in PS by lia. apply Permutation_sym, Permutation_nil in PS. destruct rest; [destruct TR|discriminate].
    + intros p Hp. rewrite SC in Hp. apply (in_map dcost) in TR. apply (Permutation_in _ PS) in TR. assert (SO := costs_sorted forest height root). fold cs in SO. rewrite <- (firstn_skipn k cs) in SO. clear - SO Hp TR. revert SO Hp TR. generalize (dcost t) (firstn k cs) (skipn k cs). intros d A B SO Hp TR. induction A as [|a A IH]; [destruct Hp|]. cbn in SO. inversion SO as [|? ? S1 F]; subst. destruct Hp as [->|Hp]; [|auto]. rewrite Forall_forall in F. apply F. apply in_app_iff. auto.
Qed.
(** a chart without the goal item: an exception *)
Theorem C40_no_derivation : forall forest sub root k, forest root = [] -> lazykbest forest sub root k = None.
Proof. intros forest sub root k E. unfold lazykbest. now rewrite E. Qed.

(** ---- examples ---- *)
Lemma chart_ok_check : forall n forest sub height, (forall v, n <= v -> forest v = []) ->
  (forall v c, edges_between forest v c -> height c < height v) -> (forall v c, edges_between forest v c -> forest c <> []) ->
  (forall v, v < n -> forest v <> [] -> In (sub v) (map dcost (ders forest (S (height v)) v)) /\ Forall (fun t => (sub v <= dcost t)%N) (ders forest (S (height v)) v)) ->
  (forall v e, v < n -> In e (forest v) -> eno e = None -> eprob e = sub v) ->
  (forall v e e', v < n -> In e (forest v) -> In e' (forest v) -> eno e = eno e' -> epos e = epos e' -> e = e') -> chart_ok forest sub height.
Proof.
  intros n forest sub height FN AC CO VI LX KE. assert (LT : forall v, forest v <> [] -> v < n). { intros v H. destruct (le_lt_dec n v) as [L|L]; auto. exfalso. apply H. auto. }
  assert (NE : forall v e, In e (forest v) -> v < n). { intros v e H. apply LT. intros Z. rewrite Z in H. destruct H. }
  constructor; auto.
  - intros v FV. destruct (VI v (LT v FV) FV) as [A B]. split.
    + apply in_map_iff in A. destruct A as (t & E & Ht). exists t. split; auto. apply (ders_in forest height AC) in Ht; auto.
    + intros t D. apply (ders_in forest height AC (S (height v))) in D; auto. rewrite Forall_forall in B. auto.
  - intros v e He E. apply (LX v e); auto. eauto.
  - intros v e e' A B. apply (KE v); auto. eauto.
Qed.
(** "S -> X W" over five words; X covers the first three or four, and is made
    with the same rule and the same split; its left child Y is ambiguous *)
Definition shared_forest (v : nat) : list edge :=
  match v with
  | 0 => [Edge (Some 1) 1 3 1 (Some 3); Edge (Some 1) 1 4 2 (Some 4)]  (* S[0:5] -> X[0:3] W[3:5] | X[0:4] W[4:5] *)
  | 1 => [Edge (Some 2) 1 2 5 (Some 6)]                                (* X[0:3] -> Y[0:2] Z[2:3] *)
  | 2 => [Edge (Some 2) 1 2 5 (Some 7)]                                (* X[0:4] -> Y[0:2] Z[2:4] *)
  | 3 => [Edge None 1 3 0 None]
  | 4 => [Edge None 4 4 0 None]
  | 5 => [Edge (Some 3) 1 1 8 None; Edge (Some 4) 3 1 8 None]          (* two analyses of Y *)
  | 6 => [Edge None 1 2 0 None]
  | 7 => [Edge None 1 2 0 None]
  | 8 => [Edge None 1 0 0 None]
  | _ => []
  end.
Definition shared_sub (v : nat) : N := match v with 0 => 6 | 1 => 4 | 2 => 4 | 3 => 1 | 4 => 4 | 5 => 2 | 6 => 1 | 7 => 1 | _ => 1 end.
Definition shared_height (v : nat) : nat := match v with 0 => 3 | 1 | 2 => 2 | 5 => 1 | _ => 0 end.
Ltac chart_check :=
  apply (chart_ok_check 9);
  [ intros v Hv; do 9 (destruct v as [|v]; [lia|]); reflexivity
  | intros v c (e & m & He & Em & Hc); do 9 (destruct v as [|v]; [cbn in He; repeat (destruct He as [<-|He]; [cbn in *; destruct Hc as [<-|Hc]; [cbn; try lia; discriminate|try discriminate; injection Hc as <-; cbn; lia]|]); destruct He|]); destruct He
  | intros v c (e & m & He & Em & Hc); do 9 (destruct v as [|v]; [cbn in He; repeat (destruct He as [<-|He]; [cbn in *; destruct Hc as [<-|Hc]; [cbn; discriminate|try discriminate; injection Hc as <-; cbn; discriminate]|]); destruct He|]); destruct He
  | intros v Hv _; do 9 (destruct v as [|v]; [split; vm_compute; [tauto|repeat (constructor; [discriminate|]); constructor]|]); lia
  | intros v e Hv He E; do 9 (destruct v as [|v]; [cbn in He; repeat (destruct He as [<-|He]; [cbn in *; try discriminate; reflexivity|]); destruct He|]); lia
  | intros v e e' Hv He He' E1 E2; do 9 (destruct v as [|v]; [cbn in He, He'; repeat (destruct He as [<-|He]); try destruct He; repeat (destruct He' as [<-|He']); try destruct He'; cbn in *; try discriminate; reflexivity|]); lia ].
Example shared_chart : chart_ok shared_forest shared_sub shared_height.
Proof. chart_check. Qed.
(** X[0:3] and X[0:4] share the rule and the split, so the second derivation of
    X[0:4] is taken for the one of X[0:3], and a derivation is lost: with k = 10,
    three out of four derivations are returned *)
Theorem C40_complete_refuted_shared_edge : exists forest sub height l t,
  chart_ok forest sub height /\ height 0 < 200 /\ lazykbest forest sub 0 10 = Some l /\ length l < 10 /\ derivation forest 0 t /\ ~ In t (map fst l).
Proof.
  exists shared_forest, shared_sub, shared_height. eexists. exists (DBin (Edge (Some 1) 1 4 2 (Some 4)) (DBin (Edge (Some 2) 1 2 5 (Some 7)) (DUn (Edge (Some 4) 3 1 8 None) (DLex (Edge None 1 0 0 None))) (DLex (Edge None 1 2 0 None))) (DLex (Edge None 4 4 0 None))).
  split; [exact shared_chart|]. split; [cbn; lia|]. split; [vm_compute; reflexivity|]. split; [cbn; lia|]. split.
  - apply (d_bin _ 0 _ 1 4); cbn; auto; [|constructor; cbn; auto]. apply (d_bin _ 2 _ 2 7); cbn; auto; [|constructor; cbn; auto]. apply (d_un _ 5 _ 4); cbn; auto. constructor; cbn; auto.
  - cbn. intros [H|[H|[H|[]]]]; discriminate H.
Qed.
(** the same chart, where X[0:4] is made with a rule of its own *)
Definition own_forest (v : nat) : list edge := match v with 2 => [Edge (Some 5) 1 2 5 (Some 7)] | _ => shared_forest v end.
Example own_chart : chart_ok own_forest shared_sub shared_height /\ unique_edges own_forest.
Proof.
  split; [chart_check|]. intros v v' e e' n He He' E E' EP.
  do 9 (destruct v as [|v]; [cbn in He; repeat (destruct He as [<-|He]); try destruct He; cbn in E; try discriminate E; injection E as <-; (do 9 (destruct v' as [|v']; [cbn in He'; repeat (destruct He' as [<-|He']); try destruct He'; cbn in *; try discriminate; try reflexivity|])); destruct He'|]). destruct He.
Qed.
Example own_kbest : option_map (map snd) (lazykbest own_forest shared_sub 0 10) = Some [6; 8; 9; 11]%N /\ option_map (map snd) (lazykbest own_forest shared_sub 0 3) = Some [6; 8; 9]%N.
Proof. split; vm_compute; reflexivity. Qed.
(** an item with a lexical edge and a better unary derivation: the derivation
    with the lexical edge is returned with the probability of the other one *)
Definition lex_forest (v : nat) : list edge := match v with 0 => [Edge None 5 0 0 None; Edge (Some 1) 1 0 1 None] | 1 => [Edge None 1 0 0 None] | _ => [] end.
Theorem C40_cost_refuted_lexical : exists l t p, lazykbest lex_forest (fun v : nat => match v with 0 => 2%N | _ => 1%N end) 0 2 = Some l /\ In (t, p) l /\ derivation lex_forest 0 t /\ p <> dcost t.
Proof. eexists. exists (DLex (Edge None 5 0 0 None)), 2%N. split; [vm_compute; reflexivity|]. split; [cbn; auto|]. split; [constructor; cbn; auto|discriminate]. Qed.
(** derivations of more than 200 levels are dropped *)
Definition deep_forest (v : nat) : list edge := if v <? 200 then [Edge (Some v) 0 v (v + 1) None] else if v =? 200 then [Edge None 0 0 0 None] else [].
Theorem C40_deep_refuted : lazykbest deep_forest (fun _ => 0%N) 0 10 = Some [] /\ exists t, derivation deep_forest 0 t.
Proof.
  split; [vm_compute; reflexivity|]. assert (H : forall n v, v + n = 200 -> exists t, derivation deep_forest v t); [|apply (H 200 0); reflexivity].
  induction n as [|n IH]; intros v E.
  - exists (DLex (Edge None 0 0 0 None)). rewrite Nat.add_0_r in E. subst v. constructor; [unfold deep_forest; cbn; auto|auto].
  - destruct (IH (v + 1)) as [t D]; [lia|]. exists (DUn (Edge (Some v) 0 v (v + 1) None) t). apply (d_un _ v _ v); auto. unfold deep_forest. rewrite (proj2 (Nat.ltb_lt v 200)) by lia. now left.
Qed.
