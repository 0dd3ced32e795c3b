(** Proofs for C65, part 3: derivation strings, number of fragments, SL-DOP. *)
From Coq Require Import Reals Lra.
From Coq Require Import List Bool Arith NArith ZArith Lia Permutation.
From Verif Require Import PyStr DisambModel DisambSpec DisambProofs DisambProofs2.
Import ListNotations.
Open Scope nat_scope.
Open Scope list_scope.

Lemma dt_ind' : forall P : dt -> Prop,
  (forall i, P (DLeaf i)) ->
  (forall l a ts, Forall P ts -> P (DNode l a ts)) -> forall t, P t.
Proof.
  intros P HL HN. fix F 1. intros [i|l a ts]; [apply HL|].
  apply HN. induction ts as [|t ts IH]; constructor; [apply F|exact IH].
Qed.

(** the string with each address replaced by [repl] *)
Fixpoint showr (repl : pystr) (t : dt) : pystr :=
  match t with
  | DLeaf i => dec i
  | DNode l a ts =>
      40%N :: l ++ match a with None => [] | Some _ => repl end
        ++ flat_map (fun c => 32%N :: showr repl c) ts ++ [41%N]
  end.
Lemma flat_map_ext_forall : forall A B (f g : A -> list B) l,
  Forall (fun x => f x = g x) l -> flat_map f l = flat_map g l.
Proof. induction 1; cbn; congruence. Qed.
Lemma flat_map_map : forall A B C (f : B -> list C) (g : A -> B) l,
  flat_map f (map g l) = flat_map (fun x => f (g x)) l.
Proof. induction l; cbn; congruence. Qed.
Lemma showr_forget : forall t, showr [] t = show (forget t).
Proof.
  induction t as [i|l a ts IH] using dt_ind'; [reflexivity|].
  cbn [showr forget show showaddr]. rewrite flat_map_map.
  rewrite (flat_map_ext_forall _ _ (fun c => 32%N :: showr [] c) (fun x => 32%N :: show (forget x)) ts).
  - now destruct a.
  - eapply Forall_impl; [|exact IH]. cbn. congruence.
Qed.
Lemma showr_anonymize : forall t, showr [64; 49]%N t = show (anonymize t).
Proof.
  induction t as [i|l a ts IH] using dt_ind'; [reflexivity|].
  cbn [showr anonymize show]. rewrite flat_map_map.
  rewrite (flat_map_ext_forall _ _ (fun c => 32%N :: showr [64; 49]%N c) (fun x => 32%N :: show (anonymize x)) ts).
  - now destruct a.
  - eapply Forall_impl; [|exact IH]. cbn. congruence.
Qed.

Definition nohead (P : N -> bool) (r : pystr) : Prop :=
  match r with [] => True | c :: _ => P c = false end.

Lemma subids_plain : forall repl s r, Forall (fun c => c <> 64%N) s ->
  subids repl false (s ++ r) = s ++ subids repl false r.
Proof.
  induction s as [|c s IH]; intros r H; [reflexivity|]. inversion H; subst.
  cbn [app subids andb].
  assert (E : N.eqb c at_char = false) by now apply N.eqb_neq.
  rewrite E. cbn [andb]. rewrite <- (IH r) by assumption.
  destruct (s ++ r) eqn:Q; [|reflexivity].
  apply app_eq_nil in Q. destruct Q; subst. reflexivity.
Qed.
Lemma subids_skip : forall repl x r, Forall (fun c => idchar c = true) x ->
  nohead idchar r -> subids repl true (x ++ r) = subids repl false r.
Proof.
  induction x as [|c x IH]; intros r H NH.
  - cbn [app]. destruct r as [|d r]; [reflexivity|]. cbn in NH. cbn [subids andb].
    now rewrite NH.
  - inversion H; subst. cbn [app subids]. rewrite H2. cbn [andb]. now apply IH.
Qed.
Lemma subids_addr : forall repl x r, x <> [] -> Forall (fun c => idchar c = true) x ->
  nohead idchar r -> subids repl false (64%N :: x ++ r) = repl ++ subids repl false r.
Proof.
  intros repl x r NE H NH. destruct x as [|d x]; [congruence|].
  cbn [app]. cbn [subids andb]. inversion H; subst.
  change (N.eqb 64 at_char) with true. rewrite H2. cbn [andb].
  f_equal. change (d :: x ++ r) with ((d :: x) ++ r).
  rewrite <- (subids_skip repl (d :: x) r) by assumption.
  cbn [app subids]. now rewrite H2.
Qed.
Lemma wfaddr_idchar : forall x, Forall (fun c => c = 45%N \/ isdigit c = true) x ->
  Forall (fun c => idchar c = true) x.
Proof.
  intros x H. eapply Forall_impl; [|exact H]. intros c [->|E]; [reflexivity|].
  unfold idchar. rewrite E. apply orb_true_r.
Qed.
Lemma kids_head : forall P ts r, P 32%N = false -> P 41%N = false ->
  nohead P (flat_map (fun c => 32%N :: show c) ts ++ [41%N] ++ r).
Proof. intros P [|t ts] r A B; cbn; assumption. Qed.
Lemma dec_no64 : forall i, Forall (fun c => c <> 64%N /\ c <> 40%N /\ c <> 41%N /\ c <> 32%N) (dec i).
Proof.
  intros i. pose proof (dec_digits i) as H. rewrite forallb_forall in H.
  apply Forall_forall. intros c I. specialize (H c I). unfold isdigit in H.
  apply andb_prop in H. destruct H as [A B]. apply N.leb_le in A. apply N.leb_le in B. lia.
Qed.

Lemma subids_show : forall repl t, wf t -> forall r,
  subids repl false (show t ++ r) = showr repl t ++ subids repl false r.
Proof.
  intros repl. induction t as [i|l a ts IH] using dt_ind'; intros W r.
  - cbn [show showr]. apply subids_plain. eapply Forall_impl; [|apply dec_no64].
    cbn. tauto.
  - inversion W as [|? ? ? WL WA WT]; subst. cbn [show showr].
    rewrite <- !app_comm_cons, <- !app_assoc.
    change (40%N :: l ++ showaddr a ++ flat_map (fun c => 32%N :: show c) ts ++ [41%N] ++ r)
      with ((40%N :: l) ++ showaddr a ++ flat_map (fun c => 32%N :: show c) ts ++ [41%N] ++ r).
    rewrite subids_plain.
    2:{ constructor; [lia|]. destruct WL as [_ WL]. eapply Forall_impl; [|exact WL]. cbn. tauto. }
    rewrite <- app_comm_cons. f_equal. f_equal.
    assert (KS : forall r, subids repl false (flat_map (fun c => 32%N :: show c) ts ++ r)
             = flat_map (fun c => 32%N :: showr repl c) ts ++ subids repl false r).
    { clear W WL WA. induction ts as [|t ts IHt]; intros r0; [reflexivity|].
      inversion IH as [|? ? A B]; subst. inversion WT as [|? ? C E]; subst.
      cbn [flat_map]. rewrite <- !app_comm_cons, <- !app_assoc.
      pose proof (subids_plain repl [32%N] (show t ++ flat_map (fun c => 32%N :: show c) ts ++ r0)) as Q.
      cbn [app] in Q. rewrite Q by (constructor; [lia|constructor]).
      f_equal. rewrite (A C). f_equal. now apply IHt. }
    assert (KS2 : subids repl false (flat_map (fun c => 32%N :: show c) ts ++ [41%N] ++ r)
             = flat_map (fun c => 32%N :: showr repl c) ts ++ [41%N] ++ subids repl false r).
    { rewrite KS. f_equal. apply subids_plain. constructor; [lia|constructor]. }
    destruct a as [x|]; cbn [showaddr].
    + destruct WA as [NE WA]. rewrite <- app_comm_cons.
      rewrite subids_addr; [now rewrite KS2|exact NE|now apply wfaddr_idchar|].
      now apply kids_head.
    + cbn [app]. exact KS2.
Qed.
Lemma removeids_show : forall repl t, wf t -> removeids repl (show t) = showr repl t.
Proof.
  intros. unfold removeids. rewrite <- (app_nil_r (show t)), subids_show by assumption.
  cbn [subids]. apply app_nil_r.
Qed.

(** *** the notation is unambiguous *)
Lemma split_at : forall (P : N -> bool) a b r s,
  Forall (fun c => P c = true) a -> Forall (fun c => P c = true) b ->
  nohead P r -> nohead P s -> a ++ r = b ++ s -> a = b /\ r = s.
Proof.
  induction a as [|x a IH]; intros b r s Ha Hb Hr Hs E.
  - destruct b as [|y b]; [auto|]. cbn in E. subst r. inversion Hb; subst.
    cbn in Hr. congruence.
  - destruct b as [|y b].
    + cbn in E. subst s. inversion Ha; subst. cbn in Hs. congruence.
    + inversion Ha; inversion Hb; subst. cbn in E. inversion E; subst.
      destruct (IH b r s) as [-> ->]; auto.
Qed.
Definition labchar (c : N) : bool :=
  negb (N.eqb c 64 || N.eqb c 40 || N.eqb c 41 || N.eqb c 32).
Lemma wflabel_labchar : forall l, wflabel l -> Forall (fun c => labchar c = true) l.
Proof.
  intros l [_ H]. eapply Forall_impl; [|exact H]. intros c (A & B & C & E).
  unfold labchar. apply N.eqb_neq in A, B, C, E. now rewrite A, B, C, E.
Qed.
Lemma show_inj : forall t, wf t -> forall t' r r', wf t' ->
  nohead isdigit r -> nohead isdigit r' ->
  show t ++ r = show t' ++ r' -> t = t' /\ r = r'.
Proof.
  induction t as [i|l a ts IH] using dt_ind'; intros W t' r r' W' Hr Hr' E.
  - destruct t' as [j|l' a' ts'].
    + cbn [show] in E. destruct (split_at isdigit (dec i) (dec j) r r') as [A B]; auto.
      * apply Forall_forall. intros c I. pose proof (dec_digits i) as H.
        rewrite forallb_forall in H. auto.
      * apply Forall_forall. intros c I. pose proof (dec_digits j) as H.
        rewrite forallb_forall in H. auto.
      * apply dec_inj in A. subst. auto.
    + exfalso. cbn [show] in E. pose proof (dec_no64 i) as H.
      destruct (dec i) as [|c x] eqn:Q; [now apply dec_nonempty in Q|].
      cbn [app] in E. injection E as E _. inversion H; subst. lia.
  - destruct t' as [j|l' a' ts'].
    + exfalso. cbn [show] in E. pose proof (dec_no64 j) as H.
      destruct (dec j) as [|c x] eqn:Q; [now apply dec_nonempty in Q|].
      cbn [app] in E. injection E as E _. inversion H; subst. lia.
    + inversion W as [|? ? ? WL WA WT]; subst. inversion W' as [|? ? ? WL' WA' WT']; subst.
      cbn [show] in E. rewrite <- !app_comm_cons, <- !app_assoc in E. injection E as E.
      set (K ts r := flat_map (fun c => 32%N :: show c) ts ++ [41%N] ++ r) in *.
      fold (K ts r) in E. fold (K ts' r') in E.
      assert (HA : forall a ts r, nohead labchar (showaddr a ++ K ts r)).
      { intros a0 ts0 r0. destruct a0; cbn [showaddr app nohead]; [reflexivity|].
        now apply kids_head. }
      apply (split_at labchar) in E; [|now apply wflabel_labchar|now apply wflabel_labchar|apply HA|apply HA].
      destruct E as [-> E].
      assert (EA : a = a' /\ K ts r = K ts' r').
      { destruct a as [x|], a' as [x'|]; cbn [showaddr app] in E.
        - injection E as E. destruct WA as [_ WA], WA' as [_ WA'].
          apply (split_at idchar) in E; [|now apply wfaddr_idchar|now apply wfaddr_idchar|now apply kids_head|now apply kids_head].
          destruct E as [-> E]. auto.
        - exfalso. destruct ts' as [|t' ts']; cbn in E; discriminate.
        - exfalso. destruct ts as [|t ts]; cbn in E; discriminate.
        - auto. }
      destruct EA as [-> EK]. clear E HA W W' WL WL' WA WA'.
      assert (R : ts = ts' /\ r = r').
      { revert ts' WT' EK. induction ts as [|t ts IHt]; intros [|t' ts'] WT' EK; unfold K in EK; cbn [flat_map app] in EK.
        - injection EK as EK. auto.
        - discriminate.
        - discriminate.
        - injection EK as EK. rewrite <- !app_assoc in EK.
          inversion IH as [|? ? IA IB]; subst. inversion WT as [|? ? WA WB]; subst.
          inversion WT' as [|? ? WA' WB']; subst.
          apply IA in EK; [|exact WA|exact WA'|now apply kids_head|now apply kids_head].
          destruct EK as [-> EK].
          destruct (IHt IB WB ts' WB' EK) as [-> ->]. auto. }
      destruct R as [-> ->]. auto.
Qed.
Lemma show_injective : forall t t', wf t -> wf t' -> show t = show t' -> t = t'.
Proof.
  intros t t' W W' E. refine (proj1 (show_inj t W t' [] [] W' I I _)). now rewrite E.
Qed.
Lemma wf_forget : forall t, wf t -> wf (forget t).
Proof.
  induction t as [i|l a ts IH] using dt_ind'; intros W; [constructor|].
  inversion W; subst. cbn. constructor; [assumption|exact I|].
  apply Forall_forall. intros x Ix. apply in_map_iff in Ix. destruct Ix as (y & <- & Iy).
  rewrite Forall_forall in IH, H4. auto.
Qed.
Lemma wf_anonymize : forall t, wf t -> wf (anonymize t).
Proof.
  induction t as [i|l a ts IH] using dt_ind'; intros W; [constructor|].
  inversion W; subst. cbn. constructor; [assumption| |].
  - destruct a; cbn; [|exact I]. split; [discriminate|]. constructor; [right; reflexivity|constructor].
  - apply Forall_forall. intros x Ix. apply in_map_iff in Ix. destruct Ix as (y & <- & Iy).
    rewrite Forall_forall in IH, H4. auto.
Qed.

(** *** number of fragments *)
Fixpoint nnodes (t : dt) : nat :=
  match t with DLeaf _ => 0 | DNode _ _ ts => 1 + list_sum (map nnodes ts) end.
Fixpoint naddr (t : dt) : nat :=
  match t with
  | DLeaf _ => 0
  | DNode _ a ts => (match a with None => 0 | Some _ => 1 end) + list_sum (map naddr ts)
  end.
Lemma nodes_split : forall t, nnodes t = nfrags t + naddr t.
Proof.
  induction t as [i|l a ts IH] using dt_ind'; [reflexivity|].
  cbn [nnodes nfrags naddr].
  assert (S : list_sum (map nnodes ts) = list_sum (map nfrags ts) + list_sum (map naddr ts)).
  { induction IH as [|t ts Ht _ IHt]; [reflexivity|].
    cbn [map list_sum fold_right] in *. unfold list_sum in *. lia. }
  destruct a; lia.
Qed.
Lemma countc_app : forall c a b, countc c (a ++ b) = countc c a + countc c b.
Proof. induction a; intros; cbn [app countc]; [reflexivity|]. rewrite IHa. lia. Qed.
Lemma countc_none : forall c a, Forall (fun x => x <> c) a -> countc c a = 0.
Proof.
  induction 1; cbn; [reflexivity|]. assert (E : N.eqb c x = false) by (apply N.eqb_neq; congruence).
  now rewrite E.
Qed.
Lemma count_show : forall t, wf t -> countc lparen (show t) = nnodes t.
Proof.
  induction t as [i|l a ts IH] using dt_ind'; intros W; cbn [show nnodes].
  - apply countc_none. eapply Forall_impl; [|apply dec_no64]. cbn. unfold lparen. tauto.
  - inversion W as [|? ? ? WL WA WT]; subst.
    change (40%N :: l ++ showaddr a ++ flat_map (fun c => 32%N :: show c) ts ++ [41%N])
      with ([40%N] ++ l ++ showaddr a ++ flat_map (fun c => 32%N :: show c) ts ++ [41%N]).
    rewrite !countc_app.
    rewrite (countc_none lparen l).
    2:{ destruct WL as [_ WL]. eapply Forall_impl; [|exact WL]. cbn. unfold lparen. tauto. }
    rewrite (countc_none lparen (showaddr a)).
    2:{ destruct a as [x|]; cbn; [|constructor]. constructor; [discriminate|].
        destruct WA as [_ WA]. eapply Forall_impl; [|exact WA]. cbn. unfold lparen.
        intros c [->|E]; [discriminate|]. intros ->. discriminate. }
    assert (S : countc lparen (flat_map (fun c => 32%N :: show c) ts) = list_sum (map nnodes ts)).
    { clear W WL WA. induction ts as [|t ts IHt]; [reflexivity|].
      inversion IH; inversion WT; subst. cbn [flat_map map list_sum fold_right].
      rewrite <- app_comm_cons. cbn [countc]. change (N.eqb lparen 32) with false.
      rewrite countc_app. unfold list_sum in *. rewrite IHt by assumption. rewrite H1 by assumption. reflexivity. }
    rewrite S. cbn. lia.
Qed.
Lemma atwords_plain : forall s seen r, Forall (fun c => c <> 64%N /\ c <> 32%N) s ->
  atwords seen (s ++ r) = atwords seen r.
Proof.
  induction s as [|c s IH]; intros seen r H; [reflexivity|]. inversion H as [|? ? [A B] C]; subst.
  cbn [app atwords]. assert (E : N.eqb c space = false) by now apply N.eqb_neq.
  assert (F : N.eqb c at_char = false) by now apply N.eqb_neq.
  rewrite E, F, orb_false_r. now apply IH.
Qed.
Definition b1 (b : bool) : nat := if b then 1 else 0.
Lemma atwords_show : forall t, wf t -> exists s, forall r,
  atwords false (show t ++ r) + b1 s = naddr t + atwords s r.
Proof.
  induction t as [i|l a ts IH] using dt_ind'; intros W; cbn [show naddr].
  - exists false. intros r. rewrite atwords_plain; [cbn; lia|].
    eapply Forall_impl; [|apply dec_no64]. cbn. tauto.
  - inversion W as [|? ? ? WL WA WT]; subst.
    assert (KS : forall s0, exists s, forall r,
       atwords s0 (flat_map (fun c => 32%N :: show c) ts ++ r) + b1 s
       = b1 s0 + list_sum (map naddr ts) + atwords s r).
    { clear W WL WA. induction ts as [|t ts IHt]; intros s0.
      - exists s0. intros r. cbn. lia.
      - inversion IH as [|? ? IA IB]; subst. inversion WT as [|? ? WA WB]; subst.
        destruct (IA WA) as [s1 H1]. destruct (IHt IB WB s1) as [s2 H2]. exists s2. intros r.
        cbn [flat_map map list_sum fold_right]. rewrite <- !app_comm_cons, <- !app_assoc.
        cbn [atwords]. change (N.eqb 32 space) with true. cbn iota.
        specialize (H1 (flat_map (fun c => 32%N :: show c) ts ++ r)). specialize (H2 r).
        unfold list_sum in *. unfold b1 at 2. lia. }
    assert (ST : forall r, atwords false ((40%N :: l ++ showaddr a ++ flat_map (fun c => 32%N :: show c) ts ++ [41%N]) ++ r)
       = atwords (match a with None => false | Some _ => true end)
           (flat_map (fun c => 32%N :: show c) ts ++ [41%N] ++ r)).
    { intros r. rewrite <- !app_comm_cons, <- !app_assoc.
      change (40%N :: l ++ showaddr a ++ flat_map (fun c => 32%N :: show c) ts ++ [41%N] ++ r)
      with ((40%N :: l) ++ showaddr a ++ flat_map (fun c => 32%N :: show c) ts ++ [41%N] ++ r).
      rewrite atwords_plain.
      2:{ constructor; [lia|]. destruct WL as [_ WL]. eapply Forall_impl; [|exact WL]. cbn. tauto. }
      destruct a as [x|]; cbn [showaddr]; [|reflexivity].
      rewrite <- app_comm_cons. cbn [atwords]. change (N.eqb 64 space) with false.
      change (false || N.eqb 64 at_char)%bool with true. cbn iota.
      apply atwords_plain. destruct WA as [_ WA]. eapply Forall_impl; [|exact WA]. cbn.
      intros c [->|E]; [lia|]. split; intros ->; discriminate. }
    destruct (KS (match a with None => false | Some _ => true end)) as [s H].
    exists s. intros r. rewrite ST. specialize (H ([41%N] ++ r)).
    rewrite H. cbn [app atwords]. change (N.eqb 41 space) with false.
    change (N.eqb 41 at_char) with false. rewrite orb_false_r. cbn iota.
    destruct a; cbn [b1]; lia.
Qed.
Lemma numfrags_show : forall t, wf t -> numfrags (show t) = Z.of_nat (nfrags t).
Proof.
  intros t W. unfold numfrags. rewrite (count_show t W).
  destruct (atwords_show t W) as [s H]. specialize (H []). rewrite app_nil_r in H.
  cbn [atwords] in H. pose proof (nodes_split t). unfold b1 in H. destruct s; lia.
Qed.

(** *** sldop_simple *)
Open Scope R_scope.
Lemma dictof_nodup : forall ds, NoDup (map fst ds) -> dictof ds = ds.
Proof.
  intros ds ND. unfold dictof.
  assert (A : forall (m : list (pystr * R)) k v, ~ In k (map fst m) -> put k v m = m ++ [(k, v)]).
  { induction m as [|[k' v'] m IH]; intros k v N; [reflexivity|]. cbn in *.
    destruct (eqs k k') eqn:E; [apply eqs_eq in E; subst; exfalso; auto|].
    rewrite IH by auto. reflexivity. }
  assert (B : forall (ds0 m : list (pystr * R)), NoDup (map fst (m ++ ds0)) ->
     fold_left (fun m0 '(d, p) => put d p m0) ds0 m = m ++ ds0).
  { induction ds0 as [|[d p] ds0 IH]; intros m H; cbn [fold_left]; [now rewrite app_nil_r|].
    rewrite A.
    - rewrite IH; [now rewrite <- app_assoc|]. now rewrite <- app_assoc.
    - rewrite map_app in H. cbn in H. apply NoDup_remove_2 in H. intros I. apply H.
      apply in_or_app. now left. }
  now rewrite B.
Qed.
Definition dopkey (s : pystr) : option pystr := Some (removeids [] s).
Lemma derivsfortree_inv : forall ds, NoDup (map fst ds) ->
  let m := derivsfortree ds in
  NoDup (map fst m)
  /\ (forall t, In t (map fst m) <-> exists d c, In (d, c) ds /\ dopkey d = Some t)
  /\ (forall t l, In (t, l) m -> l = filter (fun x => yields dopkey t (fst x)) ds).
Proof.
  intros ds ND0. unfold derivsfortree. rewrite dictof_nodup by assumption. clear ND0.
  induction ds as [|[d c] ds IH] using rev_ind.
  - cbn. repeat split; try constructor; try tauto. intros (d & c & [] & _).
  - rewrite fold_left_snoc. cbv zeta in *.
    set (m := fold_left _ ds []) in *. destruct IH as (ND & K & L).
    set (t0 := removeids [] d).
    assert (E : dopkey d = Some t0) by reflexivity.
    assert (Y : forall t, yields dopkey t d = true <-> t = t0)
      by (intros; rewrite yields_spec, E; split; congruence).
    assert (P : match get t0 m with Some l => l | None => [] end
                = filter (fun x => yields dopkey t0 (fst x)) ds).
    { destruct (get t0 m) as [l|] eqn:G; [apply L; now apply get_in|].
      apply get_none in G. rewrite K in G.
      destruct (filter _ ds) as [|[d' c'] r] eqn:Fl; [reflexivity|].
      exfalso. apply G. exists d', c'. rewrite <- yields_spec.
      assert (I : In (d', c') (filter (fun x => yields dopkey t0 (fst x)) ds)) by (rewrite Fl; now left).
      apply filter_In in I. exact I. }
    rewrite P. split; [now apply put_nodup|]. split.
    + intros t. rewrite put_keys, K. split.
      * intros [->|(d' & c' & I & Q)].
        -- exists d, c. split; [apply in_or_app; right; now left|exact E].
        -- exists d', c'. split; [apply in_or_app; now left|exact Q].
      * intros (d' & c' & I & Q). apply in_app_or in I.
        destruct I as [I|[I|[]]]; [right; eauto|]. inversion I; subst. left.
        unfold dopkey in Q. injection Q as Q. symmetry. exact Q.
    + intros t l. rewrite in_put by assumption. rewrite filter_app. cbn [filter fst].
      intros [[-> ->]|[N I]].
      * assert (Yt : yields dopkey t0 d = true) by now apply Y. now rewrite Yt.
      * destruct (yields dopkey t d) eqn:Yt; [apply Y in Yt; contradiction|].
        rewrite app_nil_r. now apply L.
Qed.
Lemma minby_spec : forall (l : list (Z * pystr)) x,
  In (minby cand_lt x l) (x :: l)
  /\ forall y, In y (x :: l) -> (fst (minby cand_lt x l) <= fst y)%Z.
Proof.
  assert (C : forall a b, cand_lt a b = true -> (fst a <= fst b)%Z).
  { intros a b H. unfold cand_lt in H. apply orb_prop in H. destruct H as [H|H].
    - apply Z.ltb_lt in H. lia.
    - apply andb_prop in H. destruct H as [H _]. apply Z.eqb_eq in H. lia. }
  assert (NC : forall a b, cand_lt a b = false -> (fst b <= fst a)%Z).
  { intros a b H. unfold cand_lt in H. apply orb_false_elim in H. destruct H as [H _].
    apply Z.ltb_ge in H. lia. }
  induction l as [|y l IH]; intros x; cbn [minby].
  - split; [now left|]. intros y [->|[]]. lia.
  - destruct (cand_lt y x) eqn:E.
    + destruct (IH y) as [I M]. split; [now right|].
      intros z [->|Iz]; [|auto]. specialize (M y (or_introl eq_refl)). apply C in E. lia.
    + destruct (IH x) as [I M]. split; [destruct I as [<-|I]; [now left|right; now right]|].
      intros z [->|[->|Iz]]; [apply M; now left| |apply M; now right].
      specialize (M x (or_introl eq_refl)). apply NC in E. lia.
Qed.
Definition sltrees (ds : list (pystr * R)) : list (pystr * (R * list pystr)) :=
  map (fun '(t, l) => (t, (logprobsum (map (fun x => - snd x) l), map fst l))) (derivsfortree ds).
Lemma sltrees_spec : forall ds, NoDup (map fst ds) ->
  NoDup (map fst (sltrees ds))
  /\ (forall t, In t (map fst (sltrees ds)) <-> exists d c, In (d, c) ds /\ removeids [] d = t)
  /\ (forall t p l, In (t, (p, l)) (sltrees ds) ->
       p = treeprob dopkey ds t /\ l <> []
       /\ forall d, In d l <-> exists c, In (d, c) ds /\ removeids [] d = t).
Proof.
  intros ds ND0. destruct (derivsfortree_inv ds ND0) as (ND & K & L).
  assert (E : map fst (sltrees ds) = map fst (derivsfortree ds)).
  { unfold sltrees. rewrite map_map. apply map_ext. now intros [? ?]. }
  assert (DK : forall d t, dopkey d = Some t <-> removeids [] d = t).
  { intros. unfold dopkey. split; congruence. }
  split; [now rewrite E|]. split.
  - intros t. rewrite E, K. split; intros (d & c & I & Q); exists d, c; split; auto; now apply DK.
  - intros t p l I. unfold sltrees in I. apply in_map_iff in I.
    destruct I as ([t' l'] & Q & I). inversion Q; subst. pose proof (L _ _ I) as ->.
    split; [|split].
    + rewrite logprobsum_ok, map_map. reflexivity.
    + assert (It : In t (map fst (derivsfortree ds))).
      { change t with (fst (t, filter (fun x => yields dopkey t (fst x)) ds)). now apply in_map. }
      apply K in It. destruct It as (d & c & Id & Qd).
      assert (Z : In d (map fst (filter (fun x => yields dopkey t (fst x)) ds))).
      { apply in_map_iff. exists (d, c). split; [reflexivity|]. apply filter_In.
        split; [exact Id|]. now apply yields_spec. }
      intros F. rewrite F in Z. contradiction.
    + intros d. rewrite in_map_iff. split.
      * intros ([d' c] & <- & Id). apply filter_In in Id. destruct Id as [Id Y].
        apply yields_spec in Y. exists c. split; [exact Id|now apply DK].
      * intros (c & Id & Y). exists (d, c). split; [reflexivity|]. apply filter_In.
        split; [exact Id|]. apply yields_spec. now apply DK.
Qed.

Lemma sldop_simple_eq : forall n ds,
  sldop_simple n ds = flat_map (fun '(t, (p, l)) =>
      match map (fun d => (numfrags d, d)) l with
      | [] => []
      | c :: cs => let best := minby cand_lt c cs in [(t, ((- fst best)%Z, p), snd best)]
      end) (nlargest n (fun x => fst (snd x)) (sltrees ds)).
Proof. reflexivity. Qed.
