(** allfragments: every connected part of the tree within the limits *)
From Coq Require Import NArith ZArith List Bool Lia Permutation Sorting.Sorted.
From Verif Require Import ExportProofs2 BitsModel BitsSpec ArrayProofs TreeModel FragModel FragSpec FragProofs FragProofs2 FragProofs3 FragProofs4 FragProofs5 FragProofs6.
Import ListNotations.

(** what the code computes as the number of frontiers *)
Fixpoint codefront (f : frag) : nat :=
  match f with
  | Open => 1
  | FLex _ => 0
  | FUn _ Open => 1
  | FUn _ g => codefront g + 1
  | FBin _ g h => codefront g + codefront h
  end.
(** unary nodes whose child is part of the fragment *)
Fixpoint unaries (f : frag) : nat :=
  match f with
  | Open | FLex _ | FUn _ Open => 0
  | FUn _ g => S (unaries g)
  | FBin _ g h => unaries g + unaries h
  end.
Lemma codefront_eq : forall f, codefront f = frontiers f + unaries f.
Proof.
  induction f as [|p|p f IH|p f1 IH1 f2 IH2]; cbn [codefront frontiers unaries]; try reflexivity.
  - destruct f; cbn [codefront frontiers unaries] in *; lia.
  - lia.
Qed.
Lemma codefront_un : forall p f, f <> Open -> codefront (FUn p f) = codefront f + 1.
Proof. intros p f N. destruct f; try reflexivity. congruence. Qed.
Lemma no_unary_unaries : forall f t, no_unary t -> matches f t -> unaries f = 0.
Proof.
  induction f as [|p|p f IH|p f1 IH1 f2 IH2]; intros t NU M; cbn; auto; destruct t; cbn in *; try contradiction.
  rewrite (IH1 t1), (IH2 t2); intuition.
Qed.

(** the table *)
Lemma append_at_length : forall i x tb, length (append_at i x tb) = length tb.
Proof. induction i; destruct tb; cbn; auto. Qed.
Lemma append_at_entries : forall i x tb k, i < length tb ->
  entries (append_at i x tb) k = if k =? i then entries tb k ++ [x] else entries tb k.
Proof.
  unfold entries. induction i as [|i IH]; intros x tb k Hi; (destruct tb as [|l tb]; [cbn in Hi; lia|]); destruct k; cbn; auto.
  apply IH. cbn in Hi. lia.
Qed.
(** appending several entries *)
Definition appends (i : nat) (l : list entry) (tb : list (list entry)) : list (list entry) := fold_left (fun tb x => append_at i x tb) l tb.
Lemma appends_length : forall i l tb, length (appends i l tb) = length tb.
Proof. intros i. induction l as [|x l IH]; intros tb; cbn; auto. unfold appends in *. rewrite IH. apply append_at_length. Qed.
Lemma appends_entries : forall i l tb k, i < length tb ->
  entries (appends i l tb) k = if k =? i then entries tb k ++ l else entries tb k.
Proof.
  intros i. induction l as [|x l IH]; intros tb k Hi.
  - change (appends i [] tb) with tb. rewrite app_nil_r. now destruct (k =? i).
  - change (appends i (x :: l) tb) with (appends i l (append_at i x tb)).
    rewrite IH by (rewrite append_at_length; lia). rewrite append_at_entries by lia.
    destruct (k =? i); auto. now rewrite <- app_assoc.
Qed.
Lemma appends_app : forall i l1 l2 tb, appends i (l1 ++ l2) tb = appends i l2 (appends i l1 tb).
Proof. intros. apply fold_left_app. Qed.
Definition one_list (slots i maxdepth maxfrontier : nat) (frags : list entry) : list entry :=
  flat_map (fun fr : entry => let '(fbits, fdepth, ffront) := fr in
    if (fdepth + 1 <=? maxdepth) && (ffront + 1 <=? maxfrontier)
    then [(setunioninplace (just slots i) fbits, fdepth + 1, ffront + 1)] else []) frags.
Lemma one_child_appends : forall slots i md mf frags tb, one_child slots i md mf frags tb = appends i (one_list slots i md mf frags) tb.
Proof.
  intros slots i md mf. unfold one_child. induction frags as [|[[fb fd] ff] frags IH]; intros tb; [reflexivity|].
  cbn [fold_left one_list flat_map]. rewrite IH. destruct ((fd + 1 <=? md) && (ff + 1 <=? mf)); reflexivity.
Qed.
Definition two_list (slots i maxdepth maxfrontier : nat) (ls rs : list entry) : list entry :=
  flat_map (fun fl : entry => let '(lbits, ldepth, lfront) := fl in
    flat_map (fun fr : entry => let '(rbits, rdepth, rfront) := fr in
      if (Nat.max ldepth rdepth + 1 <=? maxdepth) && (lfront + rfront <=? maxfrontier)
      then [(setunioninplace (setunioninplace (just slots i) lbits) rbits, Nat.max ldepth rdepth + 1, lfront + rfront)] else []) rs) ls.
Lemma two_children_appends : forall slots i md mf ls rs tb, two_children slots i md mf ls rs tb = appends i (two_list slots i md mf ls rs) tb.
Proof.
  intros slots i md mf ls rs. unfold two_children. induction ls as [|[[lb ld] lf] ls IH]; intros tb; [reflexivity|].
  cbn [fold_left two_list flat_map]. rewrite IH. clear IH. fold (two_list slots i md mf ls rs). rewrite appends_app. f_equal.
  revert tb. induction rs as [|[[rb rd] rf] rs IH]; intros tb; [reflexivity|].
  cbn [fold_left flat_map]. rewrite IH. destruct ((Nat.max ld rd + 1 <=? md) && (lf + rf <=? mf)); reflexivity.
Qed.

Section Traverse.
Variables (slots maxdepth maxfrontier : nat) (a : list node).
Hypothesis Hlen : length a <= 64 * slots.

(** an entry of the table at node i stands for f *)
Definition stands (i : nat) (f : frag) (e : entry) : Prop :=
  wfrow slots (fst (fst e)) /\ (forall k, inrow (fst (fst e)) k <-> In k (frag_nodes a i f)) /\
  snd (fst e) = depth f /\ snd e = codefront f.
Definition within (f : frag) : Prop := f <> Open /\ depth f <= maxdepth /\ codefront f <= maxfrontier.
(** the entries at node i are those of subtree s *)
Definition table_of (i : nat) (s : btree) (l : list entry) : Prop :=
  (forall e, In e l -> exists f, matches f s /\ within f /\ stands i f e) /\
  (forall f, matches f s -> within f -> exists e, In e l /\ stands i f e).

Lemma union_ok : forall r1 r2, wfrow slots r1 -> wfrow slots r2 ->
  wfrow slots (setunioninplace r1 r2) /\ forall k, inrow (setunioninplace r1 r2) k <-> inrow r1 k \/ inrow r2 k.
Proof using.
  clear. intros r1 r2 [W1 L1] [W2 L2]. split.
  - assert (Le : length r1 = length r2) by lia. clear L2. split.
    + clear L1. revert r2 W2 Le. induction r1 as [|x r1 IH]; intros [|y r2] W2 Le; try discriminate; cbn; [constructor|].
      inversion W1; inversion W2; subst. constructor; [now apply lor_lt64|]. apply IH; auto.
    + rewrite <- L1. clear L1 W1 W2. revert r2 Le. induction r1 as [|x r1 IH]; intros [|y r2] Le; try discriminate; cbn; auto.
  - intros k. unfold inrow. unfold setunioninplace. rewrite (map2_amember _ orb) by (try reflexivity; try lia; try apply N.lor_spec).
    rewrite orb_true_iff. reflexivity.
Qed.
Lemma just_ok : forall i, i < length a -> wfrow slots (just slots i) /\ forall k, inrow (just slots i) k <-> k = i.
Proof.
  intros i Hi. unfold just. split; [apply wfrow_set; apply wfrow_zero|].
  intros k. rewrite (inrow_set slots) by (try apply wfrow_zero; lia). split; [intros [->|H]; auto; destruct (zero_none slots (bit k) H)|auto].
Qed.

Lemma depth_pos : forall f, f <> Open -> 1 <= depth f.
Proof using. clear. destruct f; cbn; intros; try lia. congruence. Qed.

Hypothesis Hmd : 1 <= maxdepth.
Lemma traverse_ok : forall fuel t i tb, height t <= fuel -> holds a i t -> NoDup (nodes_of a i t) -> length tb = length a ->
  (forall k, In k (nodes_of a i t) -> entries tb k = []) ->
  let tb' := traverse fuel a slots maxdepth maxfrontier tb i in
  length tb' = length a /\
  (forall k, ~ In k (nodes_of a i t) -> entries tb' k = entries tb k) /\
  (forall u s k, sub t u = Some s -> node_at a i u = Some k -> table_of k s (entries tb' k)).
Proof.
  induction fuel as [|fuel IH]; intros t i tb Hf H ND L E0 tb'; [destruct t; cbn in Hf; lia|].
  pose proof (holds_lt _ _ _ H) as Li. destruct (just_ok i Li) as [JW JI].
  unfold tb'. cbn [traverse]. clear tb'.
  destruct t as [p x|p t1|p t1 t2]; cbn [holds nodes_of height] in *.
  - destruct H as (_ & _ & Hl & Hr). destruct (Z.leb_spec 0 (left (nd a i))); [lia|]. destruct (Z.ltb_spec (left (nd a i)) 0); [|lia].
    cbn [Nat.leb]. split; [now rewrite append_at_length|]. split.
    + intros k Hk. rewrite append_at_entries by lia. destruct (Nat.eqb_spec k i) as [->|]; [destruct Hk; now left|reflexivity].
    + intros [|[|] u] s k Es Ek; cbn in Es, Ek; try discriminate. injection Es as <-. injection Ek as <-.
      rewrite append_at_entries by lia. rewrite Nat.eqb_refl, (E0 i) by now left. cbn [app]. split.
      * intros e [<-|[]]. exists (FLex p). split; [reflexivity|]. split; [split; [discriminate|cbn; lia]|].
        split; auto. split; [|auto]. intros k. cbn [fst]. rewrite JI. cbn. intuition.
      * intros f M (NO & D & C). destruct f; cbn [matches] in M; try contradiction. subst p0.
        exists (just slots i, 1, 0). split; [now left|]. split; auto. split; [|auto]. intros k. cbn [fst]. rewrite JI. cbn. intuition.
  - destruct H as (_ & _ & Hl & Hr & H1). inversion ND as [|? ? N1 ND1]; subst.
    destruct (Z.leb_spec 0 (left (nd a i))); [|lia]. destruct (Z.ltb_spec (left (nd a i)) 0); [lia|].
    destruct (Z.leb_spec 0 (right (nd a i))); [lia|]. destruct (Z.ltb_spec (right (nd a i)) 0); [|lia].
    set (j := kid (left (nd a i))) in *.
    destruct (IH t1 j tb ltac:(lia) H1 ND1 L ltac:(intros k Hk; apply E0; now right)) as (L1 & F1 & T1).
    set (tb1 := traverse fuel a slots maxdepth maxfrontier tb j) in *. clearbody tb1.
    set (tb2 := if 1 <=? maxfrontier then append_at i (just slots i, 1, 1) tb1 else tb1).
    assert (E2 : tb2 = appends i (if 1 <=? maxfrontier then [(just slots i, 1, 1)] else []) tb1) by (unfold tb2; destruct (1 <=? maxfrontier); reflexivity).
    rewrite one_child_appends.
    assert (Hji : (j =? i) = false) by (apply Nat.eqb_neq; intros E; apply N1; rewrite <- E; apply nodes_root).
    assert (Ej : entries tb2 j = entries tb1 j).
    { rewrite E2, appends_entries by lia. now rewrite Hji. }
    rewrite Ej. rewrite E2, <- appends_app.
    split; [rewrite appends_length; lia|]. split.
    + intros k Hk. rewrite appends_entries by lia. destruct (Nat.eqb_spec k i) as [->|]; [destruct Hk; now left|]. apply F1. intros X. apply Hk. now right.
    + intros [|[|] u] s k Es Ek; cbn [sub node_at] in Es, Ek; try discriminate.
      * injection Es as <-. injection Ek as <-.
        rewrite appends_entries, Nat.eqb_refl by lia. rewrite (F1 i) by assumption. rewrite E0 by now left. cbn [app].
        destruct (T1 [] t1 j eq_refl eq_refl) as [TS TC]. split.
        -- intros e He. apply in_app_or in He. destruct He as [He|He].
           ++ destruct (Nat.leb_spec 1 maxfrontier); [|destruct He]. destruct He as [<-|[]]. exists (FUn p Open).
              split; [cbn; auto|]. split; [split; [discriminate|cbn; lia]|]. split; auto. split; [|auto].
              intros k. cbn [fst]. rewrite JI. cbn. intuition.
           ++ unfold one_list in He. apply in_flat_map in He. destruct He as ([[fb fd] ff] & Hfr & He).
              destruct ((fd + 1 <=? maxdepth) && (ff + 1 <=? maxfrontier)) eqn:EB; [|destruct He].
              apply andb_prop in EB. destruct EB as [B1 B2]. apply Nat.leb_le in B1, B2. destruct He as [<-|[]].
              destruct (TS _ Hfr) as (f & Mf & (NOf & Df & Cf) & (Wf & If & Hd & Hc)). cbn [fst snd] in *. subst fd ff.
              destruct (union_ok _ _ JW Wf) as [UW UI].
              exists (FUn p f). split; [cbn; auto|]. split; [split; [discriminate|rewrite codefront_un by exact NOf; cbn [depth]; lia]|].
              split; auto. split; [|split; [cbn [snd fst depth]; lia|cbn [snd]; rewrite codefront_un by exact NOf; reflexivity]].
              intros k. cbn [fst]. rewrite UI, JI, If. cbn [frag_nodes In]. intuition.
        -- intros f M (NO & D & C). destruct f as [|q|q f|]; cbn [matches] in M; try contradiction. destruct M as [-> Mf].
           assert (FO : f = Open \/ f <> Open) by (destruct f; auto; right; discriminate). destruct FO as [->|NOf].
           ++ cbn [codefront] in C. destruct (Nat.leb_spec 1 maxfrontier); [|lia]. exists (just slots i, 1, 1).
              split; [now left|]. split; auto. split; [|auto]. intros k. cbn [fst]. rewrite JI. cbn. intuition.
           ++ rewrite codefront_un in C by exact NOf. cbn [depth] in D.
              destruct (TC f Mf ltac:(split; [exact NOf|lia])) as ([[fb fd] ff] & He & (Wf & If & Hd & Hc)). cbn [fst snd] in *. subst fd ff.
              destruct (union_ok _ _ JW Wf) as [UW UI].
              exists (setunioninplace (just slots i) fb, depth f + 1, codefront f + 1). split.
              ** apply in_or_app. right. unfold one_list. apply in_flat_map. exists (fb, depth f, codefront f). split; auto.
                 destruct (Nat.leb_spec (depth f + 1) maxdepth); [|lia]. destruct (Nat.leb_spec (codefront f + 1) maxfrontier); [|lia]. now left.
              ** split; auto. split; [|split; [cbn [snd fst depth]; lia|cbn [snd]; rewrite codefront_un by exact NOf; reflexivity]].
                 intros k. cbn [fst]. rewrite UI, JI, If. cbn [frag_nodes In]. intuition.
      * destruct (Z.ltb_spec (left (nd a i)) 0); [lia|]. fold j in Ek.
        assert (Hki : (k =? i) = false).
        { apply Nat.eqb_neq. intros ->. apply N1. apply (In_nodes a t1 j i H1). eauto. }
        rewrite appends_entries, Hki by lia. apply (T1 u s k Es Ek).
  - destruct H as (_ & _ & Hl & Hr & H1 & H2). inversion ND as [|? ? N1 ND0]; subst.
    apply nodup_app_inv in ND0. destruct ND0 as (ND1 & ND2 & DJ).
    destruct (Z.leb_spec 0 (left (nd a i))); [|lia]. destruct (Z.ltb_spec (left (nd a i)) 0); [lia|].
    destruct (Z.leb_spec 0 (right (nd a i))); [|lia]. destruct (Z.ltb_spec (right (nd a i)) 0); [lia|].
    set (j1 := kid (left (nd a i))) in *. set (j2 := kid (right (nd a i))) in *.
    destruct (IH t1 j1 tb ltac:(lia) H1 ND1 L ltac:(intros k Hk; apply E0; right; apply in_or_app; now left)) as (L1 & F1 & T1).
    set (tb1 := traverse fuel a slots maxdepth maxfrontier tb j1) in *. clearbody tb1.
    destruct (IH t2 j2 tb1 ltac:(lia) H2 ND2 L1) as (L2 & F2 & T2).
    { intros k Hk. rewrite F1; [apply E0; right; apply in_or_app; now right|]. intros X. exact (DJ k X Hk). }
    set (tb2 := traverse fuel a slots maxdepth maxfrontier tb1 j2) in *. clearbody tb2.
    set (tb3 := if 2 <=? maxfrontier then append_at i (just slots i, 1, 2) tb2 else tb2).
    assert (E3 : tb3 = appends i (if 2 <=? maxfrontier then [(just slots i, 1, 2)] else []) tb2) by (unfold tb3; destruct (2 <=? maxfrontier); reflexivity).
    rewrite !one_child_appends, two_children_appends.
    assert (Hj1 : (j1 =? i) = false) by (apply Nat.eqb_neq; intros E; apply N1; rewrite <- E; apply in_or_app; left; apply nodes_root).
    assert (Hj2 : (j2 =? i) = false) by (apply Nat.eqb_neq; intros E; apply N1; rewrite <- E; apply in_or_app; right; apply nodes_root).
    rewrite E3.
    set (base := if 2 <=? maxfrontier then [(just slots i, 1, 2)] else []).
    repeat (rewrite appends_entries by (rewrite ?appends_length; lia); rewrite ?Hj1, ?Hj2).
    rewrite <- !appends_app.
    set (ls := entries tb2 j1). set (rs := entries tb2 j2).
    assert (Tl : forall u s k, sub t1 u = Some s -> node_at a j1 u = Some k -> table_of k s (entries tb2 k)).
    { intros u s k Es Ek. rewrite F2; [exact (T1 u s k Es Ek)|]. intros X. apply (DJ k); auto. apply (In_nodes a t1 j1 k H1). eauto. }
    split; [rewrite appends_length; lia|]. split.
    + intros k Hk. rewrite appends_entries by lia. destruct (Nat.eqb_spec k i) as [->|]; [destruct Hk; now left|].
      rewrite F2 by (intros X; apply Hk; right; apply in_or_app; now right). apply F1. intros X. apply Hk. right. apply in_or_app. now left.
    + intros [|[|] u] s k Es Ek; cbn [sub node_at] in Es, Ek; try discriminate.
      * injection Es as <-. injection Ek as <-.
        rewrite appends_entries, Nat.eqb_refl by lia.
        rewrite F2 by (intros X; apply N1; apply in_or_app; now right). rewrite F1 by (intros X; apply N1; apply in_or_app; now left).
        rewrite E0 by now left. cbn [app].
        destruct (Tl [] t1 j1 eq_refl eq_refl) as [LS LC]. fold ls in LS, LC.
        destruct (T2 [] t2 j2 eq_refl eq_refl) as [RS RC]. fold rs in RS, RC. split.
        -- intros e He. rewrite <- ?app_assoc in He. apply in_app_or in He. destruct He as [He|He]; [|apply in_app_or in He; destruct He as [He|He]; [|apply in_app_or in He; destruct He as [He|He]]].
           ++ unfold base in He. destruct (Nat.leb_spec 2 maxfrontier); [|destruct He]. destruct He as [<-|[]]. exists (FBin p Open Open).
              split; [cbn; auto|]. split; [split; [discriminate|cbn; lia]|]. split; auto. split; [|auto].
              intros k. cbn [fst]. rewrite JI. cbn. intuition.
           ++ unfold one_list in He. apply in_flat_map in He. destruct He as ([[fb fd] ff] & Hfr & He).
              destruct ((fd + 1 <=? maxdepth) && (ff + 1 <=? maxfrontier)) eqn:EB; [|destruct He].
              apply andb_prop in EB. destruct EB as [B1 B2]. apply Nat.leb_le in B1, B2. destruct He as [<-|[]].
              destruct (LS _ Hfr) as (f & Mf & (NOf & Df & Cf) & (Wf & If & Hd & Hc)). cbn [fst snd] in *. subst fd ff.
              destruct (union_ok _ _ JW Wf) as [UW UI].
              exists (FBin p f Open). split; [cbn; auto|]. split; [split; [discriminate|cbn; lia]|].
              split; auto. split; [|cbn; split; lia].
              intros k. cbn [fst]. rewrite UI, JI, If. cbn [frag_nodes In]. rewrite app_nil_r. intuition.
           ++ unfold one_list in He. apply in_flat_map in He. destruct He as ([[fb fd] ff] & Hfr & He).
              destruct ((fd + 1 <=? maxdepth) && (ff + 1 <=? maxfrontier)) eqn:EB; [|destruct He].
              apply andb_prop in EB. destruct EB as [B1 B2]. apply Nat.leb_le in B1, B2. destruct He as [<-|[]].
              destruct (RS _ Hfr) as (f & Mf & (NOf & Df & Cf) & (Wf & If & Hd & Hc)). cbn [fst snd] in *. subst fd ff.
              destruct (union_ok _ _ JW Wf) as [UW UI].
              exists (FBin p Open f). split; [cbn; auto|]. split; [split; [discriminate|cbn; lia]|].
              split; auto. split; [|cbn; split; lia].
              intros k. cbn [fst]. rewrite UI, JI, If. cbn [frag_nodes In app]. intuition.
           ++ unfold two_list in He. apply in_flat_map in He. destruct He as ([[lb ld] lf] & Hfl & He).
              apply in_flat_map in He. destruct He as ([[rb rd] rf] & Hfr & He).
              destruct ((Nat.max ld rd + 1 <=? maxdepth) && (lf + rf <=? maxfrontier)) eqn:EB; [|destruct He].
              apply andb_prop in EB. destruct EB as [B1 B2]. apply Nat.leb_le in B1, B2. destruct He as [<-|[]].
              destruct (LS _ Hfl) as (f & Mf & (NOf & Df & Cf) & (Wf & If & Hd & Hc)).
              destruct (RS _ Hfr) as (g & Mg & (NOg & Dg & Cg) & (Wg & Ig & Hdg & Hcg)). cbn [fst snd] in *. subst ld lf rd rf.
              destruct (union_ok _ _ JW Wf) as [UW UI]. destruct (union_ok _ _ UW Wg) as [UW2 UI2].
              exists (FBin p f g). split; [cbn; auto|]. split; [split; [discriminate|cbn; lia]|].
              split; auto. split; [|cbn; split; lia].
              intros k. cbn [fst]. rewrite UI2, UI, JI, If, Ig. cbn [frag_nodes In]. rewrite in_app_iff. fold j1 j2. intuition.
        -- intros f M (NO & D & C). destruct f as [|q|q f|q f g]; cbn [matches] in M; try contradiction. destruct M as (-> & Mf & Mg).
           cbn [depth codefront] in D, C.
           assert (FO : f = Open \/ f <> Open) by (destruct f; auto; right; discriminate).
           assert (GO : g = Open \/ g <> Open) by (destruct g; auto; right; discriminate).
           destruct FO as [->|NOf], GO as [->|NOg]; cbn [depth codefront] in D, C.
           ++ exists (just slots i, 1, 2). split.
              ** rewrite <- ?app_assoc. apply in_or_app. left. unfold base. destruct (Nat.leb_spec 2 maxfrontier); [|lia]. now left.
              ** split; auto. split; [|auto]. intros k. cbn [fst]. rewrite JI. cbn. intuition.
           ++ destruct (RC g Mg ltac:(split; [exact NOg|lia])) as ([[fb fd] ff] & He & (Wf & If & Hd & Hc)). cbn [fst snd] in *. subst fd ff.
              destruct (union_ok _ _ JW Wf) as [UW UI].
              exists (setunioninplace (just slots i) fb, depth g + 1, codefront g + 1). split.
              ** rewrite <- ?app_assoc. apply in_or_app. right. apply in_or_app. right. apply in_or_app. left.
                 unfold one_list. apply in_flat_map. exists (fb, depth g, codefront g). split; auto.
                 destruct (Nat.leb_spec (depth g + 1) maxdepth); [|lia]. destruct (Nat.leb_spec (codefront g + 1) maxfrontier); [|lia]. now left.
              ** split; auto. split; [|cbn; split; lia]. intros k. cbn [fst]. rewrite UI, JI, If. cbn [frag_nodes In app]. intuition.
           ++ destruct (LC f Mf ltac:(split; [exact NOf|lia])) as ([[fb fd] ff] & He & (Wf & If & Hd & Hc)). cbn [fst snd] in *. subst fd ff.
              destruct (union_ok _ _ JW Wf) as [UW UI].
              exists (setunioninplace (just slots i) fb, depth f + 1, codefront f + 1). split.
              ** rewrite <- ?app_assoc. apply in_or_app. right. apply in_or_app. left.
                 unfold one_list. apply in_flat_map. exists (fb, depth f, codefront f). split; auto.
                 destruct (Nat.leb_spec (depth f + 1) maxdepth); [|lia]. destruct (Nat.leb_spec (codefront f + 1) maxfrontier); [|lia]. now left.
              ** split; auto. split; [|cbn; split; lia]. intros k. cbn [fst]. rewrite UI, JI, If. cbn [frag_nodes In]. rewrite app_nil_r. intuition.
           ++ destruct (LC f Mf ltac:(split; [exact NOf|lia])) as ([[lb ld] lf] & He & (Wf & If & Hd & Hc)).
              destruct (RC g Mg ltac:(split; [exact NOg|lia])) as ([[rb rd] rf] & He2 & (Wg & Ig & Hdg & Hcg)). cbn [fst snd] in *. subst ld lf rd rf.
              destruct (union_ok _ _ JW Wf) as [UW UI]. destruct (union_ok _ _ UW Wg) as [UW2 UI2].
              exists (setunioninplace (setunioninplace (just slots i) lb) rb, Nat.max (depth f) (depth g) + 1, codefront f + codefront g). split.
              ** rewrite <- ?app_assoc. apply in_or_app. right. apply in_or_app. right. apply in_or_app. right.
                 unfold two_list. apply in_flat_map. exists (lb, depth f, codefront f). split; auto.
                 apply in_flat_map. exists (rb, depth g, codefront g). split; auto.
                 destruct (Nat.leb_spec (Nat.max (depth f) (depth g) + 1) maxdepth); [|lia].
                 destruct (Nat.leb_spec (codefront f + codefront g) maxfrontier); [|lia]. now left.
              ** split; auto. split; [|cbn; split; lia]. intros k. cbn [fst]. rewrite UI2, UI, JI, If, Ig. cbn [frag_nodes In]. rewrite in_app_iff. fold j1 j2. intuition.
      * destruct (Z.ltb_spec (right (nd a i)) 0); [lia|]. fold j2 in Ek.
        assert (HkI : In k (nodes_of a j2 t2)) by (apply (In_nodes a t2 j2 k H2); eauto).
        assert (Hki : (k =? i) = false) by (apply Nat.eqb_neq; intros ->; apply N1; apply in_or_app; now right).
        rewrite appends_entries, Hki by lia. apply (T2 u s k Es Ek).
      * destruct (Z.ltb_spec (left (nd a i)) 0); [lia|]. fold j1 in Ek.
        assert (HkI : In k (nodes_of a j1 t1)) by (apply (In_nodes a t1 j1 k H1); eauto).
        assert (Hki : (k =? i) = false) by (apply Nat.eqb_neq; intros ->; apply N1; apply in_or_app; now left).
        rewrite appends_entries, Hki by lia. apply (Tl u s k Es Ek).
Qed.
End Traverse.

(** collecting the table *)
Lemma collect_In : forall n x (tb : list (nat * list entry)) acc,
  In x (fold_left (fun inter ie => fold_left (fun inter e => set_add (fst (fst e), n, fst ie) inter) (snd ie) inter) tb acc) <->
  In x acc \/ exists ie e, In ie tb /\ In e (snd ie) /\ x = (fst (fst e), n, fst ie).
Proof.
  intros n x. induction tb as [|[i l] tb IH]; intros acc; cbn [fold_left].
  - split; auto. intros [|(ie & e & [] & _)]; auto.
  - rewrite IH. cbn [fst snd].
    assert (G : forall l acc, In x (fold_left (fun inter (e : entry) => set_add (fst (fst e), n, i) inter) l acc) <->
        In x acc \/ exists e, In e l /\ x = (fst (fst e), n, i)).
    { clear. induction l as [|e l IH]; intros acc; cbn [fold_left].
      - split; auto. intros [|(e & [] & _)]; auto.
      - rewrite IH, set_add_In. split.
        + intros [[->|H]|(e' & H & E)]; auto; right; [exists e|exists e']; cbn; auto.
        + intros [H|(e' & [<-|H] & E)]; auto. right. eauto. }
    rewrite G. split.
    + intros [[H|(e & H & E)]|(ie & e & H1 & H2 & E)]; auto; right; [exists (i, l), e|exists ie, e]; cbn; auto.
    + intros [H|(ie & e & [<-|H1] & H2 & E)]; auto; [left; right; eauto|right; eauto].
Qed.

Lemma allfragments_ok : forall slots md mf a ra t n, array_of a ra t -> length a <= 64 * slots -> 1 <= md ->
  (forall x, In x (allfragments (a, ra) n slots md mf) -> exists u i bits f,
     x = (bits, n, i) /\ node_at a ra u = Some i /\ occurs f t u /\ f <> Open /\ denotes a bits i f /\ length bits = slots /\ depth f <= md /\ frontiers f + unaries f <= mf) /\
  (forall u i f, node_at a ra u = Some i -> occurs f t u -> f <> Open -> depth f <= md -> frontiers f + unaries f <= mf ->
     exists bits, In (bits, n, i) (allfragments (a, ra) n slots md mf) /\ denotes a bits i f /\ length bits = slots).
Proof.
  intros slots md mf a ra t n HA Hlen Hmd. unfold allfragments. cbn [fst snd].
  pose proof (array_nodup _ _ _ HA) as ND. pose proof HA as (H & P & _).
  assert (Hh : height t <= S (length a)).
  { pose proof (height_nodes a t ra) as Hh. apply Permutation_length in P. rewrite seq_length in P. lia. }
  destruct (traverse_ok slots md mf a Hlen Hmd (S (length a)) t ra (repeat [] (length a)) Hh H ND (repeat_length _ _)) as (L & _ & T).
  { intros k _. unfold entries. clear. generalize (length a) as c. intros c. revert k. induction c; destruct k; cbn; auto. }
  set (tb := traverse (S (length a)) a slots md mf (repeat [] (length a)) ra) in *. clearbody tb.
  assert (CI : forall i l, In (i, l) (combine (seq 0 (length tb)) tb) <-> i < length tb /\ l = entries tb i).
  { intros i l. assert (G : forall (tb : list (list entry)) k, In (i, l) (combine (seq k (length tb)) tb) <-> k <= i < k + length tb /\ l = nth (i - k) tb []).
    { clear. induction tb as [|x tb IH]; intros k; cbn [length seq combine In].
      - split; [tauto|intros [? _]; lia].
      - rewrite IH. split.
        + intros [E|[H ->]].
          * injection E as -> ->. rewrite Nat.sub_diag. split; [lia|reflexivity].
          * split; [lia|]. now replace (i - k) with (S (i - S k)) by lia.
        + intros [H ->]. destruct (Nat.eq_dec i k) as [->|N].
          * left. now rewrite Nat.sub_diag.
          * right. split; [lia|]. now replace (i - k) with (S (i - S k)) by lia. }
    rewrite G. rewrite Nat.sub_0_r. unfold entries. intuition lia. }
  split.
  - intros x Hx. apply collect_In in Hx. destruct Hx as [[]|([i l] & e & Hie & He & ->)]. cbn [fst snd] in *.
    apply CI in Hie. destruct Hie as [Li ->]. destruct (array_addr a ra t i HA ltac:(lia)) as (u & Eu).
    destruct (node_sub_inv a u ra t i H Eu) as (s & Es & Hs).
    destruct (T u s i Es Eu) as [TS _]. destruct (TS e He) as (f & Mf & (NO & D & C) & (W & Wi & _ & _)).
    exists u, i, (fst (fst e)), f. rewrite codefront_eq in C. split; auto. split; auto. split; [exists s; auto|]. split; auto.
    split; [split; [exact (proj1 W)|exact Wi]|]. split; [exact (proj2 W)|auto].
  - intros u i f Eu (s & Es & Mf) NO D C. destruct (T u s i Es Eu) as [_ TC].
    destruct (TC f Mf) as (e & He & (W & Wi & _ & _)); [split; auto; rewrite codefront_eq; auto|].
    exists (fst (fst e)). split; [|split; [split; [exact (proj1 W)|exact Wi]|exact (proj2 W)]].
    apply collect_In. right. exists (i, entries tb i), e. split; auto. apply CI. split; auto.
    destruct (node_sub_inv a u ra t i H Eu) as (s' & _ & Hs). pose proof (holds_lt _ _ _ Hs). lia.
Qed.
