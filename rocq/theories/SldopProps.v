(** C92: SL-DOP ('sl-dop'): among the n most likely trees, with their shortest
    derivations; and what it and treeparsing leave behind in the grammar. *)
From Coq Require Import String.
From Coq Require Import Reals Lra.
From Coq Require Import List Bool Arith NArith ZArith Lia Permutation Sorted.
From Verif Require Import PyStr ConcatModel GrammarModel GrammarProofs GrammarProps LookupModel LookupProps DisambModel DisambSpec DisambProofs DisambProofs2 DisambProofs3 SldopModel.
Import ListNotations.
Open Scope nat_scope.

Section Props.
  Variable nodes : pystr -> list node.
  Variable selfrule : nat -> list nat.
  Variable parse : gstate -> list (nat * list nat) -> option (list (pystr * Z)).
  Variable recover : pystr -> pystr.

  Definition key (s : pystr) : option pystr := Some (recover s).

  Lemma collect_inv : forall ds, NoDup (map fst ds) ->
    let m := collect recover ds in
    NoDup (map fst m)
    /\ (forall t, In t (map fst m) <-> exists d c, In (d, c) ds /\ recover d = t)
    /\ (forall t l, In (t, l) m -> l = filter (fun x => yields key t (fst x)) ds).
  Proof.
    intros ds ND0. unfold collect. rewrite dictof_nodup by assumption. clear ND0.
    induction ds as [|[d c] ds IH] using rev_ind.
    - cbn. repeat split; try constructor; try tauto. intros (d & c & [] & _).
    - rewrite fold_left_snoc. cbv zeta in *.
      set (m := fold_left _ ds []) in *. destruct IH as (ND & K & L).
      set (t0 := recover d).
      assert (E : key d = Some t0) by reflexivity.
      assert (Y : forall t, yields key t d = true <-> t = t0)
        by (intros; rewrite yields_spec, E; split; congruence).
      assert (P : match get t0 m with Some l => l | None => [] end
                  = filter (fun x => yields key t0 (fst x)) ds).
      { destruct (get t0 m) as [l|] eqn:G; [apply L; now apply get_in|].
        apply get_none in G. rewrite K in G.
        destruct (filter _ ds) as [|[d' c'] r] eqn:Fl; [reflexivity|].
        exfalso. apply G. exists d', c'.
        assert (I : In (d', c') (filter (fun x => yields key t0 (fst x)) ds)) by (rewrite Fl; now left).
        apply filter_In in I. destruct I as [I Q]. split; [exact I|].
        apply yields_spec in Q. unfold key in Q. cbn [fst] in Q. congruence. }
      rewrite P. split; [now apply put_nodup|]. split.
      + intros t. rewrite put_keys, K. split.
        * intros [->|(d' & c' & I & Q)].
          -- exists d, c. split; [apply in_or_app; right; now left|reflexivity].
          -- exists d', c'. split; [apply in_or_app; now left|exact Q].
        * intros (d' & c' & I & Q). apply in_app_or in I.
          destruct I as [I|[I|[]]]; [right; eauto|]. inversion I; subst. now left.
      + intros t l. rewrite in_put by assumption. rewrite filter_app. cbn [filter fst].
        intros [[-> ->]|[N I]].
        * assert (Yt : yields key t0 d = true) by now apply Y. now rewrite Yt.
        * destruct (yields key t d) eqn:Yt; [apply Y in Yt; contradiction|].
          rewrite app_nil_r. now apply L.
  Qed.

  Lemma parsetreeprob_spec : forall ds, NoDup (map fst ds) ->
    NoDup (map fst (parsetreeprob recover ds))
    /\ (forall t, In t (map fst (parsetreeprob recover ds)) <-> exists d c, In (d, c) ds /\ recover d = t)
    /\ (forall t p, In (t, p) (parsetreeprob recover ds) -> p = treeprob key ds t).
  Proof.
    intros ds ND. destruct (collect_inv ds ND) as (A & B & C).
    assert (E : map fst (parsetreeprob recover ds) = map fst (collect recover ds)).
    { unfold parsetreeprob. rewrite map_map. apply map_ext. now intros [? ?]. }
    rewrite E. split; [exact A|]. split; [exact B|].
    intros t p I. unfold parsetreeprob in I. apply in_map_iff in I. destruct I as ([t' l] & Q & I).
    injection Q as <- <-. rewrite (C _ _ I), logprobsum_ok, map_map. reflexivity.
  Qed.

  (** the selected trees: at most n, each with its summed probability, and no
      other tree is more probable *)
  Theorem C92_most_likely : forall n ds, NoDup (map fst ds) ->
    let best := mostlikely recover n ds in
    NoDup (map fst best) /\ length best <= n
    /\ (forall t p, In (t, p) best ->
          (exists d c, In (d, c) ds /\ recover d = t) /\ p = treeprob key ds t)
    /\ (forall d c, In (d, c) ds ->
          In (recover d) (map fst best)
          \/ (length best = n
              /\ forall t p, In (t, p) best -> (treeprob key ds (recover d) <= p)%R)).
  Proof.
    intros n ds ND. cbv zeta. destruct (parsetreeprob_spec ds ND) as (NT & K & V).
    unfold mostlikely.
    destruct (nlargest_spec _ snd n (parsetreeprob recover ds)) as (rest & P & LN & M).
    set (sel := nlargest n snd (parsetreeprob recover ds)) in *.
    assert (SUB : forall x, In x sel -> In x (parsetreeprob recover ds)).
    { intros x I. apply (Permutation_in _ (Permutation_sym P)). apply in_or_app. now left. }
    split; [|split; [|split]].
    - apply (Permutation_map fst) in P. rewrite map_app in P.
      pose proof (Permutation_NoDup P NT) as Q. clear - Q. induction (map fst sel) as [|x l IH]; [constructor|].
      cbn in Q. inversion Q; subst. constructor; [|auto]. intros I. apply H1. apply in_or_app. now left.
    - rewrite LN. apply Nat.le_min_l.
    - intros t p I. apply SUB in I. split; [|now apply V].
      apply K. change t with (fst (t, p)). now apply in_map.
    - intros d c I.
      assert (It : In (recover d) (map fst (parsetreeprob recover ds))) by (apply K; eauto).
      apply in_map_iff in It. destruct It as ([t' p'] & Et & It). cbn in Et. subst t'.
      pose proof (Permutation_in _ P It) as J. apply in_app_or in J. destruct J as [J|J].
      + left. change (recover d) with (fst (recover d, p')). now apply in_map.
      + right. split.
        * rewrite LN. apply Nat.min_l. pose proof (Permutation_length P) as PL.
          rewrite app_length in PL. destruct rest; [contradiction|]. cbn in PL. lia.
        * intros t p Iy. rewrite <- (V _ _ It). exact (M _ _ Iy J).
  Qed.

  (** the loop over the shortest derivations, without its (never taken) break *)
  Lemma sl_loop_spec : forall n best, NoDup (map fst best) -> length best <= n ->
    forall short result, 
    NoDup (map fst result) -> (forall t, In t (map fst result) -> In t (map fst best)) ->
    let r := sl_loop recover n best short result in
    NoDup (map fst r)
    /\ (forall t, In t (map fst r) <->
          In t (map fst result) \/ In t (map fst best) /\ exists d s, In (d, s) short /\ recover d = t)
    /\ (forall t v, In (t, v) r <->
          In (t, v) result
          \/ ~ In t (map fst result) /\ exists l1 l2 d s p, short = l1 ++ (d, s) :: l2
              /\ recover d = t /\ In (t, p) best /\ v = (((- Z.abs s)%Z, p), d)
              /\ forall d' s', In (d', s') l1 -> recover d' <> t).
  Proof.
    intros n best NB LB. induction short as [|[d s] short IH]; intros result NR SUB; cbn [sl_loop]; cbv zeta.
    - split; [exact NR|]. split.
      + intros t. split; [now left|]. intros [H|(_ & ? & ? & [] & _)]. exact H.
      + intros t v. split; [now left|]. intros [H|(_ & l1 & l2 & ? & ? & ? & E & _)]; [exact H|].
        destruct l1; discriminate.
    - assert (SKIP : forall (Hs : In (recover d) (map fst result) \/ ~ In (recover d) (map fst best)),
        let r := sl_loop recover n best short result in
        NoDup (map fst r)
        /\ (forall t, In t (map fst r) <->
              In t (map fst result) \/ In t (map fst best) /\ exists d0 s0, In (d0, s0) ((d, s) :: short) /\ recover d0 = t)
        /\ (forall t v, In (t, v) r <->
              In (t, v) result
              \/ ~ In t (map fst result) /\ exists l1 l2 d0 s0 p, (d, s) :: short = l1 ++ (d0, s0) :: l2
                  /\ recover d0 = t /\ In (t, p) best /\ v = (((- Z.abs s0)%Z, p), d0)
                  /\ forall d' s', In (d', s') l1 -> recover d' <> t)).
      { intros Hs. cbv zeta. destruct (IH result NR SUB) as (A & B & C). cbv zeta in A, B, C.
        split; [exact A|]. split.
        - intros t. rewrite B. split.
          + intros [H|(H & d0 & s0 & I & E)]; [now left|]. right. split; [exact H|]. exists d0, s0.
            split; [now right|exact E].
          + intros [H|(H & d0 & s0 & [I|I] & E)]; [now left| |right; split; eauto].
            injection I as <- <-. subst t. destruct Hs; [now left|contradiction].
        - intros t v. rewrite C. split.
          + intros [H|(N & l1 & l2 & d0 & s0 & p & -> & E & Ib & Ev & F)]; [now left|].
            right. split; [exact N|]. exists ((d, s) :: l1), l2, d0, s0, p. repeat split; auto.
            intros d' s' [I|I]; [|eauto]. injection I as <- <-. intros Q.
            destruct Hs as [Hs|Hs]; [rewrite Q in Hs; contradiction|].
            apply Hs. rewrite Q. change t with (fst (t, p)). now apply in_map.
          + intros [H|(N & l1 & l2 & d0 & s0 & p & Es & E & Ib & Ev & F)]; [now left|].
            destruct l1 as [|x l1]; cbn in Es.
            * injection Es as <- <- <-. exfalso. subst t.
              destruct Hs as [Hs|Hs]; [contradiction|]. apply Hs.
              change (recover d) with (fst (recover d, p)). now apply in_map.
            * injection Es as <- ->. right. split; [exact N|]. exists l1, l2, d0, s0, p.
              repeat split; auto. intros d' s' I. apply (F d' s'). now right. }
      destruct (get (recover d) best) as [p|] eqn:Gb.
      2:{ apply SKIP. right. now apply get_none. }
      destruct (get (recover d) result) as [q|] eqn:Gr.
      { apply SKIP. left. apply get_in in Gr. change (recover d) with (fst (recover d, q)). now apply in_map. }
      clear SKIP. apply get_in in Gb. apply get_none in Gr.
      assert (Ib : In (recover d) (map fst best)).
      { change (recover d) with (fst (recover d, p)). now apply in_map. }
      set (v0 := (((- Z.abs s)%Z, p), d)).
      set (result' := put (recover d) v0 result).
      assert (NR' : NoDup (map fst result')) by (now apply put_nodup).
      assert (SUB' : forall t, In t (map fst result') -> In t (map fst best)).
      { intros t I. apply put_keys in I. destruct I as [->|I]; auto. }
      assert (LE : length result' <= n).
      { apply Nat.le_trans with (length best); [|exact LB].
        rewrite <- (map_length fst result'), <- (map_length fst best).
        apply NoDup_incl_length; [exact NR'|exact SUB']. }
      destruct (Nat.ltb_spec n (length result')); [lia|].
      destruct (IH result' NR' SUB') as (A & B & C). cbv zeta in A, B, C. split; [exact A|]. split.
      + intros t. rewrite B. unfold result' at 1. rewrite put_keys. split.
        * intros [[->|H1]|(H1 & d0 & s0 & I & E)].
          -- right. split; [exact Ib|]. exists d, s. split; [now left|reflexivity].
          -- now left.
          -- right. split; [exact H1|]. exists d0, s0. split; [now right|exact E].
        * intros [H1|(H1 & d0 & s0 & [I|I] & E)]; [left; now right| |right; split; eauto].
          injection I as <- <-. left. now left.
      + intros t v. rewrite C. unfold result'. rewrite in_put by exact NR. rewrite put_keys. split.
        * intros [[[-> ->]|[N I]]|(N & l1 & l2 & d0 & s0 & p0 & -> & E & Ip & Ev & F)].
          -- right. split; [exact Gr|]. exists [], short, d, s, p. repeat split; auto.
          -- now left.
          -- right. split; [tauto|]. exists ((d, s) :: l1), l2, d0, s0, p0. repeat split; auto.
             intros d' s' [I|I]; [|eauto]. injection I as <- <-. intros Q. apply N. left. now symmetry.
        * intros [I|(N & l1 & l2 & d0 & s0 & p0 & Es & E & Ip & Ev & F)].
          -- left. right. split; [|exact I]. intros ->. apply Gr.
             change (recover d) with (fst (recover d, v)). now apply in_map.
          -- destruct l1 as [|x l1]; cbn in Es.
             ++ injection Es as <- <- <-. left. left. split; [now symmetry|]. subst t v. unfold v0.
                repeat f_equal. clear - NB Gb Ip.
                assert (U : forall (l : list (pystr * R)) k a b, NoDup (map fst l) -> In (k, a) l -> In (k, b) l -> a = b).
                { induction l as [|[k' a'] l IH]; intros k a b ND; [intros []|]. cbn in ND.
                  inversion ND as [|? ? NI ND']; subst. intros [X|X] [Y|Y].
                  - congruence.
                  - injection X as -> ->. exfalso. apply NI. change k with (fst (k, b)). now apply in_map.
                  - injection Y as -> ->. exfalso. apply NI. change k with (fst (k, a)). now apply in_map.
                  - now apply (IH k). }
                now apply (U best (recover d)).
             ++ injection Es as <- ->. right. split.
                ** intros [H1|H1]; [|contradiction]. apply (F d s); [now left|]. now symmetry.
                ** exists l1, l2, d0, s0, p0. repeat split; auto. intros d' s' I. apply (F d' s'). now right.
  Qed.

  (** what 'sl-dop' returns, given the shortest derivations found for the most
      likely trees (in order of length): exactly those trees, each once, with the
      number of steps of a shortest derivation and the parse tree probability *)
  Theorem C92_sldop : forall n ds st st1 short,
    NoDup (map fst ds) ->
    let best := map fst (mostlikely recover n ds) in
    treeparsing nodes selfrule parse false best (gswitch (str "shortest"%string) st)
      = (st1, Some short) ->
    StronglySorted (fun x y => (snd x <= snd y)%Z) short -> Forall (fun x => (0 <= snd x)%Z) short ->
    let r := snd (sldop nodes selfrule parse recover n ds st) in
    NoDup (map fst r) /\ length r <= n
    /\ (forall t, In t (map fst r) <-> In t best /\ exists d s, In (d, s) short /\ recover d = t)
    /\ (forall t z p d, In (t, ((z, p), d)) r ->
          p = treeprob key ds t
          /\ In (d, (- z)%Z) short /\ recover d = t
          /\ forall d' s', In (d', s') short -> recover d' = t -> (- z <= s')%Z).
  Proof.
    intros n ds st st1 short ND best TP SS NN. cbv zeta.
    unfold sldop. fold best. rewrite TP. cbn [snd].
    destruct (C92_most_likely n ds ND) as (NB & LB & PB & _). cbv zeta in NB, LB, PB.
    destruct (sl_loop_spec n (mostlikely recover n ds) NB LB short [] (NoDup_nil _)) as (A & B & C);
      [intros t []|]. cbv zeta in A, B, C. fold best in B.
    split; [exact A|]. split; [|split].
    - apply Nat.le_trans with (length best); [|unfold best; now rewrite map_length].
      rewrite <- (map_length fst). apply NoDup_incl_length; [exact A|].
      intros t I. apply B in I. destruct I as [[]|[I _]]. exact I.
    - intros t. rewrite B. cbn. tauto.
    - intros t z p d I. apply C in I. destruct I as [[]|(_ & l1 & l2 & d0 & s0 & p0 & Es & E & Ip & Ev & F)].
      injection Ev as -> -> ->. split; [now apply PB|].
      assert (P0 : (0 <= s0)%Z).
      { rewrite Forall_forall in NN. apply (NN (d0, s0)). rewrite Es. apply in_or_app. right. now left. }
      rewrite Z.abs_eq by exact P0. rewrite Z.opp_involutive.
      split; [rewrite Es; apply in_or_app; right; now left|]. split; [exact E|].
      intros d' s' I Q. rewrite Es in I. apply in_app_or in I. destruct I as [I|[I|I]].
      + exfalso. exact (F _ _ I Q).
      + injection I as <- <-. lia.
      + rewrite Es in SS. clear - SS I. induction l1 as [|x l1 IH]; cbn in SS; inversion SS as [|? ? S1 F1]; subst.
        * rewrite Forall_forall in F1. exact (F1 _ I).
        * auto.
  Qed.

  (** *** treeparsing and the grammar *)
  (** the label (and, with maskrules, the production) is in the grammar *)
  Definition known (g : gram) (maskrules : bool) (nd : node) : Prop :=
    let '(label, _, rule) := nd in
    GrammarModel.lookup eqs label (toid g) <> None
    /\ (maskrules = true -> match rule with Some (r, yf) => getruleno g r yf <> None | None => True end).
  Definition item_of (g : gram) (nd : node) : option (nat * list nat) :=
    let '(label, leaves, _) := nd in
    match GrammarModel.lookup eqs label (toid g) with Some l => Some (l, leaves) | None => None end.
  (** the number of the production of a node *)
  Definition number (g : gram) (nd : node) : option nat :=
    match snd nd with Some (r, yf) => getruleno g r yf | None => None end.
  (** the active rules after the loop *)
  Definition rules_of (g : gram) (nds : list node) : list nat :=
    flat_map (fun nd => match number g nd with Some r => selfrule r | None => [] end) nds.
  (** the labels of the production of a node (the first three) *)
  Definition mentions (nd : node) (l : pystr) : Prop :=
    match snd nd with Some (r, _) => In l (firstn 3 r) | None => False end.

  Lemma clear_some : forall l m k g,
    fold_left (fun s n => gclearbit n s) l (GState m (Some k) g) = GState m (Some (k ++ l)) g.
  Proof.
    induction l as [|x l IH]; intros m k g; cbn; [now rewrite app_nil_r|].
    unfold gclearbit. cbn. rewrite IH. now rewrite <- app_assoc.
  Qed.
  Lemma clear_gram : forall l st, ggram (fold_left (fun s n => gclearbit n s) l st) = ggram st.
  Proof. induction l as [|x l IH]; intros st; cbn; [reflexivity|]. now rewrite IH. Qed.
  Lemma tp_unmasked : forall nds st wl, fst (tp_nodes selfrule false nds st wl) = st.
  Proof.
    induction nds as [|[[label leaves] rule] nds IH]; intros st wl; [reflexivity|].
    cbn [tp_nodes tp_node]. destruct (glabel st label); [apply IH|reflexivity].
  Qed.
  Lemma items_step : forall g nd nds x wl y, item_of g nd = Some y ->
    (In x (wl ++ [y]) \/ (exists nd', In nd' nds /\ item_of g nd' = Some x))
    <-> (In x wl \/ exists nd', In nd' (nd :: nds) /\ item_of g nd' = Some x).
  Proof.
    intros g nd nds x wl y E. rewrite in_app_iff. cbn [In]. split.
    - intros [[H|[H|[]]]|(nd' & I & E')]; [now left| |right; exists nd'; auto]. right. exists nd. subst y. auto.
    - intros [H|(nd' & [I|I] & E')]; [left; now left| |right; exists nd'; auto].
      subst nd'. rewrite E in E'. injection E' as <-. left. right. now left.
  Qed.
  Lemma tp_unmasked_some : forall nds st wl,
    match snd (tp_nodes selfrule false nds st wl) with
    | Some wl' => Forall (known (ggram st) false) nds
        /\ forall x, In x wl' <-> In x wl \/ exists nd, In nd nds /\ item_of (ggram st) nd = Some x
    | None => ~ Forall (known (ggram st) false) nds
    end.
  Proof.
    induction nds as [|[[label leaves] rule] nds IH]; intros st wl; cbn [tp_nodes tp_node].
    - cbn. split; [constructor|]. intros x. split; [now left|]. intros [H|(? & [] & _)]; exact H.
    - destruct (glabel st label) as [l|] eqn:T.
      2:{ cbn. intros F. apply Forall_inv in F. destruct F as [K _]. apply K. exact T. }
      specialize (IH st (wl ++ [(l, leaves)])). destruct (snd (tp_nodes _ _ _ _ _)) as [wl'|].
      + destruct IH as [F W]. split; [constructor; [|exact F]; split; [unfold glabel in T; now rewrite T|discriminate]|].
        intros x. rewrite W. apply items_step. cbn. unfold glabel in T. now rewrite T.
      + intros F. apply Forall_inv_tail in F. contradiction.
  Qed.
  Lemma tp_masked_known : forall nds m k g wl, Forall (known g true) nds ->
    exists wl', tp_nodes selfrule true nds (GState m (Some k) g) wl = (GState m (Some (k ++ rules_of g nds)) g, Some wl')
      /\ forall x, In x wl' <-> In x wl \/ exists nd, In nd nds /\ item_of g nd = Some x.
  Proof.
    induction nds as [|[[label leaves] rule] nds IH]; intros m k g wl F.
    - exists wl. cbn. rewrite app_nil_r. split; [reflexivity|]. intros x. split; [now left|]. intros [H|(? & [] & _)]; exact H.
    - pose proof (Forall_inv F) as [K1 K2]. apply Forall_inv_tail in F. specialize (K2 eq_refl).
      cbn [tp_nodes tp_node]. unfold glabel. cbn [ggram currentmodel gmask].
      destruct (GrammarModel.lookup eqs label (toid g)) as [l|] eqn:T; [|contradiction].
      assert (IT : item_of g (label, leaves, rule) = Some (l, leaves)) by (cbn; now rewrite T).
      destruct rule as [[r yf]|].
      + destruct (getruleno g r yf) as [n|] eqn:G; [|contradiction].
        rewrite (C96_known _ _ _ _ G), clear_some.
        destruct (IH m (k ++ selfrule n) g (wl ++ [(l, leaves)]) F) as (wl' & -> & W). exists wl'. split.
        * unfold rules_of. cbn [flat_map]. unfold number at 2. cbn [snd]. rewrite G. now rewrite <- app_assoc.
        * intros x. rewrite W. now apply items_step.
      + destruct (IH m k g (wl ++ [(l, leaves)]) F) as (wl' & -> & W). exists wl'. split; [reflexivity|].
        intros x. rewrite W. now apply items_step.
  Qed.
  Lemma idof_none : forall a g l, GrammarModel.lookup eqs l (toid (snd (idof a g))) = None
    <-> GrammarModel.lookup eqs l (toid g) = None /\ a <> l.
  Proof.
    intros a g l. unfold idof. destruct (GrammarModel.lookup eqs a (toid g)) as [i|] eqn:A; cbn [snd setmaps toid].
    - split; [|tauto]. intros H. split; [exact H|]. intros ->. congruence.
    - cbn [GrammarModel.lookup]. destruct (eqs l a) eqn:E.
      + apply eqs_eq in E. split; [discriminate|]. intros [_ N]. congruence.
      + split; [|tauto]. intros H. split; [exact H|]. intros ->. rewrite (proj2 (eqs_eq _ _) eq_refl) in E. discriminate.
  Qed.
  Lemma noof_toid : forall k g, toid (snd (noof k g)) = toid g.
  Proof. intros k g. unfold noof. now destruct (GrammarModel.lookup key_eqb k (rulenos g)). Qed.
  Lemma ask_none : forall g r yf n g' l, askruleno g r yf = Some (n, g') ->
    GrammarModel.lookup eqs l (toid g') = None <-> GrammarModel.lookup eqs l (toid g) = None /\ ~ In l (firstn 3 r).
  Proof.
    intros g r yf n g' l H. destruct r as [|x [|a r]]; try discriminate. cbn [askruleno] in H.
    destruct (idof x g) as [i g1] eqn:E1. destruct (idof a g1) as [j g2] eqn:E2.
    pose proof (idof_none x g l) as X1. rewrite E1 in X1. pose proof (idof_none a g1 l) as X2. rewrite E2 in X2. cbn [snd] in X1, X2.
    destruct r as [|b r].
    - injection H as H. pose proof (noof_toid (i, j, 0, args yf, lengths yf) g2) as Y. rewrite H in Y. cbn in Y. rewrite Y.
      rewrite X2, X1. cbn [firstn In]. tauto.
    - destruct (idof b g2) as [k g3] eqn:E3. pose proof (idof_none b g2 l) as X3. rewrite E3 in X3. cbn [snd] in X3.
      injection H as H. pose proof (noof_toid (i, j, k, args yf, lengths yf) g3) as Y. rewrite H in Y. cbn [snd] in Y. rewrite Y.
      rewrite X3, X2, X1. cbn [firstn In]. tauto.
  Qed.
  Lemma tp_masked_none : forall nds st wl,
    Forall (fun nd => match snd nd with Some (r, _) => 2 <= length r | None => True end) nds ->
    (snd (tp_nodes selfrule true nds st wl) = None <->
     exists l1 nd l2, nds = l1 ++ nd :: l2
       /\ glabel st (fst (fst nd)) = None /\ Forall (fun x => ~ mentions x (fst (fst nd))) l1).
  Proof.
    induction nds as [|[[label leaves] rule] nds IH]; intros st wl F.
    - cbn. split; [discriminate|]. intros ([|? ?] & ? & ? & ? & _); discriminate.
    - pose proof (Forall_inv F) as A. apply Forall_inv_tail in F. cbn [snd] in A. cbn [tp_nodes tp_node].
      destruct (glabel st label) as [l|] eqn:T.
      2:{ cbn. split; [intros _|reflexivity]. exists [], (label, leaves, rule), nds. repeat split; [exact T|constructor]. }
      assert (STEP : forall st' wl',
        (forall x, glabel st' x = None <-> glabel st x = None /\ ~ mentions (label, leaves, rule) x) ->
        (snd (tp_nodes selfrule true nds st' wl') = None <->
         exists l1 nd l2, (label, leaves, rule) :: nds = l1 ++ nd :: l2
           /\ glabel st (fst (fst nd)) = None /\ Forall (fun x => ~ mentions x (fst (fst nd))) l1)).
      { intros st' wl' G. rewrite (IH st' wl' F). split.
        - intros (l1 & nd & l2 & -> & N & M). apply G in N. destruct N as [N N'].
          exists ((label, leaves, rule) :: l1), nd, l2. repeat split; [exact N|]. constructor; assumption.
        - intros ([|x l1] & nd & l2 & E & N & M); cbn in E; injection E as E1 E2.
          + subst nd. cbn in N. congruence.
          + subst x. exists l1, nd, l2. split; [exact E2|]. split; [|exact (Forall_inv_tail M)].
            apply G. split; [exact N|exact (Forall_inv M)]. }
      destruct rule as [[r yf]|].
      + destruct (askruleno (ggram st) r yf) as [[n g']|] eqn:K.
        * apply STEP. intros x. unfold glabel. rewrite clear_gram. cbn [ggram]. unfold mentions. cbn [snd].
          exact (ask_none _ _ _ _ _ x K).
        * exfalso. destruct r as [|p [|p0 r]]; cbn in A; try lia. cbn [askruleno] in K.
          destruct (idof p (ggram st)) as [? g1]; destruct (idof p0 g1) as [? g2]; destruct r as [|b r]; [discriminate|].
          destruct (idof b g2); discriminate.
      + apply STEP. intros x. unfold mentions. cbn [snd]. tauto.
  Qed.

  (** If all labels of the trees (and, with maskrules, all rules) are in the
      grammar, the trees are parsed; the parser may use exactly the labelled
      spans of the nodes of the trees, and exactly the rules of the trees (with
      the rules they map to); the grammar is not changed, and afterwards all
      rules are active again. *)
  Theorem C92_treeparsing : forall mr trees st,
    let nds := flat_map nodes trees in
    let out := treeparsing nodes selfrule parse mr trees st in
    Forall (known (ggram st) mr) nds ->
       exists st1 wl, snd out = parse st1 wl
         /\ (forall x, In x wl <-> exists nd, In nd nds /\ item_of (ggram st) nd = Some x)
         /\ currentmodel st1 = currentmodel st /\ ggram st1 = ggram st
         /\ gmask st1 = (if mr then Some (rules_of (ggram st) nds) else gmask st)
         /\ fst out = (if mr then gsetmask None st else st).
  Proof.
    intros mr trees st. cbv zeta. unfold treeparsing. set (nds := flat_map nodes trees). intros F. destruct mr.
    - destruct (tp_masked_known nds (currentmodel st) [] (ggram st) [] F) as (wl & E & W).
      change (GState (currentmodel st) (Some []) (ggram st)) with (gsetmask (Some []) st) in E.
      rewrite E. eexists. exists wl. cbn [fst snd].
      split; [reflexivity|]. split; [|repeat split; reflexivity]. intros x. rewrite W. cbn. tauto.
    - pose proof (tp_unmasked nds st []) as U. pose proof (tp_unmasked_some nds st []) as S.
      destruct (tp_nodes selfrule false nds st []) as [st1 [wl|]]; cbn [fst snd] in U, S; subst st1.
      + destruct S as [_ W]. exists st, wl. split; [reflexivity|]. split; [|repeat split; reflexivity].
        intros x. rewrite W. cbn. tauto.
      + contradiction.
  Qed.
  (** Without maskrules a tree with an unknown label is not parsed.  With
      maskrules an unknown label is noticed only if it is not in the production
      of a node that comes before it; an unknown production is never noticed. *)
  Theorem C92_unknown : forall trees st,
    let nds := flat_map nodes trees in
    let out mr := treeparsing nodes selfrule parse mr trees st in
    (forall s wl, parse s wl <> None) ->
    Forall (fun nd => match snd nd with Some (r, _) => 2 <= length r | None => True end) nds ->
    (snd (out false) = None <-> exists nd, In nd nds /\ glabel st (fst (fst nd)) = None)
    /\ (snd (out true) = None <-> exists l1 nd l2, nds = l1 ++ nd :: l2
          /\ glabel st (fst (fst nd)) = None /\ Forall (fun x => ~ mentions x (fst (fst nd))) l1).
  Proof.
    intros trees st. cbv zeta. unfold treeparsing. set (nds := flat_map nodes trees). intros P L. split.
    - pose proof (tp_unmasked_some nds st []) as S.
      destruct (tp_nodes selfrule false nds st []) as [st1 [wl|]]; cbn [fst snd] in S |- *.
      + split; [intros H; now apply P in H|]. intros (nd & I & G). destruct S as [S _].
        rewrite Forall_forall in S. apply S in I. destruct nd as [[label leaves] rule]. destruct I as [I _]. contradiction.
      + split; [intros _|reflexivity]. clear P L. induction nds as [|[[label leaves] rule] l IH]; [exfalso; apply S; constructor|].
        destruct (glabel st label) as [i|] eqn:T; [|exists (label, leaves, rule); split; [now left|exact T]].
        destruct IH as (nd & I & G); [|exists nd; split; [now right|exact G]]. intros F. apply S. constructor; [|exact F].
        split; [|discriminate]. unfold glabel in T. congruence.
    - rewrite <- (tp_masked_none nds (gsetmask (Some []) st) [] L).
      destruct (tp_nodes selfrule true nds (gsetmask (Some []) st) []) as [st1 [wl|]]; cbn [fst snd]; [|tauto].
      split; [intros H; now apply P in H|discriminate].
  Qed.

  (** 'sl-dop' selects the model it found again, whenever it found derivations
      for the trees, and never touches the mask *)
  Theorem C92_model_restored : forall n ds st,
    let best := map fst (mostlikely recover n ds) in
    snd (treeparsing nodes selfrule parse false best (gswitch (str "shortest"%string) st)) <> None ->
    fst (sldop nodes selfrule parse recover n ds st) = st.
  Proof.
    intros n ds st best. unfold sldop. fold best.
    destruct (treeparsing nodes selfrule parse false best _) as [st1 [short|]] eqn:T; [intros _|intros H; now destruct H].
    cbn [fst].
    assert (E : st1 = gswitch (str "shortest"%string) st).
    { change st1 with (fst (st1, Some short)). rewrite <- T. unfold treeparsing.
      pose proof (tp_unmasked (flat_map nodes best) (gswitch (str "shortest"%string) st) []) as U.
      destruct (tp_nodes _ _ _ _ _) as [st2 [wl|]]; exact U. }
    rewrite E. destruct st. reflexivity.
  Qed.
End Props.

(** The claim that the grammar is left as it was found is false of the code in
    general: when the second parse fails, the 'shortest' model stays selected
    (disambiguation.pyx:458) ... *)
Theorem C92_model_restored_refuted : exists nodes selfrule parse recover n ds st,
  currentmodel (fst (sldop nodes selfrule parse recover n ds st)) <> currentmodel st.
Proof.
  exists (fun _ => []), (fun r => [r]), (fun _ _ => None), (fun d => d), 1, [],
    (GState (str "default"%string) None (empty (str "S"%string))). vm_compute. discriminate.
Qed.
(** ... and when treeparsing(.., maskrules=True) meets an unknown label, the
    rules it has not unblocked yet stay blocked in the grammar, although no
    rule was blocked before. *)
Theorem C92_mask_restored_refuted : exists nodes selfrule parse trees st,
  gmask st = None
  /\ gmask (fst (treeparsing nodes selfrule parse true trees st)) = Some [].
Proof.
  exists (fun _ => [(str "X"%string, [0], None)]), (fun r => [r]), (fun _ _ => Some []),
    [str "(X 0)"%string], (GState (str "default"%string) None (empty (str "S"%string))). split; vm_compute; reflexivity.
Qed.
(** The claim that treeparsing(.., maskrules=True) rejects trees with rules or
    labels that are not in the grammar (disambiguation.pyx:811, 824) is false of
    the code: the grammar has the rules S -> A B (0), S -> B (1), A -> C C (2);
    the tree has the rules S -> A and A -> D with an unknown label.  The tree is
    parsed nevertheless, with rule 0, which is not in the tree, as active rule,
    and with Epsilon (0) for the unknown label; the label D is known afterwards. *)
Definition ex_st (g : gram) : gstate := GState (str "default"%string) None g.
Definition ex_nodes (t : pystr) : list node :=
  [(str "S"%string, [0], Some ([str "S"; str "A"]%string, mkYf 0 1)); (str "A"%string, [0], Some ([str "A"; str "D"]%string, mkYf 0 1));
   (str "D"%string, [0], None)].
Theorem C92_unknown_rejected_refuted : exists g, grammar isort isort (str "S"%string) ex_rules ex_lex [] = Some g
  /\ getruleno g [str "S"; str "A"]%string (mkYf 0 1) = None /\ glabel (ex_st g) (str "D"%string) = None
  /\ exists g' wl, let st := GState (str "default"%string) (Some [0; 0]) g' in
  wl = [(1, [0]); (2, [0]); (0, [0])] /\ glabel (ex_st g') (str "D"%string) = Some 0
  /\ forall parse, treeparsing ex_nodes (fun r => [r]) parse true [[]] (ex_st g) = (gsetmask None st, parse st wl).
Proof.
  eexists. split; [vm_compute; reflexivity|]. split; [vm_compute; reflexivity|]. split; [vm_compute; reflexivity|].
  eexists. eexists. cbv zeta. split; [reflexivity|]. split; [|intros parse].
  2:{ vm_compute. reflexivity. }
  vm_compute. reflexivity.
Qed.

(** A concrete case: three derivations of two trees; the most likely tree A has a
    derivation of two steps and one of three. *)
Definition ex_recover (d : pystr) : pystr := firstn 1 d.
Definition ex_short : list (pystr * Z) :=
  [(str "B1"%string, 1%Z); (str "A1"%string, 2%Z); (str "A2"%string, 3%Z)].
Example C92_example : map (fun x => (fst x, fst (fst (snd x)), snd (snd x)))
  (sl_loop ex_recover 1 [(str "A"%string, 1%R)] ex_short [])
  = [(str "A"%string, (-2)%Z, str "A1"%string)].
Proof. vm_compute. reflexivity. Qed.
(** the hypotheses of C92_sldop are met by it *)
Example C92_hypotheses :
  let ds := [(str "A1"%string, 1%R); (str "A2"%string, 1%R); (str "B1"%string, 2%R)] in
  NoDup (map fst ds)
  /\ (exists st1, treeparsing (fun _ => [(str "S"%string, [0], None)]) (fun r => [r])
       (fun _ _ => Some ex_short) false [str "A"%string] (GState (str "default"%string) None (empty (str "S"%string))) = (st1, Some ex_short))
  /\ StronglySorted (fun x y => (snd x <= snd y)%Z) ex_short /\ Forall (fun x => (0 <= snd x)%Z) ex_short.
Proof.
  cbv zeta. split; [|split; [eexists; vm_compute; reflexivity|split]].
  - vm_compute. repeat (constructor; [cbn; intuition discriminate|]). constructor.
  - repeat constructor; cbn; lia.
  - repeat constructor; cbn; lia.
Qed.
