(** C64, part 9: continuous fragments give an unambiguous binarization. *)
From Coq Require Import String.
From Coq Require Import List Bool Arith NArith ZArith QArith Qcanon Lia Permutation Sorted.
From Verif Require Import PyStr TreeModel BracketModel BinarizeModel TransformModel SortProofs LcfrsModel LcfrsProps TreebankModel DopModel DopProofs DDopModel DDopSpec DDopProofs DDopProofs2 DDopProofs3 DDopProofs4 DDopProofs5 DDopProofs6 DDopProofs7 DDopProofs8.
Import ListNotations.
Open Scope nat_scope.
Open Scope list_scope.

Lemma memn_seq : forall n a k, memn n (seq a k) = (a <=? n) && (n <? a + k).
Proof.
  intros n a k. unfold memn. destruct (existsb (Nat.eqb n) (seq a k)) eqn:E.
  - apply existsb_exists in E. destruct E as (x & H & E). apply Nat.eqb_eq in E. subst x. apply in_seq in H. symmetry. apply andb_true_intro. rewrite Nat.leb_le, Nat.ltb_lt. lia.
  - symmetry. apply andb_false_iff. rewrite Nat.leb_gt, Nat.ltb_ge. assert (X : ~ In n (seq a k)) by (intros H; rewrite <- not_true_iff_false in E; apply E; apply existsb_exists; exists n; split; [auto|apply Nat.eqb_refl]). rewrite in_seq in X. lia.
Qed.
Lemma getyf_cont : forall k, 0 < k -> getyf (seq 0 k) [k] = str ";01".
Proof.
  intros k Hk. unfold getyf. assert (M : list_max (seq 0 k ++ [k]) = k).
  { rewrite list_max_app. change (list_max [k]) with (Nat.max k 0). assert (list_max (seq 0 k) <= k) by (apply list_max_le; rewrite Forall_forall; intros x Hx; apply in_seq in Hx; lia). lia. }
  rewrite M. change (str ";01") with (str ";" ++ str "01"). f_equal.
  assert (L : forall j n cur, n + j = k -> cur = ch "0" -> getyfloop (S j) n (seq 0 k) [k] cur = str "1").
  { induction j as [|j IH]; intros n cur E ->.
    - assert (n = k) by lia. subst n. cbn [getyfloop]. rewrite memn_seq. replace (k <? 0 + k) with false by (symmetry; apply Nat.ltb_ge; lia). rewrite andb_false_r. cbn [memn existsb]. rewrite Nat.eqb_refl. cbn. reflexivity.
    - cbn [getyfloop]. rewrite memn_seq. replace (n <? 0 + k) with true by (symmetry; apply Nat.ltb_lt; lia). cbn [Nat.leb andb]. rewrite N.eqb_refl. apply (IH (S n)); [lia|reflexivity]. }
  destruct k as [|k]; [lia|]. cbn [getyfloop]. rewrite memn_seq. cbn [Nat.leb andb]. replace (0 <? 0 + S k) with true by (symmetry; apply Nat.ltb_lt; lia). cbn [N.eqb ch].
  change (str "01") with (ch "0" :: str "1"). replace (ch "," =? ch "0")%N with false by reflexivity. f_equal. exact (L k 1 (ch "0") ltac:(lia) eq_refl).
Qed.
Section Prefix.
Variable prefix : pystr.
Variable fin : ids.
Notation newlabel := (newlabel prefix). Notation linksF := (linksF prefix (idof fin)). Notation frulesF := (frulesF prefix (idof fin)). Notation faux := (faux prefix fin).
(** rules and labels for the first children of a node, given by their labels *)
Definition width (P : list pystr) : nat := length P - 1.
Definition keyP (P : list pystr) : pystr := join (str ",") P ++ getyf (seq 0 (width P)) [width P].
Definition markP (P : list pystr) : pystr := fomark (fanoutof (seq 0 (width P) ++ [width P])).
Definition prevl (label : pystr) (P : list pystr) : pystr := match P with [x] => x | _ => newlabel label (idof fin (keyP P)) (markP P) end.
Definition auxrule (label : pystr) (P : list pystr) (c : pystr) : prod :=
  Phrasal (newlabel label (idof fin (keyP (P ++ [c]))) (markP (P ++ [c]))) [prevl label P; c] (yfs [seq 0 (length P); [length P]]).
Lemma width_snoc : forall P (c : pystr), width (P ++ [c]) = length P.
Proof. intros. unfold width. rewrite app_length. cbn. lia. Qed.
Lemma prevl_snoc : forall label P c, P <> [] -> prevl label (P ++ [c]) = newlabel label (idof fin (keyP (P ++ [c]))) (markP (P ++ [c])).
Proof. intros label P c H. unfold prevl. destruct P as [|x [|y P]]; [congruence|reflexivity|reflexivity]. Qed.
Lemma linksF_cont : forall u label rest P c, P <> [] -> fidx c = [length P] -> map fidx rest = map (fun n => [n]) (seq (S (length P)) (length rest)) ->
  let aux := fst (linksF u label P (prevl label P) (seq 0 (length P)) c rest) in
  forall p, In p aux -> (aux = removelast aux ++ [p] /\ exists m, plhs p = newlabel label u m) \/
    exists P' c', p = auxrule label P' c' /\ P' <> [] /\ (exists more, P ++ map wlabel (c :: rest) = P' ++ c' :: more) /\ In (keyP (P' ++ [c'])) (keysF P (seq 0 (length P)) c rest).
Proof.
  intros u label. induction rest as [|c' more IH]; intros P c NE HC HR aux p Hp; subst aux; [destruct Hp|].
  rewrite linksF_eq in *. cbv zeta in *. rewrite HC in *.
  assert (SQ : seq 0 (length P) ++ [length P] = seq 0 (length (P ++ [wlabel c]))) by (rewrite app_length; cbn [length]; rewrite seq_app; reflexivity).
  assert (KK : keyof P (seq 0 (length P)) c = keyP (P ++ [wlabel c])) by (unfold keyof, keyP; now rewrite width_snoc, HC).
  destruct more as [|c'' more].
  - cbn [DDopProofs2.linksF fst] in *. destruct Hp as [<-|[]]. left. split; [reflexivity|]. cbn [plhs]. eauto.
  - cbn [map length seq] in HR. injection HR as HR1 HR2 HR3. rewrite KK in *.
    assert (EN : newlabel label (idof fin (keyP (P ++ [wlabel c]))) (fomark (fanoutof (seq 0 (length P) ++ [length P]))) = prevl label (P ++ [wlabel c])).
    { rewrite prevl_snoc by exact NE. unfold markP. now rewrite width_snoc. }
    rewrite EN in *. rewrite SQ in *.
    assert (NE' : P ++ [wlabel c] <> []) by (destruct P; discriminate).
    assert (LL : length (P ++ [wlabel c]) = S (length P)) by (rewrite app_length; cbn; lia).
    assert (PR : map fidx (c'' :: more) = map (fun n => [n]) (seq (S (length (P ++ [wlabel c]))) (length (c'' :: more)))) by (rewrite LL; cbn [map length seq]; f_equal; assumption).
    specialize (IH (P ++ [wlabel c]) c' NE' ltac:(rewrite LL; exact HR1) PR). cbv zeta in IH.
    destruct (linksF u label (P ++ [wlabel c]) (prevl label (P ++ [wlabel c])) (seq 0 (length (P ++ [wlabel c]))) c' (c'' :: more)) as [aux top] eqn:EQ. cbn [fst] in *.
    destruct Hp as [<-|Hp].
    + right. exists P, (wlabel c). split; [unfold auxrule; f_equal; now rewrite <- prevl_snoc by exact NE|]. split; [exact NE|]. split; [exists (map wlabel (c' :: c'' :: more)); reflexivity|]. cbn [keysF]. left. exact KK.
    + destruct (IH p Hp) as [[I1 I2]|(P' & c0 & E & N & (mr & M) & K)].
      * left. split; [|exact I2]. destruct aux as [|a aux]; [destruct Hp|]. change (removelast (Phrasal (prevl label (P ++ [wlabel c])) [prevl label P; wlabel c] (yfs [seq 0 (length P); [length P]]) :: a :: aux)) with (Phrasal (prevl label (P ++ [wlabel c])) [prevl label P; wlabel c] (yfs [seq 0 (length P); [length P]]) :: removelast (a :: aux)).
        cbn [app]. f_equal. exact I1.
      * right. exists P', c0. split; [exact E|]. split; [exact N|]. split; [exists mr; rewrite <- M, <- app_assoc; reflexivity|]. cbn [keysF]. apply in_or_app. right. rewrite HC, SQ. exact K.
Qed.
Lemma faux_cont : forall f u p, okfrag f -> isInner f -> continuous f -> In p (faux f u) ->
  (faux f u = removelast (faux f u) ++ [p] /\ exists m, plhs p = newlabel (flabel f) u m) \/
  exists P' c', p = auxrule (flabel f) P' c' /\ P' <> [] /\ (exists more, map wlabel (sites f) = P' ++ c' :: more) /\ In (keyP (P' ++ [c'])) (fkeys (ordered f)).
Proof.
  intros f u p Ok If CF Hp. assert (EO : ordered f = sites f).
  { unfold ordered. apply sorted_sort_id. unfold continuous in CF. assert (SF : map first (sites f) = seq 0 (length (sites f))).
    { assert (EF : map first (sites f) = map (hd 0) (map fidx (sites f))) by (rewrite map_map; reflexivity). rewrite EF, CF, map_map. cbn. apply map_id. }
    revert SF. generalize (sites f) 0. clear. induction l as [|c ls IHl]; intros a H; [constructor|]. cbn in H. injection H as H1 H2. constructor; [apply (IHl (S a) H2)|].
    rewrite Forall_forall. intros c' Hc. apply (in_map first) in Hc. rewrite H2 in Hc. apply in_seq in Hc. unfold first_le. apply Nat.leb_le. lia. }
  unfold DDopProofs7.faux in *. rewrite EO in *. unfold continuous in CF. destruct (sites f) as [|c0 [|c1 [|c2 rest]]] eqn:ES; cbn [DDopProofs2.frulesF fst] in *.
  - destruct Hp.
  - left. destruct Hp as [<-|[]]. split; [reflexivity|]. cbn [plhs]. eauto.
  - left. destruct Hp as [<-|[]]. split; [reflexivity|]. cbn [plhs]. eauto.
  - cbn [map length seq] in CF. injection CF as C0 C1 C2 CR. rewrite C0 in *.
    assert (E0 : map fidx (c2 :: rest) = map (fun n => [n]) (seq (S (length [wlabel c0])) (length (c2 :: rest)))) by (cbn [map length seq]; rewrite C2, CR; reflexivity).
    destruct (linksF_cont u (flabel f) (c2 :: rest) [wlabel c0] c1 ltac:(discriminate) C1 E0 p Hp) as [I|(P' & c' & E & N & M & K)]; [left; exact I|].
    right. exists P', c'. split; [exact E|]. split; [exact N|]. split; [exact M|]. cbn [fkeys]. rewrite C0. exact K.
Qed.
Lemma keyP_join : forall P c P' c', P <> [] -> P' <> [] -> keyP (P ++ [c]) = keyP (P' ++ [c']) -> join (str ",") (P ++ [c]) = join (str ",") (P' ++ [c']).
Proof.
  intros P c P' c' N N' E. unfold keyP in E. rewrite !width_snoc in E. rewrite !getyf_cont in E by (destruct P, P'; try congruence; cbn; lia). now apply app_inv_tail in E.
Qed.
End Prefix.
Theorem cont_unambiguous : forall prefix g done fs, Inv prefix g done -> map fst done = fs -> (forall f n, In (f, n) fs -> continuous f) -> joinable fs -> unambiguous (g_rules g).
Proof.
  intros prefix g done fs IV M CT J r n r' n' H H' HM E. set (fin := g_ids g). pose proof (i_rules _ _ _ IV fin (ext_refl _)) as IR. pose proof (i_ok _ _ _ IV) as IOK. pose proof (i_inj _ _ _ IV) as IINJ.
  assert (AUX : forall r n, In (r, n) (g_rules g) -> has (str "}<") (lhs r) -> exists f n u p, In (f, n, u) done /\ isInner f /\ In p (faux prefix fin f u) /\ r = astuple p).
  { clear - IR IOK. intros r n H HM. apply IR in H. destruct H as (f & m & u & Hd & C). destruct (IOK _ _ _ Hd) as [Ok _]. destruct C as [[-> ->]|[C ->]].
    - exfalso. rewrite ftop_lhs in HM by exact Ok. destruct Ok as (Ok & _). apply oklabel_root in Ok. now destruct Ok as (_ & _ & Ok).
    - exists f, m, u. destruct (fothers_spec prefix fin f u r Ok C) as [(i & mk & EL & yf & EV)|(c & l & i & w & Hc & -> & ->)].
      + destruct f as [| |label gs]; [destruct C|destruct C|]. unfold fothers in C. apply in_map_iff in C. destruct C as (p & <- & Hp). apply in_app_or in Hp. destruct Hp as [Hp|Hp].
        * exists p. split; [exact Hd|]. split; [exact Logic.I|]. split; [|reflexivity]. now apply in_rev.
        * exfalso. apply in_flat_map in Hp. destruct Hp as (c & _ & Hp). destruct c; cbn [lexs In] in Hp; try contradiction. destruct Hp as [<-|[]]. discriminate.
      + exfalso. cbn in HM. apply has_mark_app in HM. destruct Ok as (O & _). destruct (ok_sites _ O) as [S _]. rewrite Forall_forall in S. specialize (S _ Hc). cbn in S. inversion S as [|? ? ? OL OW|]; subst.
        destruct OL as (_ & _ & OL). destruct OW as (_ & _ & OW). tauto. }
  destruct (AUX r n H HM) as (f & m & u & p & Hd & If & Hp & ->). assert (HM' : has (str "}<") (lhs r')) by (now rewrite <- E). destruct (AUX r' n' H' HM') as (f' & m' & u' & p' & Hd' & If' & Hp' & ->).
  rewrite !lhs_astuple in E. f_equal. destruct (IOK _ _ _ Hd) as [Ok Av]. destruct (IOK _ _ _ Hd') as [Ok' Av']. specialize (Av If). specialize (Av' If').
  assert (Hf : In (f, m) fs) by (rewrite <- M; apply in_map_iff; exists (f, m, u); auto). assert (Hf' : In (f', m') fs) by (rewrite <- M; apply in_map_iff; exists (f', m', u'); auto).
  pose proof (i_keys _ _ _ IV fin (ext_refl _)) as IK.
  assert (OL : ~ has (str "}<") (flabel f)) by (destruct Ok as (O & _); apply oklabel_root in O; apply O). assert (OL' : ~ has (str "}<") (flabel f')) by (destruct Ok' as (O & _); apply oklabel_root in O; apply O).
  assert (IDS : forall k v, lk k fin = Some v -> idof fin k = v) by (intros k v K; unfold idof; now rewrite K).
  destruct (faux_cont prefix fin f u p Ok If (CT _ _ Hf) Hp) as [(L & mk & EL)|(P & c & -> & N & (more & MM) & K)];
  destruct (faux_cont prefix fin f' u' p' Ok' If' (CT _ _ Hf') Hp') as [(L' & mk' & EL')|(P' & c' & -> & N' & (more' & MM') & K')].
  - rewrite EL, EL' in E. apply newlabel_inj in E; auto. destruct E as [_ <-]. pose proof (IINJ _ _ _ _ _ Hd Hd' If If') as <-. rewrite L in L'. apply app_inj_tail in L'. rewrite <- L in L'. now destruct L'.
  - exfalso. rewrite EL in E. cbn [plhs auxrule] in E. apply newlabel_inj in E; auto. destruct E as [_ E]. destruct (IK _ _ _ _ Hd' K') as (v & V). rewrite (IDS _ _ V) in E. destruct Av as [_ Av]. now apply (Av _ _ V).
  - exfalso. rewrite EL' in E. cbn [plhs auxrule] in E. apply newlabel_inj in E; auto. destruct E as [_ E]. destruct (IK _ _ _ _ Hd K) as (v & V). rewrite (IDS _ _ V) in E. destruct Av' as [_ Av']. now apply (Av' _ _ V).
  - cbn [plhs auxrule] in E. apply newlabel_inj in E; auto. destruct E as [EL E]. destruct (IK _ _ _ _ Hd K) as (v & V). destruct (IK _ _ _ _ Hd' K') as (v' & V'). rewrite (IDS _ _ V), (IDS _ _ V') in E. subst v'.
    pose proof (io_inj _ (i_ids _ _ _ IV) _ _ _ V V') as EK. apply keyP_join in EK; auto.
    assert (EP : P ++ [c] = P' ++ [c']) by (apply (J f m f' m' (P ++ [c]) (P' ++ [c']) more more'); auto; rewrite <- app_assoc; auto).
    apply app_inj_tail in EP. destruct EP as [-> ->]. now rewrite EL.
Qed.
(** the condition on commas holds when there are none *)
Lemma join_nocomma : forall P P', (forall x, In x P -> x <> [] /\ ~ In (ch ",") x) -> (forall x, In x P' -> x <> [] /\ ~ In (ch ",") x) -> join (str ",") P = join (str ",") P' -> P = P'.
Proof.
  assert (SP : forall x y (a b : pystr), ~ In (ch ",") x -> ~ In (ch ",") y -> x ++ ch "," :: a = y ++ ch "," :: b -> x = y /\ a = b).
  { induction x as [|c x IH]; intros [|d y] a b Hx Hy E; cbn in E.
    - injection E as ->. auto.
    - injection E as E _. exfalso. apply Hy. now left.
    - injection E as E _. exfalso. apply Hx. now left.
    - injection E as -> E. destruct (IH y a b) as [-> ->]; auto; intros X; [apply Hx|apply Hy]; now right. }
  assert (NC : forall x (y a : pystr), ~ In (ch ",") x -> x <> y ++ ch "," :: a) by (intros x y a H ->; apply H; apply in_or_app; right; now left).
  assert (JN : forall P x y, join (str ",") (x :: y :: P) = x ++ ch "," :: join (str ",") (y :: P)) by reflexivity.
  induction P as [|x P IH]; intros P' H H' E.
  - destruct P' as [|y P']; auto. exfalso. destruct (H' y (or_introl eq_refl)) as [NY _]. destruct P' as [|z P']; [cbn in E; congruence|]. rewrite JN in E. destruct y; [congruence|discriminate].
  - destruct (H x (or_introl eq_refl)) as [NX CX]. destruct P' as [|y P']; [exfalso; destruct P as [|z P]; [cbn in E; congruence|rewrite JN in E; destruct x; [congruence|discriminate]]|].
    destruct (H' y (or_introl eq_refl)) as [NY CY]. destruct P as [|z P], P' as [|z' P'].
    + cbn in E. now subst.
    + rewrite JN in E. cbn [join] in E. exfalso. exact (NC _ _ _ CX E).
    + rewrite JN in E. cbn [join] in E. exfalso. symmetry in E. exact (NC _ _ _ CY E).
    + rewrite !JN in E. apply SP in E; auto. destruct E as [-> E]. f_equal. apply IH; auto; intros w Hw; [apply H|apply H']; now right.
Qed.
Lemma nocomma_joinable : forall fs, (forall f n c, In (f, n) fs -> In c (sites f) -> wlabel c <> [] /\ ~ In (ch ",") (wlabel c)) -> joinable fs.
Proof.
  intros fs H f n f' n' P P' more more' Hf Hf' E E' EJ. apply join_nocomma; auto; intros x Hx.
  - assert (I : In x (map wlabel (sites f))) by (rewrite E; apply in_or_app; now left). apply in_map_iff in I. destruct I as (c & <- & Hc). eauto.
  - assert (I : In x (map wlabel (sites f'))) by (rewrite E'; apply in_or_app; now left). apply in_map_iff in I. destruct I as (c & <- & Hc). eauto.
Qed.
