(** C60, second part: coarse-to-fine parsing with k = 0 loses nothing; what
    checkwhitelist tests. *)
From Coq Require Import List Bool Arith NArith ZArith Lia.
From Verif Require Import BitsModel BitsSpec BitsProofs FanoutProofs ConcatModel ConcatSpec ConcatProps.
From Verif Require Import PlcfrsModel PlcfrsSpec PlcfrsProofs PlcfrsProofs2 PlcfrsProps.
From Verif Require Import InOutModel InOutProofs2 CtfModel CtfProofs.
Import ListNotations.
Open Scope list_scope.
Open Scope nat_scope.

(** A coarse and a fine LCFRS such that projecting the labels of a fine rule
    gives a coarse rule with the same yield function; the start symbol does not
    occur on right-hand sides.  The coarse chart is filtered (k = 0) and the fine
    grammar is parsed with the resulting whitelist: the best parse of the
    sentence has the same probability as without pruning, and there is one
    exactly if there is one without pruning. *)
Theorem C60_lossless : forall maxlog cr fr cmask fmask cstart fstart csent fsent cfan ffan proj fmapping ch,
  length csent < 64 -> wf_grammar cfan cr -> wf_lexicon cfan csent -> NoDup cr -> tags_apart nolist cr cmask csent ->
  wf_grammar ffan fr -> wf_lexicon ffan fsent -> NoDup fr -> tags_apart nolist fr fmask fsent ->
  refines proj cr cmask fr fmask -> refines_tags proj csent fsent -> proj fstart = cstart ->
  (forall r, usable fr fmask r -> proj (prhs1 r) <> cstart /\ (prhs2 r <> 0 -> proj (prhs2 r) <> cstart)) ->
  (forall x, fmapping x = 0 \/ fmapping x = proj x) ->
  Forall (fun w => entries w = [] \/ goldlabels w = []) fsent ->
  parse_small nolist maxlog cr cmask cstart true csent true ch ->
  let w := prunechart ch (small_root cstart (length csent)) fmapping in
  forall exh exh' chn chw,
  parse_small nolist maxlog fr fmask fstart exh fsent true chn ->
  parse_small (allow w) maxlog fr fmask fstart exh' fsent true chw ->
  probs N chw (small_root fstart (length fsent)) = probs N chn (small_root fstart (length fsent)).
Proof.
  intros maxlog cr fr cmask fmask cstart fstart csent fsent cfan ffan proj fmapping ch
    LEN WG WL ND TA WGF WLF NDF TAF RR RT RS NS MP NG PC w exh exh' chn chw PN PW.
  assert (LENF : length fsent < 64) by (rewrite (forall2_len _ _ _ _ _ RT); exact LEN).
  assert (TAW : tags_apart (allow w) fr fmask fsent).
  { intros i x c r T U E. apply (TAF i x c r); auto. destruct T as [fw EW F _|fw EW NE Gx Ec].
    - eapply t_lexicon; eauto; reflexivity.
    - eapply t_gold; eauto. intros y d Hy _. rewrite Forall_forall in NG. destruct (NG fw (nth_error_In _ _ EW)) as [Z|Z]; rewrite Z in *; contradiction. }
  pose proof (C54_root exh nolist maxlog fr fmask fstart fsent ffan LENF WGF WLF NDF TAF chn PN) as RN.
  pose proof (C54_root exh' (allow w) maxlog fr fmask fstart fsent ffan LENF WGF WLF NDF TAW chw PW) as RW.
  pose proof (lossless_best maxlog cr fr cmask fmask cstart fstart csent fsent cfan proj fmapping LEN WG WL ND TA RR RT RS NS MP ch PC NG) as LB.
  fold w in LB. destruct (probs N chn (small_root fstart (length fsent))) as [p|].
  - apply RW. apply LB. now apply RN.
  - destruct (probs N chw (small_root fstart (length fsent))) as [p|]; auto. assert (Some p = None :> option N); [|discriminate].
    symmetry. apply RN. apply LB. now apply RW.
Qed.

(** no item of a fine derivation of the sentence is blocked *)
Theorem C60_nothing_lost : forall maxlog cr fr cmask fmask cstart fstart csent fsent cfan proj fmapping ch,
  length csent < 64 -> wf_grammar cfan cr -> wf_lexicon cfan csent -> NoDup cr -> tags_apart nolist cr cmask csent ->
  refines proj cr cmask fr fmask -> refines_tags proj csent fsent -> proj fstart = cstart ->
  (forall r, usable fr fmask r -> proj (prhs1 r) <> cstart /\ (prhs2 r <> 0 -> proj (prhs2 r) <> cstart)) ->
  (forall x, fmapping x = 0 \/ fmapping x = proj x) ->
  parse_small nolist maxlog cr cmask cstart true csent true ch ->
  let w := prunechart ch (small_root cstart (length csent)) fmapping in
  forall c,
  derives N word_bit set_join (on_list nolist) fr fmask anywhere fsent fstart (2 ^ N.of_nat (length fsent) - 1)%N c ->
  derives N word_bit set_join (on_list (allow w)) fr fmask anywhere fsent fstart (2 ^ N.of_nat (length fsent) - 1)%N c.
Proof.
  intros maxlog cr fr cmask fmask cstart fstart csent fsent cfan proj fmapping ch LEN WG WL ND TA RR RT RS NS MP PC w c D.
  destruct (cproject cr fr cmask fmask cstart csent fsent proj RR RT NS _ _ _ D) as (c' & D').
  pose proof (forall2_len _ _ _ _ _ RT) as EL. rewrite RS, EL in D'.
  apply (nothing_lost maxlog cr fr cmask fmask cstart csent fsent cfan proj fmapping LEN WG WL ND TA RR RT NS MP ch PC); auto.
  - apply (cindexed maxlog cr cmask cstart csent cfan LEN WG WL ND TA ch PC). exists c'. exact D'.
  - rewrite RS, EL. constructor.
Qed.

(** What checkwhitelist tests with splitprune and markorigin: the k-th component
    of the item must be on the list with the k-th split label. *)
Definition interval_set (a b : N) (v : N) : Prop := forall i, member v i <-> (a <= i < b)%N.
Lemma interval_bits : forall a b, (a < b)%N -> (b < 64)%N -> interval_set a b (wsub (wshl 1 b) (wshl 1 a)).
Proof.
  intros a b H1 H2 i. unfold wsub, wshl.
  assert (P : forall c, (c < 64)%N -> N.land (N.shiftl 1 c) ones64 = (2 ^ c)%N).
  { intros c Hc. rewrite N.shiftl_1_l. change ones64 with (N.ones 64). rewrite N.land_ones. apply N.mod_small. apply N.pow_lt_mono_r; lia. }
  rewrite (P a) by lia. rewrite (P b) by lia. assert (2 ^ a < 2 ^ b)%N by (apply N.pow_lt_mono_r; lia). assert (2 ^ b < 2 ^ 64)%N by (apply N.pow_lt_mono_r; lia).
  assert (TW : two64 = (2 ^ 64)%N) by reflexivity.
  replace ((2 ^ b + two64 - 2 ^ a) mod two64)%N with (2 ^ b - 2 ^ a)%N.
  2:{ rewrite TW. apply (N.mod_unique _ _ 1); lia. }
  replace (2 ^ b - 2 ^ a)%N with (N.shiftl (N.ones (b - a)) a).
  2:{ rewrite N.shiftl_mul_pow2, N.ones_equiv, <- N.sub_1_r, N.mul_sub_distr_r, <- N.pow_add_r. f_equal; [f_equal; lia|lia]. }
  unfold member. destruct (N.lt_ge_cases i a) as [L|L].
  - rewrite N.shiftl_spec_low by exact L. split; [discriminate|lia].
  - rewrite N.shiftl_spec_high' by exact L. destruct (N.lt_ge_cases (i - a) (b - a)) as [K|K].
    + rewrite N.ones_spec_low by exact K. split; [lia|auto].
    + rewrite N.ones_spec_high by exact K. split; [discriminate|lia].
Qed.
Lemma interval_unique : forall a b v v', interval_set a b v -> interval_set a b v' -> v = v'.
Proof.
  intros a b v v' H H'. apply N.bits_inj. intros i. specialize (H i). specialize (H' i). unfold member in *.
  destruct (N.testbit v i), (N.testbit v' i); auto; [destruct (proj2 H' (proj1 H eq_refl))|destruct (proj2 H (proj1 H' eq_refl))]; reflexivity.
Qed.
Lemma splitloop_ok : forall L fuel w label vec b ms cnt,
  (vec < 2 ^ 63)%N -> (forall i, (b <= i)%N -> (member vec i <-> covered L i)) -> separated b L -> length L < fuel -> skipn cnt (splitmapping w label) = ms -> length ms = length L ->
  exists r, splitloop fuel w true label vec b cnt = Some r /\
  (r = true <-> Forall2 (fun m c => exists v, In (m, v) (small w) /\ interval_set (fst c) (snd c) v) ms L).
Proof.
  induction L as [|[a e] L IH]; intros fuel w label vec b ms cnt HV HM HS HF HK HL.
  - destruct fuel as [|fuel]; [cbn in HF; lia|]. destruct ms; [|discriminate]. cbn [splitloop].
    destruct (nextset_ok vec b) as [[-> _]|(r & _ & G & M & _)].
    + exists true. split; [reflexivity|]. split; constructor.
    + apply HM in M; [|exact G]. destruct M as (? & ? & [] & _).
  - destruct fuel as [|fuel]; [cbn in HF; lia|]. destruct ms as [|m ms]; [discriminate|]. cbn [splitloop].
    destruct HS as (S1 & S2 & S3).
    assert (LOW : forall lo (l : list interval) i, separated lo l -> covered l i -> (lo <= i)%N).
    { clear. intros lo l. revert lo. induction l as [|[x y] l IHl]; intros lo i H (p & q & HI & B); [destruct HI|]; destruct HI as [E|HI]; cbn in H.
      - injection E as <- <-. lia.
      - assert (y + 1 <= i)%N; [|lia]. apply IHl; [tauto|]. exists p, q. auto. }
    assert (A0 : nextset vec b = Z.of_N a).
    { destruct (nextset_ok vec b) as [[_ F]|(r & -> & G & M & F)].
      - exfalso. apply (F a S1). apply HM; auto. exists a, e. split; [now left|lia].
      - f_equal. apply HM in M; auto. destruct (N.lt_trichotomy r a) as [Lt|[->|Gt]]; auto; exfalso.
        + destruct M as (x & y & [E|HI] & B); [injection E as <- <-; lia|]. assert (e + 1 <= r)%N by (apply (LOW _ L); [exact S3|exists x, y; auto]). lia.
        + apply (F a). lia. apply HM; auto. exists a, e. split; [now left|lia]. }
    assert (IN : forall i, (a <= i < e)%N -> member vec i) by (intros i Hi; apply HM; [lia|]; exists a, e; split; [now left|exact Hi]).
    assert (E64 : (e < 64)%N).
    { assert (M : member vec (e - 1)) by (apply IN; lia). destruct (N.lt_ge_cases (e - 1) 63) as [|G]; [lia|].
      unfold member in M. rewrite (proj1 (lt_pow2_bits vec 63) HV _ G) in M. discriminate. }
    assert (NE : ~ member vec e).
    { intros M. apply HM in M; [|lia]. destruct M as (x & y & [E|HI] & B); [injection E as <- <-; lia|].
      assert (e + 1 <= e)%N by (apply (LOW _ L); [exact S3|exists x, y; auto]). lia. }
    assert (A1 : nextunset vec a = Z.of_N e).
    { destruct (nextunset_ok vec a) as (r & -> & R); [apply (N.lt_trans _ (2 ^ 63)); [exact HV|reflexivity]|].
      f_equal. destruct R as [[-> R]|(R1 & R2 & R3)]; [destruct NE; apply R; lia|].
      destruct (N.lt_trichotomy r e) as [Lt|[->|Gt]]; auto; exfalso; [apply R2, IN; lia|apply NE, R3; lia]. }
    rewrite A0.
    assert (NTH : nth_error (splitmapping w label) cnt = Some m).
    { rewrite <- (firstn_skipn cnt (splitmapping w label)), HK. assert (cnt < length (splitmapping w label)).
      { destruct (Nat.le_gt_cases (length (splitmapping w label)) cnt) as [G|G]; auto. rewrite skipn_all2 in HK by exact G. discriminate. }
      rewrite nth_error_app2; rewrite firstn_length_le by lia; [|lia]. now rewrite Nat.sub_diag. }
    assert (SK : skipn (cnt + 1) (splitmapping w label) = ms).
    { clear - HK. revert HK. generalize (splitmapping w label). induction cnt as [|k IHk]; intros l H; destruct l as [|y l]; cbn in *; try discriminate; [now injection H as _ ->|]. now apply IHk. }
    assert (ST : forall i, (e <= i)%N -> (member vec i <-> covered L i)).
    { intros i Hi. rewrite HM by lia. split; intros (x & y & HI & B); [destruct HI as [E|HI]; [injection E as <- <-; lia|]; exists x, y; auto|exists x, y; split; [now right|exact B]]. }
    assert (SEP : separated e L) by (destruct L as [|[x y] L']; cbn in *; [exact Logic.I|]; destruct S3 as (? & ? & ?); repeat split; auto; lia).
    destruct (IH fuel w label vec e ms (cnt + 1) HV ST SEP ltac:(cbn in HF; lia) SK ltac:(cbn in HL; lia)) as (r & E1 & E2).
    assert (G : exists r0, (if wl_count w (m, wsub (wshl 1 e) (wshl 1 a)) then splitloop fuel w true label vec e (cnt + 1) else Some false) = Some r0 /\
       (r0 = true <-> Forall2 (fun m c => exists v, In (m, v) (small w) /\ interval_set (fst c) (snd c) v) (m :: ms) ((a, e) :: L))).
    { pose proof (interval_bits a e S2 E64) as IB. destruct (wl_count w (m, wsub (wshl 1 e) (wshl 1 a))) eqn:EC.
      - exists r. split; [exact E1|]. rewrite E2. unfold wl_count in EC. apply existsb_exists in EC. destruct EC as (it & HI & EI). apply ieqb_eq in EI. subst it. split.
        + intros F. constructor; [|exact F]. eexists. split; [exact HI|exact IB].
        + intros F. now inversion F.
      - exists false. split; [reflexivity|]. split; [discriminate|]. intros F. inversion F as [|? ? ? ? (v & HI & IV) _]; subst.
        rewrite (interval_unique _ _ _ _ IV IB) in HI. assert (wl_count w (m, wsub (wshl 1 e) (wshl 1 a)) = true); [|congruence].
        unfold wl_count. apply existsb_exists. eexists. split; [exact HI|]. now apply ieqb_eq. }
    destruct (Z.of_N a) as [|za|za] eqn:Ez; [| |destruct a; discriminate]; rewrite <- Ez, N2Z.id, A1, N2Z.id, NTH; exact G.
Qed.
Theorem C60_checkwhitelist_split : forall w label vec L,
  (vec < 2 ^ 63)%N -> components vec L -> splitmapping w label <> [] -> length (splitmapping w label) = length L ->
  exists r, checkwhitelist w true true (label, vec) = Some r /\
  (r = true <-> Forall2 (fun m c => exists v, In (m, v) (small w) /\ interval_set (fst c) (snd c) v) (splitmapping w label) L).
Proof.
  intros w label vec L HV [HS HM] NE HL. unfold checkwhitelist. destruct (splitmapping w label) as [|m0 ms0] eqn:EM; [congruence|].
  rewrite <- EM in HL |- *. apply (splitloop_ok L 65 w label vec 0 (splitmapping w label) 0); auto.
  (* a set of numbers below 63 has at most 63 components *)
  assert (B : forall l lo, separated lo l -> (forall i, covered l i -> (i < 63)%N) -> length l <> 0 -> (N.of_nat (length l) + lo <= 63)%N).
  { clear. induction l as [|[x y] l IH]; intros lo S C NZ; [destruct NZ; reflexivity|]. cbn in S. destruct S as (S1 & S2 & S3). cbn [length].
    assert (x < 63)%N by (apply C; exists x, y; split; [now left|lia]).
    destruct l as [|c l]; [cbn [length]; lia|]. assert (N.of_nat (length (c :: l)) + (y + 1) <= 63)%N by (apply IH; [exact S3|intros i (p & q & HI & BI); apply C; exists p, q; split; [now right|exact BI]|discriminate]).
    lia. }
  destruct (Nat.eq_dec (length L) 0) as [->|NZ]; [lia|].
  assert (N.of_nat (length L) + 0 <= 63)%N; [|lia]. apply B; auto. intros i Hi. apply HM in Hi. unfold member in Hi.
  destruct (N.lt_ge_cases i 63) as [|G]; auto. rewrite (proj1 (lt_pow2_bits vec 63) HV _ G) in Hi. discriminate.
Qed.
(** With splitprune but without markorigin, nothing is tested for an item whose
    label has a coarse label, and the empty split mapping is read for the others. *)
Theorem C60_split_without_markorigin_refuted : forall items mp vec label,
  mp label <> 0 -> checkwhitelist (Whitelist items mp (fun _ => [])) true false (label, vec) = Some true.
Proof. intros items mp vec label H. unfold checkwhitelist. cbn [mapping]. rewrite (proj2 (Nat.eqb_neq _ _) H). reflexivity. Qed.

(** * Examples *)
(** S -> A B, A -> a, B -> b; the fine grammar distinguishes two kinds of A *)
Definition ex_cr := [PRule 1 2 3 5 0 [[false; true]]].
Definition ex_fr := [PRule 1 2 4 3 0 [[false; true]]; PRule 1 3 4 9 1 [[false; true]]].
Definition ex_csent := [Word [(2, 1%N)] []; Word [(3, 1%N)] []].
Definition ex_fsent := [Word [(2, 4%N); (3, 0%N)] []; Word [(4, 1%N)] []].
Definition ex_proj (x : nat) : nat := match x with 1 => 1 | 2 => 2 | 3 => 2 | 4 => 3 | _ => 0 end.
Definition ex_no (n : nat) : bool := false.
Example C60_ex_hyps : wf_grammar (fun _ => 1) ex_cr /\ wf_lexicon (fun _ => 1) ex_csent /\ NoDup ex_cr /\ tags_apart nolist ex_cr ex_no ex_csent /\
  refines ex_proj ex_cr ex_no ex_fr ex_no /\ refines_tags ex_proj ex_csent ex_fsent /\ ex_proj 1 = 1 /\
  (forall r, usable ex_fr ex_no r -> ex_proj (prhs1 r) <> 1 /\ (prhs2 r <> 0 -> ex_proj (prhs2 r) <> 1)).
Proof.
  split; [|split; [|split; [|split; [|split; [|split; [|split]]]]]].
  - apply Forall_cons; [|apply Forall_nil]. cbn. split; [|split; [lia|auto]]. split; [discriminate|]. repeat constructor; discriminate.
  - apply Forall_cons; [|apply Forall_cons; [|apply Forall_nil]]; (split; [auto|split; [auto|constructor]]).
  - constructor; [intros []|constructor].
  - intros i x c r _ [[<-|[]] _] E. discriminate E.
  - intros r [[<-|[<-|[]]] _]; exists (PRule 1 2 3 5 0 [[false; true]]); cbn; (split; [split; [now left|reflexivity]|auto]).
  - apply Forall2_cons; [|apply Forall2_cons; [|apply Forall2_nil]]; (split; [|discriminate]).
    + intros x [<-|[<-|[]]]; cbn; auto.
    + intros x [<-|[]]; cbn; auto.
  - reflexivity.
  - intros r [[<-|[<-|[]]] _]; cbn; (split; [discriminate|intros _; discriminate]).
Qed.
Definition ex_chart : PlcfrsModel.chart N :=
  match populatepos N N.eqb (fun i => 2 ^ N.of_nat i)%N N.ltb nolist (emptychart N) 0 ex_csent with
  | Some (_, ch) => runloop N N.eqb concat_small combine_small bitcount N.ltb nolist 300 ex_cr ex_no (small_root 1 2) 10 true ch
  | None => emptychart N
  end.
Example C60_ex : small (prunechart ex_chart (small_root 1 2) ex_proj) = [(1, 3%N); (2, 1%N); (3, 2%N)] /\
  allow (prunechart ex_chart (small_root 1 2) ex_proj) (3, 1%N) = true /\
  allow (prunechart ex_chart (small_root 1 2) ex_proj) (3, 2%N) = false.
Proof. vm_compute. auto. Qed.
Example C60_ex_split : checkwhitelist (Whitelist [(7, 3%N); (8, 48%N)] (fun _ => 0) (fun _ => [7; 8])) true true (5, 51%N) = Some true /\
  checkwhitelist (Whitelist [(7, 3%N); (8, 32%N)] (fun _ => 0) (fun _ => [7; 8])) true true (5, 51%N) = Some false.
Proof. vm_compute. auto. Qed.
