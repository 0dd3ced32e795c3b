(** C61: the numbering of productions *)
From Coq Require Import List Bool Arith NArith Lia.
From Verif Require Import ConcatModel ConcatSpec VocabModel VocabSpec VocabProofs VocabProofs2.
Import ListNotations.
Open Scope N_scope.

Lemma history_inv : forall ps ns v, Forall wfprod ps -> history ps ns v -> exists names keys,
  Inv v names keys /\ Forall (named names) ps /\ Forall (fun p => In (key names p) keys) ps /\ ns = map (fun p => pos (key names p) keys) ps /\
  (forall k, In k keys <-> In k (map (key names) ps)).
Proof.
  intros ps ns v W H. destruct (getprods_ok ps init _ _ inv_init W) as (ns' & v' & names & keys & G & I1 & _ & _ & NA & M & P & A).
  unfold history in H. rewrite G in H. injection H as <- <-. exists names, keys. repeat (split; [assumption|]). intros k. rewrite A. cbn. tauto.
Qed.
Lemma names_fit : forall v names keys, Inv v names keys -> fits v -> size names < 2 ^ 32.
Proof. intros v names keys IV (F & _ & _). rewrite (i_labels _ _ _ IV) in F. unfold size in *. rewrite number_length in F. lia. Qed.

(** No well-formed production is rejected. *)
Theorem C61_total : forall ps, Forall wfprod ps -> exists ns v, history ps ns v /\ length ns = length ps.
Proof.
  intros ps W. destruct (getprods_ok ps init _ _ inv_init W) as (ns & v & names & keys & G & _ & _ & _ & _ & _ & P & _).
  exists ns, v. split; [exact G|]. rewrite P. apply map_length.
Qed.

(** A production keeps its number: asking again, after anything else has been
    added, returns the number first returned and changes nothing. *)
Theorem C61_stable : forall ps ns v i p, Forall wfprod ps -> history ps ns v -> nth_error ps i = Some p ->
  exists n, nth_error ns i = Some n /\ getprod v p = Some (n, v).
Proof.
  intros ps ns v i p W H E. destruct (history_inv ps ns v W H) as (names & keys & IV & NA & M & P & A).
  pose proof (nth_error_In _ _ E) as HI. rewrite Forall_forall in W, NA, M.
  exists (pos (key names p) keys). split; [rewrite P; now rewrite nth_error_map, E|].
  destruct (getprod_ok v names keys p IV (W p HI)) as (n & v' & n' & k' & G & _ & _ & _ & _ & _ & _ & _ & SAME).
  destruct (SAME (NA p HI) (M p HI)) as [-> ->]. exact G.
Qed.

(** Two calls return the same number exactly if they are for the same production. *)
Theorem C61_injective : forall ps ns v i j p q n m, Forall wfprod ps -> history ps ns v -> fits v ->
  nth_error ps i = Some p -> nth_error ps j = Some q -> nth_error ns i = Some n -> nth_error ns j = Some m -> (n = m <-> p = q).
Proof.
  intros ps ns v i j p q n m W H F Ep Eq En Em. destruct (history_inv ps ns v W H) as (names & keys & IV & NA & M & P & A).
  rewrite P in En, Em. rewrite nth_error_map in En, Em. rewrite Ep in En. rewrite Eq in Em. injection En as <-. injection Em as <-.
  split; [|now intros ->]. intros X. rewrite Forall_forall in W, NA, M. pose proof (nth_error_In _ _ Ep) as Hp. pose proof (nth_error_In _ _ Eq) as Hq.
  apply pos_inj in X; auto. apply (key_inj names p q (i_eps _ _ _ IV) (names_fit _ _ _ IV F)); auto.
Qed.

(** The numbers in use are 0, 1, 2, ... without gaps. *)
Theorem C61_dense : forall ps ns v, Forall wfprod ps -> history ps ns v -> forall n, In n ns <-> n < size (prods v).
Proof.
  intros ps ns v W H n. destruct (history_inv ps ns v W H) as (names & keys & IV & NA & M & P & A).
  rewrite (i_prods _ _ _ IV). unfold size. rewrite number_length. fold (size keys). rewrite P. rewrite in_map_iff. split.
  - intros (p & <- & Hp). apply pos_lt. rewrite Forall_forall in M. auto.
  - intros L. destruct (nth_error keys (N.to_nat n)) as [k|] eqn:E; [|apply nth_error_None in E; unfold size in L; lia].
    pose proof (nth_error_In _ _ E) as HK. pose proof HK as HK2. apply A in HK2. apply in_map_iff in HK2. destruct HK2 as (p & <- & Hp). exists p. split; auto.
    pose proof (pos_nth _ _ HK) as E2. assert (X : N.to_nat (pos (key names p) keys) = N.to_nat n).
    { apply (proj1 (NoDup_nth_error keys) (i_keys _ _ _ IV)); [apply nth_error_Some; congruence|congruence]. }
    lia.
Qed.

(** The label, the word, and whether a production is lexical, can be recovered
    from the number alone. *)
Theorem C61_readback : forall ps ns v i p n, Forall wfprod ps -> history ps ns v -> fits v ->
  nth_error ps i = Some p -> nth_error ns i = Some n ->
  getlabel v n = lhs_of p /\
  islexical v n = match snd p with YWords _ => true | YVars _ => false end /\
  (forall w, snd p = YWords w -> getword v n = Some w) /\
  (length (fst p) = 1%nat -> getword v n = None).
Proof.
  intros ps ns v i p n W H F Ep En. destruct (history_inv ps ns v W H) as (names & keys & IV & NA & M & P & A).
  rewrite P in En. rewrite nth_error_map, Ep in En. injection En as <-. rewrite Forall_forall in W, NA, M. pose proof (nth_error_In _ _ Ep) as Hp.
  pose proof (pos_nth _ _ (M p Hp)) as E. pose proof (names_fit _ _ _ IV F) as SZ. destruct (NA p Hp) as [N1 N2].
  assert (B : forall l, In l names -> pos l names < 2 ^ 32) by (intros l Hl; apply pos_lt in Hl; lia).
  assert (Z : 0 < 2 ^ 32) by reflexivity. pose proof (i_eps _ _ _ IV) as EPS.
  pose proof (fields_ok v names keys (N.to_nat (pos (key names p) keys))) as FO. rewrite N2Nat.id in FO.
  specialize (W p Hp). unfold getlabel, islexical, getword. set (n := pos (key names p) keys) in *.
  destruct W as [l|l w Hw|l r1 yf H1 Hy HL|l r1 r2 yf H1 H2 Hy HL]; cbn [key] in E; cbn [fst snd lhs_of hd length] in *;
    try (destruct (getyf_small _ Hy HL) as [A1 A2]);
    (destruct (FO _ _ _ _ _ IV E) as (G0 & G3 & G4); try assumption; try (apply B; auto; apply N1; now left)); rewrite G0, G3, G4;
    (assert (Hl : In l names) by (apply N1; now left)); rewrite (idtolabel_ok v names keys l IV F Hl).
  - split; [reflexivity|]. split; [reflexivity|]. split; [discriminate|]. reflexivity.
  - assert (NZ : pos w names =? 0 = false) by (apply N.eqb_neq; intros X; apply Hw; now apply (pos_eps names w EPS N2)). rewrite NZ.
    rewrite (idtolabel_ok v names keys w IV F N2). split; [reflexivity|]. split; [reflexivity|]. split; [intros w' X; congruence|discriminate].
  - pose proof (getyf_nonzero yf Hy) as NZ. apply N.eqb_neq in NZ. rewrite NZ. split; [reflexivity|]. split; [apply andb_false_r|]. split; discriminate.
  - pose proof (getyf_nonzero yf Hy) as NZ. apply N.eqb_neq in NZ. rewrite NZ. split; [reflexivity|]. split; [apply andb_false_r|]. split; discriminate.
Qed.

(** A vocabulary that is written and read again is the same vocabulary: it
    gives the same answers and the same numbers, also to new productions. *)
Theorem C61_file_roundtrip : forall ps ns v, Forall wfprod ps -> history ps ns v -> fits v -> fromfile (tofile v) = Some v.
Proof. intros ps ns v W H F. destruct (history_inv ps ns v W H) as (names & keys & IV & _). eapply file_ok; eauto. Qed.

(** ** a case that meets the hypotheses: S -> NP VP (discontinuous), NP -> 'a', a
    frontier VP, and NP -> 'a' again *)
Definition exS : bytes := [83]. Definition exNP : bytes := [78; 80]. Definition exVP : bytes := [86; 80]. Definition exa : bytes := [97].
Definition exprods : list production :=
  [([exS; exNP; exVP], YVars [[false; true; false]]); ([exNP; epsilon], YWords exa); ([exVP], YVars []); ([exNP; epsilon], YWords exa); ([exVP; exNP], YVars [[false]])].
Theorem C61_example : Forall wfprod exprods /\ exists v, history exprods [0; 1; 2; 1; 3] v /\ fits v.
Proof.
  split.
  - assert (wf_yf [[false; true; false]]) by (split; [discriminate|constructor; [discriminate|constructor]]).
    assert (wf_yf [[false]]) by (split; [discriminate|constructor; [discriminate|constructor]]).
    unfold exprods. apply Forall_cons; [apply wf_binary; auto; try discriminate; cbn; lia|]. apply Forall_cons; [apply wf_lexical; discriminate|].
    apply Forall_cons; [apply wf_frontier|]. apply Forall_cons; [apply wf_lexical; discriminate|].
    apply Forall_cons; [apply wf_unary; auto; try discriminate; cbn; lia|]. constructor.
  - eexists. split; [vm_compute; reflexivity|]. vm_compute. auto.
Qed.

(** ** Without the condition that words differ from the reserved name, numbers
    are not injective: the frontier node NP and NP -> 'Epsilon' get the same
    number, and the latter is not recognised as lexical. *)
Theorem C61_epsilon_refuted : exists v, history [([exNP], YVars []); ([exNP; epsilon], YWords epsilon)] [0; 0] v /\ fits v /\ islexical v 0 = false.
Proof. eexists. split; [vm_compute; reflexivity|]. vm_compute. auto. Qed.
(** ** getword of a phrasal production is not None: the bits of its yield
    function are taken for the number of a label. *)
Theorem C61_getword_phrasal_refuted : exists ns v, history [([exS; exNP; exVP], YVars [[false; true]])] ns v /\ getword v 0 = Some exNP.
Proof. eexists. eexists. split; vm_compute; reflexivity. Qed.
Print Assumptions C61_file_roundtrip.
Print Assumptions C61_injective.
Print Assumptions C61_readback.
