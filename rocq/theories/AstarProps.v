(** C68: A* parsing with outside estimates finds the best parse. *)
From Coq Require Import List Bool Arith NArith ZArith Lia.
From Verif Require Import McpModel EstModel EstSpec EstProps.
From Verif Require Import BitsModel BitsSpec BitsProofs FanoutProofs ConcatModel ConcatSpec ConcatProps.
From Verif Require Import PlcfrsModel PlcfrsSpec PlcfrsProofs PlcfrsProofs2 PlcfrsProps AstarModel AstarSpec AstarProofs AstarProofs2.
Import ListNotations.
Open Scope list_scope.
Open Scope nat_scope.

(** The input: less than 64 words; every tag of a word is listed once, and there
    is no fallback to given tags (gold or otherwise). *)
Definition astar_input (fan : nat -> nat) (sent : list word) : Prop :=
  length sent < 64 /\ wf_lexicon fan sent /\
  (forall w, In w sent -> goldlabels w = [] /\ NoDup (map fst (entries w))).
Notation whole sent := (2 ^ N.of_nat (length sent) - 1)%N.

Section Lrgaps.
Variables (wl : item N -> bool) (rules : list prule) (mask : nat -> bool) (start : nat) (sent : list word) (fan : nat -> nat).
Hypothesis WG : wf_grammar fan rules.
Hypothesis IN : astar_input fan sent.
Variable outside : nat -> nat -> nat -> nat -> option N.
Lemma extent_le : forall u a b, sgood (length sent) u -> extent u a b -> b <= length sent.
Proof.
  intros u a b [U0 U1] (AB & _ & M & _).
  destruct (Nat.le_gt_cases b (length sent)) as [X|X]; [exact X|].
  exfalso. unfold member in M. rewrite N.bits_above_log2 in M; [discriminate|].
  apply N.log2_lt_pow2; [lia|]. eapply N.lt_le_trans; [exact U1|]. apply N.pow_le_mono_r; lia.
Qed.
Lemma adm_lrgaps : admissible_lrgaps (on_list wl) rules mask sent start outside ->
  admissible N word_bit set_join (callowed N wl) rules mask anywhere sent (small_root start (length sent)) (sxlrgaps outside (length sent)).
Proof.
  destruct IN as (LEN & WL & _). intros AD C y u d W. cbn [fst snd small_root] in W.
  pose proof (within_inner N word_bit set_join (callowed N wl) rules mask anywhere sent _ _ _ _ _ _ W) as D.
  apply (set_P wl rules mask sent fan LEN WG WL) in D.
  destruct (AP_below mask sent fan LEN y u D) as [U0 U1].
  pose proof (extent_exists u U0 U1) as EX.
  assert (LM : lists_members (member u) (bits_of u)) by apply bits_of_spec.
  destruct (AD C y u d _ _ _ W EX LM) as (e & OE & LE). exists e. split; [|exact LE].
  rewrite <- OE. apply lrgaps_value; auto. eapply extent_le; [apply D|exact EX].
Qed.
End Lrgaps.

Section Sx.
Variables (wl : item N -> bool) (rules : list prule) (mask : nat -> bool) (start : nat) (sent : list word).
Hypothesis WG : wf_grammar (fun _ => 1) rules.
Hypothesis IN : astar_input (fun _ => 1) sent.
Variable outside : nat -> nat -> nat -> option N.
Lemma one_component : forall x v, AP sent (fun _ => 1) x v -> exists a b, components v [(a, b)].
Proof.
  intros x v [[_ (L & C & E)] _]. destruct L as [|[a b] [|? ?]]; try discriminate. now exists a, b.
Qed.
Lemma sx_same : forall x v, AP sent (fun _ => 1) x v -> sx_un outside (length sent) x v = sx_bin outside (length sent) x v.
Proof.
  intros x v A. destruct IN as (LEN & _ & _). destruct (one_component x v A) as (a & b & C).
  destruct (AP_below mask sent (fun _ => 1) LEN x v A) as [_ U1].
  destruct (sx_value outside (length sent) x v a b U1 C) as [-> ->]. reflexivity.
Qed.
Lemma sx_lex_same : forall i x, i < length sent -> sx_lex outside (length sent) i x = sx_bin outside (length sent) x (2 ^ N.of_nat i)%N.
Proof.
  intros i x L. destruct IN as (LEN & _ & _).
  assert (B1 : (2 ^ N.of_nat i < 2 ^ 64)%N) by (apply N.pow_lt_mono_r; lia).
  destruct (sx_value outside (length sent) x _ _ _ B1 (components_bit mask sent LEN i)) as [_ ->].
  unfold sx_lex. f_equal; lia.
Qed.
Lemma adm_sx : admissible_sx (on_list wl) rules mask sent start outside ->
  admissible N word_bit set_join (callowed N wl) rules mask anywhere sent (small_root start (length sent)) (sx_bin outside (length sent)).
Proof.
  destruct IN as (LEN & WL & _). intros AD C y u d W. cbn [fst snd small_root] in W.
  pose proof (within_inner N word_bit set_join (callowed N wl) rules mask anywhere sent _ _ _ _ _ _ W) as D.
  apply (set_P wl rules mask sent (fun _ => 1) LEN WG WL) in D.
  destruct (AP_below mask sent (fun _ => 1) LEN y u D) as [U0 U1].
  destruct (one_component y u D) as (a & b & CO).
  destruct (AD C y u d _ _ W (extent_one _ _ _ CO)) as (e & OE & LE). exists e. split; [|exact LE].
  rewrite <- OE. now apply sx_value.
Qed.
End Sx.

(** With admissible estimates SXlrgaps, the root gets the cost of the best
    derivation, if it is at most MAX_LOGPROB; otherwise there is no parse. *)
Theorem C68_lrgaps : forall wl maxlog outside rules mask start sent fan,
  wf_grammar fan rules -> astar_input fan sent ->
  admissible_lrgaps (on_list wl) rules mask sent start outside ->
  forall exh b ch, astar_lrgaps wl maxlog outside rules mask start exh sent b ch -> forall p,
  probs N ch (small_root start (length sent)) = Some p <->
  best N word_bit set_join (on_list wl) rules mask anywhere sent start (whole sent) p /\ (p <= maxlog)%N.
Proof.
  intros wl maxlog outside rules mask start sent fan WG IN AD exh b ch P p.
  pose proof IN as (LEN & WL & ENT).
  apply (small_exact wl maxlog rules mask start sent fan LEN WG WL) with
    (estlex := fun i x => outside x 1 (i + (length sent - 1 - i)) 0) (estun := sxlrgaps outside (length sent))
    (estbin := sxlrgaps outside (length sent)) (est := sxlrgaps outside (length sent)) (exh := exh) (b := b); auto.
  - intros w I. now apply ENT.
  - intros w I. now apply ENT.
  - intros i x L. now apply lrgaps_lex.
  - exact (adm_lrgaps wl rules mask start sent fan WG IN outside AD).
Qed.
(** The same for estimates SX and grammars without discontinuous constituents. *)
Theorem C68_sx : forall wl maxlog outside rules mask start sent,
  wf_grammar (fun _ => 1) rules -> astar_input (fun _ => 1) sent ->
  admissible_sx (on_list wl) rules mask sent start outside ->
  forall exh b ch, astar_sx wl maxlog outside rules mask start exh sent b ch -> forall p,
  probs N ch (small_root start (length sent)) = Some p <->
  best N word_bit set_join (on_list wl) rules mask anywhere sent start (whole sent) p /\ (p <= maxlog)%N.
Proof.
  intros wl maxlog outside rules mask start sent WG IN AD exh b ch P p.
  pose proof IN as (LEN & WL & ENT).
  apply (small_exact wl maxlog rules mask start sent (fun _ => 1) LEN WG WL) with
    (estlex := sx_lex outside (length sent)) (estun := sx_un outside (length sent))
    (estbin := sx_bin outside (length sent)) (est := sx_bin outside (length sent)) (exh := exh) (b := b); auto.
  - intros w I. now apply ENT.
  - intros w I. now apply ENT.
  - now apply sx_lex_same.
  - now apply sx_same.
  - exact (adm_sx wl rules mask start sent WG IN outside AD).
Qed.

(** ** the estimates of C67 *)
(** a PCFG: the daughters of binary rules are adjacent *)
Definition pcfg_rules (rules : list prule) : Prop := forall r, In r rules -> prhs2 r <> 0 -> ryf r = [[false; true]].
Definition conv (r : prule) : erule := ERule (plhs r) (prhs1 r) (prhs2 r) (pprob r).
Lemma pcfg_wf : forall rules, pcfg_rules rules -> wf_grammar (fun _ => 1) rules.
Proof.
  intros rules PR. apply Forall_forall. intros r I. destruct (Nat.eqb_spec (prhs2 r) 0) as [E|E]; [reflexivity|].
  rewrite (PR r I E). split; [split; [discriminate|repeat constructor; discriminate]|]. split; [cbn; lia|]. repeat split.
Qed.
Section Pcfg.
Variables (allowed : nat -> N -> Prop) (rules : list prule) (mask : nat -> bool) (sent : list word) (nts : nat) (lex : list (nat * N)).
Hypothesis PR : pcfg_rules rules.
Hypothesis LX : forall w x c, In w sent -> In (x, c) (entries w) -> In (x, c) lex.
Hypothesis LEN : length sent < 64.
Hypothesis NG : forall w, In w sent -> goldlabels w = [].
Notation g := (EGrammar nts (map conv rules) lex).
Notation derivesN := (derives N word_bit set_join allowed rules mask anywhere sent).
Notation withinN := (within N word_bit set_join allowed rules mask anywhere sent).
Definition spans (v : N) (a : N) (k : nat) : Prop := components v [(a, (a + N.of_nat k)%N)].
Lemma conv_in : forall r, In r rules -> In (conv r) (g_rules g).
Proof. intros r I. cbn [g_rules]. now apply in_map. Qed.
Lemma join_adjacent : forall v1 v2 v a1 k1 a2 k2, set_join [[false; true]] v1 v2 v -> spans v1 a1 k1 -> spans v2 a2 k2 ->
  a2 = (a1 + N.of_nat k1)%N /\ spans v a1 (k1 + k2).
Proof.
  intros v1 v2 v a1 k1 a2 k2 (L & R & C1 & C2 & (U & Y & SU) & M) S1 S2.
  pose proof (components_unique _ _ _ C1 S1) as ->. pose proof (components_unique _ _ _ C2 S2) as ->.
  inversion Y as [|x xs L0 R0 a b L' R' U' AR YR]; subst. 
  inversion AR as [| |a' b' c' L1 R1 L1' R1' y ys AR2|]; subst.
  inversion AR2; subst. split; [reflexivity|].
  destruct S1 as [SE1 M1]. destruct S2 as [SE2 M2]. cbn in SE1, SE2. split; [cbn; lia|].
  intros i. rewrite M, M1, M2, !covered_cons. pose proof (covered_nil i). intuition lia.
Qed.
Lemma derives_tree : forall x v c, derivesN x v c ->
  exists t a, derivation g t /\ plabel t = x /\ pcost t = c /\ spans v a (psize t).
Proof.
  intros x v c D. induction D as [i x c T|r v c [I _] E D IH _ A|r v1 v2 v a b [I _] E D1 IH1 _ D2 IH2 _ J A].
  - destruct T as [w EW F _|w EW _ H _].
    + exists (PLex x c), (N.of_nat i). cbn [derivation plabel pcost psize g_lexical]. apply nth_error_In in EW.
      split; [apply (LX w); auto; now apply first_entry_in|]. split; [reflexivity|]. split; [reflexivity|].
      exact (components_bit mask sent LEN i).
    + apply nth_error_In in EW. rewrite (NG _ EW) in H. destruct H.
  - destruct IH as (t & a & Dt & L & C & S). exists (PUn (conv r) t), a. cbn [derivation plabel pcost psize].
    split; [|split; [reflexivity|split; [cbn; lia|exact S]]]. split; [now apply conv_in|]. split; [exact E|]. split; [now symmetry|exact Dt].
  - destruct IH1 as (t1 & a1 & Dt1 & L1 & C1 & S1). destruct IH2 as (t2 & a2 & Dt2 & L2 & C2 & S2).
    rewrite (PR r I E) in J. destruct (join_adjacent _ _ _ _ _ _ _ J S1 S2) as [_ S].
    exists (PBin (conv r) t1 t2), a1. cbn [derivation plabel pcost psize].
    split; [|split; [reflexivity|split; [cbn; lia|exact S]]].
    split; [now apply conv_in|]. split; [exact E|]. split; [now symmetry|]. split; [now symmetry|]. auto.
Qed.
Lemma within_tree : forall x v C y u d, withinN x v C y u d ->
  exists T s m n a, derivation g T /\ plabel T = x /\ pcost T = C /\ spans v a (psize T) /\
    occurs T s m n /\ plabel s = y /\ pcost s = d /\ spans u (a + N.of_nat m) (psize s) /\ m + psize s + n = psize T.
Proof.
  intros x v C y u d W. induction W as [x v c D|r v c y u d [I _] E W IH NGl A
    |r v1 v2 v a b y u d [I _] E W IH N1 D2 N2 J A|r v1 v2 v a b y u d [I _] E D1 N1 W IH N2 J A].
  - destruct (derives_tree x v c D) as (t & a & Dt & L & Co & S). exists t, t, 0, 0, a.
    split; [exact Dt|]. split; [exact L|]. split; [exact Co|]. split; [exact S|]. split; [constructor|].
    split; [exact L|]. split; [exact Co|]. rewrite N.add_0_r. split; [exact S|]. lia.
  - destruct IH as (T & s & m & n & a & H1 & H2 & H3 & H4 & H5 & H6 & H7 & H8 & H9).
    exists (PUn (conv r) T), s, m, n, a. cbn [derivation plabel pcost psize].
    split; [split; [now apply conv_in|]; split; [exact E|]; split; [now symmetry|exact H1]|].
    split; [reflexivity|]. split; [cbn; lia|]. split; [exact H4|]. split; [now constructor|]. auto.
  - destruct IH as (T & s & m & n & a1 & H1 & H2 & H3 & H4 & H5 & H6 & H7 & H8 & H9).
    destruct (derives_tree _ _ _ D2) as (t2 & a2 & Dt2 & L2 & C2 & S2).
    rewrite (PR r I E) in J. destruct (join_adjacent _ _ _ _ _ _ _ J H4 S2) as [_ S].
    exists (PBin (conv r) T t2), s, m, (n + psize t2), a1. cbn [derivation plabel pcost psize].
    split; [split; [now apply conv_in|]; split; [exact E|]; split; [now symmetry|]; split; [now symmetry|]; auto|].
    split; [reflexivity|]. split; [cbn; lia|]. split; [exact S|]. split; [now constructor|].
    split; [exact H6|]. split; [exact H7|]. split; [exact H8|]. lia.
  - destruct IH as (T & s & m & n & a2 & H1 & H2 & H3 & H4 & H5 & H6 & H7 & H8 & H9).
    destruct (derives_tree _ _ _ D1) as (t1 & a1 & Dt1 & L1 & C1 & S1).
    rewrite (PR r I E) in J. destruct (join_adjacent _ _ _ _ _ _ _ J S1 H4) as [EA S].
    exists (PBin (conv r) t1 T), s, (psize t1 + m), n, a1. cbn [derivation plabel pcost psize].
    split; [split; [now apply conv_in|]; split; [exact E|]; split; [now symmetry|]; split; [now symmetry|]; auto|].
    split; [reflexivity|]. split; [cbn; lia|]. split; [exact S|]. split; [now constructor|].
    split; [exact H6|]. split; [exact H7|]. split; [|lia].
    replace (a1 + N.of_nat (psize t1 + m))%N with (a2 + N.of_nat m)%N by lia. exact H8.
Qed.
Lemma whole_components : sent <> [] -> components (whole sent) [(0%N, N.of_nat (length sent))].
Proof.
  intros NE. assert (0 < length sent) by (destruct sent; [congruence|cbn; lia]). split; [cbn; lia|].
  intros i. unfold member. rewrite N.sub_1_r, <- N.ones_equiv, bits_ones, N.ltb_lt, covered_cons.
  pose proof (covered_nil i). intuition lia.
Qed.
Lemma estimates_admissible : forall maxlen start out, length sent <= maxlen -> fewrules g ->
  getpcfgestimates g maxlen start out ->
  admissible_sx allowed rules mask sent start (fun x l r => dget okey_eqb (x, l, r) out).
Proof.
  intros maxlen start out LE FR EO C y u d a b W EX.
  destruct (within_tree _ _ _ _ _ _ W) as (T & s & m & n & a0 & H1 & H2 & H3 & H4 & H5 & H6 & H7 & H8 & H9).
  assert (NE : sent <> []).
  { intros ->. cbn in H4. pose proof (components_unique _ _ _ H4 components_zero). discriminate. }
  pose proof (components_unique _ _ _ H4 (whole_components NE)) as EQ. injection EQ as E0 E1.
  assert (PS : psize T = length sent) by lia.
  pose proof (extent_unique _ _ _ _ _ EX (extent_one _ _ _ H8)) as [Ea Eb].
  assert (L1 : 1 <= maxlen) by (destruct sent; [congruence|cbn in LE; lia]).
  destruct (C67_admissible g maxlen start out FR L1 EO T s m n H1 H2 ltac:(lia) H5) as (e & G & LEc).
  exists e. rewrite H6 in G. replace a with m by lia. replace (length sent - b) with n by lia. split; [exact G|]. lia.
Qed.
End Pcfg.
(** Parsing with a PCFG and the estimates computed from the same grammar: whatever
    the whitelist and the blocked rules, the best parse is found. *)
Theorem C68_pcfg : forall wl maxlog rules mask start sent nts lex maxlen out,
  pcfg_rules rules -> astar_input (fun _ => 1) sent ->
  (forall w x c, In w sent -> In (x, c) (entries w) -> In (x, c) lex) ->
  length sent <= maxlen -> fewrules (EGrammar nts (map conv rules) lex) ->
  getpcfgestimates (EGrammar nts (map conv rules) lex) maxlen start out ->
  forall exh b ch, astar_sx wl maxlog (fun x l r => dget okey_eqb (x, l, r) out) rules mask start exh sent b ch -> forall p,
  probs N ch (small_root start (length sent)) = Some p <->
  best N word_bit set_join (on_list wl) rules mask anywhere sent start (whole sent) p /\ (p <= maxlog)%N.
Proof.
  intros wl maxlog rules mask start sent nts lex maxlen out PR IN LX LE FR EO exh b ch P.
  pose proof IN as (LEN & WL & ENT).
  apply (C68_sx wl maxlog (fun x l r => dget okey_eqb (x, l, r) out) rules mask start sent (pcfg_wf rules PR) IN) with (exh := exh) (b := b); [|exact P].
  apply (estimates_admissible (on_list wl) rules mask sent nts lex PR LX LEN) with (maxlen := maxlen); auto.
  intros w I. now apply ENT.
Qed.

(** Parsing always ends without an exception, *)
Theorem C68_total : forall wl maxlog rules mask start sent fan,
  wf_grammar fan rules -> astar_input fan sent ->
  (forall outside exh, exists b ch, astar_lrgaps wl maxlog outside rules mask start exh sent b ch) /\
  ((forall x, fan x = 1) -> forall outside exh, exists b ch, astar_sx wl maxlog outside rules mask start exh sent b ch).
Proof.
  intros wl maxlog rules mask start sent fan WG IN. pose proof IN as (LEN & WL & ENT). split.
  - intros outside exh. apply (small_total wl maxlog rules mask start sent fan LEN WG WL) with (est := sxlrgaps outside (length sent)); auto.
    + intros w I. now apply ENT.
    + intros w I. now apply ENT.
    + intros i x L. now apply lrgaps_lex.
  - intros F1 outside exh.
    assert (AE : forall x v, AP sent fan x v -> AP sent (fun _ => 1) x v).
    { intros x v [[A (L & CL & E)] B]. split; [|exact B]. split; [exact A|]. exists L. rewrite <- (F1 x). auto. }
    assert (IN1 : astar_input (fun _ => 1) sent).
    { split; [exact LEN|]. split; [|exact ENT]. apply Forall_forall. intros w I.
      unfold wf_lexicon in WL. rewrite Forall_forall in WL. destruct (WL w I) as (_ & _ & X). auto. }
    apply (small_total wl maxlog rules mask start sent fan LEN WG WL) with (est := sx_bin outside (length sent)); auto.
    + intros w I. now apply ENT.
    + intros w I. now apply ENT.
    + now apply sx_lex_same.
    + intros x v A. now apply sx_same, AE.
Qed.
(** and however ties are broken, after a bounded number of iterations (an item may
    be taken from the agenda again whenever a better derivation is found). *)
Theorem C68_terminates : forall wl maxlog rules mask start sent fan,
  wf_grammar fan rules -> astar_input fan sent ->
  forall outside exh n ch ch',
  a_populatepos N N.eqb word_bit N.ltb wl maxlog (fun i x => outside x 1 (i + (length sent - 1 - i)) 0) (emptychart N) 0 sent = Some (true, ch) ->
  a_loop N N.eqb concat_small combine_small N.ltb wl maxlog (sxlrgaps outside (length sent)) (sxlrgaps outside (length sent))
    rules mask (small_root start (length sent)) exh n ch ch' ->
  n <= length (labels rules sent) * N.to_nat (2 ^ N.of_nat (length sent)) * (1 + N.to_nat maxlog).
Proof.
  intros wl maxlog rules mask start sent fan WG IN outside exh n ch ch' E L. pose proof IN as (LEN & WL & ENT).
  apply (small_bound wl maxlog rules mask start sent fan LEN WG WL) with
    (estlex := fun i x => outside x 1 (i + (length sent - 1 - i)) 0) (estun := sxlrgaps outside (length sent))
    (estbin := sxlrgaps outside (length sent)) (est := sxlrgaps outside (length sent)) (exh := exh) (ch := ch) (ch' := ch'); auto.
  - intros w I. now apply ENT.
  - intros w I. now apply ENT.
  - intros i x Li. now apply lrgaps_lex.
Qed.

(** *** cost of a constituent *)
Lemma within_more : forall vec single join allowed rules mask daughter sent k,
  (forall r, In r rules -> (k <= pprob r)%N) ->
  forall x v C y u d, within vec single join allowed rules mask daughter sent x v C y u d ->
  (x = y /\ v = u /\ C = d) \/ (d + k <= C)%N.
Proof.
  intros vec single join allowed rules mask daughter sent k K x v C y u d W.
  induction W as [x v c D|r v c y u d [I _] E W IH NGl A
    |r v1 v2 v a b y u d [I _] E W IH N1 D2 N2 J A|r v1 v2 v a b y u d [I _] E D1 N1 W IH N2 J A]; auto;
    specialize (K r I); right; destruct IH as [(_ & _ & ->)|IH]; lia.
Qed.
(** *** Without estimates a parse with any probability is found (C54); with
    estimates, a parse less probable than exp(-MAX_LOGPROB) is lost. *)
Definition rare_rules : list prule := [PRule 1 2 2 3 0 [[false; true]]].
Definition rare_sent : list word := [Word [(2, 2%N)] []; Word [(2, 2%N)] []].
Theorem C68_improbable_refuted : ~ forall wl maxlog outside rules mask start sent,
  wf_grammar (fun _ => 1) rules -> astar_input (fun _ => 1) sent ->
  admissible_sx (on_list wl) rules mask sent start outside ->
  forall b ch, astar_sx wl maxlog outside rules mask start true sent b ch ->
  derivable N word_bit set_join (on_list wl) rules mask anywhere sent start (whole sent) ->
  exists p, probs N ch (small_root start (length sent)) = Some p.
Proof.
  intros H.
  assert (PR : pcfg_rules rare_rules) by (intros r [<-|[]] _; reflexivity).
  assert (IN : astar_input (fun _ => 1) rare_sent).
  { split; [cbn; lia|]. split; [repeat constructor; cbn; intuition|]. intros w [<-|[<-|[]]]; split; auto; repeat constructor; cbn; tauto. }
  assert (AD : admissible_sx (on_list nolist) rare_rules nomask rare_sent 1 (fun _ _ _ => Some 0%N)).
  { intros C y u d a b W _. exists 0%N. split; [reflexivity|].
    destruct (within_more _ _ _ _ _ _ _ _ 0%N (fun r _ => N.le_0_l _) _ _ _ _ _ _ W) as [(_ & _ & ->)|LE]; lia. }
  pose proof (pcfg_wf _ PR) as WG.
  destruct (C68_total nolist 6 rare_rules nomask 1 rare_sent _ WG IN) as [_ T].
  destruct (T (fun _ => eq_refl) (fun _ _ _ => Some 0%N) true) as (b & ch & P).
  assert (D : derives N word_bit set_join (on_list nolist) rare_rules nomask anywhere rare_sent 1 3%N (3 + 2 + 2)%N).
  { assert (W : forall i, i < 2 -> derives N word_bit set_join (on_list nolist) rare_rules nomask anywhere rare_sent 2 (word_bit i) 2%N).
    { intros i L. apply d_word. apply (t_lexicon _ _ _ _ _ _ _ (Word [(2, 2%N)] [])); [|exists [], []; split; [reflexivity|intros ? []]|reflexivity].
      destruct i as [|[|i]]; [reflexivity|reflexivity|lia]. }
    apply (d_binary _ _ _ _ _ _ _ _ (PRule 1 2 2 3 0 [[false; true]]) (word_bit 0) (word_bit 1) 3%N 2%N 2%N); auto; try exact I; try reflexivity.
    - split; [now left|reflexivity].
    - discriminate.
    - exists [(0%N, 1%N)], [(1%N, 2%N)]. 
      split; [exact (components_bit nomask [] ltac:(cbn; lia) 0)|]. split; [exact (components_bit nomask [] ltac:(cbn; lia) 1)|].
      split; [|intros i; change 3%N with (N.lor (word_bit 0) (word_bit 1)); unfold member; rewrite N.lor_spec; apply orb_true_iff].
      exists [(0%N, 2%N)]. split; [|cbn; lia]. econstructor; [|constructor]. econstructor. constructor. }
  destruct (H nolist 6%N _ rare_rules nomask 1 rare_sent WG IN AD b ch P (ex_intro _ _ D)) as [p Ep].
  apply (C68_sx nolist 6%N _ rare_rules nomask 1 rare_sent WG IN AD true b ch P) in Ep. destruct Ep as [[Dp _] LP].
  destruct (derives_tree (on_list nolist) rare_rules nomask rare_sent 0 [(2, 2%N)] PR) with (x := 1) (v := 3%N) (c := p) as (t & a & Dt & Lt & Ct & _); auto.
  - intros w x c [<-|[<-|[]]]; cbn; auto.
  - cbn; lia.
  - intros w [<-|[<-|[]]]; reflexivity.
  - destruct t as [l q|r t|r t1 t2]; cbn in Dt, Lt.
    + destruct Dt as [E|[]]. injection E as <- _. discriminate.
    + destruct Dt as ([<-|[]] & E & _). discriminate.
    + destruct Dt as ([<-|[]] & _ & L1 & L2 & D1 & D2). cbn in L1, L2.
      destruct t1 as [l1 q1|r1 ?|r1 ? ?]; cbn in L1, D1; try (destruct D1 as ([<-|[]] & _); discriminate).
      destruct t2 as [l2 q2|r2 ?|r2 ? ?]; cbn in L2, D2; try (destruct D2 as ([<-|[]] & _); discriminate).
      destruct D1 as [E1|[]]. destruct D2 as [E2|[]]. injection E1 as <- <-. injection E2 as <- <-. cbn in Ct. lia.
Qed.

(** *** non-vacuity *)
(** a discontinuous sentence with estimates that are not 0 *)
Definition ex_sent2 : list word := [Word [(4, 1%N)] []; Word [(3, 1%N); (8, 2%N)] []; Word [(5, 0%N)] []].
Definition ex_outside (x _ _ _ : nat) : option N := if x =? 1 then Some 0%N else Some 1%N.
Example C68_ex : wf_grammar ex_fan ex_rules /\ astar_input ex_fan ex_sent2 /\
  admissible_lrgaps (on_list nolist) ex_rules nomask ex_sent2 1 ex_outside /\
  option_map (fun r => probs N (a_runloop N N.eqb concat_small combine_small N.ltb nolist 300
     (sxlrgaps ex_outside 3) (sxlrgaps ex_outside 3) ex_rules nomask (small_root 1 3) 100 false (snd r)) (1, 7%N))
     (a_populatepos N N.eqb word_bit N.ltb nolist 300 (fun i x => ex_outside x 1 (i + (2 - i)) 0) (emptychart N) 0 ex_sent2) = Some (Some 5%N).
Proof.
  split; [apply C54_ex|]. split.
  { split; [cbn; lia|]. split.
    - apply Forall_forall. intros w [<-|[<-|[<-|[]]]]; cbn; (split; [|split; [tauto|constructor]]);
        intros x c H; repeat (destruct H as [H|H]; [injection H as <- <-; reflexivity|]); destruct H.
    - intros w [<-|[<-|[<-|[]]]]; split; auto; repeat constructor; cbn; intuition discriminate. }
  split; [|vm_compute; reflexivity].
  intros C y u d a b l W _ _. unfold ex_outside.
  assert (K : forall r, In r ex_rules -> (1 <= pprob r)%N) by (intros r I; destruct I as [<-|[<-|[<-|[<-|[<-|[]]]]]]; cbn; lia).
  destruct (within_more _ _ _ _ _ _ _ _ 1%N K _ _ _ _ _ _ W) as [(<- & <- & ->)|LE].
  - exists 0%N. split; [reflexivity|lia].
  - destruct (y =? 1); [exists 0%N|exists 1%N]; split; auto; lia.
Qed.
(** a PCFG with the estimates computed from it *)
Definition ex_prules : list prule :=
  [PRule 1 2 3 1 0 [[false; true]]; PRule 2 2 3 2 1 [[false; true]]; PRule 2 3 0 1 2 [[false]]; PRule 1 1 3 4 3 [[false; true]]].
Definition ex_psent : list word := [Word [(2, 3%N); (3, 1%N)] []; Word [(3, 1%N)] []; Word [(3, 1%N)] []].
Example C68_pcfg_ex : exists out, pcfg_rules ex_prules /\ astar_input (fun _ => 1) ex_psent /\
  EGrammar 4 (map conv ex_prules) [(2, 3%N); (3, 1%N)] = EstProps.small /\
  (forall w x c, In w ex_psent -> In (x, c) (entries w) -> In (x, c) [(2, 3%N); (3, 1%N)]) /\
  fewrules EstProps.small /\ getpcfgestimates EstProps.small 4 1 out /\
  option_map (fun r => probs N (a_runloop N N.eqb concat_small combine_small N.ltb nolist 300
     (sx_un (fun x l r => dget okey_eqb (x, l, r) out) 3) (sx_bin (fun x l r => dget okey_eqb (x, l, r) out) 3)
     ex_prules nomask (small_root 1 3) 100 false (snd r)) (1, 7%N))
     (a_populatepos N N.eqb word_bit N.ltb nolist 300 (sx_lex (fun x l r => dget okey_eqb (x, l, r) out) 3) (emptychart N) 0 ex_psent) = Some (Some 7%N).
Proof.
  destruct (estimates_run EstProps.small 4 1 100) as [out|] eqn:E; [|vm_compute in E; discriminate].
  exists out. split; [intros r I NZ; destruct I as [<-|[<-|[<-|[<-|[]]]]]; try reflexivity; now destruct NZ|]. split.
  { split; [cbn; lia|]. split.
    - repeat constructor; cbn; auto.
    - intros w [<-|[<-|[<-|[]]]]; split; auto; repeat constructor; cbn; intuition discriminate. }
  split; [reflexivity|]. split; [intros w x c [<-|[<-|[<-|[]]]]; cbn; intuition|]. split; [exact small_few|].
  split; [exact (estimates_run_ok _ _ _ _ _ E)|]. vm_compute in E. injection E as <-. vm_compute. reflexivity.
Qed.
