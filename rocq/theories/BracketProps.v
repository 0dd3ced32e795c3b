(** Bracket notation, escaping, and the (disc)bracket treebank formats.

    C17 Tree.parse inverts str() and pprint()
    C18 escape / unescape
    C19 discbrackettree inverts writediscbrackettree; brackettree inverts
        writebrackettree

    A terminal or label is "clean" when it is a non-empty string without
    whitespace and brackets. *)
From Coq Require Import String.
From Coq Require Import List Bool Arith NArith Lia.
From Verif Require Import PyStr TreeModel BracketModel BracketProofs EscapeProofs BracketIO.
Import ListNotations.
Open Scope list_scope.

(** ---- specification vocabulary ---- *)
Definition clean_string (w : pystr) : Prop := w <> [] /\ forall c, In c w -> isspace c = false /\ c <> openb /\ c <> closeb.
Fixpoint all_labels {L A} (P : L -> Prop) (t : tree L A) : Prop :=
  match t with Leaf _ => True | Node l ts => P l /\ fold_right (fun c r => all_labels P c /\ r) True ts end.
(** no terminal has a sibling to its right *)
Fixpoint terminals_last {L A} (t : tree L A) : Prop :=
  match t with
  | Leaf _ => True
  | Node _ ts => fold_right (fun c r => terminals_last c /\ r) True ts /\
                 forall i a, nth_error ts i = Some (Leaf a) -> i = length ts - 1
  end.
(** every terminal is an only child, every node has a child *)
Fixpoint preterminals_only {L A} (t : tree L A) : Prop :=
  match t with
  | Leaf _ => True
  | Node _ ts => fold_right (fun c r => preterminals_only c /\ r) True ts /\ ts <> [] /\
                 forall i a, nth_error ts i = Some (Leaf a) -> length ts = 1
  end.
(** the words that survive escaping (C18) and contain no whitespace *)
Definition writable (w : option pystr) : Prop :=
  match w with None => True | Some w => (forall c, In c w -> isspace c = false) /\ unescape (escape (Some w)) = Some w end.

(** ---- bridging lemmas ---- *)
Lemma clean_string_iff : forall w, clean_string w <-> clean_word w = true.
Proof.
  intros w. rewrite clean_word_iff, forallb_forall. unfold clean_string. split; intros [N H]; split; auto; intros c Hc; specialize (H c Hc).
  - destruct H as (H1 & H2 & H3). unfold labelchar. rewrite H1. apply N.eqb_neq in H2, H3. now rewrite H2, H3.
  - apply labelchar_not in H. destruct H as (H1 & H2 & H3). apply N.eqb_neq in H2, H3. auto.
Qed.
Lemma fold_and : forall T (P : T -> Prop) l, fold_right (fun c r => P c /\ r) True l <-> Forall P l.
Proof.
  induction l as [|x l IH]; cbn; split; auto.
  - intros [H1 H2]. constructor; [auto|now apply IH].
  - intros H. inversion H; subst. split; auto. now apply IH.
Qed.
Lemma labels_bridge : forall A (t : tree pystr A), all_labels clean_string t -> labels_clean t = true.
Proof.
  intros A t. induction t as [a|l ts IH] using tree_ind'; intros H; [reflexivity|]. cbn in *. destruct H as [H1 H2].
  apply clean_string_iff in H1. rewrite H1. cbn. rewrite fold_and in H2. apply forallb_forall. intros c Hc.
  rewrite Forall_forall in *. auto.
Qed.
Lemma last_bridge : forall L A (t : tree L A), terminals_last t -> lastleaf t = true.
Proof.
  intros L A t. induction t as [a|l ts IH] using tree_ind'; intros H; [reflexivity|]. cbn in *. destruct H as [H1 H2].
  rewrite fold_and in H1. apply andb_true_intro. split.
  - apply forallb_forall. intros c Hc. rewrite Forall_forall in *. auto.
  - clear IH H1. induction ts as [|x ts IH]; [reflexivity|]. destruct ts as [|y ts]; [reflexivity|].
    change (removelast (x :: y :: ts)) with (x :: removelast (y :: ts)). cbn [forallb]. apply andb_true_intro. split.
    + destruct x; [|reflexivity]. specialize (H2 0 a eq_refl). cbn in H2. discriminate.
    + apply IH. intros i a E. specialize (H2 (S i) a E). cbn in *. lia.
Qed.
Lemma preterms_bridge : forall L A (t : tree L A), preterminals_only t -> preterms t = true.
Proof.
  intros L A t. induction t as [a|l ts IH] using tree_ind'; intros H; [reflexivity|]. cbn in *. destruct H as (H1 & H2 & H3).
  rewrite fold_and in H1.
  assert (G : (exists a, ts = [Leaf a]) \/ forallb (fun c : tree L A => match c with Node _ _ => true | Leaf _ => false end) ts = true).
  { destruct (forallb (fun c : tree L A => match c with Node _ _ => true | Leaf _ => false end) ts) eqn:E; auto. left.
    assert (X : exists a, In (Leaf a) ts).
    { clear - E. induction ts as [|x ts IH]; [discriminate|]. destruct x; [exists a; now left|]. cbn in E. destruct (IH E) as [a Ha]. exists a. now right. }
    destruct X as [a Ha]. apply In_nth_error in Ha. destruct Ha as [i Hi]. pose proof (H3 i a Hi) as HL.
    destruct ts as [|x [|y ts]]; try discriminate. destruct i; [|destruct i; discriminate]. cbn in Hi. injection Hi as ->. eauto. }
  destruct G as [[a ->]|G]; [reflexivity|].
  assert (G2 : forallb preterms ts = true) by (apply forallb_forall; intros c Hc; rewrite Forall_forall in *; auto).
  rewrite G, G2. destruct ts as [|x ts]; [congruence|]. destruct x; [cbn in G; discriminate|]. destruct ts; reflexivity.
Qed.
Lemma writable_bridge : forall sent, Forall writable sent -> Forall word_ok sent.
Proof.
  intros sent H. eapply Forall_impl; [|exact H]. intros [w|] Hw; [|exact I]. destruct Hw as [H1 H2]. split; auto.
  apply forallb_forall. intros c Hc. rewrite H1; auto.
Qed.
Lemma clean_bridge : forall A (show : A -> pystr) t, all_labels clean_string t -> (forall a, In a (leaves t) -> clean_string (show a)) -> clean show t = true.
Proof. intros A show t H1 H2. apply clean_shows; [now apply labels_bridge|]. intros a Ha. apply clean_string_iff. auto. Qed.

Ltac conjs := repeat (match goal with |- _ /\ _ => split end).
Ltac lab := cbn [all_labels fold_right]; conjs; try exact I; apply clean_string_iff; reflexivity.
Ltac shp := cbn [terminals_last preterminals_only fold_right]; conjs; try exact I; try discriminate; intros [|[|[|i]]] a H; inversion H; reflexivity.
Ltac wrd := repeat constructor; intros c H; cbn in H; repeat (destruct H as [<-|H]; [reflexivity|]); contradiction.

(** ---- C17 ---- *)
(** str(t) and t.pprint(indent, margin), surrounded by any whitespace *)
Theorem C17_parse_str : forall l ts (t := Node l ts) lead trail, all_labels clean_string t -> (forall w, In w (leaves t) -> clean_string w) ->
  forallb isspace lead = true -> forallb isspace trail = true ->
  parse_str (lead ++ pprint_flat (fun w => w) t ++ trail) = POk t tt /\
  forall margin indent, parse_str (lead ++ pprint (fun w => w) margin indent t ++ trail) = POk t tt.
Proof.
  intros l ts t lead trail H1 H2 W1 W2. pose proof (clean_bridge _ (fun w : pystr => w) t H1 H2) as C. unfold parse_str.
  assert (B : forall st, build (fun (st : unit) w => Some (st, w)) (fun w : pystr => w) st t = Some (st, t)).
  { intros st. rewrite (build_id _ _ _ _ (fun st _ => st)) by reflexivity. now destruct st, (fold_left (fun (st : unit) (_ : pystr) => st) (leaves t) tt). }
  split; [|intros margin indent].
  - unfold t in *. rewrite (parse_layout _ _ _ _ (fun w : pystr => w) l ts _ tt lead trail C (flat_layout _ _ _) W1 W2). now rewrite B.
  - unfold t in *. rewrite (parse_layout _ _ _ _ (fun w : pystr => w) l ts _ tt lead trail C (pprint_layout _ _ _ _ _) W1 W2). now rewrite B.
Qed.
(** trees over sentence positions, parse_leaf=int *)
Theorem C17_parse_int : forall l ts (t := Node l ts) lead trail, all_labels clean_string t ->
  forallb isspace lead = true -> forallb isspace trail = true ->
  parse_int (lead ++ pprint_flat dec t ++ trail) = POk t tt /\
  forall margin indent, parse_int (lead ++ pprint dec margin indent t ++ trail) = POk t tt.
Proof.
  intros l ts t lead trail H1 W1 W2.
  assert (C : clean dec t = true).
  { apply clean_shows; [now apply labels_bridge|]. intros i Hi. apply clean_word_iff. split; [apply dec_nonempty|apply dec_label]. }
  unfold parse_int. set (pl := fun (st : unit) w => match undec w with Some n => Some (st, n) | None => None end).
  assert (B : forall st, build pl dec st t = Some (st, t)).
  { intros st. rewrite (build_id _ _ _ _ (fun st _ => st)). 2: { intros [] i _. unfold pl. now rewrite undec_dec. }
    now destruct st, (fold_left (fun (st : unit) (_ : nat) => st) (leaves t) tt). }
  split; [|intros margin indent].
  - unfold t in *. rewrite (parse_layout _ _ _ _ dec l ts _ tt lead trail C (flat_layout _ _ _) W1 W2). now rewrite B.
  - unfold t in *. rewrite (parse_layout _ _ _ _ dec l ts _ tt lead trail C (pprint_layout _ _ _ _ _) W1 W2). now rewrite B.
Qed.
(** hence printing is injective *)
Theorem C17_str_injective : forall l ts l' ts' (t := Node l ts) (t' := Node l' ts'),
  all_labels clean_string t -> all_labels clean_string t' ->
  (forall w, In w (leaves t) -> clean_string w) -> (forall w, In w (leaves t') -> clean_string w) ->
  pprint_flat (fun w => w) t = pprint_flat (fun w => w) t' -> t = t'.
Proof.
  intros l ts l' ts' t t' H1 H2 H3 H4 E.
  destruct (C17_parse_str l ts [] [] H1 H3 eq_refl eq_refl) as [P1 _].
  destruct (C17_parse_str l' ts' [] [] H2 H4 eq_refl eq_refl) as [P2 _].
  fold t in P1. fold t' in P2. rewrite E, P2 in P1. clear - P1. injection P1 as P1 P2. subst t t'. congruence.
Qed.
(** the conditions matter: an empty label, and an empty terminal *)
Theorem C17_empty_label_refuted : exists t : tree pystr pystr, (forall w, In w (leaves t) -> clean_string w) /\
  parse_str (pprint_flat (fun w => w) t) <> POk t tt.
Proof.
  exists (Node [] [Leaf (str "a")]). split; [|intros H; vm_compute in H; discriminate H]. intros w [<-|[]]. apply clean_string_iff. reflexivity.
Qed.

(** ---- C18 ---- *)
Definition occurs (p w : pystr) : Prop := exists l r, w = l ++ p ++ r.
(** the strings that make a word ambiguous *)
Definition reserved : list pystr :=
  [str "#LRB#"; str "#LRB("; str "#LRB)"; str ")LRB#"; str ")LRB("; str ")LRB)"; str "#RRB#"; str "#RRB)"].
Definition b3 (s : pystr) : bool := startswith s (str "LRB#") || startswith s (str "LRB(") || startswith s (str "LRB)").
Lemma sw_cons : forall c s p ps, startswith (c :: s) (p :: ps) = N.eqb p c && startswith s ps.
Proof. reflexivity. Qed.
Lemma bad_rrb : forall s, bad 76 40 (35%N :: rrb s) = b3 s.
Proof.
  intros s. unfold bad, pat, b3. change (str "LRB#") with [76;82;66;35]%N. change (str "LRB(") with [76;82;66;40]%N. change (str "LRB)") with [76;82;66;41]%N.
  rewrite !sw_cons, !N.eqb_refl. cbn [andb]. unfold rrb.
  rewrite !esc_head by discriminate. destruct s as [|c s]; [reflexivity|]. rewrite !sw_cons. destruct (N.eqb 76 c); [|reflexivity]. cbn [andb].
  rewrite !esc_head by discriminate. destruct s as [|c2 s]; [reflexivity|]. rewrite !sw_cons. destruct (N.eqb 82 c2); [|reflexivity]. cbn [andb].
  rewrite !esc_head by discriminate. destruct s as [|c3 s]; [reflexivity|]. rewrite !sw_cons. destruct (N.eqb 66 c3); [|reflexivity]. cbn [andb].
  rewrite esc_hash. rewrite esc_head by discriminate. destruct s as [|c4 s]; [reflexivity|]. rewrite !sw_cons.
  replace (startswith s []) with true by (destruct s; reflexivity). replace (startswith (esc1 82 41 s) []) with true by (destruct (esc1 82 41 s); reflexivity).
  rewrite !andb_true_r. destruct (N.eqb 35 c4), (N.eqb 40 c4), (N.eqb 41 c4); reflexivity.
Qed.
Lemma no_bad_rrb : forall w, no_bad 76 40 (rrb w) = true <-> (forall l c r, w = l ++ c :: r -> c = 35%N \/ c = 41%N -> b3 r = false).
Proof.
  induction w as [|c w IH].
  { split; [intros _ l c r H|reflexivity]. destruct l; discriminate. }
  assert (ST : no_bad 76 40 (rrb (c :: w)) = (if N.eqb 35 c || N.eqb 41 c then negb (b3 w) else true) && no_bad 76 40 (rrb w)).
  { unfold rrb at 1. rewrite esc_step. fold (rrb w). destruct (N.eqb_spec 41 c).
    - subst c. change (N.eqb 35 41 || true) with true. cbn [pat app]. rewrite <- bad_rrb.
      change (no_bad 76 40 (35%N :: 82%N :: 82%N :: 66%N :: 35%N :: rrb w)) with (true && (true && (true && (true && no_bad 76 40 (35%N :: rrb w))))).
      reflexivity.
    - rewrite orb_false_r. cbn [app]. destruct (N.eqb_spec 35 c).
      + subst c. rewrite <- bad_rrb. reflexivity.
      + cbn [no_bad]. unfold bad, pat. rewrite !sw_cons. replace (N.eqb 35 c) with false by (symmetry; now apply N.eqb_neq). reflexivity. }
  rewrite ST, andb_true_iff, IH. split.
  - intros [H1 H2] l d r E D. destruct l as [|x l]; cbn in E; injection E as -> E; [|eauto]. subst r.
    assert (X : N.eqb 35 d || N.eqb 41 d = true) by (destruct D; subst; reflexivity). rewrite X in H1. now apply negb_true_iff.
  - intros H. split.
    + destruct (N.eqb 35 c || N.eqb 41 c) eqn:X; auto. apply negb_true_iff. apply (H [] c w eq_refl).
      apply orb_prop in X. rewrite !N.eqb_eq in X. destruct X; subst; auto.
    + intros l d r E. apply (H (c :: l)). cbn. now rewrite E.
Qed.
Lemma b3_iff : forall w c, (forall l r, w = l ++ c :: r -> b3 r = false) <->
  ~ occurs (c :: str "LRB#") w /\ ~ occurs (c :: str "LRB(") w /\ ~ occurs (c :: str "LRB)") w.
Proof.
  intros w c. unfold occurs, b3. split.
  - intros H. repeat apply conj; intros (l & r & E); specialize (H l _ E); rewrite !orb_false_iff, <- !not_true_iff_false, !startswith_iff in H;
    destruct H as [[H1 H2] H3]; [apply H1|apply H2|apply H3]; exists r; reflexivity.
  - intros (H1 & H2 & H3) l r E. rewrite !orb_false_iff, <- !not_true_iff_false, !startswith_iff.
    repeat apply conj; intros [t ->]; [apply H1|apply H2|apply H3]; exists l, t; exact E.
Qed.
Theorem C18_roundtrip_iff : forall w, unescape (escape (Some w)) = Some w <->
  w <> [] /\ w <> str "#FRONTIER#" /\ forall p, In p reserved -> ~ occurs p w.
Proof.
  intros w. rewrite roundtrip_iff, no_bad_rrb, no_bad_iff by discriminate.
  assert (E : (forall l c r, w = l ++ c :: r -> c = 35%N \/ c = 41%N -> b3 r = false) <->
     (forall l r, w = l ++ 35%N :: r -> b3 r = false) /\ (forall l r, w = l ++ 41%N :: r -> b3 r = false)).
  { split; [intros H; split; intros; eapply H; eauto|]. intros [H1 H2] l c r E [-> | ->]; eauto. }
  rewrite E, !b3_iff. clear E. unfold reserved.
  assert (F : (forall p, In p [str "#LRB#"; str "#LRB("; str "#LRB)"; str ")LRB#"; str ")LRB("; str ")LRB)"; str "#RRB#"; str "#RRB)"] -> ~ occurs p w) <->
    Forall (fun p => ~ occurs p w) [str "#LRB#"; str "#LRB("; str "#LRB)"; str ")LRB#"; str ")LRB("; str ")LRB)"; str "#RRB#"; str "#RRB)"]).
  { rewrite Forall_forall. reflexivity. }
  rewrite F. clear F. rewrite !Forall_cons_iff. unfold occurs.
  change (pat 82) with (str "#RRB#"). change [35; 82; 82; 66; 41]%N with (str "#RRB)").
  change (35%N :: str "LRB#") with (str "#LRB#"). change (35%N :: str "LRB(") with (str "#LRB("). change (35%N :: str "LRB)") with (str "#LRB)").
  change (41%N :: str "LRB#") with (str ")LRB#"). change (41%N :: str "LRB(") with (str ")LRB("). change (41%N :: str "LRB)") with (str ")LRB)").
  split; [intros; intuition auto|intros; intuition auto].
Qed.
(** every ordinary word: without '#' the only bad words are those with a bracket
    right before and after LRB *)
Theorem C18_no_hash : forall w, w <> [] -> ~ In 35%N w -> ~ In closeb w -> unescape (escape (Some w)) = Some w.
Proof.
  intros w N H1 H2. apply C18_roundtrip_iff. split; auto. split; [intros ->; apply H1; now left|].
  assert (G : forall p c, In c p -> occurs p w -> In c w).
  { intros p c Hc (l & r & ->). apply in_or_app. right. apply in_or_app. now left. }
  intros p Hp O. unfold reserved in Hp. cbn [In] in Hp.
  assert (X : In 35%N p \/ In closeb p).
  { repeat (destruct Hp as [<-|Hp]; [cbn; first [left; left; reflexivity | right; left; reflexivity]|]). contradiction. }
  destruct X as [X|X]; [apply H1|apply H2]; eapply G; eauto.
Qed.
Theorem C18_no_brackets : forall w c, In c (escape w) -> c <> openb /\ c <> closeb.
Proof. exact escape_clean. Qed.
(** the missing word *)
Theorem C18_missing : escape None = [] /\ unescape (escape None) = None /\ unescape (str "#FRONTIER#") = None /\
  forall s, unescape s = None <-> s = [] \/ s = str "#FRONTIER#".
Proof.
  repeat apply conj; try reflexivity. intros s. unfold unescape. destruct (eqs s [] || eqs s (str "#FRONTIER#")) eqn:E.
  - apply orb_prop in E. rewrite !eqs_eq in E. tauto.
  - split; [discriminate|]. apply orb_false_elim in E. rewrite !eqs_neq in E. tauto.
Qed.
(** the converse direction: a written word is reproduced *)
Theorem C18_unescape_escape : forall w s, unescape (escape (Some w)) = Some s -> s = w \/ exists p, In p reserved /\ occurs p w.
Proof.
  intros w s H. destruct (existsb (fun p => contains w p) reserved) eqn:E.
  - right. apply existsb_exists in E. destruct E as (p & Hp & E). exists p. split; auto. now apply contains_iff in E.
  - left. assert (R : unescape (escape (Some w)) = Some w).
    { apply C18_roundtrip_iff. repeat apply conj.
      - intros ->. discriminate.
      - intros ->. discriminate.
      - intros p Hp O. apply not_true_iff_false in E. apply E. apply existsb_exists. exists p. split; auto. now apply contains_iff. }
    congruence.
Qed.
Theorem C18_counterexamples : unescape (escape (Some (str "#LRB("))) <> Some (str "#LRB(") /\ unescape (escape (Some (str ")LRB#"))) <> Some (str ")LRB#").
Proof. split; discriminate. Qed.

(** ---- C19 ---- *)
Definition covers (t : tree pystr nat) (sent : list (option pystr)) : Prop :=
  sent <> [] /\ forall i, In i (leaves t) <-> i < length sent.
(** discontinuous brackets, one line or pretty-printed *)
Theorem C19_discbracket_roundtrip : forall l ts sent pretty (t := Node l ts),
  all_labels clean_string t -> terminals_last t -> Forall writable sent -> covers t sent ->
  exists s, writediscbrackettree t sent pretty = Some s /\ discbrackettree s = Some (t, sent).
Proof.
  intros l ts sent pretty t H1 H2 H3 [H4 H5]. apply labels_bridge in H1. apply last_bridge in H2. apply writable_bridge in H3.
  destruct (disc_write l ts sent pretty H1 H2 ltac:(intros i Hi; now apply H5)) as (s & S1 & S2 & _).
  exists (s ++ [newline]). split; auto. eapply disc_read; eauto.
Qed.
(** bracket format, for trees where every terminal has its own preterminal and
    the terminals are in order *)
Theorem C19_bracket_roundtrip : forall l ts sent (t := Node l ts),
  all_labels clean_string t -> preterminals_only t -> Forall writable sent -> leaves t = seq 0 (length sent) ->
  exists s, writebrackettree t sent = Some s /\ brackettree s false = Some (t, sent).
Proof.
  intros l ts sent t H1 H2 H3 H4. apply labels_bridge in H1. apply preterms_bridge in H2. apply writable_bridge in H3.
  exists (pprint_flat (bleaf sent) t ++ [newline]). split.
  - apply bracket_write; auto; [now apply preterms_lastleaf|]. intros i Hi. change (In i (leaves t)) in Hi. rewrite H4 in Hi. apply in_seq in Hi. lia.
  - apply bracket_read; auto.
Qed.
(** an index outside the sentence is an error, not a wrong word *)
Theorem C19_out_of_range : forall sent i l, clean_string l -> length sent <= i -> writediscbrackettree (Node l [Leaf i]) sent false = None.
Proof.
  intros sent i l C H. apply clean_string_iff in C.
  apply clean_word_iff in C. destruct C as [_ C]. unfold writediscbrackettree. cbn [pprint_flat map join].
  match goal with |- option_map _ (index_sub _ ?f ?s) = None => fold (isub f s) end.
  cbn [app]. rewrite isub_char by reflexivity. rewrite isub_word by now apply label_nospace.
  rewrite isub_hit; [|apply dec_nonempty|apply dec_digits]. unfold sentword. rewrite undec_dec.
  replace (nth_error sent i) with (@None (option pystr)) by (symmetry; now apply nth_error_None). reflexivity.
Qed.
(** automatic detection recognises a one-line discontinuous tree without empty
    constituents *)
Fixpoint no_empty_nodes {L A} (t : tree L A) : Prop :=
  match t with Leaf _ => True | Node _ ts => ts <> [] /\ fold_right (fun c r => no_empty_nodes c /\ r) True ts end.
Lemma st_char : forall c t, N.eqb c space = false -> strterm (c :: t) = strterm t.
Proof. intros c t H. cbn [strterm]. rewrite H. reflexivity. Qed.
Lemma st_word : forall w r, forallb labelchar w = true -> strterm (w ++ r) = strterm r.
Proof.
  induction w as [|c w IH]; intros r H; [reflexivity|]. cbn [forallb] in H. apply andb_prop in H. destruct H as [H1 H2]. cbn [app].
  rewrite st_char; auto. apply labelchar_not in H1. destruct H1 as (H1 & _). destruct (N.eqb_spec c space); auto. subst. discriminate.
Qed.
Lemma st_open : forall r, strterm (space :: openb :: r) = strterm r.
Proof.
  intros r. change (strterm (space :: openb :: r)) with
    (N.eqb space space && negb (let '(ds, rest) := span isdigit (openb :: r) in match ds, rest with _ :: _, d :: _ => N.eqb d 61 | _, _ => false end) &&
     (match snd (span (fun x => negb (N.eqb x openb) && negb (N.eqb x closeb)) (openb :: r)) with d :: _ => N.eqb d closeb | [] => false end) || strterm (openb :: r)).
  cbn [span negb N.eqb andb]. rewrite N.eqb_refl. cbn. reflexivity.
Qed.
Lemma st_disc : forall i w r, strterm (space :: dec i ++ 61%N :: w ++ r) = strterm (dec i ++ 61%N :: w ++ r).
Proof.
  intros i w r. cbn [strterm]. rewrite span_app; [|apply dec_digits|reflexivity].
  pose proof (dec_nonempty i). destruct (dec i); [congruence|]. rewrite N.eqb_refl. cbn [negb]. rewrite andb_false_r. reflexivity.
Qed.
Lemma st_flat : forall sent (t : tree pystr nat), labels_clean t = true -> no_empty_nodes t -> Forall word_ok sent -> (exists l ts, t = Node l ts) ->
  forall r, strterm (pprint_flat (discleaf sent) t ++ r) = strterm r.
Proof.
  intros sent t. induction t as [a|l ts IH] using tree_ind'; intros C NE WO HN r; [destruct HN as (? & ? & ?); discriminate|clear HN].
  cbn [labels_clean] in C. apply andb_prop in C. destruct C as [Cl Ct]. apply clean_word_iff in Cl. destruct Cl as [Nl Cl].
  cbn [no_empty_nodes] in NE. destruct NE as [N1 N2]. rewrite fold_and in N2.
  rewrite flat_spaced. cbn [app]. rewrite st_char by reflexivity. rewrite <- !app_assoc, st_word by auto.
  destruct ts as [|t0 ts0]; [congruence|]. remember (t0 :: ts0) as ts eqn:E. clear E t0 ts0 N1.
  induction IH as [|t ts Ht HF IHt]; [cbn [spaced flat_map app]; apply st_char; reflexivity|].
  cbn [forallb] in Ct. apply andb_prop in Ct. destruct Ct as [Ct1 Ct2]. inversion N2; subst.
  unfold spaced in *. cbn [flat_map app]. rewrite <- app_assoc. destruct t as [i|m us].
  - cbn [pprint_flat]. unfold discleaf. cbn [app]. rewrite <- !app_assoc. cbn [app]. rewrite st_disc.
    rewrite st_word by apply dec_label. rewrite st_char by reflexivity. rewrite st_word by (apply word_ok_label; now apply nth_ok). auto.
  - rewrite flat_spaced. cbn [app]. rewrite st_open.
    specialize (Ht Ct1 H1 WO ltac:(eauto) (flat_map (fun t => space :: pprint_flat (discleaf sent) t) ts ++ [closeb] ++ r)).
    rewrite flat_spaced in Ht. cbn [app] in Ht. rewrite st_char in Ht by reflexivity. etransitivity; [|apply (IHt Ct2 H2)]. exact Ht.
Qed.
Theorem C19_detection_flat : forall l ts sent (t := Node l ts),
  all_labels clean_string t -> terminals_last t -> no_empty_nodes t -> Forall writable sent -> covers t sent ->
  exists s, writediscbrackettree t sent false = Some s /\ brackettree s true = Some (t, sent).
Proof.
  intros l ts sent t H1 H2 HE H3 [H4 H5]. apply labels_bridge in H1. apply last_bridge in H2. apply writable_bridge in H3.
  destruct (disc_write l ts sent false H1 H2 ltac:(intros i Hi; now apply H5)) as (s & S1 & S2 & S3).
  exists (s ++ [newline]). split; auto. unfold brackettree. rewrite (S3 eq_refl).
  rewrite st_flat; auto; [|eauto]. cbn [negb orb strterm]. rewrite <- (S3 eq_refl). eapply disc_read; eauto.
Qed.
(** FINDINGS: outside those conditions the formats do lose information. *)
(** a terminal followed by a sibling is not rewritten, so the result is unreadable *)
Theorem C19_terminal_not_last_refuted : exists t sent s, all_labels clean_string t /\ covers t sent /\ Forall writable sent /\
  writediscbrackettree t sent false = Some s /\ discbrackettree s = None.
Proof.
  exists (Node (str "S") [Leaf 0; Leaf 1]), [Some (str "a"); Some (str "b")]. eexists. conjs.
  - lab.
  - split; [discriminate|]. intros i. cbn. lia.
  - wrd.
  - reflexivity.
  - reflexivity.
Qed.
(** automatic detection of the discontinuous notation: a bracket tree all of
    whose words look like 0=a is read as a discontinuous one *)
Theorem C19_detection_bracket_refuted : exists t sent s, all_labels clean_string t /\ preterminals_only t /\ Forall writable sent /\ leaves t = seq 0 (length sent) /\
  writebrackettree t sent = Some s /\ brackettree s true <> Some (t, sent).
Proof.
  exists (Node (str "S") [Leaf 0]), [Some (str "0=a")]. eexists. conjs.
  - lab.
  - shp.
  - wrd.
  - reflexivity.
  - reflexivity.
  - intros H. vm_compute in H. discriminate H.
Qed.
(** ... and a pretty-printed discontinuous tree with a terminal on its own line
    is read as a bracket tree *)
Fixpoint chain (n : nat) (t : tree pystr nat) : tree pystr nat := match n with O => t | S k => Node (str "X") [chain k t] end.
Theorem C19_detection_pretty_refuted : exists t sent s, all_labels clean_string t /\ terminals_last t /\ Forall writable sent /\ covers t sent /\
  writediscbrackettree t sent true = Some s /\ discbrackettree s = Some (t, sent) /\ brackettree s true <> Some (t, sent).
Proof.
  assert (C : forall n t, all_labels clean_string t -> terminals_last t -> all_labels clean_string (chain n t) /\ terminals_last (chain n t)).
  { induction n as [|n IH]; intros t H1 H2; [auto|]. destruct (IH t H1 H2) as [A1 A2]. cbn. split.
    - split; auto. apply clean_string_iff. reflexivity.
    - split; auto. intros [|[|i]] a H; try discriminate. reflexivity. }
  exists (Node (str "X") [chain 34 (Leaf 0)]), [Some (str "a")].
  destruct (C 34 (Leaf 0) I I) as [A1 A2].
  eexists. split; [|split; [|split; [|split; [|split; [|split]]]]].
  - cbn [all_labels fold_right]. split; auto. apply clean_string_iff. reflexivity.
  - cbn [terminals_last fold_right]. split; auto. intros [|[|i]] a H; try discriminate; reflexivity.
  - repeat constructor; cbn; intros c [<-|[]]; reflexivity.
  - split; [discriminate|]. intros i. cbn. lia.
  - vm_compute. reflexivity.
  - vm_compute. reflexivity.
  - vm_compute. discriminate.
Qed.
(** a missing word after a constituent disappears from the bracket format *)
Theorem C19_missing_word_refuted : exists t sent s, all_labels clean_string t /\ terminals_last t /\ Forall writable sent /\ leaves t = seq 0 (length sent) /\
  writebrackettree t sent = Some s /\ brackettree s false <> Some (t, sent).
Proof.
  exists (Node (str "S") [Node (str "A") [Leaf 0]; Leaf 1]), [Some (str "a"); None]. eexists. conjs.
  - lab.
  - shp.
  - wrd.
  - reflexivity.
  - reflexivity.
  - intros H. vm_compute in H. discriminate H.
Qed.

(** ---- the hypotheses are met by ordinary trees ---- *)
Example C19_ex : let t := Node (str "S") [Node (str "VP") [Node (str "V") [Leaf 0]; Node (str "P") [Leaf 2]]; Node (str "NP") [Leaf 1]] in
  let sent := [Some (str "(wake)"); Some (str "me"); None] in
  all_labels clean_string t /\ terminals_last t /\ covers t sent /\
  writediscbrackettree t sent false = Some (str "(S (VP (V 0=#LRB#wake#RRB#) (P 2=)) (NP 1=me))" ++ [newline]).
Proof.
  cbv zeta. conjs; [lab|shp|split; [discriminate|intros i; cbn; lia]|reflexivity].
Qed.
Example C18_ex : unescape (escape (Some (str "f(x) #1"))) = Some (str "f(x) #1").
Proof. reflexivity. Qed.
Example C19_ex_bracket : let t := Node (str "S") [Node (str "NP") [Leaf 0]; Node (str "VP") [Node (str "V") [Leaf 1]]] in
  preterminals_only t /\ writebrackettree t [Some (str "I"); None] = Some (str "(S (NP I) (VP (V )))" ++ [newline]) /\
  brackettree (str "(S (NP I) (VP (V )))" ++ [newline]) true = Some (t, [Some (str "I"); None]).
Proof.
  cbv zeta. conjs; [shp|reflexivity|vm_compute; reflexivity].
Qed.
Print Assumptions C17_parse_str.
Print Assumptions C17_parse_int.
Print Assumptions C18_roundtrip_iff.
Print Assumptions C19_discbracket_roundtrip.
Print Assumptions C19_bracket_roundtrip.
Print Assumptions C19_detection_flat.
Print Assumptions C19_out_of_range.
