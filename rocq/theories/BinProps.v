(** C71: the binary cache of a grammar gives back the grammar that was stored. *)
From Coq Require Import String.
From Coq Require Import List Bool Arith NArith QArith Qcanon Lia Permutation Sorted Ascii.
From Verif Require Import PyStr BitsModel BitsSpec BitsProofs ConcatModel ConcatSpec YfProofs GrammarModel GrammarProofs GrammarProps BinModel BinProofs BinProofs2.
Import ListNotations.
Open Scope list_scope.
Open Scope nat_scope.

(** ** Specification *)
(** the same labels with the same numbers and fan-outs, the same rules in the
    same order with the same numbers and counts, the same lexical entries *)
Record same_grammar (g g' : gram) : Prop := mkSame {
  sg_labels : tolabel g' = tolabel g;
  sg_ids : forall l, lookup eqs l (toid g') = lookup eqs l (toid g);
  sg_mass : freqmass g' = freqmass g;
  sg_fanouts : fanouts g' = fanouts g;
  sg_rules : map (fun r => (r_key r, r_no r)) (bylhs g') = map (fun r => (r_key r, r_no r)) (bylhs g);
  sg_nos : forall k, lookup key_eqb k (rulenos g') = lookup key_eqb k (rulenos g);
  sg_counts : rulecounts g' = rulecounts g;
  sg_unary : Permutation (map (fun r => (r_key r, r_no r)) (unary g')) (map (fun r => (r_key r, r_no r)) (unary g));
  sg_lbinary : Permutation (map (fun r => (r_key r, r_no r)) (lbinary g')) (map (fun r => (r_key r, r_no r)) (lbinary g));
  sg_rbinary : Permutation (map (fun r => (r_key r, r_no r)) (rbinary g')) (map (fun r => (r_key r, r_no r)) (rbinary g));
  sg_lex : map fst (lexical g') = map fst (lexical g);
  sg_lexcounts : lexcounts g' = lexcounts g;
  sg_words : lexbyword g' = lexbyword g }.

Lemma opt_iff : forall A (x y : option A), (forall v, x = Some v <-> y = Some v) -> x = y.
Proof. intros A [a|] [b|] H; auto; [symmetry; now apply H|symmetry; now apply H|now apply H]. Qed.
Lemma good_split : forall rules calls, Forall goodyf (all_rules rules calls) -> Forall goodyf rules /\ Forall (fun c : list rline * list lline => Forall goodyf (fst c)) calls.
Proof.
  intros rules calls H. unfold all_rules in H. apply Forall_app in H. destruct H as [A B]. split; [exact A|]. apply Forall_forall. intros c I. apply Forall_forall. intros l J.
  rewrite Forall_forall in B. apply B. apply in_flat_map. eauto.
Qed.
Lemma same_of_inv : forall g g' h lh, inv g h lh -> inv g' h lh -> tolabel g' = tolabel g -> freqmass g' = freqmass g -> fanouts g' = fanouts g -> kns g' = kns g ->
  rulecounts g' = rulecounts g -> map fst (lexical g') = map fst (lexical g) -> lexcounts g' = lexcounts g -> lexbyword g' = lexbyword g -> same_grammar g g'.
Proof.
  intros g g' h lh H H' T M F K C X XC W.
  assert (P : forall Q a a', Permutation a (filter (fun r => Q (r_rhs2 r)) (bylhs g)) -> Permutation a' (filter (fun r => Q (r_rhs2 r)) (bylhs g')) ->
    Permutation (map (fun r => (r_key r, r_no r)) a') (map (fun r => (r_key r, r_no r)) a)).
  { intros Q a a' A A'. rewrite A, A'. assert (E : forall l, map (fun r => (r_key r, r_no r)) (filter (fun r => Q (r_rhs2 r)) l) = filter (fun p => Q (k_rhs2 (fst p))) (map (fun r => (r_key r, r_no r)) l)).
    { induction l as [|r l IH]; [reflexivity|]. cbn [filter map fst]. unfold r_rhs2 at 1. destruct (Q (k_rhs2 (r_key r))); cbn [map]; now rewrite IH. }
    rewrite !E. unfold kns in K. now rewrite K. }
  constructor; auto.
  - intros l. apply opt_iff. intros i. now rewrite (i_ids _ _ _ H), (i_ids _ _ _ H'), T.
  - intros k. apply opt_iff. intros i. now rewrite (i_nos _ _ _ H), (i_nos _ _ _ H'), K.
  - apply (P (fun x => x =? 0)); [apply (i_un _ _ _ H)|apply (i_un _ _ _ H')].
  - apply (P (fun x => negb (x =? 0))); [apply (i_lb _ _ _ H)|apply (i_lb _ _ _ H')].
  - apply (P (fun x => negb (x =? 0))); [apply (i_rb _ _ _ H)|apply (i_rb _ _ _ H')].
Qed.

Section C71.
Variables (encw : Qc -> list N) (decw : list N -> Qc).
Variable sortr : (prule -> prule -> bool) -> list prule -> list prule.
Variable sortn : (nat -> nat -> bool) -> list nat -> list nat.

(** A grammar that was built from rules and a lexicon, and possibly extended,
    whose yield functions are lists of non-empty components and that is
    storable (sizes, no NUL bytes, its weights survive the 8 bytes they get), is
    read back from its own binary file, along with the pickled part; the arrays are
    sorted and every label is the left-hand side of some rule. *)
Theorem C71_roundtrip : sorts sortr -> sorts sortn -> forall start rules lexicon calls g pickled,
  start <> Epsilon -> grammar sortr sortn start rules lexicon calls = Some g ->
  Forall goodyf (all_rules rules calls) -> storable encw decw g ->
  exists g', frombin decw sortr (tobin encw g pickled) = Some (g', pickled) /\ same_grammar g g' /\ asorted g' /\ seen g' /\
    (forall r, In r (bylhs g') -> r_prob r = (get (rulecounts g) (r_no r) / get (freqmass g) (r_lhs r))%Qc) /\
    (forall r, In r (unary g') \/ In r (lbinary g') \/ In r (rbinary g') -> In r (bylhs g')) /\
    (forall n, n < length (lexical g') -> snd (nth n (lexical g') (0, 0%Qc)) = (get (lexcounts g) n / get (freqmass g) (fst (nth n (lexical g') (0%nat, 0%Qc))))%Qc).
Proof using.
  intros SR SN start rules lexicon calls g pk NE E G S.
  destruct (grammar_inv _ _ SR SN _ _ _ _ _ NE E) as (H & AS & SE & _). destruct (good_split _ _ G) as [G1 G2].
  pose proof (grammar_fanok _ _ SR SN _ _ _ _ _ NE G1 G2 E) as F.
  exists (reread sortr g). split; [exact (frombin_tobin encw decw sortr g _ _ SR H SE F G S pk)|].
  pose proof (reread_inv sortr g _ _ SR H) as H'. split; [|split; [|split; [|split; [|split]]]].
  - apply (same_of_inv g _ _ _ H H'); try reflexivity; [apply reread_keys|apply reread_lex].
  - now apply reread_asorted.
  - now apply reread_seen.
  - exact (proj1 (reread_defprob sortr g)).
  - intros r I.
    assert (X : forall P a, Permutation a (filter P (bylhs (reread sortr g))) -> In r a -> In r (bylhs (reread sortr g))).
    { intros P a Pa Ia. eapply Permutation_in in Ia; [|exact Pa]. now apply filter_In in Ia. }
    destruct I as [I|[I|I]]; [exact (X _ _ (i_un _ _ _ H') I)|exact (X _ _ (i_lb _ _ _ H') I)|exact (X _ _ (i_rb _ _ _ H') I)].
  - exact (proj2 (reread_defprob sortr g)).
Qed.

(** If the probabilities in use are the normalized counts (always so after a
    call of addrules, and when no line of the rules or lexicon is repeated),
    the arrays of rules and of lexical rules hold the very same rules with
    the same probabilities. *)
Theorem C71_same_probabilities : sorts sortr -> sorts sortn -> forall start rules lexicon calls g pickled,
  start <> Epsilon -> grammar sortr sortn start rules lexicon calls = Some g ->
  Forall goodyf (all_rules rules calls) -> storable encw decw g -> normalized rules lexicon calls ->
  exists g', frombin decw sortr (tobin encw g pickled) = Some (g', pickled) /\ same_grammar g g' /\
    bylhs g' = bylhs g /\ lexical g' = lexical g /\
    Permutation (unary g') (unary g) /\ Permutation (lbinary g') (lbinary g) /\ Permutation (rbinary g') (rbinary g).
Proof using.
  intros SR SN start rules lexicon calls g pk NE E G S NO.
  destruct (grammar_inv _ _ SR SN _ _ _ _ _ NE E) as (H & AS & SE & _). destruct (good_split _ _ G) as [G1 G2].
  pose proof (grammar_fanok _ _ SR SN _ _ _ _ _ NE G1 G2 E) as F. pose proof (grammar_defprob _ _ SR SN _ _ _ _ _ NE E NO) as [D1 D2].
  exists (reread sortr g). split; [exact (frombin_tobin encw decw sortr g _ _ SR H SE F G S pk)|].
  pose proof (reread_inv sortr g _ _ SR H) as H'.
  assert (B : bylhs (reread sortr g) = bylhs g).
  { unfold reread. cbn [bylhs]. transitivity (map (fun r : prule => r) (bylhs g)); [|apply map_id]. apply map_ext_in. intros r I. rewrite <- (D1 r I). now destruct r. }
  split; [|split; [exact B|split]].
  - apply (same_of_inv g _ _ _ H H'); try reflexivity; [apply reread_keys|apply reread_lex].
  - pose proof (reread_lex sortr g) as RL. assert (LL : length (lexical (reread sortr g)) = length (lexical g)) by (rewrite <- (map_length fst), RL; apply map_length).
    apply (nth_ext _ _ (0, 0%Qc) (0, 0%Qc)); [exact LL|]. intros n Hn.
    assert (FE : fst (nth n (lexical (reread sortr g)) (0, 0%Qc)) = fst (nth n (lexical g) (0, 0%Qc))) by (rewrite <- !(map_nth fst); now rewrite RL).
    pose proof (proj2 (reread_defprob sortr g) n Hn) as D3. rewrite LL in Hn. specialize (D2 n Hn). unfold lexlhs in *.
    destruct (nth n (lexical (reread sortr g)) (0, 0%Qc)) as [a b], (nth n (lexical g) (0, 0%Qc)) as [a' b']. cbn [fst snd] in *. subst a'. f_equal. rewrite D3, D2. reflexivity.
  - split; [|split].
    + rewrite (i_un _ _ _ H'), (i_un _ _ _ H), B. reflexivity.
    + rewrite (i_lb _ _ _ H'), (i_lb _ _ _ H), B. reflexivity.
    + rewrite (i_rb _ _ _ H'), (i_rb _ _ _ H), B. reflexivity.
Qed.

(** The number of bytes written is the size of the buffer that was allocated. *)
Theorem C71_buffer_size : sorts sortr -> sorts sortn -> forall start rules lexicon calls g pickled,
  start <> Epsilon -> grammar sortr sortn start rules lexicon calls = Some g -> storable encw decw g ->
  List.length (tobin encw g pickled) = buflen g + List.length pickled.
Proof using.
  intros SR SN start rules lexicon calls g pk NE E S. destruct (grammar_inv _ _ SR SN _ _ _ _ _ NE E) as (H & _).
  eapply tobin_length; [exact H|]. intros q I. now apply (s_weight _ _ _ S).
Qed.

(** Cutting the file short anywhere before the pickled part makes the reader go
    past the end of the data (the code does not check this). *)
Theorem C71_truncated : sorts sortr -> sorts sortn -> forall start rules lexicon calls g pickled bs rest,
  start <> Epsilon -> grammar sortr sortn start rules lexicon calls = Some g ->
  Forall goodyf (all_rules rules calls) -> storable encw decw g ->
  tobin encw g pickled = bs ++ rest -> List.length bs < buflen g -> frombin decw sortr bs = None.
Proof using.
  intros SR SN start rules lexicon calls g pk bs rest NE E G S T L.
  destruct (C71_roundtrip SR SN start rules lexicon calls g pk NE E G S) as (g' & R & _).
  pose proof (C71_buffer_size SR SN start rules lexicon calls g pk NE E S) as B.
  destruct (frombin decw sortr bs) as [[x r]|] eqn:Q; [|reflexivity]. exfalso.
  rewrite T in R, B. rewrite (frombin_framed decw sortr _ _ _ rest Q) in R. injection R as _ R.
  rewrite app_length in B. assert (LR : List.length rest <= List.length pk) by (rewrite <- R, app_length; lia). lia.
Qed.
End C71.

(** ** Concrete grammars *)
(** numerator and denominator in four bytes each *)
Definition ex_encw (q : Qc) : list N := le 4 (Z.to_N (Qnum (this q))) ++ le 4 (Npos (Qden (this q))).
Definition ex_decw (bs : list N) : Qc := Q2Qc (Z.of_N (unle (firstn 4 bs)) # (match unle (skipn 4 bs) with Npos p => p | N0 => 1%positive end)).
Lemma ex_good : forall rules, forallb (fun l : rline => existsb (fun yf => eqs (map N_of_ascii (snd (fst l))) (map N_of_ascii (yftext yf))) [[[false]]; [[false]; [true]]; [[false; true; false]]; [[false; true]]]) rules = true -> Forall goodyf rules.
Proof.
  intros rules H. apply Forall_forall. intros l I. rewrite forallb_forall in H. specialize (H l I). apply existsb_exists in H. destruct H as (yf & J & E). apply eqs_eq in E. exists yf.
  assert (X : snd (fst l) = yftext yf).
  { clear - E. revert E. generalize (snd (fst l)) (yftext yf). induction l0 as [|a x IH]; intros [|b y] E; cbn in E; try discriminate; [reflexivity|]. injection E as E1 E2. f_equal; [|now apply IH].
    rewrite <- (ascii_N_embedding a), <- (ascii_N_embedding b). now rewrite E1. }
  cbn [In] in J. destruct J as [<-|[<-|[<-|[<-|[]]]]]; (split; [split; [discriminate|repeat constructor; discriminate]|split; [cbn; lia|exact X]]).
Qed.
Ltac allin := cbn [In]; intros ? I; repeat (destruct I as [<-|I]); [..|destruct I].
Example ex_storable : exists g, grammar isort isort (str "S") ex_rules ex_lex ex_calls = Some g /\ Forall goodyf (all_rules ex_rules ex_calls) /\ storable ex_encw ex_decw g /\
  normalized ex_rules ex_lex ex_calls /\ List.length (bylhs g) = 4 /\ List.length (tobin ex_encw g [7; 7]%N) = 310.
Proof.
  eexists. split; [vm_compute; reflexivity|]. split; [apply ex_good; reflexivity|]. split; [|split; [left; discriminate|split; vm_compute; reflexivity]].
  constructor; cbn [tolabel bylhs lexical lexbyword freqmass rulecounts lexcounts app List.length].
  - reflexivity.
  - reflexivity.
  - reflexivity.
  - reflexivity.
  - intros l I N. assert (X : forallb (fun l => forallb (fun c => negb (N.eqb c 0)) l) [Epsilon; str "S"; str "A"; str "B"; str "C"] = true) by reflexivity.
    rewrite forallb_forall in X. specialize (X l I). rewrite forallb_forall in X. specialize (X 0%N N). discriminate.
  - allin; cbn; intros Z; decompose [or] Z; try discriminate; contradiction.
  - allin; (split; [reflexivity|apply Qc_is_canon; vm_compute; reflexivity]).
Qed.

(** a label with a NUL byte is cut off there, what follows is read as a word,
    and the word as the number of its rules: the reader runs past the end of the data *)
Definition nul_rules : list rline := [([str "S"; [65; 0; 65]%N], list_ascii_of_string "0", q 1)].
Definition nul_lex : list lline := [(str "b", [([65; 0; 65]%N, q 1)])].
Theorem C71_nul_byte_refuted : exists g, grammar isort isort (str "S") nul_rules nul_lex [] = Some g /\ Forall goodyf (all_rules nul_rules []) /\
  frombin ex_decw isort (tobin ex_encw g [7; 7]%N) = None.
Proof. eexists. split; [vm_compute; reflexivity|]. split; [apply ex_good; reflexivity|]. vm_compute; reflexivity. Qed.

(** a yield function with an empty component, which the reader of the text format accepts:
    the fan-out that comes back is another one *)
Definition hole_rules : list rline := [([str "S"; str "A"], list_ascii_of_string "000", q 1); ([str "A"; str "B"; str "B"], list_ascii_of_string "0,,1", q 1)].
Theorem C71_empty_component_refuted : exists rules lexicon g g' pk, grammar isort isort (str "S") rules lexicon [] = Some g /\
  frombin ex_decw isort (tobin ex_encw g pk) = Some (g', pk) /\ tolabel g' = tolabel g /\ fanouts g' <> fanouts g.
Proof.
  exists hole_rules, [(str "b", [(str "B", q 1)])]. eexists. eexists. exists [7]%N. split; [vm_compute; reflexivity|]. split; [vm_compute; reflexivity|]. split; [reflexivity|]. vm_compute. discriminate.
Qed.

Print Assumptions C71_roundtrip.
Print Assumptions C71_same_probabilities.
Print Assumptions C71_buffer_size.
Print Assumptions C71_truncated.
Print Assumptions C71_nul_byte_refuted.
Print Assumptions C71_empty_component_refuted.
