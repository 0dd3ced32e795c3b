(** Proofs about the binary grammar cache: reading back what was written, and
    an invariant about the fan-outs of a grammar. *)
From Coq Require Import List Bool Arith NArith QArith Qcanon Lia Permutation Sorted.
From Verif Require Import PyStr BitsModel BitsSpec BitsProofs ConcatModel ConcatSpec YfProofs GrammarModel GrammarProofs GrammarProps BinModel.
Import ListNotations.
Open Scope list_scope.
Open Scope nat_scope.

Lemma le_length : forall k n, length (le k n) = k.
Proof. induction k as [|k IH]; intros n; cbn [le length]; [reflexivity|]. now rewrite IH. Qed.
Lemma unle_le : forall k n, (n < 256 ^ N.of_nat k)%N -> unle (le k n) = n.
Proof.
  induction k as [|k IH]; intros n H; cbn [le unle].
  - cbn in H. lia.
  - rewrite IH.
    + rewrite N.add_comm. symmetry. apply N.div_mod. lia.
    + apply N.div_lt_upper_bound; [lia|]. rewrite Nat2N.inj_succ, N.pow_succ_r' in H. exact H.
Qed.
Lemma take_app : forall k a b, length a = k -> take k (a ++ b) = Some (a, b).
Proof.
  intros k a b H. unfold take. rewrite app_length. destruct (Nat.ltb_spec (length a + length b) k); [lia|].
  rewrite firstn_app, skipn_app, H, Nat.sub_diag, <- H, firstn_all, skipn_all. cbn. now rewrite app_nil_r.
Qed.
Lemma rint_app : forall k n b, (n < 256 ^ N.of_nat k)%N -> rint k (le k n ++ b) = Some (n, b).
Proof. intros k n b H. unfold rint. rewrite take_app by apply le_length. now rewrite unle_le. Qed.
Lemma cstr_app : forall s b, ~ In 0%N s -> cstr (s ++ 0%N :: b) = Some (s, b).
Proof.
  induction s as [|c s IH]; intros b H; cbn [app cstr]; [reflexivity|].
  destruct (N.eqb_spec c 0) as [->|]; [exfalso; apply H; now left|]. rewrite IH; [reflexivity|]. intros I. apply H. now right.
Qed.
Lemma many_app : forall A B (rd : list N -> option (B * list N)) (enc : A -> list N) (dec : A -> B) l,
  (forall x b, In x l -> rd (enc x ++ b) = Some (dec x, b)) ->
  forall b, many rd (length l) (flat_map enc l ++ b) = Some (map dec l, b).
Proof.
  intros A B rd enc dec. induction l as [|x l IH]; intros H b; cbn [length many flat_map map app]; [reflexivity|].
  rewrite <- app_assoc, H by now left. rewrite IH; [reflexivity|]. intros y c I. apply H. now right.
Qed.

(** ---- truncated files ---- *)
Definition framed {A} (rd : list N -> option (A * list N)) : Prop :=
  forall bs x r q, rd bs = Some (x, r) -> rd (bs ++ q) = Some (x, r ++ q).
Lemma take_framed : forall k, framed (take k).
Proof.
  intros k bs x r q. unfold take. rewrite app_length. destruct (Nat.ltb_spec (length bs) k); [discriminate|].
  intros E. injection E as <- <-. destruct (Nat.ltb_spec (length bs + length q) k); [lia|].
  rewrite firstn_app, skipn_app. replace (k - length bs) with 0 by lia. cbn. now rewrite app_nil_r.
Qed.
Lemma rint_framed : forall k, framed (rint k).
Proof.
  intros k bs x r q E. unfold rint in *. destruct (take k bs) as [[y r']|] eqn:T; [|discriminate]. injection E as <- <-.
  now rewrite (take_framed k _ _ _ q T).
Qed.
Lemma cstr_framed : framed cstr.
Proof.
  intros bs. induction bs as [|c bs IH]; intros x r q E; cbn [cstr app] in *; [discriminate|].
  destruct (N.eqb c 0); [injection E as <- <-; reflexivity|]. destruct (cstr bs) as [[s r']|]; [|discriminate].
  injection E as <- <-. now rewrite (IH s r' q eq_refl).
Qed.
Lemma many_framed : forall A (rd : list N -> option (A * list N)), framed rd -> forall n, framed (many rd n).
Proof.
  intros A rd F. induction n as [|n IH]; intros bs x r q E; cbn [many] in *.
  - injection E as <- <-. reflexivity.
  - destruct (rd bs) as [[y r1]|] eqn:E1; [|discriminate]. rewrite (F _ _ _ q E1).
    destruct (many rd n r1) as [[ys r2]|] eqn:E2; [|discriminate]. rewrite (IH _ _ _ q E2). now injection E as <- <-.
Qed.
Ltac fr F := match goal with
  | E : match ?rd ?bs with Some _ => _ | None => None end = Some _ |- _ =>
      let X := fresh "X" in destruct (rd bs) as [[? ?]|] eqn:X; [|discriminate E]; rewrite (F _ _ _ _ X)
  end.
Lemma rweight_framed : forall decw, framed (rweight decw).
Proof. intros decw bs x r q E. unfold rweight in *. fr (take_framed 8). now injection E as <- <-. Qed.
Lemma rrule_framed : forall decw, framed (rrule decw).
Proof.
  intros decw bs x r q E. unfold rrule in *. fr (rweight_framed decw). do 6 fr (rint_framed 4). now injection E as <- <-.
Qed.
Lemma rlex_framed : forall decw, framed (rlex decw).
Proof. intros decw bs x r q E. unfold rlex in *. fr (rweight_framed decw). fr (rint_framed 4). fr (take_framed 4). now injection E as <- <-. Qed.
Lemma rwordrules_framed : framed rwordrules.
Proof. intros bs x r q E. unfold rwordrules in *. fr (rint_framed 4). fr (many_framed _ _ (rint_framed 4) (N.to_nat n)). now injection E as <- <-. Qed.
Lemma frombin_framed : forall decw sortr, framed (frombin decw sortr).
Proof.
  intros decw sortr bs x r q E. unfold frombin in *.
  do 4 fr (rint_framed 8).
  fr (many_framed _ _ (rweight_framed decw) (N.to_nat n)).
  fr (many_framed _ _ (rrule_framed decw) (N.to_nat n0)).
  fr (many_framed _ _ (rlex_framed decw) (N.to_nat n1)).
  fr (many_framed _ _ cstr_framed (N.to_nat n)).
  fr (many_framed _ _ cstr_framed (N.to_nat n2)).
  fr (many_framed _ _ rwordrules_framed (N.to_nat n2)).
  destruct (negb _); [discriminate|]. now injection E as <- <-.
Qed.

(** ---- arrays filled by position ---- *)
Lemma fold_upd_length : forall A (f : A -> nat) X (v : A -> X) l c, length (fold_left (fun c r => upd c (f r) (fun _ => v r)) l c) = length c.
Proof. intros A f X v. induction l as [|r l IH]; intros c; cbn [fold_left]; [reflexivity|]. now rewrite IH, upd_length. Qed.
Lemma fold_upd_nth : forall A (f : A -> nat) X (v : A -> X) (d : X) i y l c,
  (forall r, In r l -> f r < length c) -> (forall r, In r l -> f r = i -> v r = y) ->
  nth i (fold_left (fun c r => upd c (f r) (fun _ => v r)) l c) d = if existsb (fun r => f r =? i) l then y else nth i c d.
Proof.
  intros A f X v d i y. induction l as [|r l IH]; intros c B H; cbn [fold_left existsb]; [reflexivity|].
  rewrite IH.
  - rewrite upd_nth by (apply B; now left). rewrite (Nat.eqb_sym i). destruct (existsb (fun r0 => f r0 =? i) l); [now rewrite orb_true_r|]. rewrite orb_false_r.
    destruct (Nat.eqb_spec (f r) i) as [E|]; [|reflexivity]. apply H; [now left|exact E].
  - intros x I. rewrite upd_length. apply B. now right.
  - intros x I. apply H. now right.
Qed.

(** ---- fan-outs ---- *)
Lemma popcount_top : forall n m, (forall i, (m <= i)%N -> N.testbit n i = false) -> popcount (N.lor n (2 ^ m)) = (popcount n + 1)%N.
Proof.
  intros n m H. destruct (bits_of_spec n) as [B1 B2].
  rewrite (popcount_card _ (m :: bits_of n)).
  - cbn [length]. rewrite Nat2N.inj_succ, bits_of_length. lia.
  - split.
    + constructor; [|exact B1]. intros I. apply B2 in I. unfold member in I. rewrite H in I by lia. discriminate.
    + intros i. cbn [In]. rewrite B2. unfold member. rewrite N.lor_spec, N.pow2_bits_eqb, orb_true_iff, N.eqb_eq. split; intros [->|E]; auto.
Qed.
Lemma loop_popcount : forall yf m e, Forall (fun p => p <> []) yf -> (forall i, (m <= i)%N -> N.testbit (lengths e) i = false) ->
  popcount (lengths (getyf_loop yf m e)) = (popcount (lengths e) + N.of_nat (length yf))%N.
Proof.
  induction yf as [|p yf IH]; intros m e F H; cbn [getyf_loop length]; [lia|].
  inversion F as [|? ? P F']; subst. pose proof (getyf_part_m p m (args e)) as M. destruct (getyf_part p m (args e)) as [m' a']. cbn [fst] in M.
  assert (L : (m < m')%N) by (destruct p; [contradiction|]; cbn [length] in M; lia). rewrite IH.
  - cbn [lengths]. rewrite popcount_top; [lia|]. intros i Hi. apply H. lia.
  - exact F'.
  - cbn [lengths]. intros i Hi. rewrite N.lor_spec, N.pow2_bits_eqb, H by lia. destruct (N.eqb_spec (m' - 1) i); [lia|reflexivity].
Qed.
Lemma getyf_popcount : forall yf, wf_yf yf -> popcount (lengths (getyf yf)) = N.of_nat (length yf).
Proof. intros yf [_ F]. unfold getyf. rewrite loop_popcount; [reflexivity|exact F|]. intros i _. apply N.bits_0. Qed.

(** the text of a yield function is that of a list of non-empty components *)
Definition goodyf (l : rline) : Prop := exists yf, wf_yf yf /\ length (concat yf) < 32 /\ snd (fst l) = yftext yf.
Lemma goodyf_fan : forall l c, goodyf l -> readyf (snd (fst l)) = Some c -> yc_fan c = popcount (lengths (yc_enc c)).
Proof.
  intros l c (yf & W & L & E) R. rewrite E in R. rewrite (readyf_ok yf (proj1 W) L) in R. injection R as <-. cbn [yc_fan yc_enc]. symmetry. now apply getyf_popcount.
Qed.

Record fanok (g : gram) : Prop := mkFan {
  f_rule : forall k n, In (k, n) (kns g) -> nth (k_lhs k) (fanouts g) 0%N = popcount (keylengths k);
  f_lex : forall x, In x (lexical g) -> nth (fst x) (fanouts g) 0%N = 1%N;
  f_rng : forall x, In x (lexical g) -> fst x < length (tolabel g);
  f_words : NoDup (map fst (lexbyword g)) }.
Lemma setword_nodup : forall V (l : list (pystr * V)) w v, NoDup (map fst l) -> NoDup (map fst (setword l w v)) /\ (forall x, In x (map fst (setword l w v)) -> x = w \/ In x (map fst l)).
Proof.
  intros V l w v. induction l as [|[y u] l IH]; intros H; cbn [setword map fst].
  - split; [constructor; [tauto|constructor]|]. intros x [<-|[]]. now left.
  - cbn [map fst] in H. inversion H as [|? ? N1 N2]; subst. destruct (eqs w y) eqn:Q.
    + cbn [map fst]. split; [exact H|]. intros x I. now right.
    + cbn [map fst]. destruct (IH N2) as [A B]. split.
      * constructor; [|exact A]. intros I. apply B in I. destruct I as [->|I]; [rewrite eqs_refl in Q; discriminate|contradiction].
      * intros x [<-|I]; [right; now left|]. apply B in I. destruct I as [->|I]; [now left|right; now right].
Qed.
Lemma intern_lhs_fan : forall g h lh l fan i g', inv g h lh -> intern_lhs g l fan = Some (i, g') -> nth i (fanouts g') 0%N = fan.
Proof.
  intros g h lh l fan i g' H I. pose proof I as J. unfold intern_lhs in J. destruct (lookup eqs l (toid g)) as [j|] eqn:L.
  - destruct (N.eqb_spec (nth j (fanouts g) 0%N) fan) as [F|]; [|discriminate]. injection J as <- <-. exact F.
  - apply intern_lhs_some in I. eapply intern_inv; eauto.
Qed.
Lemma intern_fanok : forall g h lh l fan i g', inv g h lh -> fanok g -> intern g l fan = (i, g') ->
  inv g' h lh /\ fanok g' /\ (forall j, j < length (tolabel g) -> nth j (fanouts g') 0%N = nth j (fanouts g) 0%N) /\ i < length (tolabel g') /\ length (tolabel g) <= length (tolabel g').
Proof.
  intros g h lh l fan i g' H [F1 F2 F3 F4] E. destruct (intern_inv _ _ _ _ _ _ _ H E) as (I & N1 & (m & T) & FA & _ & _ & _ & _ & K & X & _ & _ & Q & _).
  assert (LT : length (tolabel g) <= length (tolabel g')) by (rewrite T, app_length; lia).
  split; [exact I|]. split; [|split; [exact FA|split; [apply nth_error_Some; congruence|exact LT]]]. constructor.
  - intros k n Hk. rewrite K in Hk. rewrite FA; [eauto|]. now apply (i_rng _ _ _ H) in Hk.
  - intros x Hx. rewrite X in Hx. rewrite FA; auto.
  - intros x Hx. rewrite X in Hx. specialize (F3 x Hx). lia.
  - rewrite Q. exact F4.
Qed.
Lemma addrule_fanok : forall g k w, fanok g -> nth (k_lhs k) (fanouts g) 0%N = popcount (keylengths k) -> fanok (addrule g k w).
Proof.
  intros g k w [F1 F2 F3 F4] E. unfold addrule. destruct (lookup key_eqb k (rulenos g)); constructor; cbn [fanouts lexical tolabel lexbyword]; auto.
  unfold kns. cbn [bylhs]. intros k' n. rewrite map_app. cbn [map r_key r_no]. rewrite in_app_iff. intros [I|[I|[]]]; [eapply F1; exact I|]. injection I as <- _. exact E.
Qed.
Lemma convertrule_fanok : forall g h lh ln g', inv g h lh -> fanok g -> goodyf ln -> convertrule g ln = Some g' -> fanok g'.
Proof.
  intros g h lh [[rule yf] w] g' H F G E. cbn [convertrule] in E. destruct (readyf yf) as [c|] eqn:RY; [|discriminate].
  pose proof (goodyf_fan _ _ G RY) as FC.
  destruct rule as [|l [|a [|b [|x rule]]]]; try discriminate.
  - destruct (N.eqb (yc_r1 c) 0 || negb (N.eqb (yc_r2 c) 0)) eqn:Y; [discriminate|].
    destruct (intern_lhs g l (yc_fan c)) as [[lhs g1]|] eqn:I1; [|discriminate]. pose proof (intern_lhs_fan _ _ _ _ _ _ _ H I1) as FL. apply intern_lhs_some in I1.
    destruct (intern g1 a (yc_r1 c)) as [rhs1 g2] eqn:I2.
    destruct ((lhs =? 0) || (rhs1 =? 0)) eqn:Z; [discriminate|]. destruct (rhs1 =? 1) eqn:O; [discriminate|]. destruct (nonpos w) eqn:W; [discriminate|]. injection E as <-.
    destruct (intern_fanok _ _ _ _ _ _ _ H F I1) as (H1 & F1 & _ & L1 & _). destruct (intern_fanok _ _ _ _ _ _ _ H1 F1 I2) as (H2 & F2 & N2 & _ & _).
    apply addrule_fanok; [exact F2|]. cbn [k_lhs keylengths]. rewrite N2 by exact L1. congruence.
  - destruct (N.eqb (yc_r1 c) 0 || N.eqb (yc_r2 c) 0) eqn:Y; [discriminate|].
    destruct (intern_lhs g l (yc_fan c)) as [[lhs g1]|] eqn:I1; [|discriminate]. pose proof (intern_lhs_fan _ _ _ _ _ _ _ H I1) as FL. apply intern_lhs_some in I1.
    destruct (intern g1 a (yc_r1 c)) as [rhs1 g2] eqn:I2.
    destruct ((lhs =? 0) || (rhs1 =? 0)) eqn:Z; [discriminate|].
    destruct (intern g2 b (yc_r2 c)) as [rhs2 g3] eqn:I3. destruct (rhs2 =? 0) eqn:Z3; [discriminate|].
    destruct ((rhs1 =? 1) || (rhs2 =? 1)) eqn:O; [discriminate|]. destruct (nonpos w) eqn:W; [discriminate|]. injection E as <-.
    destruct (intern_fanok _ _ _ _ _ _ _ H F I1) as (H1 & F1 & _ & L1 & _). destruct (intern_fanok _ _ _ _ _ _ _ H1 F1 I2) as (H2 & F2 & N2 & _ & L2).
    destruct (intern_fanok _ _ _ _ _ _ _ H2 F2 I3) as (H3 & F3 & N3 & _ & _).
    apply addrule_fanok; [exact F3|]. cbn [k_lhs keylengths]. rewrite N3, N2 by lia. congruence.
Qed.
Lemma convertrules_fanok : forall lines g h lh g', inv g h lh -> fanok g -> Forall goodyf lines -> fold_opt convertrule g lines = Some g' -> fanok g'.
Proof.
  induction lines as [|ln lines IH]; intros g h lh g' H F G E; cbn [fold_opt] in E; [now injection E as <-|].
  inversion G as [|? ? G1 G2]; subst. destruct (convertrule g ln) as [g1|] eqn:C; [|discriminate].
  destruct (convertrule_inv _ _ _ _ _ H C) as (H1 & _). eapply IH; [exact H1| |exact G2|exact E]. exact (convertrule_fanok _ _ _ _ _ H F G1 C).
Qed.
Lemma fanok_same : forall g g', fanok g -> kns g' = kns g -> fanouts g' = fanouts g -> tolabel g' = tolabel g -> map fst (lexical g') = map fst (lexical g) -> NoDup (map fst (lexbyword g')) -> fanok g'.
Proof.
  intros g g' [F1 F2 F3 F4] K E T X ND. assert (XI : forall x, In x (lexical g') -> exists y, In y (lexical g) /\ fst y = fst x).
  { intros x Hx. apply (in_map fst) in Hx. rewrite X in Hx. apply in_map_iff in Hx. destruct Hx as (y & A & B). eauto. }
  constructor; rewrite ?K, ?E, ?T; auto; intros x Hx; destruct (XI x Hx) as (y & A & <-); auto.
Qed.
Lemma converttag_fanok : forall word g h lh tag w g', inv g h lh -> fanok g -> converttag word g (tag, w) = Some g' -> fanok g'.
Proof.
  intros word g0 h lh tag w g' H0 F0 E. cbn [converttag] in E. destruct (intern_lhs g0 tag 1) as [[lhs g]|] eqn:I1; [|discriminate].
  pose proof (intern_lhs_fan _ _ _ _ _ _ _ H0 I1) as FL. apply intern_lhs_some in I1.
  destruct (intern_fanok _ _ _ _ _ _ _ H0 F0 I1) as (H & F & _ & L & _).
  destruct (nonpos w); [discriminate|].
  destruct (find _ (wordrules g word)) as [n|]; injection E as <-.
  - eapply fanok_same; [exact F|..]; try reflexivity. exact (f_words _ F).
  - destruct F as [F1 F2 F3 F4]. constructor; cbn [fanouts lexical tolabel lexbyword].
    + exact F1.
    + intros x. rewrite in_app_iff. intros [I|[<-|[]]]; [auto|exact FL].
    + intros x. rewrite in_app_iff. intros [I|[<-|[]]]; [auto|exact L].
    + now apply setword_nodup.
Qed.
Lemma converttags_fanok : forall word tags g h lh g', inv g h lh -> fanok g -> fold_opt (converttag word) g tags = Some g' -> fanok g'.
Proof.
  intros word. induction tags as [|[tag w] tags IH]; intros g h lh g' H F E; cbn [fold_opt] in E; [now injection E as <-|].
  destruct (converttag word g (tag, w)) as [g1|] eqn:C; [|discriminate]. destruct (converttag_inv _ _ _ _ _ _ _ H C) as (H1 & _).
  eapply IH; [exact H1| |exact E]. exact (converttag_fanok _ _ _ _ _ _ _ H F C).
Qed.
Section FanSort.
Variable sortr : (prule -> prule -> bool) -> list prule -> list prule.
Variable sortn : (nat -> nat -> bool) -> list nat -> list nat.
Hypothesis SR : sorts sortr.
Hypothesis SN : sorts sortn.
Lemma convertword_fanok : forall dup g h lh line g', inv g h lh -> fanok g -> convertword sortn dup g line = Some g' -> fanok g'.
Proof.
  intros dup g h lh [word tags] g' H F E. unfold convertword in E. destruct tags as [|t tags']; [discriminate|]. set (tags := t :: tags') in *.
  destruct (dup && _); [discriminate|].
  match type of E with match fold_opt _ ?G _ with _ => _ end = _ => set (g1 := G) in * end.
  destruct (fold_opt (converttag word) g1 tags) as [g2|] eqn:C; [|discriminate]. injection E as <-.
  assert (H1 : inv g1 h lh). { apply permword_inv; [exact H|reflexivity]. }
  assert (F1 : fanok g1) by (eapply fanok_same; [exact F|..]; try reflexivity; apply setword_nodup, F).
  pose proof (converttags_fanok _ _ _ _ _ _ H1 F1 C) as F2. eapply fanok_same; [exact F2|..]; try reflexivity. apply setword_nodup, F2.
Qed.
Lemma convertlexicon_fanok : forall dup lines g h lh g', inv g h lh -> fanok g -> fold_opt (convertword sortn dup) g lines = Some g' -> fanok g'.
Proof using SN.
  intros dup. induction lines as [|ln lines IH]; intros g h lh g' H F E; cbn [fold_opt] in E; [now injection E as <-|].
  destruct (convertword sortn dup g ln) as [g1|] eqn:C; [|discriminate]. destruct (convertword_inv sortn SN _ _ _ _ _ _ H C) as (H1 & _).
  eapply IH; [exact H1| |exact E]. exact (convertword_fanok _ _ _ _ _ _ H F C).
Qed.
Lemma fanok_perm : forall g g', fanok g -> Permutation (kns g') (kns g) -> fanouts g' = fanouts g -> tolabel g' = tolabel g -> lexical g' = lexical g -> lexbyword g' = lexbyword g -> fanok g'.
Proof using.
  intros g g' [F1 F2 F3 F4] K E T X Q. constructor; rewrite ?E, ?T, ?X, ?Q; auto. intros k n I. apply (F1 k n). eapply Permutation_in; eauto.
Qed.
Lemma normalize_fanok : forall g, fanok g -> fanok (normalize g).
Proof using.
  intros g F. eapply fanok_same; [exact F|..]; try reflexivity.
  - apply (kns_map (fun r => mkRule (r_key r) (r_no r) (r_prob r / get (freqmass g) (r_lhs r))%Qc) (bylhs g)). intros r. split; reflexivity.
  - unfold normalize. cbn [lexical]. rewrite map_map. apply map_ext. reflexivity.
  - exact (f_words _ F).
Qed.
Lemma switch_fanok : forall g, fanok g -> fanok (switch g).
Proof using.
  intros g F. eapply fanok_same; [exact F|..]; try reflexivity.
  - unfold kns, switch. cbn [bylhs]. apply kns_map. intros r. split; reflexivity.
  - unfold switch. cbn [lexical]. rewrite map_map. cbn [fst]. clear. assert (X : forall l k, map (fun p : nat * (nat * Qc) => fst (snd p)) (combine (seq k (length l)) l) = map fst l).
    { induction l as [|x l IH]; intros k; [reflexivity|]. cbn. now rewrite IH. } apply X.
  - exact (f_words _ F).
Qed.
Lemma addrules_fanok : forall init g h lh rules lexicon g', inv g h lh -> fanok g -> Forall goodyf rules -> addrules sortr sortn init g rules lexicon = Some g' -> fanok g'.
Proof using SR SN.
  intros init g h lh rules lexicon g' H F G E. unfold addrules in E. destruct (convertrules g rules) as [g1|] eqn:C1; [|discriminate]. destruct (convertlexicon sortn init g1 lexicon) as [g2|] eqn:C2; [|discriminate].
  assert (C1' : fold_opt convertrule g rules = Some g1). { unfold convertrules in C1. destruct (fold_opt convertrule g rules) as [x|]; [|discriminate]. destruct (numrules x =? 0); [discriminate|assumption]. }
  assert (C2' : fold_opt (convertword sortn init) g1 lexicon = Some g2). { unfold convertlexicon in C2. destruct (fold_opt _ g1 lexicon) as [x|]; [|discriminate]. destruct (lexical x); [discriminate|assumption]. }
  destruct (convertrules_inv _ _ _ _ _ H C1') as (I1 & _).
  pose proof (convertrules_fanok _ _ _ _ _ H F G C1') as F1. pose proof (convertlexicon_fanok _ _ _ _ _ _ I1 F1 C2') as F2.
  set (g3 := if init then normalize g2 else g2) in *. assert (F3 : fanok g3) by (unfold g3; destruct init; [now apply normalize_fanok|exact F2]).
  destruct (negb (allseen g3)); [discriminate|]. injection E as E.
  match type of E with (if init then ?G else _) = _ => set (g4 := G) in * end.
  assert (F4 : fanok g4). { eapply fanok_perm; [exact F3|..]; try reflexivity. unfold kns, g4. cbn [bylhs]. apply Permutation_map, resort_perm; [exact SR|apply lt0_sw]. }
  destruct init; subst g'; [exact F4|now apply switch_fanok].
Qed.
Lemma history_fanok : forall calls g h lh g', inv g h lh -> asorted g -> fanok g -> Forall (fun c => Forall goodyf (fst c)) calls -> history sortr sortn g calls = Some g' -> fanok g'.
Proof using SR SN.
  induction calls as [|[rules lexicon] calls IH]; intros g h lh g' H A F G E; cbn [history] in E; [now injection E as <-|].
  inversion G as [|? ? G1 G2]; subst. destruct (addrules sortr sortn false g rules lexicon) as [g1|] eqn:C; [|discriminate].
  destruct (addrules_inv _ _ SR SN _ _ _ _ _ _ _ H A C) as (H1 & A1 & _). eapply IH; [exact H1|exact A1| |exact G2|exact E].
  eapply addrules_fanok; [exact H|exact F|exact G1|exact C].
Qed.
Lemma grammar_fanok : forall start rules lexicon calls g, start <> Epsilon -> Forall goodyf rules -> Forall (fun c => Forall goodyf (fst c)) calls ->
  grammar sortr sortn start rules lexicon calls = Some g -> fanok g.
Proof using SR SN.
  intros start rules lexicon calls g NE G1 G2 E. unfold grammar in E. destruct (addrules sortr sortn true (empty start) rules lexicon) as [g1|] eqn:A; [|discriminate].
  destruct (addrules_inv _ _ SR SN _ _ _ _ _ _ _ (empty_inv start NE) (empty_asorted start) A) as (B1 & B2 & _).
  assert (F0 : fanok (empty start)) by (constructor; [intros; contradiction..|constructor]).
  eapply history_fanok; [exact B1|exact B2| |exact G2|exact E]. eapply addrules_fanok; [exact (empty_inv start NE)|exact F0|exact G1|exact A].
Qed.
End FanSort.
