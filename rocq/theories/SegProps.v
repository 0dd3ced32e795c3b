(** Reading trees incrementally (C82) *)
From Coq Require Import String.
From Coq Require Import List Bool Arith NArith Lia.
From Verif Require Import PyStr TreeModel BracketModel SegModel.
From Verif Require ExportModel BracketProofs BracketIO BracketProps.
Import ListNotations.
Open Scope list_scope.
Open Scope nat_scope.

(** ---- specification ---- *)
Definition count (c : N) (s : pystr) : nat := count_occ N.eq_dec s c.
(** a bracketed expression: starts with an opening bracket that is closed by its last character *)
Definition complete (t : pystr) : Prop :=
  (exists u, t = openb :: u ++ [closeb]) /\ count openb t = count closeb t /\
  forall p q, t = p ++ q -> p <> [] -> q <> [] -> count closeb p < count openb p.
(** a tree, as opposed to a single tag and word such as (DT the) *)
Definition nested (t : pystr) : Prop := 2 <= count openb t.
Definition nobrackets (s : pystr) : Prop := ~ In openb s /\ ~ In closeb s.
(** the beginning of a bracketed expression *)
Definition partial (p : pystr) : Prop := p <> [] /\ exists q, q <> [] /\ complete (p ++ q).
(** lines that do not look like another format *)
Definition markers : list pystr := map str ["#BOS "; "#BOT "; "#EOS "; "#EOT "; "%%"; "#FORMAT "; "<alpino_ds"; "</alpino_ds>"; "<?xml"]%string.
Definition plain (line : pystr) : Prop := forall m, In m markers -> forall s, ExportModel.lstrip line <> m ++ s.

(** ---- find ---- *)
Lemma indexof_none : forall c s, ~ In c s -> indexof c s = None.
Proof. induction s as [|x s IH]; intros N0; [reflexivity|]. cbn. destruct (N.eqb_spec x c) as [->|]; [exfalso; apply N0; now left|]. rewrite IH; [reflexivity|]. intros I. apply N0. now right. Qed.
Lemma indexof_app : forall c u s, ~ In c u -> indexof c (u ++ s) = option_map (Nat.add (length u)) (indexof c s).
Proof.
  induction u as [|x u IH]; intros s N0; cbn [app length]; [destruct (indexof c s); reflexivity|]. cbn [indexof]. destruct (N.eqb_spec x c) as [->|]; [exfalso; apply N0; now left|]. rewrite IH by (intros I; apply N0; now right). destruct (indexof c s); reflexivity.
Qed.
Lemma find_at : forall c x y, find c (x ++ y) (length x) = option_map (Nat.add (length x)) (indexof c y).
Proof. intros c x y. unfold find. now rewrite skipn_app, skipn_all, Nat.sub_diag. Qed.
Lemma find_past : forall c x u y, ~ In c u -> find c (x ++ u ++ y) (length x) = find c ((x ++ u) ++ y) (length (x ++ u)).
Proof. intros c x u y N0. rewrite !find_at, indexof_app by exact N0. rewrite app_length. destruct (indexof c y); cbn; [f_equal; lia|reflexivity]. Qed.
Lemma find_here : forall c x y, find c (x ++ c :: y) (length x) = Some (length x).
Proof. intros c x y. rewrite find_at. cbn. rewrite N.eqb_refl. cbn. f_equal. lia. Qed.
Lemma first_bracket : forall y, nobrackets y \/ exists u c z, y = u ++ c :: z /\ nobrackets u /\ (c = openb \/ c = closeb).
Proof.
  induction y as [|c y IH]; [left; split; intros []|]. destruct (N.eq_dec c openb) as [->|N1]; [right; exists [], openb, y; repeat split; auto|]. destruct (N.eq_dec c closeb) as [->|N2]; [right; exists [], closeb, y; repeat split; auto|].
  destruct IH as [[A B]|(u & d & z & -> & [A B] & D)].
  - left. split; intros [E|I]; auto.
  - right. exists (c :: u), d, z. split; [reflexivity|]. split; [split; intros [E|I]; auto|exact D].
Qed.

(** ---- the text as seen one character at a time ---- *)
Section Automaton.
Variable robust : bool.
Inductive phase := PA | PB (cur : pystr) | PC (t w : pystr) | PBad.
Definition pstep (ph : phase) (c : N) : phase * list (pystr * pystr) :=
  match ph with
  | PA => (if N.eqb c openb then PB [c] else PBad, [])
  | PB cur => (if N.eqb c closeb then if robust && (count openb cur =? 1) then PBad else if count openb cur =? S (count closeb cur) then PC (cur ++ [c]) [] else PB (cur ++ [c]) else PB (cur ++ [c]), [])
  | PC t w => if N.eqb c openb then (PB [c], [(t, w)]) else if N.eqb c closeb then (PBad, []) else (PC t (w ++ [c]), [])
  | PBad => (PBad, [])
  end.
Fixpoint run (ph : phase) (s : pystr) : phase * list (pystr * pystr) :=
  match s with [] => (ph, []) | c :: r => let '(ph1, e1) := pstep ph c in let '(ph2, e2) := run ph1 r in (ph2, e1 ++ e2) end.
Lemma run_app : forall s ph r, run ph (s ++ r) = let '(ph1, e1) := run ph s in let '(ph2, e2) := run ph1 r in (ph2, e1 ++ e2).
Proof.
  induction s as [|c s IH]; intros ph r; [cbn; destruct (run ph r); reflexivity|]. cbn [app run]. destruct (pstep ph c) as [ph1 e1]. rewrite IH. destruct (run ph1 s) as [ph2 e2]. destruct (run ph2 r) as [ph3 e3]. now rewrite app_assoc.
Qed.
Lemma run_bad : forall s, run PBad s = (PBad, []).
Proof. induction s as [|c s IH]; [reflexivity|]. cbn. now rewrite IH. Qed.
Lemma run_free : forall u ph, nobrackets u -> run ph u = (match ph with PA => match u with [] => PA | _ => PBad end | PB cur => PB (cur ++ u) | PC t w => PC t (w ++ u) | PBad => PBad end, []).
Proof.
  induction u as [|c u IH]; intros ph [A B]; [destruct ph; cbn; rewrite ?app_nil_r; reflexivity|]. assert (F : nobrackets u) by (split; intros I; [apply A|apply B]; now right).
  assert (N1 : N.eqb c openb = false) by (apply N.eqb_neq; intros ->; apply A; now left). assert (N2 : N.eqb c closeb = false) by (apply N.eqb_neq; intros ->; apply B; now left).
  destruct ph; cbn [run pstep]; rewrite ?N1, ?N2, IH by exact F; rewrite <- ?app_assoc; cbn; try reflexivity; destruct u; reflexivity.
Qed.
Lemma run_lookahead : robust = true -> forall z cur, count openb cur = 1 -> fst (run (PB cur) z) <> PBad -> match indexof closeb z with None => True | Some j => exists i, indexof openb z = Some i /\ i < j end.
Proof.
  intros R. induction z as [|c z IH]; intros cur C NB; [exact I|]. cbn [run pstep] in NB. cbn [indexof]. rewrite R, C in NB. cbn [andb Nat.eqb] in NB.
  destruct (N.eqb_spec c closeb) as [->|N2]; [rewrite run_bad in NB; cbn in NB; congruence|]. destruct (N.eqb_spec c openb) as [->|N1]; [destruct (indexof closeb z); cbn; [exists 0; split; [reflexivity|lia]|exact I]|].
  assert (C' : count openb (cur ++ [c]) = 1) by (unfold count in *; rewrite count_occ_app, C; cbn; destruct (N.eq_dec c openb); [congruence|reflexivity]). specialize (IH _ C'). destruct (run (PB (cur ++ [c])) z) as [ph e]. specialize (IH NB).
  destruct (indexof closeb z) as [j|]; [|exact I]. destruct IH as (i & -> & L). cbn. exists (S i). split; [reflexivity|lia].
Qed.
End Automaton.
Lemma count_app : forall c a b, count c (a ++ b) = count c a + count c b.
Proof. intros. unfold count. apply count_occ_app. Qed.
Lemma count_one : forall c d, count c [d] = if N.eqb d c then 1 else 0.
Proof. intros. unfold count. cbn. destruct (N.eq_dec d c) as [->|N0]; [now rewrite N.eqb_refl|]. apply N.eqb_neq in N0. now rewrite N0. Qed.
Lemma count_free : forall c u, ~ In c u -> count c u = 0.
Proof. intros c u N0. unfold count. now apply count_occ_not_In. Qed.
Lemma slice_mid : forall x0 cur y, slice (x0 ++ cur ++ y) (length x0) (length (x0 ++ cur)) = cur.
Proof. intros. unfold slice. rewrite skipn_app, skipn_all, Nat.sub_diag. cbn [app skipn]. rewrite app_length. replace (length x0 + length cur - length x0) with (length cur) by lia. rewrite firstn_app, firstn_all, Nat.sub_diag. cbn. apply app_nil_r. Qed.
Lemma skipn_mid : forall (x y : pystr), skipn (length x) (x ++ y) = y.
Proof. intros. now rewrite skipn_app, skipn_all, Nat.sub_diag. Qed.

Section Sim.
Context {T : Type}.
Variables (bracketparse : pystr -> option T) (strict robust : bool).
Notation scan := (scan bracketparse strict robust).
Notation run := (run robust).
Definition emitted (em : list (pystr * pystr)) (rs : list (T * option pystr)) : Prop :=
  Forall2 (fun tw r => bracketparse (fst tw) = Some (fst r) /\ snd r = Some (rstrip (snd tw))) em rs.
(** the state of the reader between lines *)
Definition rel (st : bstate) (ph : phase) : Prop :=
  resumed st = false /\
  match ph with
  | PA => parens st = 0 /\ result st = []
  | PB cur => parens st + count closeb cur = count openb cur /\ 0 < parens st /\ (2 <= count openb cur -> 2 <= depth st) /\ prev st = cur /\ result st = []
  | PC t w => parens st = 0 /\ result st = t /\ t <> [] /\ prev st = w
  | PBad => False
  end.
(** the state while looking through a line x ++ y of which x has been seen *)
Definition relin (st : bstate) (ph : phase) (start : nat) (x y : pystr) : Prop :=
  resumed st = false /\
  match ph with
  | PA => parens st = 0 /\ result st = [] /\ x = [] /\ start = 0
  | PB cur => parens st + count closeb cur = count openb cur /\ 0 < parens st /\ (2 <= count openb cur -> 2 <= depth st) /\ prev st = cur ++ y /\ result st = [] /\ (exists x0, x = x0 ++ cur /\ start = length x0)
  | PC t w => parens st = 0 /\ result st = t /\ t <> [] /\ prev st = w ++ y /\ (exists x0, x = x0 ++ w /\ start = length x0)
  | PBad => False
  end.
Lemma scan_done : forall fuel line start st results, scan fuel line None None start st results = Some (st, results).
Proof. intros. destruct fuel; reflexivity. Qed.
Lemma close_step : forall f line a y start st results, match a with Some x => y < x | None => True end ->
  scan (S f) line a (Some y) start st results =
  match (if (parens st =? 1) && (negb robust || (1 <? depth st)) then Some (y + 1, BState 0 0 (skipn (y + 1) line) (slice line start (y + 1)) (rest st) (resumed st))
         else if (parens st =? 0) && strict then None else Some (start, BState (parens st - 1) (depth st) (prev st) (result st) (rest st) (resumed st))) with
  | None => None | Some (start, st) => scan f line a (find closeb line (y + 1)) start st results end.
Proof. intros f line [x|] y start st results L; cbn [SegModel.scan]; [|reflexivity]. assert (x <? y = false) as -> by (apply Nat.ltb_ge; lia). reflexivity. Qed.
Lemma scan_sim : forall n y, length y <= n -> forall fuel x st ph start results em ph', length y < fuel -> relin st ph start x y -> run ph y = (ph', em) -> ph' <> PBad -> forall rs, emitted em rs ->
  exists st', scan fuel (x ++ y) (find openb (x ++ y) (length x)) (find closeb (x ++ y) (length x)) start st results = Some (st', results ++ rs) /\ rel st' ph'.
Proof.
  induction n as [|n IH]; intros y L fuel x st ph start results em ph' F R RUN NB rs EM; destruct (first_bracket y) as [FR|(u & c & z & -> & FR & CC)].
  1,3: rewrite (run_free robust y ph FR) in RUN; injection RUN as <- <-; inversion EM; subst rs; rewrite app_nil_r, !find_at, !indexof_none by apply FR; cbn [option_map]; rewrite scan_done; exists st; split; [reflexivity|]; destruct R as [RS R]; split; [exact RS|].
  1,2: destruct ph as [|cur|t w|].
  - destruct y; [tauto|congruence].
  - destruct R as (R1 & R2 & R3 & R4 & R5 & x0 & R6 & R7). rewrite !count_app, !(count_free _ y), !Nat.add_0_r by apply FR. auto.
  - destruct R as (R1 & R2 & R3 & R4 & _). auto.
  - contradiction.
  - destruct y; [tauto|congruence].
  - destruct R as (R1 & R2 & R3 & R4 & R5 & x0 & R6 & R7). rewrite !count_app, !(count_free _ y), !Nat.add_0_r by apply FR. auto.
  - destruct R as (R1 & R2 & R3 & R4 & _). auto.
  - contradiction.
  - exfalso. rewrite app_length in L. cbn in L. lia.
  - destruct fuel as [|f]; [lia|]. rewrite app_length in L, F. cbn [length] in L, F. destruct R as [RS R].
    rewrite run_app, (run_free robust u ph FR) in RUN. destruct FR as [FO FC].
    destruct CC as [-> | ->].
    + (* an opening bracket *)
      rewrite (find_past openb x u) by exact FO. rewrite (find_past closeb x u) by exact FC. rewrite find_here. set (x1 := x ++ u) in *.
      assert (EL : x ++ u ++ openb :: z = x1 ++ openb :: z) by (unfold x1; now rewrite <- app_assoc). rewrite EL in *.
      assert (EL2 : x1 ++ openb :: z = (x1 ++ [openb]) ++ z) by (now rewrite <- app_assoc). assert (LX : length x1 + 1 = length (x1 ++ [openb])) by (rewrite app_length; reflexivity).
      assert (FB : find closeb (x1 ++ openb :: z) (length x1) = find closeb ((x1 ++ [openb]) ++ z) (length (x1 ++ [openb]))) by (apply (find_past closeb x1 [openb] z); intros [E|[]]; discriminate).
      assert (FA : find openb (x1 ++ openb :: z) (length x1 + 1) = find openb ((x1 ++ [openb]) ++ z) (length (x1 ++ [openb]))) by (rewrite LX, <- EL2; reflexivity).
      assert (LF : match find closeb (x1 ++ openb :: z) (length x1) with Some y => length x1 <? y | None => true end = true).
      { rewrite FB, find_at. destruct (indexof closeb z); cbn; [|reflexivity]. apply Nat.ltb_lt. rewrite app_length. cbn. lia. }
      assert (LA : forall cur, count openb cur = 1 -> fst (run (PB cur) z) <> PBad -> lookahead robust (x1 ++ openb :: z) (length x1) (find closeb (x1 ++ openb :: z) (length x1)) = true).
      { intros cur C NBZ. unfold lookahead. rewrite FA, FB, !find_at. destruct robust eqn:RB; [|now destruct (indexof closeb z)]. pose proof (run_lookahead true eq_refl z cur C NBZ) as Q. destruct (indexof closeb z) as [j|]; [|reflexivity]. destruct Q as (i & -> & Q). cbn. apply Nat.ltb_lt. lia. }
      cbn [SegModel.scan]. rewrite LF. destruct ph as [|cur|t w|].
      * destruct R as (R1 & R2 & -> & ->). destruct u as [|d u]; [|cbn [SegProps.run pstep] in RUN; rewrite run_bad in RUN; congruence]. cbn [SegProps.run pstep] in RUN. rewrite N.eqb_refl in RUN. destruct (SegProps.run robust (PB [openb]) z) as [ph2 e2] eqn:RZ. cbn in RUN. injection RUN as <- <-.
        rewrite R1, (LA [openb] eq_refl) by (rewrite RZ; exact NB). rewrite R2. cbn [Nat.eqb andb]. rewrite FA, FB, EL2. cbn [parens depth prev result rest resumed].
        eapply IH; [lia|lia| |exact RZ|exact NB|exact EM]. split; [exact RS|]. cbn [parens depth prev result]. rewrite !count_one, N.eqb_refl. change (N.eqb openb closeb) with false. unfold x1. cbn [app length skipn]. repeat split; try lia. exists []. split; reflexivity.
      * destruct R as (R1 & R2 & R3 & R4 & R5 & x0 & R6 & R7). cbn [SegProps.run pstep] in RUN. change (N.eqb openb closeb) with false in RUN. cbn iota in RUN. destruct (SegProps.run robust (PB ((cur ++ u) ++ [openb])) z) as [ph2 e2] eqn:RZ. cbn in RUN. injection RUN as <- <-.
        assert (parens st =? 0 = false) as -> by (apply Nat.eqb_neq; lia). cbn [andb]. rewrite FA, FB, EL2. eapply IH; [lia|lia| |exact RZ|exact NB|exact EM]. split; [exact RS|]. cbn [parens depth prev result].
        rewrite !count_app, !count_one, N.eqb_refl. change (N.eqb openb closeb) with false. rewrite !(count_free _ u) by assumption. repeat split; try lia; [rewrite R4, <- !app_assoc; reflexivity|exact R5|]. exists x0. split; [unfold x1; rewrite R6, <- !app_assoc; reflexivity|exact R7].
      * destruct R as (R1 & R2 & R3 & R4 & x0 & R6 & R7). cbn [SegProps.run pstep] in RUN. rewrite N.eqb_refl in RUN. destruct (SegProps.run robust (PB [openb]) z) as [ph2 e2] eqn:RZ. cbn in RUN. injection RUN as <- <-. inversion EM as [|? r ? rs' [E1 E2] EM']; subst. cbn [fst snd] in E1, E2.
        rewrite R1, (LA [openb] eq_refl) by (rewrite RZ; exact NB). cbn [Nat.eqb andb]. assert (SL : slice (x1 ++ openb :: z) (length x0) (length x1) = w ++ u) by (unfold x1; rewrite <- !app_assoc; rewrite (app_assoc w u); rewrite (app_assoc x0 w u) ; rewrite <- (app_assoc x0 w u); apply slice_mid). rewrite SL.
        destruct (result st) as [|r0 rr] eqn:RR; [congruence|]. unfold tryparse. rewrite E1. cbn [option_map]. rewrite FA, FB, EL2. destruct r as [t0 o0]. cbn [fst snd] in *. subst o0. cbn [parens depth prev result rest resumed].
        destruct (IH z ltac:(lia) f (x1 ++ [openb]) (BState 1 (max (depth st) 1) (skipn (length x1) ((x1 ++ [openb]) ++ z)) [] (w ++ u) (resumed st)) (PB [openb]) (length x1) (results ++ [(t0, Some (rstrip (w ++ u)))]) e2 ph2 ltac:(lia)) with (rs := rs') as (st' & S1 & S2); [|exact RZ|exact NB|exact EM'|].
        { split; [exact RS|]. cbn [parens depth prev result]. rewrite !count_one, N.eqb_refl. change (N.eqb openb closeb) with false. repeat split; try lia; [rewrite <- app_assoc, skipn_mid; reflexivity|]. exists x1. auto. }
        exists st'. split; [|exact S2]. rewrite <- (app_assoc results) in S1. exact S1.
      * contradiction.
    + (* a closing bracket *)
      rewrite (find_past openb x u) by exact FO. rewrite (find_past closeb x u) by exact FC. rewrite find_here. set (x1 := x ++ u) in *.
      assert (EL : x ++ u ++ closeb :: z = x1 ++ closeb :: z) by (unfold x1; now rewrite <- app_assoc). rewrite EL in *.
      assert (EL2 : x1 ++ closeb :: z = (x1 ++ [closeb]) ++ z) by (now rewrite <- app_assoc). assert (LX : length x1 + 1 = length (x1 ++ [closeb])) by (rewrite app_length; reflexivity).
      assert (FB : find openb (x1 ++ closeb :: z) (length x1) = find openb ((x1 ++ [closeb]) ++ z) (length (x1 ++ [closeb]))) by (apply (find_past openb x1 [closeb] z); intros [E|[]]; discriminate).
      assert (FA : find closeb (x1 ++ closeb :: z) (length x1 + 1) = find closeb ((x1 ++ [closeb]) ++ z) (length (x1 ++ [closeb]))) by (rewrite LX, <- EL2; reflexivity).
      rewrite close_step; [|rewrite FB, find_at; destruct (indexof openb z); cbn; [rewrite app_length; cbn; lia|exact I]]. rewrite FA, FB.
      destruct ph as [|cur|t w|].
      * exfalso. destruct u; cbn [SegProps.run pstep] in RUN; [change (N.eqb closeb openb) with false in RUN|]; rewrite run_bad in RUN; congruence.
      * destruct R as (R1 & R2 & R3 & R4 & R5 & x0 & R6 & R7). cbn [SegProps.run pstep] in RUN. rewrite N.eqb_refl in RUN. rewrite !count_app, !(count_free _ u), !Nat.add_0_r in RUN by assumption.
        destruct (robust && (count openb cur =? 1)) eqn:RC; [rewrite run_bad in RUN; congruence|]. destruct (count openb cur =? S (count closeb cur)) eqn:CE.
        -- apply Nat.eqb_eq in CE. assert (parens st = 1) as -> by lia. destruct (SegProps.run robust (PC ((cur ++ u) ++ [closeb]) []) z) as [ph2 e2] eqn:RZ. cbn in RUN. injection RUN as <- <-.
           assert (negb robust || (1 <? depth st) = true) as ->.
           { destruct robust; [cbn [andb negb orb] in RC |- *|reflexivity]. apply Nat.ltb_lt. apply Nat.eqb_neq in RC. specialize (R3 ltac:(lia)). lia. }
           cbn [Nat.eqb andb]. rewrite EL2. eapply IH; [lia|lia| |exact RZ|exact NB|exact EM]. split; [exact RS|]. cbn [parens depth prev result]. split; [reflexivity|]. split; [|split; [intros E; apply app_eq_nil in E; destruct E; discriminate|split]].
           ++ rewrite LX. unfold x1. rewrite R6, R7. rewrite <- !app_assoc. rewrite (app_assoc cur), (app_assoc (cur ++ u)). rewrite (app_assoc cur u [closeb]). apply slice_mid.
           ++ rewrite LX, skipn_mid. reflexivity.
           ++ exists (x1 ++ [closeb]). split; [now rewrite app_nil_r|exact LX].
        -- apply Nat.eqb_neq in CE. destruct (SegProps.run robust (PB ((cur ++ u) ++ [closeb])) z) as [ph2 e2] eqn:RZ. cbn in RUN. injection RUN as <- <-. assert (parens st =? 1 = false) as -> by (apply Nat.eqb_neq; lia). assert (parens st =? 0 = false) as -> by (apply Nat.eqb_neq; lia). cbn [andb].
           rewrite EL2. eapply IH; [lia|lia| |exact RZ|exact NB|exact EM]. split; [exact RS|]. cbn [parens depth prev result]. rewrite !count_app, !count_one, N.eqb_refl. change (N.eqb closeb openb) with false. rewrite !(count_free _ u) by assumption.
           repeat split; try lia; [rewrite R4, <- !app_assoc; reflexivity|exact R5|]. exists x0. split; [unfold x1; rewrite R6, <- !app_assoc; reflexivity|exact R7].
      * exfalso. cbn [SegProps.run pstep] in RUN. change (N.eqb closeb openb) with false in RUN. rewrite N.eqb_refl, run_bad in RUN. congruence.
      * contradiction.
Qed.
Lemma round_sim : forall st ph line ph' em rs, rel st ph -> run ph line = (ph', em) -> ph' <> PBad -> emitted em rs ->
  exists st', round bracketparse strict robust st line = Some (st', rs) /\ rel st' ph'.
Proof.
  intros st ph line ph' em rs R RUN NB EM. unfold round. set (pr := if negb (parens st =? 0) || nonempty (result st) then prev st else []). destruct R as [RS R].
  assert (RI : relin (BState (parens st) (depth st) (pr ++ line) (result st) (rest st) false) ph 0 pr line).
  { split; [reflexivity|]. cbn [parens depth prev result]. destruct ph as [|cur|t w|].
    - destruct R as [R1 R2]. unfold pr. rewrite R1, R2. auto.
    - destruct R as (R1 & R2 & R3 & R4 & R5). assert (E : pr = cur) by (unfold pr; assert (parens st =? 0 = false) as -> by (apply Nat.eqb_neq; lia); exact R4). rewrite E. repeat split; auto. exists []. auto.
    - destruct R as (R1 & R2 & R3 & R4). assert (E : pr = w) by (unfold pr; rewrite R1, R2; destruct t; [congruence|exact R4]). rewrite E. repeat split; auto. exists []. auto.
    - contradiction. }
  destruct (scan_sim (length line) line (le_n _) (S (length (pr ++ line))) pr _ ph 0 [] em ph' ltac:(rewrite app_length; lia) RI RUN NB rs EM) as (st' & E & R').
  exists st'. split; [exact E|exact R'].
Qed.
Lemma send_sim : forall st ph line ph' em rs, rel st ph -> run ph line = (ph', em) -> ph' <> PBad -> ph' <> PA -> emitted em rs ->
  exists st', sendbrackets bracketparse strict robust st (Some line) = (match rs with [] => Wait | _ => Trees rs end, st') /\ rel st' ph'.
Proof.
  intros st ph line ph' em rs R RUN NB NA EM. destruct (round_sim st ph line ph' em rs R RUN NB EM) as (st' & E & R'). exists st'. split; [|exact R']. unfold sendbrackets. rewrite (proj1 R), E. unfold outcome_of. destruct rs; [|reflexivity].
  destruct R' as [_ R']. destruct ph' as [|cur|t w|]; [congruence| | |congruence].
  - destruct R' as (_ & R2 & _ & _ & R5). rewrite R5. cbn [nonempty orb]. assert (parens st' =? 0 = false) as -> by (apply Nat.eqb_neq; lia). reflexivity.
  - destruct R' as (_ & R2 & R3 & _). rewrite R2. destruct t; [congruence|reflexivity].
Qed.
End Sim.

(** ---- the text of a file in terms of the automaton ---- *)
Section Text.
Variable robust : bool.
Notation run := (run robust).
Lemma run_complete : forall t, complete t -> (robust = true -> nested t) -> forall q p, t = p ++ q -> p <> [] -> q <> [] -> run (PB p) q = (PC t [], []).
Proof.
  intros t ((u & TU) & CO & CP) NE. induction q as [|c q IH]; intros p E P Q; [congruence|]. cbn [SegProps.run pstep]. destruct q as [|d q].
  - assert (c = closeb) as ->. { assert (E2 : p ++ [c] = (openb :: u) ++ [closeb]) by (rewrite <- E, TU; reflexivity). apply app_inj_tail in E2. tauto. }
    rewrite N.eqb_refl. assert (CE : count openb p = S (count closeb p)) by (rewrite E, !count_app in CO; change (count openb [closeb]) with 0 in CO; change (count closeb [closeb]) with 1 in CO; lia). rewrite CE, Nat.eqb_refl.
    assert (robust && (S (count closeb p) =? 1) = false) as ->. { destruct robust; [|reflexivity]. cbn [andb]. apply Nat.eqb_neq. specialize (NE eq_refl). unfold nested in NE. rewrite E, count_app in NE. change (count openb [closeb]) with 0 in NE. lia. }
    cbn. now rewrite E.
  - assert (E2 : t = (p ++ [c]) ++ d :: q) by (rewrite <- app_assoc; exact E). assert (N1 : p ++ [c] <> []) by (intros X; apply app_eq_nil in X; destruct X; discriminate).
    pose proof (CP _ _ E2 N1 ltac:(discriminate)) as CC. rewrite !count_app, !count_one in CC. specialize (IH _ E2 N1 ltac:(discriminate)).
    destruct (N.eqb_spec c closeb) as [->|NC]; [|rewrite IH; reflexivity]. change (N.eqb closeb openb) with false in CC. cbn iota in CC.
    assert (robust && (count openb p =? 1) = false) as -> by (destruct robust; [cbn [andb]; apply Nat.eqb_neq; lia|reflexivity]). assert (count openb p =? S (count closeb p) = false) as -> by (apply Nat.eqb_neq; lia). now rewrite IH.
Qed.
Lemma run_partial : forall t, complete t -> forall p' p q, t = p ++ p' ++ q -> p <> [] -> q <> [] -> run (PB p) p' = (PB (p ++ p'), []).
Proof.
  intros t ((u & TU) & CO & CP). induction p' as [|c p' IH]; intros p q E P Q; [now rewrite app_nil_r|]. cbn [SegProps.run pstep]. assert (E2 : t = (p ++ [c]) ++ p' ++ q) by (rewrite <- app_assoc; exact E). assert (N1 : p ++ [c] <> []) by (intros X; apply app_eq_nil in X; destruct X; discriminate).
  pose proof (CP _ _ E2 N1) as CC. rewrite !count_app, !count_one in CC. specialize (IH _ q E2 N1 Q). assert (PQ : p' ++ q <> []) by (intros X; apply app_eq_nil in X; tauto). specialize (CC PQ). rewrite <- app_assoc in IH. cbn in IH.
  destruct (N.eqb_spec c closeb) as [->|NC]; [|rewrite IH; reflexivity]. change (N.eqb closeb openb) with false in CC. cbn iota in CC.
  assert (robust && (count openb p =? 1) = false) as -> by (destruct robust; [cbn [andb]; apply Nat.eqb_neq; lia|reflexivity]). assert (count openb p =? S (count closeb p) = false) as -> by (apply Nat.eqb_neq; lia). now rewrite IH.
Qed.
Definition text (items : list (pystr * pystr)) : pystr := flat_map (fun tw => fst tw ++ snd tw) items.
Lemma run_tree : forall t, complete t -> (robust = true -> nested t) -> forall ph, ph = PA \/ (exists s w, ph = PC s w) -> run ph t = (PC t [], match ph with PC s w => [(s, w)] | _ => [] end).
Proof.
  intros t C NE ph H. pose proof C as [(u & TU) _]. rewrite TU. cbn [SegProps.run]. pose proof (run_complete t C NE (u ++ [closeb]) [openb] TU ltac:(discriminate) ltac:(intros X; apply app_eq_nil in X; destruct X; discriminate)) as RC. rewrite <- TU.
  destruct H as [->|(s & w & ->)]; cbn [pstep]; rewrite N.eqb_refl, RC; reflexivity.
Qed.
Lemma run_items : forall items, (forall t w, In (t, w) items -> complete t /\ (robust = true -> nested t) /\ nobrackets w) -> forall s w, nobrackets w ->
  run (PC s w) (text items) = (match rev items with [] => PC s w | (t, v) :: _ => PC t v end, removelast ((s, w) :: items)).
Proof.
  induction items as [|[t v] items IH]; intros H s w NW; [reflexivity|]. cbn [text flat_map fst snd]. fold (text items). destruct (H t v (or_introl eq_refl)) as (C & NE & NV). rewrite <- app_assoc, run_app, (run_tree t C NE) by (right; eauto). rewrite run_app, (run_free robust v _ NV). cbn [app].
  rewrite IH by (auto; intros t' v' I; apply H; now right). cbn [app rev]. assert (E : match rev items with [] => PC t v | (t0, v0) :: _ => PC t0 v0 end = match rev items ++ [(t, v)] with [] => PC s w | (t0, v0) :: _ => PC t0 v0 end) by (destruct (rev items) as [|[a b] r]; reflexivity).
  rewrite E. reflexivity.
Qed.
(** what is left open at the end of the text, closed by the bracket added at the end *)
Definition tail_ok (tl : pystr) : Prop := tl = [] \/ partial tl.
Lemma run_text : forall items tl, (forall t w, In (t, w) items -> complete t /\ (robust = true -> nested t) /\ nobrackets w) -> tail_ok tl ->
  exists ph em cur em', run PA (text items ++ tl) = (ph, em) /\ ph <> PBad /\ (ph = PA -> text items ++ tl = []) /\ run ph [openb] = (PB cur, em') /\ em ++ em' = items.
Proof.
  intros items tl H TO. assert (A : exists ph em, run PA (text items) = (ph, em) /\ (items = [] /\ ph = PA /\ em = [] \/ exists s w, ph = PC s w /\ em ++ [(s, w)] = items)).
  { destruct items as [|[t v] items]; [exists PA, []; cbn; auto|]. cbn [text flat_map fst snd]. fold (text items). destruct (H t v (or_introl eq_refl)) as (C & NE & NV). rewrite <- app_assoc, run_app, (run_tree t C NE) by (now left). rewrite run_app, (run_free robust v _ NV). cbn [app].
    rewrite run_items by (auto; intros t' v' I; apply H; now right). destruct (rev items) as [|[a b] r] eqn:RE.
    - apply (f_equal (@rev _)) in RE. rewrite rev_involutive in RE. cbn in RE. subst items. eexists. eexists. split; [reflexivity|]. right. eauto.
    - apply (f_equal (@rev _)) in RE. rewrite rev_involutive in RE. cbn [rev] in RE. subst items. eexists. eexists. split; [reflexivity|]. right. exists a, b. split; [reflexivity|]. rewrite app_comm_cons, removelast_last. reflexivity. }
  destruct A as (ph & em & R & A). rewrite run_app, R. destruct TO as [->|(TN & q & QN & TC)].
  - cbn [SegProps.run]. rewrite app_nil_r. destruct A as [(-> & -> & ->)|(s & w & -> & <-)].
    + exists PA, [], [openb], []. cbn. repeat split; auto; discriminate.
    + exists (PC s w), em, [openb], [(s, w)]. repeat split; auto; try discriminate; now rewrite app_nil_r.
  - pose proof TC as [(u & TU) _]. destruct tl as [|c tl]; [congruence|]. assert (c = openb) as -> by (cbn in TU; injection TU as -> _; reflexivity). pose proof (run_partial _ TC tl [openb] q eq_refl ltac:(discriminate) QN) as RP.
    assert (RT : forall ph, ph = PA \/ (exists s w, ph = PC s w) -> run ph (openb :: tl) = (PB (openb :: tl), match ph with PC s w => [(s, w)] | _ => [] end)).
    { intros ph' [->|(s & w & ->)]; cbn [SegProps.run pstep]; rewrite N.eqb_refl, RP; reflexivity. }
    assert (RO : run (PB (openb :: tl)) [openb] = (PB ((openb :: tl) ++ [openb]), [])) by reflexivity.
    destruct A as [(-> & -> & ->)|(s & w & -> & <-)]; rewrite RT by eauto; [exists (PB (openb :: tl)), [], ((openb :: tl) ++ [openb]), []|exists (PB (openb :: tl)), (em ++ [(s, w)]), ((openb :: tl) ++ [openb]), []]; repeat split; try discriminate; auto. now rewrite app_nil_r.
Qed.
End Text.

(** ---- lines in other formats ---- *)
Lemma lstrip_suffix : forall s, exists p, s = p ++ ExportModel.lstrip s.
Proof. induction s as [|c s [p IH]]; [now exists []|]. cbn [ExportModel.lstrip]. destruct (isspace c); [exists (c :: p); cbn; now rewrite <- IH|now exists []]. Qed.
Lemma rstrip_prefix : forall s, exists q, s = ExportModel.rstrip s ++ q.
Proof. intros s. destruct (lstrip_suffix (rev s)) as [p E]. exists (rev p). unfold ExportModel.rstrip. rewrite <- rev_app_distr, <- E. symmetry. apply rev_involutive. Qed.
Lemma lstrip_app : forall a q, ExportModel.lstrip a <> [] -> ExportModel.lstrip (a ++ q) = ExportModel.lstrip a ++ q.
Proof. induction a as [|c a IH]; intros q N0; [now contradiction N0|]. cbn [app ExportModel.lstrip] in *. destruct (isspace c); [now apply IH|reflexivity]. Qed.
Lemma plain_stripped : forall line m, plain line -> In m markers -> m <> [] -> startswith (ExportModel.lstrip (ExportModel.rstrip line)) m = false.
Proof.
  intros line m P I N0. destruct (startswith _ m) eqn:S; [exfalso|reflexivity]. apply startswith_iff in S. destruct S as [s S]. destruct (rstrip_prefix line) as [q E]. apply (P m I (s ++ q)). rewrite E at 1. rewrite lstrip_app, S; [now rewrite app_assoc|]. rewrite S. destruct m; [congruence|discriminate].
Qed.
Lemma plain_lstrip : forall line m, plain line -> In m markers -> startswith (ExportModel.lstrip line) m = false.
Proof. intros line m P I. destruct (startswith _ m) eqn:S; [exfalso|reflexivity]. apply startswith_iff in S. destruct S as [s S]. exact (P m I s S). Qed.
Lemma starts_lstrip : forall s c m, isspace c = false -> startswith (ExportModel.lstrip s) (c :: m) = false -> startswith s (c :: m) = false.
Proof. intros [|d s] c m C S; [reflexivity|]. cbn [ExportModel.lstrip] in S. cbn [startswith]. destruct (N.eqb_spec c d) as [<-|]; [|reflexivity]. rewrite C in S. cbn [startswith] in S. rewrite N.eqb_refl in S. exact S. Qed.

Section Loop.
Context {T : Type}.
Variables (bracketparse : pystr -> option T) (exportparse alpinoparse : list pystr -> option (T * option pystr)) (strict robust othertext : bool).
Notation readloop := (readloop bracketparse exportparse alpinoparse strict robust othertext).
Notation idle := (@nil pystr, 0).
Lemma plain_export : forall line, plain line -> sendexport exportparse strict idle (Some line) = (NotMine, idle).
Proof.
  intros line P. unfold sendexport. assert (Q : forall m, In m markers -> m <> [] -> isspace (hd 0%N m) = false -> startswith (ExportModel.rstrip line) m = false).
  { intros [|c m] I N0 S; [congruence|]. apply starts_lstrip; [exact S|]. now apply plain_stripped. }
  rewrite !Q by (first [discriminate|reflexivity|cbn; tauto]). cbn [orb]. destruct (ExportModel.rstrip line) as [|d r] eqn:E; [reflexivity|]. rewrite <- E. cbn [Nat.eqb negb orb]. rewrite !plain_stripped by (first [exact P|discriminate|cbn; tauto]). reflexivity.
Qed.
Lemma plain_alpino : forall line, plain line -> sendalpino alpinoparse idle (Some line) = (NotMine, idle).
Proof.
  intros line P. unfold sendalpino. assert (Q : forall m, In m markers -> m <> [] -> isspace (hd 0%N m) = false -> startswith line m = false).
  { intros [|c m] I N0 S; [congruence|]. apply starts_lstrip; [exact S|]. now apply plain_lstrip. }
  rewrite !Q by (first [discriminate|reflexivity|cbn; tauto]). destruct (ExportModel.lstrip line) as [|d r] eqn:E; [reflexivity|]. rewrite <- E. cbn [Nat.eqb negb orb]. rewrite plain_lstrip by (first [exact P|cbn; tauto]). reflexivity.
Qed.
Definition go (input : list (option pystr)) (i : nat) (s : states) : option (list (option T * option pystr)) :=
  match input with [] => Some [] | l :: more => readloop more i l s end.
Lemma readloop_eq : forall input i line s, readloop input i line s =
  match offer bracketparse exportparse alpinoparse strict robust i line s with
  | OStop => Some [] | OError => None | OWait j s => go input j s
  | OTrees l s => option_map (app (flat_map (output othertext) l)) (go input 0 s)
  | ORejected s => option_map (app (match line with Some l => if othertext then [(None, Some (ExportModel.rstrip l))] else [] | None => [] end)) (go input 0 s)
  end.
Proof. intros input i line s. destruct input; reflexivity. Qed.
Lemma offer_brackets : forall i line b, i = 0 \/ i = 2 -> plain line -> offer bracketparse exportparse alpinoparse strict robust i (Some line) (idle, idle, b) = offerbrackets bracketparse strict robust (Some line) (idle, idle, b).
Proof. intros i line b [-> | ->] P; [|reflexivity]. cbn [offer]. unfold offerexport. rewrite (plain_export line P). unfold offeralpino. now rewrite (plain_alpino line P). Qed.
Lemma plain_open : plain [openb].
Proof. intros m I s E. cbn in E. unfold markers in I. cbn in I. repeat (destruct I as [<-|I]; [discriminate E|]). exact I. Qed.
Lemma notpa : forall s ph, ph <> PA \/ s <> [] -> fst (run robust ph s) <> PA.
Proof.
  assert (Q : forall s ph, ph <> PA -> fst (run robust ph s) <> PA).
  { induction s as [|c s IH]; intros ph N0; [exact N0|]. cbn [run]. assert (N1 : fst (pstep robust ph c) <> PA).
    { destruct ph; cbn [pstep fst]; try congruence; [destruct (N.eqb c closeb); [destruct (robust && _); [|destruct (_ =? _)]|]; discriminate|destruct (N.eqb c openb); [|destruct (N.eqb c closeb)]; discriminate]. }
    destruct (pstep robust ph c) as [ph1 e1]. specialize (IH ph1 N1). destruct (run robust ph1 s). exact IH. }
  intros s ph [N0|N0]; [now apply Q|]. destruct s as [|c s]; [congruence|]. destruct ph; try (apply Q; discriminate). cbn [run pstep]. assert (N1 : (if N.eqb c openb then PB [c] else PBad) <> PA) by (destruct (N.eqb c openb); discriminate). pose proof (Q s _ N1) as X. destruct (run robust _ s). exact X.
Qed.
Lemma end_sim : forall i st ph cur em rs, i = 0 \/ i = 2 -> rel st ph -> run robust ph [openb] = (PB cur, em) -> emitted bracketparse em rs ->
  go [Some [openb]; None; None] i (idle, idle, st) = Some (flat_map (output othertext) rs).
Proof.
  intros i st ph cur em rs I R RUN EM. cbn [go SegModel.readloop]. rewrite (offer_brackets i [openb] st I plain_open). unfold offerbrackets at 1.
  destruct (send_sim bracketparse strict robust st ph [openb] (PB cur) em rs R RUN ltac:(discriminate) ltac:(discriminate) EM) as (st' & E & R'). rewrite E. destruct rs as [|r rs].
  - cbn [offer]. unfold offerbrackets at 1. unfold sendbrackets. destruct R' as [RS R']. rewrite RS. destruct R' as (R1 & R2 & R3 & R4 & R5). rewrite R5. unfold outcome_of. cbn [result parens nonempty orb]. assert (P0 : parens st' =? 0 = false) by (apply Nat.eqb_neq; lia). rewrite P0. cbn [negb orb].
    cbn [SegModel.readloop offer]. unfold offerbrackets at 1. unfold sendbrackets. cbn [resumed result].
    destruct (round_sim bracketparse strict robust st' (PB cur) [] (PB cur) [] [] (conj RS (conj R1 (conj R2 (conj R3 (conj R4 R5))))) eq_refl ltac:(discriminate) (Forall2_nil _)) as (st2 & E2 & _ & R2').
    assert (E3 : round bracketparse strict robust (BState (parens st') (depth st') (prev st') [] (rest st') true) [] = Some (st2, [])) by (rewrite <- R5 at 1; exact E2). rewrite E3. unfold outcome_of. destruct (_ || _); reflexivity.
  - cbn. now rewrite app_nil_r.
Qed.
Lemma loop_sim : forall lines i st ph ph' em cur em' rs, i = 0 \/ i = 2 -> (forall l, In l lines -> plain l) -> (ph <> PA \/ match lines with [] => True | l :: _ => l <> [] end) -> rel st ph ->
  run robust ph (concat lines) = (ph', em) -> ph' <> PBad -> run robust ph' [openb] = (PB cur, em') -> emitted bracketparse (em ++ em') rs ->
  go (map Some lines ++ [Some [openb]; None; None]) i (idle, idle, st) = Some (flat_map (output othertext) rs).
Proof.
  induction lines as [|line lines IH]; intros i st ph ph' em cur em' rs I PL NA R RUN NB RO EM.
  - cbn in RUN. injection RUN as <- <-. eapply end_sim; eauto.
  - cbn [concat] in RUN. rewrite run_app in RUN. destruct (run robust ph line) as [ph1 e1] eqn:R1. destruct (run robust ph1 (concat lines)) as [ph2 e2] eqn:R2. injection RUN as <- <-.
    assert (N1 : ph1 <> PBad) by (intros ->; rewrite run_bad in R2; congruence). assert (N2 : ph1 <> PA) by (pose proof (notpa line ph NA) as X; rewrite R1 in X; exact X).
    rewrite <- app_assoc in EM. apply Forall2_app_inv_l in EM. destruct EM as (rs1 & rs2 & EM1 & EM2 & ->). destruct (send_sim bracketparse strict robust st ph line ph1 e1 rs1 R R1 N1 N2 EM1) as (st' & E & R').
    cbn [map app go]. rewrite readloop_eq. rewrite (offer_brackets i line st I (PL line (or_introl eq_refl))). unfold offerbrackets. rewrite E.
    assert (GO : forall j, j = 0 \/ j = 2 -> go (map Some lines ++ [Some [openb]; None; None]) j (idle, idle, st') = Some (flat_map (output othertext) rs2)).
    { intros j J. eapply (IH j st' ph1 ph2 e2 cur em' rs2); eauto. intros l X. apply PL. now right. }
    destruct rs1 as [|r rs1]; [exact (GO 2 (or_intror eq_refl))|]. rewrite (GO 0 (or_introl eq_refl)). cbn [option_map]. now rewrite flat_map_app.
Qed.
Lemma before_sim : forall lines0 rest st out, (forall l, In l lines0 -> plain l /\ nobrackets l) -> rel st PA -> rest <> [] -> (forall st, rel st PA -> go rest 0 (idle, idle, st) = Some out) ->
  go (map Some lines0 ++ rest) 0 (idle, idle, st) = Some (flat_map (fun l => if othertext then [(None, Some (ExportModel.rstrip l))] else []) lines0 ++ out).
Proof.
  induction lines0 as [|l lines0 IH]; intros rest st out H R NE G; [now apply G|]. destruct (H l (or_introl eq_refl)) as [PL NBR]. cbn [map app go]. rewrite readloop_eq. rewrite (offer_brackets 0 l st (or_introl eq_refl) PL). unfold offerbrackets, sendbrackets. destruct R as (RS & R1 & R2). rewrite RS. unfold round. rewrite R1, R2. cbn [Nat.eqb negb nonempty orb app length].
  assert (F : forall c, ~ In c l -> find c l 0 = None) by (intros c N0; unfold find; cbn [skipn]; now rewrite indexof_none). rewrite !F by apply NBR. rewrite scan_done. unfold outcome_of. cbn [result parens nonempty orb Nat.eqb negb].
  assert (GO : go (map Some lines0 ++ rest) 0 (idle, idle, BState 0 (depth st) l [] (SegModel.rest st) false) = Some (flat_map (fun l => if othertext then [(None, Some (ExportModel.rstrip l))] else []) lines0 ++ out)) by (apply IH; auto; [intros l' I; apply H; now right|split; [reflexivity|split; reflexivity]]).
  rewrite GO. cbn [option_map flat_map]. now rewrite app_assoc.
Qed.
End Loop.

(** ---- C82 ---- *)
(** [lines0] are lines without brackets, [lines] are the other lines, split up in any way;
    together they contain the trees t with the text w after each, and possibly the beginning
    of one more tree *)
Definition layout (robust : bool) (lines0 lines : list pystr) (items : list (pystr * pystr)) : Prop :=
  (forall l, In l lines0 -> plain l /\ nobrackets l) /\ (forall l, In l lines -> plain l /\ l <> []) /\
  (exists tl, concat lines = text items ++ tl /\ (tl = [] \/ partial tl)) /\
  (forall t w, In (t, w) items -> complete t /\ (robust = true -> nested t) /\ nobrackets w).
Lemma reads : forall (T : Type) (bracketparse : pystr -> option T) exportparse alpinoparse strict robust othertext lines0 lines items trees, layout robust lines0 lines items ->
  Forall2 (fun tw t => bracketparse (fst tw) = Some t) items trees ->
  incrementaltreereader bracketparse exportparse alpinoparse strict robust othertext (lines0 ++ lines) =
    Some (flat_map (fun l => if othertext then [(None, Some (ExportModel.rstrip l))] else []) lines0 ++
          flat_map (output othertext) (combine trees (map (fun tw => Some (ExportModel.rstrip (snd tw))) items))).
Proof.
  intros T bp ep ap strict robust othertext lines0 lines items trees (H0 & H1 & (tl & CT & TO) & H2) F. destruct (run_text robust items tl H2 TO) as (ph & em & cur & em' & R & NB & NA & RO & EI). rewrite <- CT in *.
  assert (G : forall st, rel st PA -> go bp ep ap strict robust othertext (map Some lines ++ [Some [openb]; None; None]) 0 (([], 0), ([], 0), st) = Some (flat_map (output othertext) (combine trees (map (fun tw => Some (ExportModel.rstrip (snd tw))) items)))).
  { intros st RS. eapply loop_sim; [now left|intros l I; now apply H1| |exact RS|exact R|exact NB|exact RO|].
    - destruct lines as [|l lines]; [now right|]. right. apply (H1 l). now left.
    - rewrite EI. clear - F. induction F as [|[t w] tr items trees E F IH]; [constructor|]. cbn [map combine]. constructor; [split; [exact E|reflexivity]|exact IH]. }
  pose proof (before_sim bp ep ap strict robust othertext lines0 (map Some lines ++ [Some [openb]; None; None]) binit _ H0 ltac:(repeat split) ltac:(intros X; apply app_eq_nil in X; destruct X; discriminate) G) as B.
  unfold incrementaltreereader. rewrite map_app, <- app_assoc. exact B.
Qed.
(** every tree is read, with the text after it, in order, however the text is split in lines;
    other lines and an unfinished tree at the end are left out *)
Theorem C82_reads : forall (T : Type) (bracketparse : pystr -> option T) exportparse alpinoparse strict robust lines0 lines items trees, layout robust lines0 lines items ->
  Forall2 (fun tw t => bracketparse (fst tw) = Some t) items trees ->
  incrementaltreereader bracketparse exportparse alpinoparse strict robust false (lines0 ++ lines) =
    Some (combine (map Some trees) (map (fun tw => Some (ExportModel.rstrip (snd tw))) items)).
Proof.
  intros T bp ep ap strict robust lines0 lines items trees L F. rewrite (reads T bp ep ap strict robust false lines0 lines items trees L F). f_equal.
  assert (A : flat_map (fun _ : pystr => @nil (option T * option pystr)) lines0 = []) by (clear; induction lines0; auto). cbn iota. rewrite A. clear - F. induction F as [|[t w] tr items trees E F IH]; [reflexivity|]. cbn [map combine flat_map app]. cbn [app] in IH. rewrite IH. unfold output. cbn [snd]. destruct (find _ _ _); reflexivity.
Qed.
(** with othertext, the other lines are given as well (without a tree), and the text after a
    tree is cut before its first line ending *)
Inductive shown {T} : T -> pystr -> list (option T * option pystr) -> Prop :=
| shown_line : forall t w, ~ In newline w -> shown t w [(Some t, Some w)]
| shown_cut : forall t w v, ~ In newline w -> shown t (w ++ newline :: v) [(Some t, Some w); (None, Some (newline :: v))].
Lemma output_shown : forall T (t : T) w, shown t w (output true (t, Some w)).
Proof.
  intros T t w. cbn [output]. unfold find. cbn [skipn]. destruct (in_dec N.eq_dec newline w) as [I|N0].
  - apply in_split in I. destruct I as (a & b & E). assert (X : exists u v, w = u ++ newline :: v /\ ~ In newline u).
    { clear - E. revert a E. induction w as [|c w IH]; intros a E; [destruct a; discriminate|]. destruct (N.eq_dec c newline) as [->|N0]; [exists [], w; auto|]. destruct a as [|d a]; [cbn in E; congruence|]. cbn in E. injection E as -> E. destruct (IH a E) as (u & v & -> & N1). exists (d :: u), v. split; [reflexivity|]. intros [X|X]; auto. }
    destruct X as (u & v & -> & N1). rewrite indexof_app by exact N1. cbn [indexof]. rewrite N.eqb_refl. cbn [option_map]. rewrite Nat.add_0_l, Nat.add_0_r. rewrite firstn_app, Nat.sub_diag, firstn_all, skipn_app, skipn_all, Nat.sub_diag. cbn [firstn skipn app]. rewrite app_nil_r. now constructor.
  - rewrite indexof_none by exact N0. cbn [option_map]. now constructor.
Qed.
Theorem C82_othertext : forall (T : Type) (bracketparse : pystr -> option T) exportparse alpinoparse strict robust lines0 lines items trees, layout robust lines0 lines items ->
  Forall2 (fun tw t => bracketparse (fst tw) = Some t) items trees ->
  exists after, Forall2 (fun ti r => shown (fst ti) (ExportModel.rstrip (snd (snd ti))) r) (combine trees items) after /\
    incrementaltreereader bracketparse exportparse alpinoparse strict robust true (lines0 ++ lines) = Some (map (fun l => (None, Some (ExportModel.rstrip l))) lines0 ++ concat after).
Proof.
  intros T bp ep ap strict robust lines0 lines items trees L F. rewrite (reads T bp ep ap strict robust true lines0 lines items trees L F). clear L.
  assert (A : flat_map (fun l : pystr => [(@None T, Some (ExportModel.rstrip l))]) lines0 = map (fun l => (None, Some (ExportModel.rstrip l))) lines0) by (clear; induction lines0; cbn; congruence). cbn iota. rewrite A. clear A.
  assert (X : exists after, Forall2 (fun ti r => shown (fst ti) (ExportModel.rstrip (snd (snd ti))) r) (combine trees items) after /\ flat_map (output true) (combine trees (map (fun tw => Some (ExportModel.rstrip (snd tw))) items)) = concat after).
  { induction F as [|[t w] tr items trees E F (after & IH1 & IH2)]; [exists []; split; [constructor|reflexivity]|]. exists (output true (tr, Some (ExportModel.rstrip w)) :: after). split; [constructor; [apply output_shown|exact IH1]|]. cbn [map combine flat_map concat]. now rewrite IH2. }
  destruct X as (after & X1 & X2). exists after. split; [exact X1|]. now rewrite X2.
Qed.

(** ---- blocks in the export format ---- *)
Definition begins (line : pystr) (m : string) : bool := startswith (ExportModel.rstrip line) (str m).
Definition block (b : list pystr) : Prop := exists bos rows eos, b = bos :: rows ++ [eos] /\ begins bos "#BOS " = true /\ begins eos "#EOS " = true /\
  forall r, In r rows -> ExportModel.rstrip r <> [] /\ forall m, In m ["#BOS "; "#BOT "; "#EOS "; "#EOT "]%string -> begins r m = false.
Lemma eos_not_bos : forall l, startswith l (str "#EOS ") = true -> startswith l (str "#BOS ") = false /\ startswith l (str "#BOT ") = false.
Proof. intros l H. apply startswith_iff in H. destruct H as [s ->]. split; reflexivity. Qed.
Section Export.
Context {T : Type}.
Variables (bracketparse : pystr -> option T) (exportparse alpinoparse : list pystr -> option (T * option pystr)) (strict robust othertext : bool).
Notation go := (go bracketparse exportparse alpinoparse strict robust othertext).
Notation idle := (@nil pystr, 0).
Lemma rows_sim : forall rows cur rest b out, (forall r, In r rows -> ExportModel.rstrip r <> [] /\ forall m, In m ["#BOS "; "#BOT "; "#EOS "; "#EOT "]%string -> begins r m = false) ->
  go rest 0 ((cur ++ map ExportModel.rstrip rows, 1), idle, b) = out -> go (map Some rows ++ rest) 0 ((cur, 1), idle, b) = out.
Proof.
  induction rows as [|r rows IH]; intros cur rest b out H G; [cbn [map] in G; now rewrite app_nil_r in G|]. cbn [map app SegProps.go]. rewrite readloop_eq. destruct (H r (or_introl eq_refl)) as [N0 M]. unfold begins in M. cbn [offer]. unfold offerexport. cbn [sendexport]. rewrite !M by (cbn; tauto). cbn [orb].
  destruct (ExportModel.rstrip r) as [|c s] eqn:E; [congruence|]. rewrite <- E in *. cbn [Nat.eqb negb orb]. apply IH; [intros r' I; apply H; now right|]. rewrite <- app_assoc. exact G.
Qed.
Lemma block_sim : forall b rest bs t out, block b -> exportparse (map ExportModel.rstrip b) = Some t -> go rest 0 (idle, idle, bs) = Some out ->
  go (map Some b ++ rest) 0 (idle, idle, bs) = Some (output othertext t ++ out).
Proof.
  intros b rest bs t out (bos & rows & eos & -> & B & E & R) P G. unfold begins in B, E. cbn [map app SegProps.go]. rewrite readloop_eq. cbn [offer]. unfold offerexport. cbn [sendexport]. rewrite B. cbn [orb Nat.eqb negb]. rewrite andb_false_r.
  rewrite map_app, <- app_assoc. eapply rows_sim; [exact R|]. cbn [map app SegProps.go]. rewrite readloop_eq. cbn [offer]. unfold offerexport. cbn [sendexport]. destruct (eos_not_bos _ E) as [E1 E2]. rewrite E1, E2, E. cbn [orb Nat.eqb negb]. rewrite andb_false_r.
  cbn [map app] in P. rewrite map_app in P. cbn [map] in P. cbn [app]. rewrite P. rewrite G. cbn [option_map flat_map]. now rewrite app_nil_r.
Qed.
Lemma blocks_sim : forall blocks trees bs, (forall b, In b blocks -> block b) -> Forall2 (fun b t => exportparse (map ExportModel.rstrip b) = Some t) blocks trees -> rel bs PA ->
  go (map Some (concat blocks) ++ [Some [openb]; None; None]) 0 (idle, idle, bs) = Some (flat_map (output othertext) trees).
Proof.
  intros blocks trees bs H F R. induction F as [|b t blocks trees P F IH].
  - apply (end_sim bracketparse exportparse alpinoparse strict robust othertext 0 bs PA [openb] [] [] (or_introl eq_refl) R eq_refl (Forall2_nil _)).
  - cbn [concat flat_map]. rewrite map_app, <- app_assoc. apply block_sim; auto. { apply H. now left. } apply IH. intros b' I. apply H. now right.
Qed.
End Export.
(** every block gives its tree, in order *)
Theorem C82_export : forall (T : Type) (bracketparse : pystr -> option T) exportparse alpinoparse strict robust blocks trees, (forall b, In b blocks -> block b) ->
  Forall2 (fun b t => exportparse (map ExportModel.rstrip b) = Some t) blocks trees ->
  incrementaltreereader bracketparse exportparse alpinoparse strict robust false (concat blocks) = Some (map (fun t => (Some (fst t), snd t)) trees).
Proof.
  intros T bp ep ap strict robust blocks trees H F. pose proof (blocks_sim bp ep ap strict robust false blocks trees binit H F ltac:(repeat split)) as B. unfold incrementaltreereader. etransitivity; [exact B|]. f_equal. clear. induction trees as [|[t [w|]] r IH]; [reflexivity| |]; cbn [flat_map map output fst snd]; [destruct (find newline w 0)|]; cbn [app]; now rewrite IH.
Qed.

(** ---- the files this package writes ---- *)
(** brackettree(text, detectdisc=True) and exporttree(lines) as modelled for C19 and C45 *)
Definition bparse (s : pystr) : option (tree pystr nat * list (option pystr)) := brackettree s true.
Notation btree := (tree pystr nat * list (option pystr))%type (only parsing).
Definition noparse (b : list pystr) : option (btree * option pystr) := None.
Definition bal (s : pystr) : Prop := count openb s = count closeb s /\ forall p q, s = p ++ q -> count closeb p <= count openb p.
Lemma bal_free : forall s, nobrackets s -> bal s.
Proof.
  intros s [H1 H2]. split; [rewrite !count_free by assumption; reflexivity|]. intros p q ->. rewrite (count_free closeb p); [lia|]. intros I. apply H2. apply in_or_app. now left.
Qed.
Lemma bal_app : forall a b, bal a -> bal b -> bal (a ++ b).
Proof.
  intros a b [A1 A2] [B1 B2]. split; [rewrite !count_app; lia|]. intros p q E. symmetry in E. apply app_eq_app in E. destruct E as (l & [[-> ->]|[-> ->]]).
  - rewrite !count_app. specialize (B2 l q eq_refl). lia.
  - exact (A2 p l eq_refl).
Qed.
Lemma bal_complete : forall s, bal s -> complete (openb :: s ++ [closeb]).
Proof.
  intros s [B1 B2]. split; [eauto|]. assert (C1 : forall c t, count c (openb :: t) = (if N.eqb openb c then 1 else 0) + count c t) by (intros c t; change (openb :: t) with ([openb] ++ t); rewrite count_app, count_one; reflexivity).
  split.
  - rewrite !C1, !count_app, !count_one. cbn. lia.
  - intros p q E P Q. destruct p as [|c p]; [congruence|]. injection E as <- E. rewrite !C1. cbn [N.eqb]. change (N.eqb openb openb) with true. change (N.eqb openb closeb) with false. destruct (exists_last Q) as (q' & d & ->). rewrite app_assoc in E. apply app_inj_tail in E. destruct E as [E _]. specialize (B2 p q' E). lia.
Qed.
Lemma complete_bal : forall t, complete t -> bal t.
Proof.
  intros t (_ & C & P). split; [exact C|]. intros p q E. destruct p as [|c p]; [cbn; lia|]. destruct q as [|d q]; [rewrite app_nil_r in E; subst; lia|]. specialize (P _ _ E ltac:(discriminate) ltac:(discriminate)). lia.
Qed.

Lemma clean_free : forall w, BracketProofs.clean_word w = true -> nobrackets w.
Proof.
  intros w H. apply BracketProps.clean_string_iff in H. destruct H as [_ H]. split; intros I; apply H in I; destruct I as (_ & A & B); congruence.
Qed.
Lemma nob_space : nobrackets [space].
Proof. split; intros [E|[]]; discriminate. Qed.
Lemma flat_bal : forall A (show : A -> pystr) t, BracketProofs.clean show t = true -> bal (pprint_flat show t).
Proof.
  intros A show t. induction t as [a|l ts IH] using tree_ind'; intros C; [apply bal_free, clean_free; exact C|]. cbn [pprint_flat]. cbn [BracketProofs.clean] in C. apply andb_prop in C. destruct C as [C1 C2].
  change ([openb] ++ l ++ [space] ++ join [space] (map (pprint_flat show) ts) ++ [closeb]) with (openb :: l ++ [space] ++ join [space] (map (pprint_flat show) ts) ++ [closeb]). rewrite !app_assoc. apply complete_bal, bal_complete. apply bal_app; [apply bal_app; apply bal_free; [now apply clean_free|exact nob_space]|].
  induction IH as [|t ts Ht HF IHt]; [apply bal_free; split; intros []|]. cbn [forallb] in C2. apply andb_prop in C2. destruct C2 as [C2 C3]. specialize (IHt C3). specialize (Ht C2). cbn [map join] in *. destruct (map (pprint_flat show) ts) eqn:M; [exact Ht|]. apply bal_app; [exact Ht|]. apply bal_app; [apply bal_free, nob_space|]. rewrite <- M in *. exact IHt.
Qed.
Lemma flat_complete : forall A (show : A -> pystr) l ts, BracketProofs.clean show (Node l ts) = true -> complete (pprint_flat show (Node l ts)).
Proof.
  intros A show l ts C. pose proof C as C0. cbn [BracketProofs.clean] in C. apply andb_prop in C. destruct C as [C1 C2].
  pose proof (flat_bal A show (Node l ts) C0) as B. cbn [pprint_flat] in *. set (m := l ++ [space] ++ join [space] (map (pprint_flat show) ts)). assert (E : [openb] ++ l ++ [space] ++ join [space] (map (pprint_flat show) ts) ++ [closeb] = openb :: m ++ [closeb]) by (unfold m; rewrite <- !app_assoc; reflexivity). rewrite E in *. apply bal_complete.
  unfold m. rewrite app_assoc. apply bal_app; [apply bal_app; apply bal_free; [now apply clean_free|exact nob_space]|]. clear - C2. induction ts as [|t ts IHt]; [apply bal_free; split; intros []|]. cbn [forallb] in C2. apply andb_prop in C2. destruct C2 as [C2 C3]. specialize (IHt C3). pose proof (flat_bal A show t C2) as Ht. cbn [map join] in *. destruct (map (pprint_flat show) ts) eqn:M; [exact Ht|]. apply bal_app; [exact Ht|]. apply bal_app; [apply bal_free, nob_space|]. rewrite <- M in *. exact IHt.
Qed.

Lemma count_flat : forall A (show : A -> pystr) l ts, (exists l' ts', In (Node l' ts') ts) -> nested (pprint_flat show (Node l ts)).
Proof.
  intros A show l ts (l' & ts' & I). unfold nested. cbn [pprint_flat]. rewrite !count_app. change (count openb [openb]) with 1. assert (X : 1 <= count openb (join [space] (map (pprint_flat show) ts))); [|lia].
  induction ts as [|t ts IH]; [destruct I|]. cbn [map join]. destruct I as [->|I].
  - assert (Y : 1 <= count openb (pprint_flat show (Node l' ts'))) by (cbn [pprint_flat]; rewrite !count_app; change (count openb [openb]) with 1; lia). destruct (map (pprint_flat show) ts); [exact Y|]. rewrite count_app. lia.
  - specialize (IH I). destruct (map (pprint_flat show) ts) eqn:M; [destruct ts; [destruct I|discriminate M]|]. rewrite !count_app. lia.
Qed.
Lemma disc_read' : forall l ts sent, let t := Node l ts in
  BracketIO.labels_clean t = true -> Forall BracketIO.word_ok sent -> sent <> [] ->
  (forall i, In i (leaves t) <-> i < length sent) -> discbrackettree (pprint_flat (BracketIO.discleaf sent) t) = Some (t, sent).
Proof.
  intros l ts sent t C WO NE COV. pose proof (BracketIO.disc_clean t sent C WO) as CL. pose proof (BracketProofs.flat_layout _ (BracketIO.discleaf sent) t) as S1.
  unfold discbrackettree. fold (BracketIO.sup (pprint_flat (BracketIO.discleaf sent) t)). rewrite BracketIO.sup_parse.
  pose proof (BracketProofs.parse_layout _ _ _ substleaf (BracketIO.discleaf sent) l ts _ [] [] [] CL S1 eq_refl eq_refl) as PL. cbn [app] in PL. rewrite app_nil_r in PL. fold t in PL. rewrite PL. clear PL.
  rewrite (BracketIO.build_id _ _ substleaf (BracketIO.discleaf sent) (fun d i => BracketIO.entry sent i :: d)).
  + rewrite BracketIO.fold_rev, app_nil_r. rewrite <- map_rev. rewrite BracketIO.sent_of_entries; auto.
    intros i. rewrite <- in_rev. apply COV.
  + intros st i Hi. unfold substleaf, BracketIO.discleaf. cbn [app]. rewrite BracketIO.spliteq_dec, PyStr.undec_dec.
    rewrite BracketIO.word_ok_un by (now apply BracketIO.nth_ok). reflexivity.
Qed.
(** a tree that can be written, with at least two levels of brackets *)
Definition fileable (x : btree) : Prop := exists l ts, fst x = Node l ts /\ (exists l' ts', In (Node l' ts') ts) /\
  BracketProps.all_labels BracketProps.clean_string (fst x) /\ BracketProps.terminals_last (fst x) /\ BracketProps.no_empty_nodes (fst x) /\ Forall BracketProps.writable (snd x) /\ BracketProps.covers (fst x) (snd x).
Lemma lparen_plain : forall s, plain (openb :: s).
Proof. intros s m I r E. cbn [ExportModel.lstrip] in E. change (isspace openb) with false in E. cbn iota in E. unfold markers in I. cbn in I. repeat (destruct I as [<-|I]; [discriminate E|]). exact I. Qed.
Lemma Forall2_in_r : forall A B (P : A -> B -> Prop) l l', Forall2 P l l' -> forall y, In y l' -> exists x, P x y.
Proof. induction 1 as [|x y l l' H F IH]; intros z []; [subst; eauto|auto]. Qed.
(** reading back a file written by this package, one tree on a line *)
Theorem C82_roundtrip : forall exportparse alpinoparse strict robust trees, (forall x, In x trees -> fileable x) ->
  exists lines, Forall2 (fun x line => writediscbrackettree (fst x) (snd x) false = Some line) trees lines /\
    incrementaltreereader bparse exportparse alpinoparse strict robust false lines = Some (map (fun x => (Some x, Some [])) trees).
Proof.
  intros ep ap strict robust trees H.
  assert (A : exists items, Forall2 (fun x tw => writediscbrackettree (fst x) (snd x) false = Some (fst tw ++ snd tw) /\ snd tw = [newline] /\ complete (fst tw) /\ nested (fst tw) /\ bparse (fst tw) = Some x) trees items).
  { induction trees as [|[t sent] trees IH]; [exists []; constructor|]. destruct IH as [items IH]; [intros x I; apply H; now right|]. destruct (H _ (or_introl eq_refl)) as (l & ts & E & IN & H1 & H2 & H3 & H4 & [H5 H6]). cbn [fst snd] in *. subst t.
    apply BracketProps.labels_bridge in H1. apply BracketProps.last_bridge in H2. apply BracketProps.writable_bridge in H4. destruct (BracketIO.disc_write l ts sent false H1 H2 ltac:(intros i Hi; now apply H6)) as (s & S1 & S2 & S3). specialize (S3 eq_refl).
    exists ((s, [newline]) :: items). constructor; [|exact IH]. cbn [fst snd]. subst s. repeat split; auto.
    - now apply flat_complete, BracketIO.disc_clean.
    - now apply flat_complete, BracketIO.disc_clean.
    - now apply flat_complete, BracketIO.disc_clean.
    - now apply count_flat.
    - unfold bparse, brackettree. rewrite <- (app_nil_r (pprint_flat _ _)) at 1. rewrite BracketProps.st_flat by eauto. cbn [negb orb strterm]. now apply disc_read'. }
  destruct A as [items A]. exists (map (fun tw => fst tw ++ snd tw) items). split; [clear H; induction A as [|x tw trees items (A1 & _) A IH]; constructor; auto|].
  assert (L : layout robust [] (map (fun tw => fst tw ++ snd tw) items) items).
  { split; [intros l []|]. split; [|split].
    - intros l I. apply in_map_iff in I. destruct I as (tw & <- & I). destruct (Forall2_in_r _ _ _ _ _ A _ I) as (x & (_ & _ & (( u & ->) & _) & _)). split; [apply lparen_plain|discriminate].
    - exists []. split; [|now left]. unfold text. rewrite app_nil_r. clear. induction items as [|tw items IH]; [reflexivity|]. cbn. now rewrite IH.
    - intros t w I. destruct (Forall2_in_r _ _ _ _ _ A _ I) as (x & (_ & W & C & N0 & _)). cbn [fst snd] in *. subst w. split; [exact C|]. split; [auto|]. split; intros [E|[]]; discriminate. }
  etransitivity; [apply (C82_reads _ bparse ep ap strict robust [] _ items trees L)|].
  2: { f_equal. clear - A. induction A as [|x tw trees items (_ & W & _) A IH]; [reflexivity|]. cbn [map combine]. rewrite IH, W. reflexivity. }
  clear - A. induction A as [|x tw trees items (_ & _ & _ & _ & P) A IH]; constructor; auto.
Qed.

(** ---- concrete cases ---- *)
Definition nl (s : string) : pystr := str s ++ [newline].
Definition eparse (b : list pystr) : option (btree * option pystr) := None.
(** two trees over several lines, with text after them *)
Definition ex_lines : list pystr := [nl "(S (NP (DT the) (N cat)"; nl ")(VP sleeps)) first one"; nl "(S (NP x)"; nl "  (VP y))  ## second"; nl "(S (NP unfinished"].
Theorem C82_example : layout true [nl "some text"] ex_lines
    [(str "(S (NP (DT the) (N cat)" ++ newline :: str ")(VP sleeps))", nl " first one"); (str "(S (NP x)" ++ newline :: str "  (VP y))", nl "  ## second")] /\
  exists t1 t2, incrementaltreereader bparse eparse eparse true true false (nl "some text" :: ex_lines) = Some [(Some t1, Some (str " first one")); (Some t2, Some (str "  ## second"))].
Proof.
  assert (NB : forall s, forallb (fun c => negb (N.eqb c openb) && negb (N.eqb c closeb)) s = true -> nobrackets s).
  { intros s H. rewrite forallb_forall in H. split; intros I; apply H in I; discriminate I. }
  assert (PL : forall s, forallb (fun m => negb (startswith (ExportModel.lstrip s) m)) markers = true -> plain s).
  { intros s H m I r E. rewrite forallb_forall in H. apply H in I. assert (S : startswith (ExportModel.lstrip s) m = true) by (apply startswith_iff; exists r; exact E). rewrite S in I. discriminate I. }
  assert (CT : forall m, let t := openb :: m ++ [closeb] in count openb m = count closeb m -> forallb (fun k => count closeb (firstn k m) <=? count openb (firstn k m)) (seq 0 (S (length m))) = true -> complete t).
  { intros m t E H. apply bal_complete. split; [exact E|]. intros p q ->. rewrite forallb_forall in H. specialize (H (length p) ltac:(apply in_seq; rewrite app_length; lia)). rewrite firstn_app, Nat.sub_diag, firstn_all, app_nil_r in H. now apply Nat.leb_le. }
  split; [|eexists; eexists; vm_compute; reflexivity]. split; [|split; [|split]].
  - intros l [<-|[]]. split; [apply PL|apply NB]; vm_compute; reflexivity.
  - intros l I. split; [apply PL|intros ->; cbn in I; intuition discriminate]. cbn in I. repeat (destruct I as [<-|I]; [vm_compute; reflexivity|]). destruct I.
  - eexists. split; [instantiate (1 := nl "(S (NP unfinished"); reflexivity|]. right. split; [discriminate|]. exists (str "))"). split; [discriminate|]. apply (CT (str "S (NP unfinished" ++ newline :: str ")")); vm_compute; reflexivity.
  - intros t w [[= <- <-]|[[= <- <-]|[]]].
    + split; [|split; [intros _; vm_compute; lia|apply NB; vm_compute; reflexivity]]. apply (CT (str "S (NP (DT the) (N cat)" ++ newline :: str ")(VP sleeps)")); vm_compute; reflexivity.
    + split; [|split; [intros _; vm_compute; lia|apply NB; vm_compute; reflexivity]]. apply (CT (str "S (NP x)" ++ newline :: str "  (VP y)")); vm_compute; reflexivity.
Qed.
Theorem C82_roundtrip_example : fileable (Node (str "S") [Node (str "VP") [Node (str "A") [Leaf 0]; Node (str "B") [Leaf 2]]; Node (str "C") [Leaf 1]], [Some (str "a"); Some (str "(c"); Some (str "b")]).
Proof.
  eexists. eexists. split; [reflexivity|]. cbn [fst snd]. split; [eexists; eexists; left; reflexivity|]. split; [BracketProps.lab|]. split; [BracketProps.shp|]. split; [|split; [|split; [discriminate|]]].
  - cbn. repeat split; discriminate.
  - BracketProps.wrd.
  - intros i. cbn. lia.
Qed.
(** FINDING: text before the first tree on the same line, although allowed after a tree,
    becomes part of the tree's text, so that reading fails; the same happens with a bracketed
    tag and word before the tree, which should not be recognized as a tree *)
Theorem C82_text_before_refuted :
  incrementaltreereader bparse eparse eparse false true false [nl "1: (S (A b))"] = None /\
  incrementaltreereader bparse eparse eparse false true false [nl "(DT the) (S (A b))"] = None /\
  exists t1 t2, incrementaltreereader bparse eparse eparse false true false [nl "(S (A b)) 2: (S (A b))"] = Some [(Some t1, Some (str " 2:")); (Some t2, Some [])].
Proof. split; [vm_compute; reflexivity|]. split; [vm_compute; reflexivity|]. eexists. eexists. vm_compute. reflexivity. Qed.
(** FINDING: with robust, a tree of a single level between trees is dropped silently when it
    is on the line of the tree before it (it is given as text), and its words are lost *)
Theorem C82_flat_tree_is_text : exists t, incrementaltreereader bparse eparse eparse true true false [nl "(S (A b)) (DT the)"] = Some [(Some t, Some (str " (DT the)"))].
Proof. eexists. vm_compute. reflexivity. Qed.
(** FINDING: the table of origins at the start of a file in export format is given as an
    empty tree *)
Definition xparse (b : list pystr) : option (ExportModel.etree * list pystr * option pystr * option pystr) :=
  option_map (fun i => (i, snd i)) (ExportModel.exporttree b).
Theorem C82_header_table_refuted : 
  incrementaltreereader (fun _ => None) xparse (fun _ => None) true true false
    [nl "#FORMAT 3"; nl "#BOT ORIGIN"; nl "0 unknown"; nl "#EOT ORIGIN"; nl "#BOS 1"; nl "w T -- -- 0"; nl "#EOS 1"] =
  Some [(Some (Node (str "ROOT", None) [], [], None), None); (Some (Node (str "ROOT", None) [Node (str "T", Some (str "--", str "--", str "--")) [Leaf 0]], [str "w"], None), None)].
Proof. vm_compute. reflexivity. Qed.
