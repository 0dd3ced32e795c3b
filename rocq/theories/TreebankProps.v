(** C30: the grammar of a treebank. *)
From Coq Require Import String.
From Coq Require Import List Bool Arith NArith ZArith QArith Qcanon Ascii Lia Permutation.
From Verif Require Import PyStr TreeModel TreeProps BracketModel BracketProofs EscapeProofs ConcatModel ConcatSpec ConcatProofs YfProofs ConcatProps SortProofs BinarizeModel TransformModel LcfrsModel LcfrsProps GrammarModel GrammarProofs GrammarProps TreebankModel.
Import ListNotations.
Open Scope list_scope.
Open Scope nat_scope.

(** number of occurrences *)
Definition occ (P : prod -> bool) (ps : list prod) : N := N.of_nat (length (filter P ps)).
Definition plhs (p : prod) : pystr := match p with Lexical l _ => l | Frontier l => l | Phrasal l _ _ => l end.
Definition Nq (n : N) : Qc := Q2Qc (Z.of_N n # 1).
Lemma Nq_add : forall a b, Nq (a + b) = (Nq a + Nq b)%Qc.
Proof. intros. unfold Nq. rewrite N2Z.inj_add. apply Qc_is_canon. unfold Qcplus, Q2Qc. cbn [this]. rewrite !Qred_correct. unfold Qeq, Qplus. cbn [Qnum Qden]. lia. Qed.
Lemma Nq_0 : Nq 0 = 0%Qc. Proof. reflexivity. Qed.

Lemma eqll_eq : forall A (eqb : A -> A -> bool), (forall a b, eqb a b = true <-> a = b) -> forall a b, eqll eqb a b = true <-> a = b.
Proof.
  intros A eqb H. induction a as [|x a IH]; intros [|y b]; cbn; split; intros E; try discriminate; auto.
  - apply andb_true_iff in E. destruct E as [E1 E2]. apply H in E1. apply IH in E2. congruence.
  - injection E as -> ->. rewrite (proj2 (H y y) eq_refl). now apply IH.
Qed.
Lemma prod_eqb_eq : forall p q, prod_eqb p q = true <-> p = q.
Proof.
  intros [l w|l|l r y] [l' w'|l'|l' r' y']; cbn; split; intros E; try discriminate.
  - apply andb_true_iff in E. rewrite !eqs_eq in E. destruct E. congruence.
  - injection E as -> ->. rewrite !eqs_refl. reflexivity.
  - apply eqs_eq in E. congruence.
  - injection E as ->. apply eqs_refl.
  - apply andb_true_iff in E. destruct E as [E E3]. apply andb_true_iff in E. destruct E as [E1 E2]. apply eqs_eq in E1. apply (eqll_eq _ eqs eqs_eq) in E2. apply (eqll_eq _ _ (eqll_eq _ _ Nat.eqb_eq)) in E3. congruence.
  - injection E as -> -> ->. rewrite eqs_refl. cbn [andb]. apply andb_true_iff. split; [now apply (eqll_eq _ eqs eqs_eq)|now apply (eqll_eq _ _ (eqll_eq _ _ Nat.eqb_eq))].
Qed.

(** ** Counter *)
Lemma count1_fst : forall p c, (In p (map fst c) /\ map fst (count1 p c) = map fst c) \/ (~ In p (map fst c) /\ map fst (count1 p c) = map fst c ++ [p]).
Proof.
  intros p c. induction c as [|[p' n] c IH]; [right; split; [tauto|reflexivity]|]. cbn [count1 map fst]. destruct (prod_eqb p p') eqn:E.
  - apply prod_eqb_eq in E. subst. left. split; [now left|reflexivity].
  - assert (NE : p' <> p) by (intros ->; rewrite (proj2 (prod_eqb_eq p p) eq_refl) in E; discriminate). cbn [map fst]. destruct IH as [[A B]|[A B]]; [left|right]; rewrite B; (split; [|reflexivity]).
    + now right.
    + intros [X|X]; auto.
Qed.
Lemma counter_snoc : forall ps p, counter (ps ++ [p]) = count1 p (counter ps).
Proof. intros. unfold counter. now rewrite fold_left_app. Qed.
Lemma counter_nodup : forall ps, NoDup (map fst (counter ps)) /\ (forall p, In p (map fst (counter ps)) <-> In p ps).
Proof.
  induction ps as [|p ps IH] using rev_ind; [split; [constructor|tauto]|]. rewrite counter_snoc. destruct IH as [A B]. destruct (count1_fst p (counter ps)) as [[X ->]|[X ->]].
  - split; [assumption|]. intros y. rewrite B, in_app_iff. cbn. split; [auto|]. intros [Y|[<-|[]]]; [auto|now apply B].
  - split; [|intros y; rewrite !in_app_iff, B; reflexivity]. eapply Permutation_NoDup; [apply Permutation_cons_append|]. now constructor.
Qed.
(** sums of counts are numbers of occurrences *)
Lemma counter_total : forall P ps, total (fun pn => Nq (snd pn)) (fun pn => P (fst pn)) (counter ps) = Nq (occ P ps).
Proof.
  intros P. induction ps as [|p ps IH] using rev_ind; [reflexivity|]. rewrite counter_snoc. unfold occ in *. rewrite filter_app, app_length.
  assert (X : forall c, total (fun pn : prod * N => Nq (snd pn)) (fun pn => P (fst pn)) (count1 p c) = (total (fun pn => Nq (snd pn)) (fun pn => P (fst pn)) c + (if P p then 1 else 0))%Qc).
  { induction c as [|[p' n] c IHc]; simpl.
    - destruct (P p); [|ring]. change (Nq 1) with 1%Qc. ring.
    - destruct (prod_eqb p p') eqn:E; simpl.
      + apply prod_eqb_eq in E. subst. destruct (P p'); [|ring]. rewrite Nq_add. change (Nq 1) with 1%Qc. ring.
      + rewrite IHc. destruct (P p'); ring. }
  rewrite X, IH, Nat2N.inj_add, Nq_add. f_equal. cbn [filter]. destruct (P p); reflexivity.
Qed.

(** ** %g *)
Lemma fmt_g_small : forall n, (n < 1000000)%N -> fmt_g n = Nq n.
Proof. intros n H. unfold fmt_g. rewrite Nat.add_1_r. cbn [fmt_g_loop]. rewrite N.pow_0_r, N.mul_1_r. rewrite (proj2 (N.ltb_lt n 1000000) H). reflexivity. Qed.

(** ** Yield functions *)
Definition boolyf (yf : list (list nat)) : list (list bool) := map (map (fun n => n =? 1)) yf.
Lemma digit_text : forall p, (forall n, In n p -> n <= 1) -> map digit p = yfpart_text (map (fun n => n =? 1) p).
Proof.
  induction p as [|n p IH]; intros H; [reflexivity|]. cbn [map yfpart_text]. f_equal; [|apply IH; intros; apply H; now right].
  specialize (H n (or_introl eq_refl)). destruct n as [|[|n]]; [reflexivity..|lia].
Qed.
Lemma yftextn_bool : forall yf, (forall n, In n (concat yf) -> n <= 1) -> yftextn yf = yftext (boolyf yf).
Proof.
  induction yf as [|p [|p' yf] IH]; intros H; [reflexivity| |].
  - cbn [yftextn boolyf map yftext]. apply digit_text. intros n Hn. apply H. cbn. rewrite app_nil_r. assumption.
  - change (yftextn (p :: p' :: yf)) with (map digit p ++ ","%char :: yftextn (p' :: yf)). rewrite IH by (intros n Hn; apply H; cbn [concat] in *; apply in_or_app; now right).
    rewrite digit_text; [reflexivity|]. intros n Hn. apply H. cbn [concat]. apply in_or_app. now left.
Qed.
Lemma boolyf_inj : forall a b, (forall n, In n (concat a) -> n <= 1) -> (forall n, In n (concat b) -> n <= 1) -> boolyf a = boolyf b -> a = b.
Proof.
  induction a as [|p a IH]; intros [|q b] Ha Hb E; try discriminate; [reflexivity|]. cbn in E. injection E as E1 E2. f_equal.
  - assert (Ha' : forall n, In n p -> n <= 1) by (intros; apply Ha; cbn; apply in_or_app; now left). assert (Hb' : forall n, In n q -> n <= 1) by (intros; apply Hb; cbn; apply in_or_app; now left).
    clear - E1 Ha' Hb'. revert q E1 Hb'. induction p as [|x p IH]; intros [|y q] E Hb; try discriminate; [reflexivity|]. cbn in E. injection E as E1 E2. f_equal.
    + pose proof (Ha' x (or_introl eq_refl)). pose proof (Hb y (or_introl eq_refl)). destruct x as [|[|x]], y as [|[|y]]; try lia; discriminate.
    + apply IH; auto; intros; [apply Ha'|apply Hb]; now right.
  - apply IH; auto; intros n Hn; [apply Ha|apply Hb]; cbn; apply in_or_app; now right.
Qed.
Lemma flat_marks : forall yf, wf_yf yf -> length (filter snd (flat yf)) = length yf.
Proof.
  assert (P : forall p, p <> [] -> length (filter snd (flat_part p)) = 1).
  { induction p as [|x [|y p] IH]; intros H; [congruence|reflexivity|]. rewrite flat_part_cons2. cbn [filter snd]. apply IH. discriminate. }
  intros yf [_ W]. unfold flat. induction W as [|p yf Hp W IH]; [reflexivity|]. cbn [flat_map]. rewrite filter_app, app_length, P, IH by assumption. reflexivity.
Qed.
Lemma getyf_inj' : forall yf yf', wf_yf yf -> wf_yf yf' -> length (concat yf) <= 32 -> length (concat yf') <= 32 -> getyf yf = getyf yf' -> yf = yf'.
Proof.
  intros yf yf' W W' H H' E. apply getyf_inj; auto. assert (FL : forall z, length (flat z) = length (concat z)).
  { intros z. unfold flat. induction z as [|p z IH]; [reflexivity|]. cbn. rewrite !app_length, IH, flat_part_length. reflexivity. }
  pose proof (getyf_bitlength yf W ltac:(rewrite FL; lia)) as B. pose proof (getyf_bitlength yf' W' ltac:(rewrite FL; lia)) as B'. rewrite E, B' in B. apply Nat2N.inj in B.
  rewrite <- (flat_marks yf W), <- (flat_marks yf' W'). f_equal. f_equal. destruct (getyf_spells yf W) as [S _]. destruct (getyf_spells yf' W') as [S' _]. rewrite E in S.
  apply nth_ext with (d := (false, false)) (d' := (false, false)); [congruence|]. intros n Hn. destruct (S n Hn) as [A1 A2]. destruct (S' n ltac:(congruence)) as [A3 A4].
  rewrite A1 in A3. rewrite A2 in A4. destruct (nth n (flat yf) (false, false)), (nth n (flat yf') (false, false)). cbn in *. congruence.
Qed.

(** ** What productions from a treebank look like *)
Definition okprod (p : prod) : Prop :=
  match p with
  | Lexical _ w => ~ In 40%N w /\ ~ In 41%N w
  | Frontier _ => False
  | Phrasal _ rhs yf => yf <> [] /\ Forall (fun a => a <> []) yf /\ (forall n, In n (concat yf) -> n < length rhs)
  end.
Lemma yfloop_ok : forall (Q : nat -> Prop) ls i p yf, (forall x, In x ls -> Q (snd x)) -> yf <> [] -> Forall (fun a => a <> [] /\ Forall Q a) yf ->
  yfloop ls i p yf <> [] /\ Forall (fun a => a <> [] /\ Forall Q a) (yfloop ls i p yf).
Proof.
  intros Q. induction ls as [|[j m] ls IH]; intros i p yf H NE F; [split; assumption|]. cbn [yfloop]. apply IH.
  - intros. apply H. now right.
  - destruct (negb (j =? i + 1)); [destruct yf; discriminate|]. destruct (negb (m =? p)); [|assumption]. unfold append_last. destruct (removelast yf); discriminate.
  - assert (Hm : Q m) by (apply (H (j, m)); now left). destruct (negb (j =? i + 1)); [|destruct (negb (m =? p)); [|assumption]].
    + apply Forall_app. split; [assumption|]. repeat constructor; [discriminate|assumption].
    + unfold append_last. rewrite (app_removelast_last [] NE) in F. apply Forall_app in F. destruct F as [F1 F2]. apply Forall_app. split; [assumption|]. inversion F2 as [|? ? [X Y] _]; subst.
      constructor; [|constructor]. split; [destruct (last yf []); discriminate|]. apply Forall_app. split; [assumption|]. repeat constructor. assumption.
Qed.
Lemma enumerate_lt : forall X (l : list X) n k x, In (k, x) (enumerate n l) -> n <= k < n + length l.
Proof. induction l as [|y l IH]; intros n k x H; [contradiction|]. cbn in *. destruct H as [H|H]; [injection H as <- _; lia|]. apply IH in H. lia. Qed.
Lemma yieldfunction_ok : forall ts yf, yieldfunction ts = Some yf -> yf <> [] /\ Forall (fun a => a <> [] /\ Forall (fun n => n < length ts) a) yf.
Proof.
  intros ts yf H. unfold yieldfunction in H. destruct (rev (sort idx_ge (indexed ts))) as [|[i p] ls] eqn:E; [discriminate|]. injection H as <-.
  assert (G : forall x, In x ((i, p) :: ls) -> snd x < length ts).
  { intros x Hx. rewrite <- E in Hx. apply in_rev in Hx. eapply Permutation_in in Hx; [|apply Permutation_sym, sort_perm]. unfold indexed in Hx. apply in_flat_map in Hx. destruct Hx as ([k t] & A & B).
    apply in_map_iff in B. destruct B as (y & <- & _). apply enumerate_lt in A. cbn in *. lia. }
  apply yfloop_ok.
  - intros x Hx. apply G. now right.
  - discriminate.
  - repeat constructor; [discriminate|]. apply (G (i, p)). now left.
Qed.
Lemma prods_ok : forall tb ps, treebank_prods tb = Some ps -> Forall okprod ps.
Proof.
  induction tb as [|[t sent] tb IH]; intros ps H; cbn [treebank_prods] in H; [injection H as <-; constructor|].
  destruct (lcfrsproductions t sent false) as [qs|] eqn:E; [|discriminate]. destruct (treebank_prods tb) as [rs|] eqn:E2; [|discriminate]. injection H as <-. apply Forall_app. split; [|auto].
  apply accepted_inv in E. destruct E as (_ & _ & _ & E). revert qs E. generalize (TreeProps.pre t) as ss. induction ss as [|st ss IHs]; intros qs E; cbn [map collect] in E; [injection E as <-; constructor|].
  destruct (production false sent st) as [p| |] eqn:P; [|auto|discriminate]. destruct (collect (map (production false sent) ss)) as [us|]; [|discriminate]. injection E as <-. constructor; [|auto].
  destruct st as [a|l ts]; [discriminate|]. cbn [production] in P. destruct ts as [|[a|m us'] ts]; [discriminate| |].
  - destruct ts; [|discriminate]. destruct (nth_error sent a) as [[w|]|]; try discriminate. injection P as <-. cbn [okprod]. split; intros X; apply (escape_clean (Some w)) in X; destruct X as [X1 X2]; (now apply X1) || (now apply X2).
  - destruct (forallb is_node (Node m us' :: ts)); [|discriminate]. destruct (yieldfunction (Node m us' :: ts)) as [yf|] eqn:Y; [|discriminate]. injection P as <-. apply yieldfunction_ok in Y. destruct Y as [Y1 Y2]. cbn [okprod]. split; [assumption|].
    split; [eapply Forall_impl; [|exact Y2]; cbn; tauto|]. intros n Hn. rewrite Forall_forall in Y2. apply in_concat in Hn. destruct Hn as (a & A & B). destruct (Y2 a A) as [_ F]. rewrite Forall_forall in F. specialize (F n B). cbn [length map] in *. rewrite ?map_length. exact F.
Qed.

(** ** Lines for the words *)
Definition flatd (d : list (pystr * list (pystr * Qc))) : list entry := flat_map (fun e => map (fun x => (fst e, fst x, snd x)) (snd e)) d.
Lemma setdefault_flat : forall d w x, Permutation (flatd (setdefault_append d w x)) ((w, fst x, snd x) :: flatd d).
Proof.
  induction d as [|[w' l] d IH]; intros w x; [reflexivity|]. cbn [setdefault_append]. destruct (eqs w w') eqn:E.
  - apply eqs_eq in E. subst w'. unfold flatd. cbn [flat_map fst snd]. rewrite map_app, <- app_assoc. cbn [map app]. symmetry. apply Permutation_middle.
  - unfold flatd in *. cbn [flat_map fst snd]. rewrite IH. symmetry. apply Permutation_middle.
Qed.
Definition lexents (c : list (prod * N)) : list entry := flat_map (fun pn => match fst pn with Lexical l w => [(w, l, fmt_g (snd pn))] | _ => [] end) c.
Lemma lexical_dict_flat : forall c, Permutation (flatd (lexical_dict c)) (lexents c).
Proof.
  intros c. unfold lexical_dict. assert (G : forall c d, Permutation (flatd (fold_left (fun d pn => match fst pn with Lexical l w => setdefault_append d w (l, fmt_g (snd pn)) | _ => d end) c d)) (flatd d ++ lexents c)).
  { clear. induction c as [|[p n] c IH]; intros d; [cbn; now rewrite app_nil_r|]. cbn [fold_left]. rewrite IH. unfold lexents. cbn [flat_map fst snd]. destruct p; try reflexivity. rewrite setdefault_flat. cbn [fst snd app]. apply Permutation_middle. }
  apply (G c []).
Qed.
Definition unesc (w : pystr) : pystr := match unescape w with Some x => x | None => [] end.
Lemma unesc_inj : forall w w', ~ In 40%N w -> ~ In 41%N w -> ~ In 40%N w' -> ~ In 41%N w' -> unescape w <> None -> unescape w' <> None -> unesc w = unesc w' -> w = w'.
Proof.
  intros w w' A1 A2 B1 B2 U U'. unfold unesc. rewrite !unescape_eq in *. destruct (eqs w [] || eqs w _); [congruence|]. destruct (eqs w' [] || eqs w' _); [congruence|]. intros E.
  assert (X1 : forall v, ~ In 40%N v -> esc1 76 40 (unesc1 76 40 v) = v) by (intros; apply esc_of_unesc; try discriminate; assumption).
  assert (X2 : forall v, ~ In 41%N v -> esc1 82 41 (unesc1 82 41 v) = v) by (intros; apply esc_of_unesc; try discriminate; assumption).
  rewrite <- (X1 w A1), <- (X1 w' B1). f_equal. rewrite <- (X2 (unesc1 76 40 w)), <- (X2 (unesc1 76 40 w')) by (now apply no_paren_unesc). now rewrite E.
Qed.
Lemma lex_lines_entries : forall c lx, lex_lines c = Some lx -> entries lx = map (fun e => (unesc (en_word e), en_tag e, en_weight e)) (flatd (lexical_dict c)) /\ (forall w l, In (w, l) (lexical_dict c) -> unescape w <> None).
Proof.
  intros c. unfold lex_lines. generalize (lexical_dict c) as d. induction d as [|[w l] d IH]; intros lx H; cbn [map all_some] in H; [injection H as <-; split; [reflexivity|intros ? ? []]|].
  cbn [fst snd] in H. destruct (unescape w) as [u|] eqn:U; [|discriminate]. cbn [option_map] in H. destruct (all_some _) as [ls|] eqn:A; [|discriminate]. cbn [option_map] in H. injection H as <-. destruct (IH ls eq_refl) as [H1 H2]. split.
  - unfold entries, flatd. cbn [flat_map fst snd]. rewrite map_app. f_equal; [|exact H1]. rewrite map_map. unfold en_word, en_tag, en_weight, unesc. cbn [fst snd]. rewrite U. reflexivity.
  - intros w' l' [X|X]; [injection X as <- _; congruence|eauto].
Qed.
Lemma nodup_flat_map : forall A B K (f : A -> list B) (key : B -> K) l, NoDup l -> (forall a, In a l -> length (f a) <= 1) ->
  (forall a b x y, In a l -> In b l -> In x (f a) -> In y (f b) -> key x = key y -> a = b) -> NoDup (map key (flat_map f l)).
Proof.
  induction l as [|a l IH]; intros ND L INJ; [constructor|]. inversion ND as [|? ? NI ND']; subst. cbn [flat_map]. rewrite map_app.
  assert (R : NoDup (map key (flat_map f l))) by (apply IH; auto; intros; [apply L|eapply INJ; eauto]; now right).
  pose proof (L a (or_introl eq_refl)) as LA. destruct (f a) as [|x [|y r]] eqn:E; cbn in *; [assumption| |lia]. constructor; [|assumption]. intros X. apply in_map_iff in X. destruct X as (y & EQ & Y). apply in_flat_map in Y. destruct Y as (b & Hb & Y).
  assert (a = b) by (apply (INJ a b x y); auto; rewrite E; now left). congruence.
Qed.
Lemma nth_nodup : forall A K (key : A -> K) l, NoDup (map key l) -> forall i j a b, nth_error l i = Some a -> nth_error l j = Some b -> key a = key b -> i = j.
Proof.
  intros A K key l ND i j a b Ha Hb E. apply (proj1 (NoDup_nth_error _) ND).
  - rewrite map_length. apply nth_error_Some. congruence.
  - rewrite (map_nth_error _ _ _ Ha), (map_nth_error _ _ _ Hb). congruence.
Qed.

(** ** The theorem *)
(** The treebank grammar: a grammar made from the productions of a treebank, in any
    order (cs is what sortgrammar returns), has for each production a rule with the
    same labels and yield function, or word, whose probability is the number of
    occurrences of the production over the number of occurrences of its left-hand side. *)
Theorem C30_treebank : forall sortr sortn, sorts sortr -> sorts sortn -> forall start tb ps cs lx g, start <> Epsilon ->
  treebank_prods tb = Some ps -> Permutation cs (counter ps) -> (forall p, (occ (prod_eqb p) ps < 1000000)%N) ->
  lex_lines cs = Some lx -> grammar sortr sortn start (rule_lines cs) lx [] = Some g ->
  (forall l rhs yf, In (Phrasal l rhs yf) ps -> exists r, In r (bylhs g) /\ klabels (tolabel g) (r_key r) = l :: rhs /\
    yfstr (kenc (r_key r)) (N.of_nat (length yf)) = Some (yftextn yf) /\
    r_prob r = (Nq (occ (prod_eqb (Phrasal l rhs yf)) ps) / Nq (occ (fun p => eqs (plhs p) l) ps))%Qc) /\
  (forall l w, In (Lexical l w) ps -> exists word n lhs pr, unescape w = Some word /\ In n (wordrules g word) /\ nth_error (lexical g) n = Some (lhs, pr) /\ name g lhs = l /\
    pr = (Nq (occ (prod_eqb (Lexical l w)) ps) / Nq (occ (fun p => eqs (plhs p) l) ps))%Qc).
Proof.
  intros sortr sortn SR SN start tb ps cs lx g NE TB PC SM LX E. pose proof (prods_ok _ _ TB) as OK. rewrite Forall_forall in OK.
  destruct (grammar_inv _ _ SR SN _ _ _ _ _ NE E) as (IV & _). unfold all_rules, all_entries in IV. cbn [flat_map] in IV. rewrite !app_nil_r in IV.
  destruct (counter_nodup ps) as [CN CI].
  assert (CSN : NoDup (map fst cs)) by (eapply Permutation_NoDup; [apply Permutation_sym, Permutation_map, PC|exact CN]).
  assert (CSI : forall p, In p (map fst cs) <-> In p ps) by (intros p; rewrite <- CI; split; apply Permutation_in; [|apply Permutation_sym]; now apply Permutation_map).
  assert (CT : forall P, total (fun pn => Nq (snd pn)) (fun pn => P (fst pn)) cs = Nq (occ P ps)) by (intros P; rewrite <- counter_total; now apply total_perm).
  (* the number that goes with a production is its number of occurrences *)
  assert (CW : forall p n, In (p, n) cs -> Nq n = Nq (occ (prod_eqb p) ps)).
  { intros p n H. rewrite <- CT. symmetry. apply (total_single _ (fun pn : prod * N => Nq (snd pn)) (fun pn => prod_eqb p (fst pn)) cs (p, n) H).
    - cbn. now apply prod_eqb_eq.
    - intros i j a b Ha Hb Pa Pb. apply prod_eqb_eq in Pa. apply prod_eqb_eq in Pb. eapply (nth_nodup _ _ fst cs CSN); eauto; congruence. }
  assert (NQI : forall a b, Nq a = Nq b -> a = b).
  { intros a b H. apply (f_equal this) in H. unfold Nq, Q2Qc in H. cbn [this] in H. assert (X : (Z.of_N a # 1 == Z.of_N b # 1)%Q) by (rewrite <- Qred_correct, H, Qred_correct; reflexivity). unfold Qeq in X. cbn in X. lia. }
  assert (FG : forall p n, In (p, n) cs -> fmt_g n = Nq (occ (prod_eqb p) ps)).
  { intros p n H. pose proof (CW _ _ H) as X. apply NQI in X. rewrite X. apply fmt_g_small. apply SM. }
  assert (NDC : NoDup cs) by (eapply NoDup_map_inv; exact CSN).
  assert (UNI : forall p n m, In (p, n) cs -> In (p, m) cs -> n = m).
  { intros p n m A B. apply In_nth_error in A. apply In_nth_error in B. destruct A as [i A], B as [j B]. assert (i = j) by (eapply (nth_nodup _ _ fst cs CSN); eauto). subst. congruence. }
  (* every phrasal line is readable *)
  assert (RL : forall l rhs yf n, In (Phrasal l rhs yf, n) cs -> exists r, In r (bylhs g) /\ klabels (tolabel g) (r_key r) = l :: rhs /\ kenc (r_key r) = getyf (boolyf yf) /\
      rl_enc (l :: rhs, yftextn yf, fmt_g n) = Some (getyf (boolyf yf)) /\ wf_yf (boolyf yf) /\ length (concat (boolyf yf)) < 32 /\ (forall x, In x (concat yf) -> x <= 1)).
  { intros l rhs yf n H. assert (HL : In (l :: rhs, yftextn yf, fmt_g n) (rule_lines cs)) by (unfold rule_lines; apply in_flat_map; eexists; split; [exact H|]; now left).
    destruct (i_all _ _ _ IV _ HL) as (k & m & A & B). unfold kns in A. apply in_map_iff in A. destruct A as (r & X & Hr). apply pair_equal_spec in X. destruct X as [<- _]. apply matches_spec in B. destruct B as [B1 B2].
    assert (Hps : In (Phrasal l rhs yf) ps) by (apply CSI; apply (in_map fst) in H; exact H). destruct (OK _ Hps) as (O1 & O2 & O3).
    assert (LR : length rhs <= 2). { unfold rl_labels in B1. cbn [fst] in B1. unfold klabels in B1. apply (f_equal (@length pystr)) in B1. cbn in B1. destruct (k_rhs2 (r_key r) =? 0); cbn in B1; lia. }
    assert (D : forall x, In x (concat yf) -> x <= 1) by (intros x Hx; apply O3 in Hx; lia).
    assert (W : wf_yf (boolyf yf)). { split; [destruct yf; [congruence|discriminate]|]. unfold boolyf. apply Forall_map. eapply Forall_impl; [|exact O2]. cbn. intros a Ha X. destruct a; [congruence|discriminate]. }
    assert (LE : length (concat (boolyf yf)) < 32).
    { destruct (le_lt_dec 32 (length (concat (boolyf yf)))) as [G|G]; [|assumption]. exfalso. unfold rl_enc in B2. cbn [fst snd] in B2. rewrite (yftextn_bool yf D) in B2. rewrite (ConcatProps.C08_too_long_rejected (boolyf yf) (proj1 W) G) in B2. discriminate. }
    assert (ENC : rl_enc (l :: rhs, yftextn yf, fmt_g n) = Some (getyf (boolyf yf))) by (unfold rl_enc; cbn [fst snd]; rewrite (yftextn_bool yf D), (readyf_ok _ (proj1 W) LE); reflexivity).
    exists r. split; [assumption|]. split; [now symmetry|]. split; [|auto]. rewrite ENC in B2. congruence. }
  (* and the lines for words too *)
  destruct (lex_lines_entries _ _ LX) as [LE LU].
  assert (LEP : Permutation (entries lx) (map (fun e => (unesc (en_word e), en_tag e, en_weight e)) (lexents cs))) by (rewrite LE; apply Permutation_map, lexical_dict_flat).
  assert (LXU : forall l w n, In (Lexical l w, n) cs -> unescape w <> None).
  { intros l w n H. assert (X : In (w, l, fmt_g n) (lexents cs)) by (unfold lexents; apply in_flat_map; eexists; split; [exact H|]; now left).
    eapply Permutation_in in X; [|apply Permutation_sym, lexical_dict_flat]. unfold flatd in X. apply in_flat_map in X. destruct X as ([w' l'] & A & B). apply in_map_iff in B. destruct B as (y & B & _). cbn [fst snd] in B. apply pair_equal_spec in B. destruct B as [B _]. apply pair_equal_spec in B. destruct B as [-> _]. eauto. }
  assert (LINJ : forall l w n l' w' n', In (Lexical l w, n) cs -> In (Lexical l' w', n') cs -> unesc w = unesc w' -> w = w').
  { intros l w n l' w' n' A B X. assert (A' : In (Lexical l w) ps) by (apply CSI; apply (in_map fst) in A; exact A). assert (B' : In (Lexical l' w') ps) by (apply CSI; apply (in_map fst) in B; exact B).
    destruct (OK _ A'), (OK _ B'). eapply unesc_inj; eauto. }
  assert (DR : distinct_rules (rule_lines cs)).
  { apply distinct_rules_dec. cbn. unfold rule_lines. apply nodup_flat_map; [assumption| |].
    - intros [[] n] _; cbn; lia.
    - intros [p n] [p' n'] x y Ha Hb Hx Hy EQ. destruct p as [| |l rhs yf]; try contradiction. destruct p' as [| |l' rhs' yf']; try contradiction. cbn [fst snd] in Hx, Hy. destruct Hx as [<-|[]], Hy as [<-|[]].
      apply pair_equal_spec in EQ. destruct EQ as [EQ1 EQ2]. unfold rl_labels in EQ1. cbn [fst] in EQ1. destruct (RL _ _ _ _ Ha) as (r & _ & _ & _ & R1 & R2 & R3 & R4). destruct (RL _ _ _ _ Hb) as (r' & _ & _ & _ & S1 & S2 & S3 & S4).
      rewrite R1, S1 in EQ2. injection EQ2 as EQ2. apply getyf_inj' in EQ2; auto; try lia. apply boolyf_inj in EQ2; auto. injection EQ1 as -> ->. subst. f_equal. eapply UNI; eauto. }
  assert (DE : distinct_entries (entries lx)).
  { intros i j a b Ha Hb E1 E2. eapply (nth_nodup _ _ (fun e => (en_word e, en_tag e)) (entries lx)); eauto; [|congruence]. eapply Permutation_NoDup; [apply Permutation_sym, Permutation_map, LEP|]. rewrite map_map. cbn [en_word en_tag fst snd]. unfold lexents.
    apply nodup_flat_map; [assumption| |].
    - intros [[] n] _; cbn; lia.
    - intros [p n] [p' n'] x y Xa Xb Hx Hy EQ. destruct p as [l w| |]; try contradiction. destruct p' as [l' w'| |]; try contradiction. cbn [fst snd] in Hx, Hy. destruct Hx as [<-|[]], Hy as [<-|[]].
      cbn [en_word en_tag fst snd] in EQ. apply pair_equal_spec in EQ. destruct EQ as [EQ1 EQ2]. subst l'. assert (w = w') by eauto. subst. f_equal. eapply UNI; eauto. }
  assert (NM : normalized (rule_lines cs) lx []) by (right; split; assumption).
  destruct (C30_rule_probability _ _ SR SN _ _ _ _ _ NE E NM) as [RP _]. destruct (C30_lexical_probability _ _ SR SN _ _ _ _ _ NE E NM) as [LP LQ].
  assert (AR : all_rules (rule_lines cs) [] = rule_lines cs) by apply app_nil_r. assert (AE : all_entries lx [] = entries lx) by apply app_nil_r. rewrite AR, AE in RP. rewrite AR, AE in LP. rewrite AE in LQ.
  (* the weight of a left-hand side *)
  assert (LW : forall l, lhs_weight (rule_lines cs) (entries lx) l = Nq (occ (fun p => eqs (plhs p) l) ps)).
  { intros l. rewrite <- CT. unfold lhs_weight. rewrite (total_perm _ _ _ _ _ LEP). rewrite total_map. cbn [en_weight en_tag fst snd].
    assert (FGC : forall pn, In pn cs -> fmt_g (snd pn) = Nq (snd pn)) by (intros [p n] H; cbn; rewrite (FG _ _ H); symmetry; now apply CW).
    assert (NF : forall pn, In pn cs -> okprod (fst pn)) by (intros [p n] H; apply OK, CSI; apply (in_map fst) in H; exact H).
    clear - FGC NF. induction cs as [|[p n] c IH]; [simpl; ring|].
    change (rule_lines ((p, n) :: c)) with (match p with Phrasal l rhs yf => [(l :: rhs, yftextn yf, fmt_g n)] | _ => [] end ++ rule_lines c).
    change (lexents ((p, n) :: c)) with (match p with Lexical l w => [(w, l, fmt_g n)] | _ => [] end ++ lexents c). rewrite !total_app.
    specialize (IH ltac:(intros; apply FGC; now right) ltac:(intros; apply NF; now right)). specialize (FGC _ (or_introl eq_refl)). specialize (NF _ (or_introl eq_refl)). cbn [fst snd] in *.
    cbn [total fold_right]. fold (total (fun pn : prod * N => Nq (snd pn)) (fun pn => eqs (plhs (fst pn)) l) c). cbn [fst snd]. rewrite <- IH.
    destruct p as [l' w|l'|l' rhs yf]; cbn [okprod] in NF; [|contradiction|]; cbn [plhs fst snd total fold_right rl_lhs rl_labels rl_weight en_tag en_weight hd]; destruct (eqs l' l); try rewrite FGC. all: change (Q2Qc 0) with 0%Qc; rewrite ?Qcplus_0_l, ?Qcplus_0_r, <- ?Qcplus_assoc; try reflexivity. all: rewrite !Qcplus_assoc; f_equal; apply Qcplus_comm. }
  split.
  - intros l rhs yf H. apply CSI in H. apply in_map_iff in H. destruct H as ([p n] & X & Hc). cbn in X. subst p. destruct (RL _ _ _ _ Hc) as (r & Hr & R1 & R2 & R3 & R4 & R5 & R6). exists r. split; [assumption|]. split; [assumption|]. split.
    + rewrite R2, (yftextn_bool yf R6). replace (length yf) with (length (boolyf yf)) by (unfold boolyf; now rewrite map_length). apply yfstr_ok; [assumption|lia].
    + rewrite (RP r Hr). rewrite LW. assert (NL : name g (r_lhs r) = l) by (unfold klabels in R1; injection R1 as R1 _; exact R1). rewrite NL. f_equal.
      assert (HL : In (l :: rhs, yftextn yf, fmt_g n) (rule_lines cs)) by (unfold rule_lines; apply in_flat_map; eexists; split; [exact Hc|]; now left).
      rewrite (total_single _ rl_weight _ _ _ HL).
      * unfold rl_weight. cbn [snd]. now apply FG.
      * apply matches_spec. unfold rl_labels. cbn [fst]. rewrite R1, R2, R3. split; reflexivity.
      * intros i j a b Ha Hb Ma Mb. apply matches_spec in Ma, Mb. destruct Ma, Mb. eapply DR; eauto; congruence.
  - intros l w H. apply CSI in H. apply in_map_iff in H. destruct H as ([p n] & X & Hc). cbn in X. subst p. pose proof (LXU _ _ _ Hc) as U. destruct (unescape w) as [word|] eqn:UW; [|congruence].
    assert (EN : unesc w = word) by (unfold unesc; now rewrite UW).
    assert (HL : In (word, l, fmt_g n) (entries lx)).
    { eapply Permutation_in; [apply Permutation_sym, LEP|]. apply in_map_iff. exists (w, l, fmt_g n). split; [cbn [en_word en_tag en_weight fst snd]; now rewrite EN|]. unfold lexents. apply in_flat_map. eexists. split; [exact Hc|]. now left. }
    destruct (LQ _ HL) as (m & lhs & pr & A & B & C). cbn [en_word en_tag fst snd] in A, C. exists word, m, lhs, pr. split; [reflexivity|]. split; [assumption|]. split; [assumption|]. split; [assumption|].
    destruct (LP _ _ A) as (lhs' & pr' & D & F). rewrite B in D. injection D as <- <-. rewrite F, LW, C. f_equal. rewrite (total_single _ en_weight _ _ _ HL).
    + unfold en_weight. cbn [snd]. now apply FG.
    + cbn [en_word en_tag fst snd]. now rewrite !eqs_refl.
    + intros i j a b Ha Hb Ma Mb. apply andb_true_iff in Ma. apply andb_true_iff in Mb. destruct Ma as [M1 M2], Mb as [M3 M4]. apply eqs_eq in M1, M2, M3, M4. eapply DE; eauto; congruence.
Qed.
(** Counts are written with six significant digits ('%g'), so with larger counts the
    probabilities are not the relative frequencies. *)
Definition big : list (prod * N) := [(Phrasal (str "S") [str "A"] [[0]], 1000001%N); (Phrasal (str "S") [str "B"] [[0]], 1%N); (Lexical (str "A") (str "a"), 1%N); (Lexical (str "B") (str "b"), 1%N)].
Theorem C30_large_counts_refuted : exists lx g r, lex_lines big = Some lx /\ grammar isort isort (str "S") (rule_lines big) lx [] = Some g /\ In r (bylhs g) /\
  klabels (tolabel g) (r_key r) = [str "S"; str "A"] /\ r_prob r = Q2Qc (1000000 # 1000001) /\ r_prob r <> (Nq 1000001 / Nq 1000002)%Qc.
Proof.
  eexists. eexists. eexists. split; [vm_compute; reflexivity|]. split; [vm_compute; reflexivity|]. split; [left; reflexivity|]. split; [vm_compute; reflexivity|]. split; [apply Qc_is_canon; reflexivity|].
  intros H. apply (f_equal this) in H. vm_compute in H. discriminate H.
Qed.

(** a treebank meeting the hypotheses: two trees, one of them discontinuous *)
Definition ex_tb : list (tree pystr nat * list (option pystr)) :=
  [(Node (str "S") [Node (str "VP_2") [Node (str "V") [Leaf 0]; Node (str "ADJ") [Leaf 2]]; Node (str "NP") [Leaf 1]], [Some (str "is"); Some (str "(Mary)"); Some (str "happy")]);
   (Node (str "S") [Node (str "NP") [Leaf 0]; Node (str "V") [Leaf 1]], [Some (str "John"); Some (str "is")])].
Lemma filter_le : forall A (f : A -> bool) l, length (filter f l) <= length l.
Proof. induction l as [|x l IH]; cbn; [lia|destruct (f x); cbn; lia]. Qed.
Example ex_treebank : exists ps lx g, treebank_prods ex_tb = Some ps /\ (forall p, (occ (prod_eqb p) ps < 1000000)%N) /\ lex_lines (counter ps) = Some lx /\
  grammar isort isort (str "S") (rule_lines (counter ps)) lx [] = Some g /\ length (bylhs g) = 3 /\ wordrules g (str "(Mary)") <> [].
Proof.
  eexists. eexists. eexists. split; [vm_compute; reflexivity|]. split.
  - intros p. unfold occ. match goal with |- context [filter ?f ?l] => pose proof (filter_le _ f l) as X end. cbn [length] in X. lia.
  - split; [vm_compute; reflexivity|]. split; [vm_compute; reflexivity|]. split; [reflexivity|]. vm_compute. discriminate.
Qed.
Print Assumptions C30_treebank.
Print Assumptions C30_large_counts_refuted.
