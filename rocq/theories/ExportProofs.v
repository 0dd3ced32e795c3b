(** Proofs for C45 (1): fields and lines *)
From Coq Require Import String.
From Coq Require Import List Bool Arith NArith Lia Permutation.
From Verif Require Import PyStr TreeModel TreeProps BracketModel EscapeProofs TransformProps ExportModel ExportSpec.
Import ListNotations.
Open Scope list_scope.
Open Scope nat_scope.

(** ---- split ---- *)
Definition nows (s : pystr) : Prop := forall c, In c s -> isspace c = false.
Lemma split_word : forall f rest cur, nows f -> split_go (f ++ rest) cur = split_go rest (cur ++ f).
Proof.
  induction f as [|c f IH]; intros rest cur H; [now rewrite app_nil_r|]. cbn [app split_go]. rewrite (H c) by now left. rewrite IH by (intros d D; apply H; now right). now rewrite <- app_assoc.
Qed.
Lemma split_join : forall fs, Forall (fun f => f <> [] /\ nows f) fs -> split (join [tab] fs) = fs.
Proof.
  induction fs as [|f fs IH]; intros H; [reflexivity|]. inversion H as [|? ? [NE W] H']; subst. unfold split in *. destruct fs as [|g fs].
  - cbn [join]. rewrite <- (app_nil_r f) at 1. rewrite split_word by auto. cbn. destruct f; [contradiction|reflexivity].
  - change (join [tab] (f :: g :: fs)) with (f ++ [tab] ++ join [tab] (g :: fs)). rewrite split_word by auto. cbn [app split_go]. change (isspace tab) with true. cbn iota. rewrite IH by auto. destruct f; [contradiction|reflexivity].
Qed.
(** ---- '%%' ---- *)
Fixpoint pp (s : pystr) : bool := match s with [] => false | c :: r => match r with d :: _ => N.eqb c pct && N.eqb d pct || pp r | [] => false end end.
Lemma pp_cut : forall s, pp s = false -> cut s = (s, None).
Proof.
  induction s as [|c r IH]; intros H; [reflexivity|]. cbn [cut]. destruct r as [|d r']; [reflexivity|]. cbn [pp] in H. apply orb_false_iff in H. destruct H as [H1 H2]. rewrite H1. rewrite (IH H2). reflexivity.
Qed.
Lemma pp_infix : forall s, (forall a b, s <> a ++ 37%N :: 37%N :: b) -> pp s = false.
Proof.
  induction s as [|c r IH]; intros H; [reflexivity|]. cbn [pp]. destruct r as [|d r']; [reflexivity|]. rewrite IH by (intros a b E; apply (H (c :: a) b); now rewrite E). rewrite orb_false_r. destruct (N.eqb_spec c pct) as [->|]; auto. destruct (N.eqb_spec d pct) as [->|]; auto. exfalso. exact (H [] r' eq_refl).
Qed.
Lemma pp_app : forall a c b, c <> pct -> pp (a ++ c :: b) = pp a || pp b.
Proof.
  intros a c b NC. assert (E : pp (c :: b) = pp b). { cbn [pp]. destruct b; auto. destruct (N.eqb_spec c pct); [contradiction|]. reflexivity. }
  induction a as [|x a IH]; [exact E|]. destruct a as [|y a].
  - cbn [app]. change (pp (x :: c :: b)) with (N.eqb x pct && N.eqb c pct || pp (c :: b)). rewrite E. destruct (N.eqb_spec c pct); [contradiction|]. now rewrite andb_false_r.
  - cbn [app] in *. change (pp (x :: y :: a ++ c :: b)) with (N.eqb x pct && N.eqb y pct || pp (y :: a ++ c :: b)). rewrite IH. cbn [pp]. now rewrite orb_assoc.
Qed.
Lemma pp_join : forall fs, Forall (fun f => pp f = false) fs -> pp (join [tab] fs) = false.
Proof.
  induction fs as [|f fs IH]; intros H; [reflexivity|]. inversion H; subst. destruct fs as [|g fs]; [auto|]. change (join [tab] (f :: g :: fs)) with (f ++ tab :: join [tab] (g :: fs)). rewrite pp_app by (intros E; discriminate E). rewrite H2. auto.
Qed.
Definition fok (s : pystr) : Prop := s <> [] /\ nows s /\ pp s = false.
Lemma field_fok : forall s, field_ok s -> fok s.
Proof. intros s (A & B & C). split; auto. split; auto. now apply pp_infix. Qed.
Lemma exportsplit_row : forall fs, length fs = 6 -> Forall fok fs -> exportsplit (join [tab] fs) = Some fs.
Proof.
  intros fs L F. unfold exportsplit. rewrite pp_cut; [|apply pp_join; eapply Forall_impl; [|exact F]; unfold fok; tauto]. cbn [fst]. rewrite split_join; [|eapply Forall_impl; [|exact F]; unfold fok; tauto]. rewrite L. reflexivity.
Qed.
(** ---- the label ---- *)
Definition brk (a b : char) : Prop := a = b \/ (a = 91%N /\ b = openb).
Lemma replace_tag : forall n l, length l <= n -> Forall2 brk l (replace l (str "$[") (str "$(")).
Proof.
  unfold replace. induction n as [|n IH]; intros l L; [destruct l; [constructor|cbn in L; lia]|]. destruct l as [|c l]; [constructor|]. cbn [replace_loop]. destruct (startswith (c :: l) (str "$[")) eqn:E.
  - change (str "$[") with [36%N; 91%N] in E. cbn [startswith] in E. apply andb_true_iff in E. destruct E as [E1 E2]. destruct l as [|d l]; [discriminate|]. apply andb_true_iff in E2. destruct E2 as [E2 _]. apply N.eqb_eq in E1. apply N.eqb_eq in E2. subst c d. change (length (str "$[") - 1) with 1. change (str "$(") with [36%N; 40%N] at 1. cbn [app replace_loop]. constructor; [now left|]. constructor; [right; split; reflexivity|]. apply IH. cbn in L. lia.
  - constructor; [now left|]. apply IH. cbn in L. lia.
Qed.
Lemma brk_pp : forall l l', Forall2 brk l l' -> pp l' = pp l.
Proof.
  assert (EQ : forall a b, brk a b -> N.eqb b pct = N.eqb a pct) by (intros a b [->|[-> ->]]; reflexivity).
  intros l l' F. induction F as [|a b l l' H F IH]; [reflexivity|]. cbn [pp]. destruct F as [|c d l l' H' F]; [reflexivity|]. rewrite IH, (EQ a b H), (EQ c d H'). reflexivity.
Qed.
Lemma brk_nows : forall l l', Forall2 brk l l' -> nows l -> nows l'.
Proof.
  intros l l' F. induction F as [|a b l l' H F IH]; intros W c C; [destruct C|]. destruct C as [<-|C]; [|apply IH; auto; intros d D; apply W; now right]. destruct H as [<-|[-> ->]]; [apply W; now left|reflexivity].
Qed.
Lemma debracket_flat : forall s, debracket s = flat_map (fun c => if N.eqb closeb c then [93%N] else [c]) (flat_map (fun c => if N.eqb openb c then [91%N] else [c]) s).
Proof. intros s. unfold debracket. change (str "(") with [openb]. change (str ")") with [closeb]. rewrite !replace1. reflexivity. Qed.
Lemma debracket_brk : forall l l', Forall2 brk l l' -> ~ In openb l -> ~ In closeb l -> debracket l' = l.
Proof.
  intros l l' F NO NC. rewrite debracket_flat. induction F as [|a b l l' H F IH]; [reflexivity|]. cbn [flat_map]. assert (Ha : a <> openb) by (intros ->; apply NO; now left). assert (Hc : a <> closeb) by (intros ->; apply NC; now left).
  rewrite flat_map_app, IH by (intros X; first [apply NO; right; exact X|apply NC; right; exact X]). change (a :: l) with ([a] ++ l). f_equal. destruct H as [<-|[-> ->]]; [|reflexivity]. destruct (N.eqb_spec openb a); [congruence|]. cbn [flat_map]. destruct (N.eqb_spec closeb a); [congruence|]. reflexivity.
Qed.
Lemma brk_refl : forall l, Forall2 brk l l.
Proof. induction l; constructor; auto. now left. Qed.
Lemma postag_facts : forall l, label_ok l -> fok (postag l) /\ debracket (postag l) = l.
Proof.
  intros l (FO & NO & NC). assert (F := replace_tag (length l) l (le_n _)). apply field_fok in FO. destruct FO as (NE & W & P). unfold postag. destruct (replace l (str "$[") (str "$(")) as [|c r] eqn:E; [inversion F; subst; contradiction|]. cbn [orelse]. split.
  - split; [discriminate|]. split; [eapply brk_nows; eauto|]. now rewrite (brk_pp _ _ F).
  - eapply debracket_brk; eauto.
Qed.
Lemma label_facts : forall l, label_ok l -> fok (orelse l none) /\ debracket (orelse l none) = l.
Proof.
  intros l (FO & NO & NC). apply field_fok in FO. assert (E : orelse l none = l) by (destruct FO as (NE & _); destruct l; [contradiction|reflexivity]). rewrite E. split; auto. eapply debracket_brk; eauto. apply brk_refl.
Qed.
Lemma source_facts : forall o, source_ok o -> fok (f_lemma o) /\ fok (f_morph o) /\ fok (f_func o) /\ fields_of o = (f_lemma o, f_morph o, f_func o).
Proof.
  intros o H. assert (E : fields_of o = (f_lemma o, f_morph o, f_func o)) by (destruct o as [[[l m] f]|]; reflexivity). unfold source_ok in H. rewrite E in H. destruct H as (A & B & C). repeat split; auto; try (apply field_fok; assumption); try (apply field_fok in A; apply A); try (apply field_fok in B; apply B); try (apply field_fok in C; apply C).
Qed.
(** ---- identifiers ---- *)
Lemma ids : forall k, k < 500 -> exists a b c, dec (500 + k) = [a; b; c] /\ (N.leb 53 a && N.leb a 57) && isdigit b && isdigit c = true.
Proof.
  assert (F : forallb (fun k => match dec k with [a; b; c] => (N.leb 53 a && N.leb a 57) && isdigit b && isdigit c | _ => false end) (seq 500 500) = true) by (vm_compute; reflexivity).
  intros k L. rewrite forallb_forall in F. specialize (F (500 + k) ltac:(apply in_seq; lia)). destruct (dec (500 + k)) as [|a [|b [|c [|]]]]; try discriminate. eauto.
Qed.
Lemma nonterminal_id : forall k, k < 500 -> nonterminal (35%N :: dec (500 + k)) = Some (dec (500 + k)).
Proof. intros k L. destruct (ids k L) as (a & b & c & -> & E). cbn [nonterminal]. rewrite N.eqb_refl. cbn [andb]. now rewrite E. Qed.
Lemma dec_fok : forall n, fok (dec n).
Proof.
  intros n. split; [apply dec_nonempty|]. assert (D := dec_digits n). rewrite forallb_forall in D. assert (R : forall c, isdigit c = true -> isspace c = false /\ c <> pct).
  { intros c H. unfold isdigit in H. apply andb_true_iff in H. destruct H as [H1 H2]. apply N.leb_le in H1. apply N.leb_le in H2. assert (In c (map N.of_nat (seq 48 10))). { apply in_map_iff. exists (N.to_nat c). split; [lia|]. apply in_seq. lia. } cbn in H. repeat (destruct H as [<-|H]; [split; [reflexivity|discriminate]|]). destruct H. }
  split; [intros c C; apply R; auto|]. assert (NP : forall c, In c (dec n) -> c <> pct) by (intros c C; apply R; auto). clear - NP. induction (dec n) as [|c r IH]; [reflexivity|]. cbn [pp]. destruct r; [reflexivity|]. rewrite IH by (intros; apply NP; now right). destruct (N.eqb_spec c pct) as [E|]; [exfalso; apply (NP c); auto; now left|reflexivity].
Qed.
Lemma id_fok : forall n, fok (35%N :: dec n).
Proof.
  intros n. destruct (dec_fok n) as (A & B & C). split; [discriminate|]. split; [intros c [<-|H]; [reflexivity|auto]|]. destruct (dec n) as [|d r] eqn:E; [contradiction|]. cbn [pp] in *. rewrite C. reflexivity.
Qed.
Lemma word_nonterminal : forall s, word_ok s -> nonterminal s = None.
Proof.
  intros s [_ H]. destruct (nonterminal s) as [k|] eqn:E; auto. exfalso. destruct s as [|h [|a [|b [|c [|]]]]]; try discriminate. cbn in E. destruct (N.eqb h 35 && _ && _ && _) eqn:C; [|discriminate]. apply andb_true_iff in C. destruct C as [C C4]. apply andb_true_iff in C. destruct C as [C C3]. apply andb_true_iff in C. destruct C as [C1 C2]. apply N.eqb_eq in C1. subst h. clear E.
  assert (R : forall lo hi x, (N.leb (N.of_nat lo) x && N.leb x (N.of_nat hi))%bool = true -> In x (map N.of_nat (seq lo (S hi - lo)))). { intros lo hi x X. apply andb_true_iff in X. destruct X as [X1 X2]. apply N.leb_le in X1. apply N.leb_le in X2. apply in_map_iff. exists (N.to_nat x). split; [lia|]. apply in_seq. lia. }
  apply (R 53 57) in C2. apply (R 48 57) in C3. apply (R 48 57) in C4.
  assert (F : forallb (fun x => forallb (fun y => forallb (fun z => existsb (fun k => eqs [x; y; z] (dec k)) (seq 500 500)) (map N.of_nat (seq 48 (58 - 48)))) (map N.of_nat (seq 48 (58 - 48)))) (map N.of_nat (seq 53 (58 - 53))) = true) by (vm_compute; reflexivity).
  rewrite forallb_forall in F. specialize (F a C2). rewrite forallb_forall in F. specialize (F b C3). rewrite forallb_forall in F. specialize (F c C4). apply existsb_exists in F. destruct F as (k' & K1 & K2). apply eqs_eq in K2. apply in_seq in K1. apply (H k'); [lia|]. now rewrite K2.
Qed.
