(** Proofs about the substitutions made by the (disc)bracket readers and
    writers. *)
From Coq Require Import String.
From Coq Require Import List Bool Arith NArith Lia ZifyBool ZifyN.
From Verif Require Import PyStr TreeModel BracketModel BracketProofs EscapeProofs.
Import ListNotations.
Open Scope list_scope.

(** ---- INDEXRE.sub ---- *)
Definition isub f s := index_sub (length s) f s.
Lemma index_sub_fuel : forall k f s, length s <= k -> index_sub k f s = isub f s.
Proof.
  unfold isub. intros k f s. remember (length s) as n eqn:E. revert k s E.
  induction n as [n IH] using lt_wf_ind. intros k s E Hk. destruct s as [|c t]; [destruct k, n; reflexivity|].
  cbn in E. subst n. destruct k as [|k]; [lia|]. cbn [index_sub].
  assert (G : forall r, length r <= length t -> index_sub k f r = index_sub (length t) f r).
  { intros r Hr. rewrite (IH (length r)) with (k := k) by (auto; lia). symmetry. apply (IH (length r)); auto; lia. }
  pose proof (span_len isdigit t) as L. destruct (span isdigit t) as [ds rest]. cbn [fst snd] in L.
  rewrite (G t) by lia. destruct (N.eqb c space); auto. destruct ds as [|d0 ds]; auto. destruct rest as [|d rest]; auto.
  destruct (N.eqb d closeb); auto. rewrite (G rest); auto. cbn in L. lia.
Qed.
Lemma isub_char : forall f c t, N.eqb c space = false -> isub f (c :: t) = option_map (cons c) (isub f t).
Proof.
  intros f c t H. unfold isub. cbn [length index_sub]. destruct (span isdigit t) as [ds rest]. rewrite H. reflexivity.
Qed.
Lemma isub_nodigit : forall f c t, starts_not isdigit t -> isub f (c :: t) = option_map (cons c) (isub f t).
Proof.
  intros f c t H. unfold isub. cbn [length index_sub].
  replace (span isdigit t) with (@nil N, t) by (symmetry; apply (span_app isdigit [] t); auto).
  destruct (N.eqb c space); reflexivity.
Qed.
Lemma isub_hit : forall f ds r, ds <> [] -> forallb isdigit ds = true ->
  isub f (space :: ds ++ closeb :: r) = match f ds, isub f r with Some a, Some b => Some (a ++ b) | _, _ => None end.
Proof.
  intros f ds r N H. unfold isub. cbn [length index_sub]. rewrite span_app by (auto; reflexivity).
  rewrite N.eqb_refl. destruct ds as [|d ds]; [congruence|]. rewrite N.eqb_refl. rewrite index_sub_fuel; [reflexivity|].
  rewrite app_length. cbn. lia.
Qed.
Lemma omap_omap : forall (a b : pystr) o, option_map (app a) (option_map (app b) o) = option_map (app (a ++ b)) o.
Proof. intros. destruct o; cbn; auto. now rewrite app_assoc. Qed.
Lemma omap_cons : forall c (b : pystr) o, option_map (cons c) (option_map (app b) o) = option_map (app (c :: b)) o.
Proof. intros. destruct o; reflexivity. Qed.
Lemma isub_word : forall f w r, forallb (fun c => negb (N.eqb c space)) w = true -> isub f (w ++ r) = option_map (app w) (isub f r).
Proof.
  induction w as [|c w IH]; intros r H; [cbn [app]; destruct (isub f r); reflexivity|]. cbn in H. apply andb_prop in H. destruct H as [H1 H2].
  cbn [app]. rewrite isub_char by now apply negb_true_iff. rewrite IH by auto. apply omap_cons.
Qed.
Lemma isub_spaces : forall f ws r, forallb isspace ws = true -> starts_not isdigit r ->
  isub f (ws ++ r) = option_map (app ws) (isub f r).
Proof.
  induction ws as [|c ws IH]; intros r H Hr; [cbn [app]; destruct (isub f r); reflexivity|]. cbn in H. apply andb_prop in H. destruct H as [H1 H2].
  cbn [app]. rewrite isub_nodigit.
  - rewrite IH by auto. apply omap_cons.
  - destruct ws as [|d ws]; [exact Hr|]. cbn in H2. apply andb_prop in H2. destruct H2 as [H2 _]. cbn. unfold isdigit, isspace in *. lia.
Qed.
Lemma label_nospace : forall l, forallb labelchar l = true -> forallb (fun c => negb (N.eqb c space)) l = true.
Proof.
  intros l H. apply forallb_forall. intros c Hc. rewrite forallb_forall in H. specialize (H c Hc). apply labelchar_not in H.
  destruct H as (H & _). destruct (N.eqb_spec c space); [subst; discriminate|reflexivity].
Qed.

(** terminals only as last child *)
Fixpoint lastleaf {L A} (t : tree L A) : bool :=
  match t with
  | Leaf _ => true
  | Node _ ts => forallb lastleaf ts && forallb (fun c => match c with Node _ _ => true | Leaf _ => false end) (removelast ts)
  end.
Fixpoint labels_clean {A} (t : tree pystr A) : bool :=
  match t with Leaf _ => true | Node l ts => clean_word l && forallb labels_clean ts end.

Lemma isub_layout : forall show' f (t : tree pystr nat) s, labels_clean t = true -> lastleaf t = true ->
  (forall i, In i (leaves t) -> f (dec i) = Some ([space] ++ show' i ++ [closeb])) ->
  layout dec t s -> (exists l ts, t = Node l ts) ->
  exists s', layout show' t s' /\ forall r, isub f (s ++ r) = option_map (app s') (isub f r).
Proof.
  intros show' f t. induction t as [a|l ts IH] using tree_ind'; intros s C LL HF H HN; [destruct HN as (? & ? & ?); discriminate|clear HN].
  cbn in C. apply andb_prop in C. destruct C as [Cl Ct]. apply clean_word_iff in Cl. destruct Cl as [Nl Cl].
  cbn in LL. apply andb_prop in LL. destruct LL as [L1 L2].
  pose proof (label_nospace _ Cl) as LN.
  inversion H as [|? E1 E2|? E1 E2|? ? body Nt HB E1 E2]; subst.
  - exists (openb :: l ++ [] ++ [closeb]). split; [constructor|]. intros r. cbn [app].
    rewrite isub_char by reflexivity. rewrite <- app_assoc, isub_word by auto. cbn [app]. rewrite isub_char by reflexivity.
    destruct (isub f r); cbn; auto. now rewrite <- app_assoc.
  - exists (openb :: l ++ [space] ++ [closeb]). split; [constructor|]. intros r. cbn [app].
    rewrite isub_char by reflexivity. rewrite <- app_assoc, isub_word by auto. cbn [app].
    rewrite isub_nodigit by reflexivity. rewrite isub_char by reflexivity.
    destruct (isub f r); cbn; auto. now rewrite <- app_assoc.
  - assert (B : exists body', layouts show' ts body' /\ forall r, isub f (body ++ closeb :: r) = option_map (app (body' ++ [closeb])) (isub f r)).
    { clear H Nl Cl LN Nt. cbn [leaves] in HF. revert body HB. induction IH as [|t ts Ht HFs IHt]; intros body HB.
      - inversion HB; subst. exists []. split; [constructor|]. intros r. cbn [app]. now rewrite isub_char by reflexivity.
      - inversion HB as [|? ? ws s' rest Hws Ls Lr E1 E2]; subst. cbn in Ct, L1. apply andb_prop in Ct, L1.
        destruct Ct as [Ct1 Ct2], L1 as [L11 L12].
        assert (L22 : forallb (fun c : tree pystr nat => match c with Leaf _ => false | Node _ _ => true end) (removelast ts) = true).
        { destruct ts; [reflexivity|]. cbn in L2. apply andb_prop in L2. tauto. }
        destruct (IHt Ct2 L12 L22 ltac:(intros i Hi; apply HF; cbn; apply in_or_app; auto) rest Lr) as (rest' & R1 & R2).
        destruct t as [i|m us].
        + assert (ts = []) by (destruct ts; [auto|cbn in L2; discriminate]). subst ts. inversion Lr; subst. inversion Ls; subst.
          exists (ws ++ space :: show' i ++ []). split; [apply lays_cons; auto; constructor|]. intros r.
          rewrite app_nil_r. rewrite <- app_assoc. cbn [app]. rewrite isub_spaces by (auto; reflexivity).
          rewrite isub_hit; [|apply dec_nonempty|apply dec_digits]. rewrite HF by (cbn; auto). rewrite app_nil_r.
          destruct (isub f r); cbn; auto. repeat first [rewrite <- app_assoc | progress cbn [app]]. reflexivity.
        + destruct (Ht s' Ct1 L11 ltac:(intros i Hi; apply HF; cbn; apply in_or_app; auto) Ls ltac:(eauto)) as (s2 & S1 & S2).
          exists (ws ++ space :: s2 ++ rest'). split; [apply lays_cons; auto|]. intros r.
          replace ((ws ++ space :: s' ++ rest) ++ closeb :: r) with ((ws ++ [space]) ++ s' ++ rest ++ closeb :: r)
            by (rewrite <- !app_assoc; cbn [app]; now rewrite <- !app_assoc).
          rewrite isub_spaces.
          * rewrite S2, R2. rewrite !omap_omap. destruct (isub f r); cbn; auto. f_equal. rewrite <- !app_assoc. cbn. now rewrite <- !app_assoc.
          * rewrite forallb_app, Hws. reflexivity.
          * inversion Ls; subst; reflexivity. }
    destruct B as (body' & B1 & B2). exists (openb :: l ++ body' ++ [closeb]). split; [now constructor|]. intros r.
    cbn [app]. rewrite isub_char by reflexivity. rewrite <- !app_assoc, isub_word by auto. cbn [app]. rewrite B2.
    rewrite omap_omap, omap_cons. reflexivity.
Qed.

(** the same for str(t), where the result is str() of the tree with other leaves *)
Definition spaced {A} (show : A -> pystr) (ts : list (tree pystr A)) : pystr := flat_map (fun t => space :: pprint_flat show t) ts.
Lemma flat_spaced : forall A (show : A -> pystr) l ts,
  pprint_flat show (Node l ts) = openb :: l ++ (match ts with [] => [space] | _ => spaced show ts end) ++ [closeb].
Proof.
  intros A show l ts. cbn [pprint_flat]. cbn [app]. f_equal. f_equal. destruct ts as [|t ts]; [reflexivity|].
  change (space :: join [space] (map (pprint_flat show) (t :: ts)) ++ [closeb]) with ((space :: join [space] (map (pprint_flat show) (t :: ts))) ++ [closeb]).
  f_equal. revert t. induction ts as [|u ts IH]; intros t; [cbn; now rewrite app_nil_r|].
  change (join [space] (map (pprint_flat show) (t :: u :: ts))) with (pprint_flat show t ++ (space :: join [space] (map (pprint_flat show) (u :: ts)))).
  rewrite IH. reflexivity.
Qed.
Lemma isub_flat : forall show' f (t : tree pystr nat), labels_clean t = true -> lastleaf t = true ->
  (forall i, In i (leaves t) -> f (dec i) = Some ([space] ++ show' i ++ [closeb])) -> (exists l ts, t = Node l ts) ->
  forall r, isub f (pprint_flat dec t ++ r) = option_map (app (pprint_flat show' t)) (isub f r).
Proof.
  intros show' f t. induction t as [a|l ts IH] using tree_ind'; intros C LL HF HN r; [destruct HN as (? & ? & ?); discriminate|clear HN].
  cbn in C. apply andb_prop in C. destruct C as [Cl Ct]. apply clean_word_iff in Cl. destruct Cl as [Nl Cl].
  cbn in LL. apply andb_prop in LL. destruct LL as [L1 L2].
  pose proof (label_nospace _ Cl) as LN. rewrite !flat_spaced. cbn [app]. rewrite isub_char by reflexivity.
  rewrite <- !app_assoc, isub_word by auto. rewrite omap_cons.
  assert (B : isub f ((match ts with [] => [space] | _ => spaced dec ts end) ++ [closeb] ++ r) =
     option_map (app ((match ts with [] => [space] | _ => spaced show' ts end) ++ [closeb])) (isub f r)).
  { destruct ts as [|t0 ts0].
    - cbn [app]. rewrite isub_nodigit by reflexivity. rewrite isub_char by reflexivity. destruct (isub f r); reflexivity.
    - cbn [leaves] in HF. clear Nl Cl LN. remember (t0 :: ts0) as ts eqn:E. clear E t0 ts0. cbn [app].
      induction IH as [|t ts Ht HFs IHt]; [cbn [spaced flat_map app]; rewrite isub_char by reflexivity; destruct (isub f r); reflexivity|].
      cbn in Ct, L1. apply andb_prop in Ct, L1. destruct Ct as [Ct1 Ct2], L1 as [L11 L12].
      assert (L22 : forallb (fun c : tree pystr nat => match c with Leaf _ => false | Node _ _ => true end) (removelast ts) = true).
      { destruct ts; [reflexivity|]. cbn in L2. apply andb_prop in L2. tauto. }
      specialize (IHt Ct2 L12 L22 ltac:(intros i Hi; apply HF; cbn; apply in_or_app; auto)).
      unfold spaced in *. cbn [flat_map]. destruct t as [i|m us].
      + assert (ts = []) by (destruct ts; [auto|cbn in L2; discriminate]). subst ts. cbn [flat_map pprint_flat app]. rewrite !app_nil_r.
        cbn [app]. rewrite isub_hit; [|apply dec_nonempty|apply dec_digits]. rewrite HF by (cbn; auto).
        destruct (isub f r); cbn; auto.
      + cbn [app]. rewrite <- !app_assoc. rewrite isub_nodigit by reflexivity.
        rewrite Ht by (eauto; intros i Hi; apply HF; cbn; apply in_or_app; auto). rewrite IHt.
        rewrite omap_omap, omap_cons. reflexivity. }
  rewrite B, omap_omap. destruct (isub f r); cbn [option_map app]; [|reflexivity]. repeat first [rewrite <- app_assoc | progress cbn [app]]. reflexivity.
Qed.

(** ---- SUPERFLUOUSSPACERE.sub ---- *)
Definition sup s := superfluous (length s) s.
Lemma superfluous_fuel : forall k s, length s <= k -> superfluous k s = sup s.
Proof.
  unfold sup. intros k s. remember (length s) as n eqn:E. revert k s E.
  induction n as [n IH] using lt_wf_ind. intros k s E Hk. destruct s as [|c t]; [destruct k, n; reflexivity|].
  cbn in E. subst n. destruct k as [|k]; [lia|]. cbn [superfluous].
  assert (G : forall r, length r <= length t -> superfluous k r = superfluous (length t) r).
  { intros r Hr. rewrite (IH (length r)) with (k := k) by (auto; lia). symmetry. apply (IH (length r)); auto; lia. }
  pose proof (span_len isspace t) as L. destruct (span isspace t) as [sp rest]. cbn [fst snd] in L.
  rewrite (G t), (G rest) by lia. reflexivity.
Qed.
Lemma sup_other : forall c t, N.eqb c closeb = false -> sup (c :: t) = c :: sup t.
Proof. intros c t H. unfold sup. cbn [length superfluous]. rewrite H. destruct (span isspace t). reflexivity. Qed.
Lemma sup_close : forall t, exists sp t', t = sp ++ t' /\ forallb isspace sp = true /\ sup (closeb :: t) = closeb :: sup t'.
Proof.
  intros t. unfold sup at 1. cbn [length superfluous]. pose proof (span_len isspace t) as L.
  destruct (span isspace t) as [sp rest] eqn:E. apply span_spec in E. destruct E as (E1 & E2 & _). cbn [fst snd] in L.
  rewrite N.eqb_refl. destruct sp as [|c sp].
  - exists [], t. repeat split; auto.
  - destruct rest as [|d rest]; [exists [], t; repeat split; auto|]. destruct (N.eqb d closeb).
    + exists (c :: sp), (d :: rest). split; auto. split; auto. f_equal. apply superfluous_fuel. lia.
    + exists [], t. repeat split; auto.
Qed.
Lemma sup_nil : sup [] = []. Proof. reflexivity. Qed.
Lemma sup_head : forall c t, exists t', sup (c :: t) = c :: t'.
Proof.
  intros c t. destruct (N.eqb c closeb) eqn:E.
  - apply N.eqb_eq in E. subst. destruct (sup_close t) as (sp & t' & _ & _ & ->). eauto.
  - rewrite sup_other by auto. eauto.
Qed.
Lemma sup_app : forall a b, forallb (fun c => negb (N.eqb c closeb)) a = true -> sup (a ++ b) = a ++ sup b.
Proof.
  induction a as [|c a IH]; intros b H; [reflexivity|]. cbn in H. apply andb_prop in H. destruct H as [H1 H2].
  cbn [app]. rewrite sup_other by now apply negb_true_iff. now rewrite IH.
Qed.
Lemma sup_starts : forall p s, starts_not p s -> starts_not p (sup s).
Proof. intros p [|c t] H; [exact I|]. destruct (sup_head c t) as [t' ->]. exact H. Qed.
Lemma tok_open_gen : forall sp lab rest, forallb isspace sp = true -> forallb labelchar lab = true -> starts_not labelchar rest ->
  (lab = [] -> starts_not isspace rest) -> tokenize (openb :: sp ++ lab ++ rest) = TOpen lab :: tokenize rest.
Proof.
  intros sp lab rest H1 H2 H3 H4. unfold tokenize. cbn [length tokens]. rewrite N.eqb_refl.
  assert (G : starts_not isspace (lab ++ rest)).
  { destruct lab as [|c lab]; [apply H4; reflexivity|]. cbn in H2 |- *. apply andb_prop in H2. apply labelchar_not. tauto. }
  rewrite (span_app isspace sp (lab ++ rest) H1 G).
  cbn [snd]. rewrite span_app by auto. f_equal. apply tokens_fuel. rewrite !app_length. lia.
Qed.
Lemma sup_tokens : forall s, tokenize (sup s) = tokenize s.
Proof.
  intros s. remember (length s) as n eqn:E. revert s E. induction n as [n IH] using lt_wf_ind. intros s E.
  destruct s as [|c t]; [reflexivity|]. cbn in E. subst n.
  destruct (N.eqb c openb) eqn:Eo; [|destruct (N.eqb c closeb) eqn:Ec; [|destruct (isspace c) eqn:Es]].
  - apply N.eqb_eq in Eo. subst c. rewrite sup_other by reflexivity.
    destruct (span isspace t) as [sp t1] eqn:E1. apply span_spec in E1. destruct E1 as (-> & S1 & S2).
    destruct (span labelchar t1) as [lab rest] eqn:E2. apply span_spec in E2. destruct E2 as (-> & S3 & S4).
    rewrite sup_app.
    2: { apply forallb_forall. intros c Hc. rewrite forallb_forall in S1. specialize (S1 c Hc). apply space_not_b in S1. destruct S1 as [_ ->]. reflexivity. }
    rewrite sup_app.
    2: { apply forallb_forall. intros c Hc. rewrite forallb_forall in S3. specialize (S3 c Hc). apply labelchar_not in S3. destruct S3 as (_ & _ & ->). reflexivity. }
    assert (S5 : lab = [] -> starts_not isspace rest) by (intros ->; exact S2).
    rewrite !tok_open_gen; auto using sup_starts. f_equal. apply (IH (length rest)); auto. rewrite !app_length. lia.
  - apply N.eqb_eq in Ec. subst c. destruct (sup_close t) as (sp & t' & -> & H1 & ->).
    rewrite !tok_close. f_equal. rewrite tok_space by auto. apply (IH (length t')); auto. rewrite app_length. lia.
  - rewrite sup_other by auto. change (c :: sup t) with ([c] ++ sup t). change (c :: t) with ([c] ++ t).
    rewrite !tok_space by (cbn; now rewrite Es). apply (IH (length t)); auto.
  - destruct (span labelchar (c :: t)) as [w rest] eqn:E2. apply span_spec in E2. destruct E2 as (E2 & S3 & S4).
    assert (Nw : w <> []). { intros ->. cbn in E2. subst rest. cbn in S4. unfold labelchar in S4. rewrite Eo, Ec, Es in S4. discriminate. }
    rewrite E2. rewrite sup_app.
    2: { apply forallb_forall. intros d Hd. rewrite forallb_forall in S3. specialize (S3 d Hd). apply labelchar_not in S3. destruct S3 as (_ & _ & ->). reflexivity. }
    rewrite !tok_leaf; auto using sup_starts. f_equal. apply (IH (length rest)); auto.
    apply (f_equal (@length N)) in E2. rewrite app_length in E2. cbn in E2. destruct w; [congruence|]. cbn in E2. lia.
Qed.
Lemma sup_parse : forall S B (pl : S -> pystr -> option (S * B)) s st, parse pl (sup s) st = parse pl s st.
Proof. intros. unfold parse. now rewrite sup_tokens. Qed.

(** ---- what the readers build ---- *)
Lemma build_id : forall (S A : Type) (pl : S -> pystr -> option (S * A)) show upd t st,
  (forall st a, In a (leaves t) -> pl st (show a) = Some (upd st a, a)) ->
  build pl show st t = Some (fold_left upd (leaves t) st, t).
Proof.
  intros S A pl show upd t. induction t as [a|l ts IH] using tree_ind'; intros st H.
  - cbn. rewrite H by (cbn; auto). reflexivity.
  - rewrite build_node. cbn [leaves].
    assert (G : forall st, builds pl show st ts = Some (fold_left upd (flat_map leaves ts) st, ts)).
    { cbn [leaves] in H. clear st. induction IH as [|t ts Ht HF IHt]; intros st; [reflexivity|]. cbn [builds flat_map] in *.
      rewrite Ht by (intros; apply H; apply in_or_app; auto). rewrite IHt by (intros; apply H; apply in_or_app; auto).
      rewrite fold_left_app. reflexivity. }
    rewrite G. reflexivity.
Qed.
Lemma spliteq_dec : forall i w, spliteq (dec i ++ 61%N :: w) = Some (dec i, w).
Proof.
  intros i w. pose proof (dec_digits i) as H. induction (dec i) as [|c d IH]; [reflexivity|]. cbn in H. apply andb_prop in H.
  destruct H as [H1 H2]. cbn [app spliteq]. replace (N.eqb c 61) with false by (unfold isdigit in H1; lia). rewrite IH by auto. reflexivity.
Qed.
Lemma dec_label : forall i, forallb labelchar (dec i) = true.
Proof.
  intros. apply forallb_forall. intros c Hc. pose proof (dec_digits i) as H. rewrite forallb_forall in H. specialize (H c Hc).
  unfold labelchar, isdigit, isspace, openb, closeb in *. lia.
Qed.
Definition discleaf (sent : list (option pystr)) (i : nat) : pystr := dec i ++ [61%N] ++ escape (nth i sent None).
(** words that can be written *)
Definition word_ok (w : option pystr) : Prop :=
  match w with None => True | Some w => forallb (fun c => negb (isspace c)) w = true /\ unescape (escape (Some w)) = Some w end.
Lemma word_ok_un : forall w, word_ok w -> unescape (escape w) = w.
Proof. intros [w|] H; [apply H|reflexivity]. Qed.
Lemma word_ok_label : forall w, word_ok w -> forallb labelchar (escape w) = true.
Proof. intros [w|] H; [|reflexivity]. apply escape_labelchars. apply H. Qed.
Lemma nth_ok : forall sent i, Forall word_ok sent -> word_ok (nth i sent None).
Proof.
  intros sent i H. destruct (Nat.lt_ge_cases i (length sent)).
  - rewrite Forall_forall in H. apply H. now apply nth_In.
  - rewrite nth_overflow by auto. exact I.
Qed.
Lemma clean_shows : forall A (show : A -> pystr) t, labels_clean t = true -> (forall a, In a (leaves t) -> clean_word (show a) = true) -> clean show t = true.
Proof.
  intros A show t. induction t as [a|l ts IH] using tree_ind'; intros C H; [apply H; cbn; auto|].
  cbn in *. apply andb_prop in C. destruct C as [-> C]. cbn. induction IH as [|t ts Ht HF IHt]; [reflexivity|].
  cbn in *. apply andb_prop in C. destruct C as [C1 C2]. rewrite Ht, IHt; auto; intros; apply H; apply in_or_app; auto.
Qed.
Definition entry sent (i : nat) : nat * option pystr := (i, nth i sent None).
Lemma fold_rev : forall (g : nat -> nat * option pystr) l d, fold_left (fun d i => g i :: d) l d = rev (map g l) ++ d.
Proof. induction l; intros; cbn; auto. rewrite IHl, <- app_assoc. reflexivity. Qed.
Lemma dget_entries : forall sent l i, In i l -> dget (map (entry sent) l) i = Some (nth i sent None).
Proof.
  induction l as [|j l IH]; intros i H; [contradiction|]. cbn. destruct (Nat.eqb_spec i j); [now subst|]. destruct H; [congruence|auto].
Qed.
Lemma listmax_le : forall sent l n, (forall i, In i l -> i <= n) -> In n l -> listmax (map (entry sent) l) = n.
Proof.
  intros sent l n H1 H2. apply Nat.le_antisymm.
  - clear H2. induction l as [|j l IH]; cbn; [lia|]. apply Nat.max_lub; [apply H1; now left|]. apply IH. intros; apply H1; now right.
  - clear H1. induction l as [|j l IH]; [contradiction|]. cbn. destruct H2 as [->|H2]; [lia|]. specialize (IH H2). lia.
Qed.
Lemma sent_of_entries : forall sent l, sent <> [] -> (forall i, In i l <-> i < length sent) -> sent_of (map (entry sent) l) = Some sent.
Proof.
  intros sent l N H.
  assert (L : 0 < length sent) by (destruct sent; cbn; [congruence|lia]).
  assert (M : listmax (map (entry sent) l) = length sent - 1).
  { apply listmax_le; [intros i Hi; apply H in Hi; lia|]. apply H. lia. }
  unfold sent_of. rewrite M. replace (length sent - 1 + 1) with (length sent) by lia.
  assert (E : map (fun n => match dget (map (entry sent) l) n with Some w => w | None => None end) (seq 0 (length sent)) = sent).
  { apply (nth_ext _ _ None None); rewrite map_length, seq_length; auto. intros i Hi.
    rewrite (nth_indep _ None (match dget (map (entry sent) l) 0 with Some w => w | None => None end)) by (rewrite map_length, seq_length; auto).
    rewrite (map_nth (fun n => match dget (map (entry sent) l) n with Some w => w | None => None end)).
    rewrite seq_nth by auto. cbn. rewrite dget_entries; [reflexivity|]. now apply H. }
  rewrite E. destruct l as [|j l]; [|reflexivity]. exfalso. apply (proj2 (H 0)); auto.
Qed.
Lemma sentword_ok : forall sent i, i < length sent -> sentword sent (dec i) = Some (escape (nth i sent None)).
Proof.
  intros sent i H. unfold sentword. rewrite undec_dec. rewrite (nth_error_nth' sent None H). reflexivity.
Qed.

Definition discf sent := fun ds : pystr => option_map (fun w : pystr => [space] ++ ds ++ [61%N] ++ w ++ [closeb]) (sentword sent ds).
Lemma discf_ok : forall sent i, i < length sent -> discf sent (dec i) = Some ([space] ++ discleaf sent i ++ [closeb]).
Proof.
  intros sent i Hi. unfold discf, discleaf. rewrite sentword_ok by auto. cbn [option_map]. do 2 f_equal.
  cbn [app]. rewrite <- !app_assoc. reflexivity.
Qed.
Lemma disc_clean : forall t sent, labels_clean t = true -> Forall word_ok sent -> clean (discleaf sent) t = true.
Proof.
  intros t sent C WO. apply clean_shows; auto. intros i Hi. apply clean_word_iff. unfold discleaf. split.
  - pose proof (dec_nonempty i). destruct (dec i); [congruence|discriminate].
  - rewrite !forallb_app, dec_label. cbn [forallb andb]. change (labelchar 61) with true. cbn. apply word_ok_label. now apply nth_ok.
Qed.
Lemma disc_read : forall l ts sent s', let t := Node l ts in
  labels_clean t = true -> Forall word_ok sent -> sent <> [] ->
  (forall i, In i (leaves t) <-> i < length sent) -> layout (discleaf sent) t s' ->
  discbrackettree (s' ++ [newline]) = Some (t, sent).
Proof.
  intros l ts sent s' t C WO NE COV S1. pose proof (disc_clean t sent C WO) as CL.
  unfold discbrackettree. fold (sup (s' ++ [newline])). rewrite sup_parse.
  pose proof (parse_layout _ _ _ substleaf (discleaf sent) l ts s' [] [] [newline] CL S1 eq_refl eq_refl) as PL. cbn [app] in PL. rewrite PL. clear PL.
  fold t. rewrite (build_id _ _ substleaf (discleaf sent) (fun d i => entry sent i :: d)).
  + rewrite fold_rev, app_nil_r. rewrite <- map_rev. rewrite sent_of_entries; auto.
    intros i. rewrite <- in_rev. apply COV.
  + intros st i Hi. unfold substleaf, discleaf. cbn [app]. rewrite spliteq_dec, undec_dec.
    rewrite word_ok_un by (now apply nth_ok). reflexivity.
Qed.
Lemma disc_write : forall l ts sent pretty, let t := Node l ts in
  labels_clean t = true -> lastleaf t = true -> (forall i, In i (leaves t) -> i < length sent) ->
  exists s', writediscbrackettree t sent pretty = Some (s' ++ [newline]) /\ layout (discleaf sent) t s' /\
      (pretty = false -> s' = pprint_flat (discleaf sent) t).
Proof.
  intros l ts sent pretty t C LL COV. unfold writediscbrackettree. fold (discf sent).
  assert (HF : forall i, In i (leaves t) -> discf sent (dec i) = Some ([space] ++ discleaf sent i ++ [closeb])).
  { intros i Hi. apply discf_ok. auto. }
  destruct pretty.
  - set (s0 := pprint dec 70 0 t). assert (LAY : layout dec t s0) by apply pprint_layout.
    destruct (isub_layout (discleaf sent) (discf sent) t s0 C LL HF LAY ltac:(unfold t; eauto)) as (s' & S1 & S2).
    specialize (S2 []). rewrite app_nil_r in S2. fold (isub (discf sent) s0). rewrite S2.
    unfold isub. cbn [index_sub length option_map]. rewrite app_nil_r. exists s'. split; auto. split; auto. discriminate.
  - pose proof (isub_flat (discleaf sent) (discf sent) t C LL HF ltac:(unfold t; eauto) []) as S2. rewrite app_nil_r in S2.
    fold (isub (discf sent) (pprint_flat dec t)). rewrite S2. unfold isub. cbn [index_sub length option_map]. rewrite app_nil_r.
    exists (pprint_flat (discleaf sent) t). split; auto. split; auto. apply flat_layout.
Qed.

(** ---- bracket format ---- *)
(** every terminal is the only child of its parent, and there are no empty nodes *)
Fixpoint preterms {L A} (t : tree L A) : bool :=
  match t with
  | Leaf _ => true
  | Node _ ts => match ts with
                 | [] => false
                 | [Leaf _] => true
                 | _ => forallb (fun c => match c with Node _ _ => true | Leaf _ => false end) ts && forallb preterms ts
                 end
  end.
Lemma preterms_node : forall L A (l : L) (ts : list (tree L A)), preterms (Node l ts) = true ->
  (exists a, ts = [Leaf a]) \/ (ts <> [] /\ forallb (fun c => match c with Node _ _ => true | Leaf _ => false end) ts = true /\ forallb preterms ts = true).
Proof.
  intros L A l ts H. destruct ts as [|t ts]; [discriminate|]. destruct t as [a|m us].
  - destruct ts; [left; eauto|]. cbn in H. discriminate.
  - right. split; [discriminate|]. cbn [preterms] in H. destruct ts; apply andb_prop in H; tauto.
Qed.
Lemma preterms_lastleaf : forall L A (t : tree L A), preterms t = true -> lastleaf t = true.
Proof.
  intros L A t. induction t as [a|l ts IH] using tree_ind'; intros H; [reflexivity|].
  apply preterms_node in H. destruct H as [[a ->]|(N & H1 & H2)]; [reflexivity|]. cbn [lastleaf].
  apply andb_true_intro. split.
  - rewrite forallb_forall in *. intros c Hc. rewrite Forall_forall in IH. auto.
  - rewrite forallb_forall in *. intros c Hc. apply H1. clear - Hc. induction ts as [|x ts IH]; [contradiction|].
    destruct ts; [contradiction|]. cbn [removelast] in Hc. destruct Hc as [->|Hc]; [now left|right; auto].
Qed.
(** white space before a closing bracket *)
Definition okr (r : pystr) : Prop := match span isspace r with (_ :: _, d :: _) => d <> closeb | _ => True end.
Lemma sup_close_ok : forall r, okr r -> sup (closeb :: r) = closeb :: sup r.
Proof.
  intros r H. unfold okr in H. unfold sup at 1. cbn [length superfluous]. destruct (span isspace r) as [sp rest].
  rewrite N.eqb_refl. destruct sp as [|c sp]; [reflexivity|]. destruct rest as [|d rest]; [reflexivity|].
  replace (N.eqb d closeb) with false by (symmetry; now apply N.eqb_neq). reflexivity.
Qed.
Lemma label_noclose : forall l, forallb labelchar l = true -> forallb (fun c => negb (N.eqb c closeb)) l = true.
Proof.
  intros l H. apply forallb_forall. intros c Hc. rewrite forallb_forall in H. specialize (H c Hc). apply labelchar_not in H.
  destruct H as (_ & _ & ->). reflexivity.
Qed.
Lemma sup_flat : forall A (show : A -> pystr) t, labels_clean t = true -> preterms t = true ->
  (forall a, In a (leaves t) -> forallb labelchar (show a) = true) -> (exists l ts, t = Node l ts) ->
  forall r, okr r -> sup (pprint_flat show t ++ r) = pprint_flat show t ++ sup r.
Proof.
  intros A show t. induction t as [a|l ts IH] using tree_ind'; intros C PT HS HN r OK; [destruct HN as (? & ? & ?); discriminate|clear HN].
  cbn in C. apply andb_prop in C. destruct C as [Cl Ct]. apply clean_word_iff in Cl. destruct Cl as [Nl Cl].
  apply label_noclose in Cl. apply preterms_node in PT. rewrite flat_spaced. cbn [app]. rewrite sup_other by reflexivity. f_equal.
  rewrite <- !app_assoc, sup_app by auto. f_equal. destruct PT as [[a ->]|(N & P1 & P2)].
  - unfold spaced. cbn [flat_map pprint_flat app]. rewrite app_nil_r, sup_other by reflexivity. f_equal.
    rewrite sup_app by (apply label_noclose; apply HS; cbn; auto). f_equal. cbn [app]. now apply sup_close_ok.
  - destruct ts as [|t0 ts0]; [congruence|]. cbn [leaves] in HS. remember (t0 :: ts0) as ts eqn:E. clear E t0 ts0 N.
    induction IH as [|t ts Ht HF IHt]; [cbn; now apply sup_close_ok|]. cbn in Ct, P1, P2. apply andb_prop in Ct, P1, P2.
    destruct Ct as [Ct1 Ct2], P1 as [P11 P12], P2 as [P21 P22]. unfold spaced in *. cbn [flat_map].
    cbn [app]. rewrite sup_other by reflexivity. f_equal. rewrite <- !app_assoc. destruct t as [a|m us]; [discriminate|].
    rewrite Ht; auto; [|intros; apply HS; cbn; apply in_or_app; auto|eauto|].
    + f_equal. apply IHt; auto. intros; apply HS; cbn; apply in_or_app; auto.
    + destruct ts as [|u ts]; [exact I|]. cbn in P12. destruct u; [discriminate|]. cbn. unfold okr. cbn. discriminate.
Qed.

Definition front (w : pystr) : pystr := match w with [] => str "#FRONTIER#" | _ => w end.
Definition fr (s : pystr) := frontier_sub s.
Lemma fr_char : forall c t, N.eqb space c = false -> fr (c :: t) = c :: fr t.
Proof. intros c t H. unfold fr, frontier_sub, replace. cbn [replace_loop]. change (str " )") with [space; closeb]. cbn [startswith]. rewrite H. reflexivity. Qed.
Lemma fr_space : forall t, starts_not (N.eqb closeb) t -> fr (space :: t) = space :: fr t.
Proof.
  intros t H. unfold fr, frontier_sub, replace. cbn [replace_loop]. change (str " )") with [space; closeb]. destruct t as [|d t]; [reflexivity|]. unfold starts_not in H.
  unfold startswith. rewrite H, andb_false_r. reflexivity.
Qed.
Lemma fr_hit : forall r, fr (space :: closeb :: r) = space :: str "#FRONTIER#" ++ closeb :: fr r.
Proof. intros r. unfold fr, frontier_sub, replace. cbn [replace_loop]. change (str " )") with [space; closeb]. cbn [startswith]. rewrite !N.eqb_refl. destruct r; reflexivity. Qed.
Lemma fr_word : forall w r, forallb labelchar w = true -> fr (w ++ r) = w ++ fr r.
Proof.
  induction w as [|c w IH]; intros r H; [reflexivity|]. cbn in H. apply andb_prop in H. destruct H as [H1 H2].
  cbn [app]. rewrite fr_char; [now rewrite IH|]. apply labelchar_not in H1. destruct (N.eqb_spec space c); auto. subst. destruct H1. discriminate.
Qed.
Lemma fr_flat : forall A (show : A -> pystr) t, labels_clean t = true -> preterms t = true ->
  (forall a, In a (leaves t) -> forallb labelchar (show a) = true) -> (exists l ts, t = Node l ts) ->
  forall r, fr (pprint_flat show t ++ r) = pprint_flat (fun a => front (show a)) t ++ fr r.
Proof.
  intros A show t. induction t as [a|l ts IH] using tree_ind'; intros C PT HS HN r; [destruct HN as (? & ? & ?); discriminate|clear HN].
  cbn in C. apply andb_prop in C. destruct C as [Cl Ct]. apply clean_word_iff in Cl. destruct Cl as [Nl Cl].
  apply preterms_node in PT. rewrite !flat_spaced. cbn [app]. rewrite fr_char by reflexivity. f_equal.
  rewrite <- !app_assoc, fr_word by auto. f_equal. destruct PT as [[a ->]|(N & P1 & P2)].
  - unfold spaced. cbn [flat_map pprint_flat app]. rewrite !app_nil_r.
    pose proof (HS a ltac:(cbn; auto)) as Ha. destruct (show a) as [|c w] eqn:E.
    + cbn [app front]. rewrite fr_hit. reflexivity.
    + rewrite fr_space.
      * rewrite fr_word by auto. cbn [front app]. rewrite fr_char by reflexivity. reflexivity.
      * cbn [forallb] in Ha. apply andb_prop in Ha. destruct Ha as [Ha _]. apply labelchar_not in Ha. unfold starts_not. cbn [app]. rewrite N.eqb_sym. tauto.
  - destruct ts as [|t0 ts0]; [congruence|]. cbn [leaves] in HS. remember (t0 :: ts0) as ts eqn:E. clear E t0 ts0 N.
    induction IH as [|t ts Ht HF IHt]; [cbn [spaced flat_map app]; now rewrite fr_char by reflexivity|]. cbn in Ct, P1, P2. apply andb_prop in Ct, P1, P2.
    destruct Ct as [Ct1 Ct2], P1 as [P11 P12], P2 as [P21 P22]. unfold spaced in *. cbn [flat_map].
    destruct t as [a|m us]; [discriminate|]. cbn [app]. rewrite fr_space by reflexivity. f_equal. rewrite <- !app_assoc.
    rewrite Ht; auto; [|intros; apply HS; cbn; apply in_or_app; auto|eauto].
    f_equal. apply IHt; auto. intros; apply HS; cbn; apply in_or_app; auto.
Qed.
Definition bracketf sent := fun ds : pystr => option_map (fun w : pystr => [space] ++ w ++ [closeb]) (sentword sent ds).
Definition bleaf (sent : list (option pystr)) (i : nat) : pystr := escape (nth i sent None).
Lemma collect_build : forall sent t st, Forall word_ok sent -> leaves t = seq (length st) (length (leaves t)) ->
  build collect (fun i => front (bleaf sent i)) st t = Some (st ++ map (fun i => nth i sent None) (leaves t), t).
Proof.
  intros sent t. induction t as [i|l ts IH] using tree_ind'; intros st WO H.
  - cbn [leaves length seq] in H. injection H as ->. unfold build, collect, leaves, map. f_equal. f_equal. f_equal. f_equal.
    unfold bleaf. pose proof (nth_ok sent (length st) WO) as W. pose proof (word_ok_un _ W) as U.
    destruct (escape (nth (length st) sent None)) eqn:E. 2: { cbn [front]. now rewrite U. }
    exact U.
  - rewrite build_node. cbn [leaves] in *.
    assert (G : forall st, flat_map leaves ts = seq (length st) (length (flat_map leaves ts)) ->
       builds collect (fun i => front (bleaf sent i)) st ts = Some (st ++ map (fun i => nth i sent None) (flat_map leaves ts), ts)).
    { clear H st. induction IH as [|t ts Ht HF IHt]; intros st H; [cbn; now rewrite app_nil_r|].
      cbn [builds flat_map] in *. rewrite app_length, seq_app in H.
      assert (H1 : leaves t = seq (length st) (length (leaves t)) /\ flat_map leaves ts = seq (length st + length (leaves t)) (length (flat_map leaves ts))).
      { apply app_inj_tail_iff || idtac. revert H. generalize (seq (length st + length (leaves t)) (length (flat_map leaves ts))) as b.
        assert (L : length (leaves t) = length (seq (length st) (length (leaves t)))) by now rewrite seq_length.
        revert L. generalize (seq (length st) (length (leaves t))) as a. generalize (flat_map leaves ts) as q. generalize (leaves t) as p.
        induction p as [|x p IHp]; intros q a L b H; destruct a; cbn in *; try discriminate; auto.
        inversion H; subst. destruct (IHp q a ltac:(congruence) b H2) as [-> ->]. auto. }
      destruct H1 as [H1 H2]. rewrite Ht by auto. rewrite IHt.
      - rewrite map_app, app_assoc. reflexivity.
      - rewrite app_length, map_length. exact H2. }
    rewrite G by auto. reflexivity.
Qed.
Lemma bracket_write : forall l ts sent, let t := Node l ts in
  labels_clean t = true -> lastleaf t = true -> (forall i, In i (leaves t) -> i < length sent) ->
  writebrackettree t sent = Some (pprint_flat (bleaf sent) t ++ [newline]).
Proof.
  intros l ts sent t C LL COV. unfold writebrackettree. fold (bracketf sent).
  assert (HF : forall i, In i (leaves t) -> bracketf sent (dec i) = Some ([space] ++ bleaf sent i ++ [closeb])).
  { intros i Hi. unfold bracketf. rewrite sentword_ok by auto. reflexivity. }
  pose proof (isub_flat (bleaf sent) (bracketf sent) t C LL HF ltac:(unfold t; eauto) []) as S2. rewrite app_nil_r in S2.
  fold (isub (bracketf sent) (pprint_flat dec t)). rewrite S2. unfold isub. cbn [index_sub length option_map]. now rewrite app_nil_r.
Qed.
Lemma bracket_read : forall l ts sent, let t := Node l ts in
  labels_clean t = true -> preterms t = true -> Forall word_ok sent -> leaves t = seq 0 (length sent) ->
  brackettree (pprint_flat (bleaf sent) t ++ [newline]) false = Some (t, sent).
Proof.
  intros l ts sent t C PT WO LV. unfold brackettree. cbn [negb orb].
  fold (sup (pprint_flat (bleaf sent) t ++ [newline])).
  assert (HS : forall a, In a (leaves t) -> forallb labelchar (bleaf sent a) = true).
  { intros a _. apply word_ok_label. now apply nth_ok. }
  rewrite sup_flat; auto; [|unfold t; eauto|exact I].
  match goal with |- context [frontier_sub ?s] => change (frontier_sub s) with (fr s) end.
  rewrite fr_flat by (auto; unfold t; eauto). change (fr (sup [newline])) with [newline].
  assert (CL : clean (fun a => front (bleaf sent a)) t = true).
  { apply clean_shows; auto. intros a Ha. specialize (HS a Ha). destruct (bleaf sent a); [reflexivity|exact HS]. }
  pose proof (parse_layout _ _ _ collect (fun a => front (bleaf sent a)) l ts _ [] [] [newline] CL (flat_layout _ _ _) eq_refl eq_refl) as PL. cbn [app] in PL. fold t in PL. rewrite PL. clear PL.
  rewrite collect_build; auto.
  - cbn [app]. rewrite LV. f_equal. f_equal. clear. apply (nth_ext _ _ None None); rewrite map_length, seq_length; auto.
    intros i Hi. rewrite (nth_indep _ None (nth 0 sent None)) by (rewrite map_length, seq_length; auto).
    rewrite (map_nth (fun i => nth i sent None)). now rewrite seq_nth.
  - cbn [length]. rewrite LV, seq_length. reflexivity.
Qed.
