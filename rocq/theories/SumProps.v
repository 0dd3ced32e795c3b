(** C33: merging sorted files of fragments, rules and lexical entries *)
From Coq Require Import String.
From Coq Require Import List Bool Arith NArith ZArith QArith Qcanon Permutation Sorted Lia.
From Verif Require Import PyStr HeapqModel AgendaProps MergeModel MergeProps SumModel.
Lemma eqs_neq_ : forall a b : pystr, a <> b -> eqs a b = false.
Proof. intros a b H. destruct (eqs a b) eqn:E; auto. apply eqs_eq in E. contradiction. Qed.
Import ListNotations.
Open Scope list_scope.
Open Scope nat_scope.

(** ---- specification ---- *)
Definition qsum (l : list Qc) : Qc := fold_right Qcplus 0%Qc l.
(** total weight of k in all lines *)
Definition weight (k : pystr) (lines : list (pystr * Qc)) : Qc := qsum (map snd (filter (fun l => eqs (fst l) k) lines)).
Definition entry {X} (k : pystr) (out : list (pystr * X)) (v : X) : Prop := In (k, v) out.
(** sorted by the text of the line without weight *)
Definition sorted {X} (lines : list (pystr * X)) : Prop := StronglySorted (fun a b => strlt (fst b) (fst a) = false) lines.
(** [out] has each key of [lines] once, with its total weight divided by n *)
Definition summed (n : nat) (lines out : list (pystr * Qc)) : Prop :=
  NoDup (map fst out) /\ (forall k, In k (map fst out) <-> In k (map fst lines)) /\ (forall k w, In (k, w) out -> w = (weight k lines / num n)%Qc).

Lemma strlt_irrefl : forall a, strlt a a = false.
Proof. induction a as [|x a IH]; cbn; auto. rewrite N.ltb_irrefl, N.eqb_refl, IH. reflexivity. Qed.
Lemma strlt_trans : forall a b c, strlt a b = true -> strlt b c = true -> strlt a c = true.
Proof.
  induction a as [|x a IH]; intros [|y b] [|z c]; cbn; auto; try discriminate. rewrite !orb_true_iff, !andb_true_iff, !N.ltb_lt, !N.eqb_eq. intros [A|[-> A]] [B|[-> B]]; [left; lia|left; lia|left; lia|]. right. split; auto. eauto.
Qed.
Lemma strlt_total : forall a b, strlt a b = false -> strlt b a = false -> a = b.
Proof.
  induction a as [|x a IH]; intros [|y b]; cbn; auto; try discriminate. rewrite !orb_false_iff, !andb_false_iff, !N.ltb_ge, !N.eqb_neq. intros [A C] [B D]. assert (x = y) by lia. subst. f_equal. destruct C, D; try congruence; auto.
Qed.
Lemma strge_trans : forall a b c, strlt a b = false -> strlt b c = false -> strlt a c = false.
Proof.
  intros a b c A B. destruct (strlt a c) eqn:C; auto. exfalso. destruct (strlt b a) eqn:D.
  - rewrite (strlt_trans _ _ _ D C) in B. discriminate.
  - assert (a = b) by now apply strlt_total. subst. congruence.
Qed.
Lemma str_values : good_values strlt eqs.
Proof.
  split; [exact strlt_irrefl|]. split; [exact strlt_trans|]. split; [exact strge_trans|]. intros a b. split.
  - intros E. apply eqs_eq in E. subst. split; apply strlt_irrefl.
  - intros [A B]. apply eqs_eq. now apply strlt_total.
Qed.
(** equal keys are adjacent in sorted lines: after another key has come, a key does not come back *)
Lemma sorted_head : forall X k (v : X) r k', sorted ((k, v) :: r) -> (match r with (x, _) :: _ => eqs x k = false | [] => True end) -> In k' (map fst r) -> k' <> k.
Proof.
  intros X k v r k' S0 H Hk ->. inversion S0 as [|? ? S1 F]; subst. destruct r as [|[x v'] r]; [destruct Hk|]. rewrite Forall_forall in F. assert (A := F (x, v') (or_introl eq_refl)). cbn in A. destruct Hk as [<-|Hk]; [rewrite eqs_refl in H; discriminate|]. apply in_map_iff in Hk. destruct Hk as ([k2 v2] & E & Hin). cbn in E. subst k2.
  inversion S1 as [|? ? _ F1]; subst. rewrite Forall_forall in F1. assert (B := F1 _ Hin). cbn in B. assert (x = k) by (apply strlt_total; auto). subst. rewrite eqs_refl in H. discriminate.
Qed.
Lemma weight_cons : forall k k' w l, weight k ((k', w) :: l) = ((if eqs k' k then w else 0) + weight k l)%Qc.
Proof. intros. unfold weight. cbn [filter fst]. destruct (eqs k' k); cbn [map snd qsum fold_right]; [reflexivity|ring]. Qed.
Lemma weight_none : forall k l, ~ In k (map fst l) -> weight k l = 0%Qc.
Proof.
  induction l as [|[k' w] l IH]; intros H; [reflexivity|]. rewrite weight_cons. rewrite eqs_neq_; [|intros ->; apply H; cbn; auto]. rewrite IH; [ring|]. intros A. apply H. cbn. auto.
Qed.
Lemma weight_perm : forall k l l', Permutation l l' -> weight k l = weight k l'.
Proof. intros k l l' P. induction P as [|[a w]|[a w] [b v]|]; rewrite ?weight_cons in *; [reflexivity|congruence|ring|congruence]. Qed.
Lemma weight_app : forall k a b, weight k (a ++ b) = (weight k a + weight k b)%Qc.
Proof. intros k a b. induction a as [|[x w] a IH]; cbn [app]; [change (weight k []) with 0%Qc; ring|]. rewrite !weight_cons, IH. ring. Qed.
(** the loop adds what it has seen so far to the entry of the current key *)
Lemma loop_summed : forall n lines p w, sorted ((p, w) :: lines) -> summed n ((p, w) :: lines) (sumfrags_loop n (Some p) w lines).
Proof.
  intros n. induction lines as [|[k w2] r IH]; intros p w S0.
  - cbn. split; [repeat constructor; auto|]. split; [tauto|]. intros k' w' [E|[]]. injection E as <- <-. rewrite weight_cons, eqs_refl. change (weight p []) with 0%Qc. unfold share, Qcdiv. ring.
  - cbn [sumfrags_loop]. destruct (eqs k p) eqn:E.
    + apply eqs_eq in E. subst k. assert (S1 : sorted ((p, (w + w2)%Qc) :: r)) by (inversion S0 as [|? ? S1 F]; inversion S1; inversion F; subst; constructor; auto). destruct (IH p (w + w2)%Qc S1) as (A & B & C). split; auto. split.
      * intros k. rewrite B. cbn [map fst]. cbn. tauto.
      * intros k v Hin. rewrite (C k v Hin). rewrite !weight_cons. destruct (eqs p k); unfold Qcdiv; ring.
    + assert (S1 : sorted ((k, (0 + w2)%Qc) :: r)) by (inversion S0 as [|? ? S1 F]; inversion S1; subst; constructor; auto). destruct (IH k (0 + w2)%Qc S1) as (A & B & C).
      assert (NI : ~ In p (map fst ((k, (0 + w2)%Qc) :: r))). { intros H. apply (sorted_head _ p w ((k, w2) :: r) p S0); auto. }
      cbn [app map fst]. split; [constructor; auto; now rewrite B|]. split.
      * intros x. cbn [In map fst]. rewrite B. cbn. tauto.
      * intros x v [H|H].
        -- injection H as <- <-. rewrite weight_cons, eqs_refl, weight_none; [unfold share, Qcdiv; ring|exact NI].
        -- assert (Hx : In x (map fst ((k, (0 + w2)%Qc) :: r))) by (apply B; apply in_map_iff; exists (x, v); auto). rewrite (C x v H), !weight_cons, (eqs_neq_ p x); [destruct (eqs k x); unfold Qcdiv; ring|intros ->; contradiction].
Qed.
(** sorted fragments: each fragment once, with total weight / n *)
Theorem C33_sumfrags : forall n lines, sorted lines -> summed n lines (sumfrags n lines).
Proof.
  intros n [|[k w] r] S0.
  - repeat split; cbn; try constructor; tauto.
  - unfold sumfrags. cbn [sumfrags_loop app]. destruct (loop_summed n r k (0 + w)%Qc) as (A & B & C); [inversion S0; constructor; auto|]. split; auto. split; [exact B|]. intros x v H. rewrite (C x v H), !weight_cons. destruct (eqs k x); unfold Qcdiv; ring.
Qed.
Lemma summed_perm : forall n l l' out, Permutation l l' -> summed n l out -> summed n l' out.
Proof.
  intros n l l' out P (A & B & C). split; auto. split.
  - intros k. rewrite B. split; apply Permutation_in; [|symmetry]; now apply Permutation_map.
  - intros k w H. rewrite (C k w H). now rewrite (weight_perm k l l' P).
Qed.
(** merging files that are sorted: each fragment in any of them once, with its
    average weight over the files *)
Theorem C33_merge_fragments : forall files, Forall sorted files -> summed (length files) (concat files) (mergefrags files).
Proof.
  intros files H. eapply summed_perm; [apply (C13_merge_permutation _ _ fst strlt eqs str_values files)|]. apply C33_sumfrags. now apply (C13_merge_sorted _ _ fst strlt eqs str_values).
Qed.
(** without the precondition: a fragment that comes back is listed again *)
Theorem C33_unsorted_refuted : exists lines, ~ NoDup (map fst (sumfrags 1 lines)).
Proof. exists [(str "a", 1%Qc); (str "b", 1%Qc); (str "a", 1%Qc)]. cbn. intros H. inversion H as [|? ? A _]. apply A. cbn. auto. Qed.

(** ---- sumrules: the entries of sumfrags, but each with the rule of the next entry
    (the last one with its own) ---- *)
Fixpoint shifted (out : list (pystr * Qc)) : list (pystr * Qc) :=
  match out with
  | (r1, w1) :: rest => match rest with (r2, _) :: _ => (r2, w1) :: shifted rest | [] => [(r1, w1)] end
  | [] => []
  end.
Lemma shifted_cons : forall r1 w1 r2 w2 o, shifted ((r1, w1) :: (r2, w2) :: o) = (r2, w1) :: shifted ((r2, w2) :: o).
Proof. reflexivity. Qed.
Lemma frags_head : forall n lines p w, exists v o, sumfrags_loop n (Some p) w lines = (p, v) :: o.
Proof. intros n. induction lines as [|[k w2] r IH]; intros p w; cbn; [eauto|]. destruct (eqs k p) eqn:E; [apply IH|cbn; eauto]. Qed.
Lemma rules_shifted : forall n lines p w, sumrules_loop n (Some p) w (Some p) lines = Some (shifted (sumfrags_loop n (Some p) w lines)).
Proof.
  intros n. induction lines as [|[k w2] r IH]; intros p w; [reflexivity|]. cbn [sumrules_loop sumfrags_loop]. destruct (eqs k p) eqn:E.
  - apply eqs_eq in E. subst. apply IH.
  - rewrite IH. cbn [option_map app]. destruct (frags_head n r k (0 + w2)%Qc) as (v & o & ->). reflexivity.
Qed.
Theorem C33_sumrules_shifted : forall n lines, lines <> [] -> sumrules n lines = Some (shifted (sumfrags n lines)).
Proof. intros n [|[k w] r] H; [congruence|]. unfold sumrules, sumfrags. cbn [sumrules_loop sumfrags_loop app]. rewrite rules_shifted. reflexivity. Qed.
Theorem C33_sumrules_empty_refuted : forall n, sumrules n [] = None.
Proof. reflexivity. Qed.
(** so the rule that sorts first is lost whenever there are two different rules *)
Theorem C33_sumrules_refuted : forall n lines k, sorted lines -> hd_error (map fst lines) = Some k -> (exists k', In k' (map fst lines) /\ k' <> k) ->
  exists out, sumrules n lines = Some out /\ ~ In k (map fst out).
Proof.
  intros n lines k S0 Hk (k' & Hin & NE). destruct lines as [|[x w] r]; [discriminate|]. cbn in Hk. injection Hk as ->. exists (shifted (sumfrags n ((k, w) :: r))). split; [apply C33_sumrules_shifted; discriminate|].
  destruct (C33_sumfrags n _ S0) as (ND & KS & _). unfold sumfrags in *. cbn [sumfrags_loop app] in *. destruct (frags_head n r k (0 + w)%Qc) as (v & o & E). rewrite E in *. destruct o as [|[k2 w2] o].
  - exfalso. apply NE. symmetry. specialize (proj2 (KS k') Hin). cbn. intros [<-|[]]; auto.
  - rewrite shifted_cons. cbn [map fst] in *. inversion ND as [|? ? N1 N2]; subst. clear - N1. intros [<-|H]; [apply N1; cbn; auto|]. apply N1. clear N1.
    assert (G : forall o k2 w2, In k (map fst (shifted ((k2, w2) :: o))) -> In k (k2 :: map fst o)).
    { clear. induction o as [|[a b] o IH]; intros k2 w2 H; [cbn in H; exact H|]. rewrite shifted_cons in H. cbn [map fst In] in H. destruct H as [<-|H]; [right; left; reflexivity|]. right. apply (IH a b H). }
    eapply G; eauto.
Qed.

(** ---- sumlex ---- *)
(** the (word, tag, weight) triples of a lexicon, as lines keyed by word and tag *)
Definition tagweight (word tag : pystr) (lines : list (pystr * list (pystr * Qc))) : Qc :=
  weight tag (flat_map snd (filter (fun l => eqs (fst l) word) lines)).
Lemma tagadd_weight : forall t w d t', weight t' (tagadd t w d) = ((if eqs t t' then w else 0) + weight t' d)%Qc.
Proof.
  intros t w. induction d as [|[a b] d IH]; intros t'; cbn [tagadd].
  - rewrite weight_cons. destruct (eqs t t'); ring.
  - destruct (eqs t a) eqn:E; rewrite !weight_cons; [apply eqs_eq in E; subst; destruct (eqs a t'); ring|]. rewrite IH. ring.
Qed.
Lemma tagadd_keys : forall t w d, NoDup (map fst d) -> NoDup (map fst (tagadd t w d)) /\ forall x, In x (map fst (tagadd t w d)) <-> x = t \/ In x (map fst d).
Proof.
  intros t w. induction d as [|[a b] d IH]; intros ND; cbn [tagadd].
  - cbn. split; [repeat constructor; auto|]. intros x. split; intros [H|H]; auto; contradiction.
  - inversion ND as [|? ? N1 N2]; subst. destruct (eqs t a) eqn:E.
    + apply eqs_eq in E. subst. cbn. split; auto. intros x. split; [tauto|]. intros [->|H]; auto.
    + destruct (IH N2) as [A B]. cbn [map fst]. split; [constructor; auto; rewrite B; intros [->|H]; [rewrite eqs_refl in E; discriminate|auto]|]. intros x. cbn [In]. rewrite B. cbn [map fst In]. intuition.
Qed.
Lemma tagsadd_ok : forall rest d, NoDup (map fst d) -> NoDup (map fst (tagsadd rest d)) /\ (forall x, In x (map fst (tagsadd rest d)) <-> In x (map fst rest) \/ In x (map fst d)) /\ forall t, weight t (tagsadd rest d) = (weight t rest + weight t d)%Qc.
Proof.
  induction rest as [|[t w] rest IH]; intros d ND; cbn [tagsadd fold_left].
  - split; auto. split; [cbn; tauto|]. intros t. change (weight t []) with 0%Qc. ring.
  - fold (tagsadd rest (tagadd t w d)). destruct (tagadd_keys t w d ND) as [A B]. destruct (IH _ A) as (C & D & E). cbn [fst snd]. split; auto. split.
    + intros x. rewrite D, B. cbn [map fst In]. intuition.
    + intros t'. rewrite E, tagadd_weight, weight_cons. ring.
Qed.
(** [out] has each word once, each of its tags once, with its total weight / n *)
Definition lexsummed (n : nat) (lines out : list (pystr * list (pystr * Qc))) : Prop :=
  NoDup (map fst out) /\
  (forall word tag, (exists tags, In (word, tags) out /\ In tag (map fst tags)) <-> exists tags, In (word, tags) lines /\ In tag (map fst tags)) /\
  (forall word tags, In (word, tags) out -> NoDup (map fst tags) /\ forall tag w, In (tag, w) tags -> w = (tagweight word tag lines / num n)%Qc).
Lemma weight_in : forall d t w, NoDup (map fst d) -> In (t, w) d -> weight t d = w.
Proof.
  induction d as [|[a b] d IH]; intros t w ND H; [destruct H|]. inversion ND as [|? ? N1 N2]; subst. rewrite weight_cons. destruct H as [H|H].
  - injection H as -> ->. rewrite eqs_refl, weight_none by auto. ring.
  - rewrite (eqs_neq_ a t); [rewrite (IH t w N2 H); ring|]. intros ->. apply N1. apply in_map_iff. exists (t, w). auto.
Qed.
Lemma tagweight_cons : forall word tag k ts l, tagweight word tag ((k, ts) :: l) = ((if eqs k word then weight tag ts else 0) + tagweight word tag l)%Qc.
Proof. intros. unfold tagweight. cbn [filter fst]. destruct (eqs k word); [cbn [flat_map snd]; now rewrite weight_app|ring]. Qed.
Lemma tagweight_none : forall word tag l, ~ In word (map fst l) -> tagweight word tag l = 0%Qc.
Proof.
  induction l as [|[k ts] l IH]; intros H; [reflexivity|]. rewrite tagweight_cons, eqs_neq_; [|intros ->; apply H; cbn; auto]. rewrite IH; [ring|]. intros A; apply H; cbn; auto.
Qed.
Lemma lex_loop : forall n lines p tags, NoDup (map fst tags) -> sorted ((p, tags) :: lines) -> lexsummed n ((p, tags) :: lines) (sumlex_loop n (Some p) tags lines) /\ incl (map fst (sumlex_loop n (Some p) tags lines)) (map fst ((p, tags) :: lines)).
Proof.
  intros n. induction lines as [|[k rest] r IH]; intros p tags ND S0; cbn [sumlex_loop].
  - assert (G : forall x, In x (lexline n (Some p) tags) -> x = (p, map (fun tw => (fst tw, share n (snd tw))) tags)) by (intros x; destruct tags; [intros []|intros [<-|[]]; reflexivity]).
    assert (GM : map fst (map (fun tw : pystr * Qc => (fst tw, share n (snd tw))) tags) = map fst tags) by (rewrite map_map; now apply map_ext).
    split; [split; [|split]|].
    + destruct tags; [constructor|repeat constructor; auto].
    + intros word tag. split.
      * intros (ts & Hin & Ht). apply G in Hin. injection Hin as -> ->. rewrite GM in Ht. exists tags. split; [now left|auto].
      * intros (ts & [Hin|[]] & Ht). injection Hin as <- <-. eexists. split; [|rewrite GM; exact Ht]. destruct tags; [destruct Ht|]. now left.
    + intros word ts Hin. apply G in Hin. injection Hin as -> ->. rewrite GM. split; auto. intros tag w Ht. apply in_map_iff in Ht. destruct Ht as ([t w'] & E & Ht). injection E as <- <-. cbn [fst snd]. rewrite tagweight_cons, eqs_refl. rewrite (weight_in tags t w' ND Ht). change (tagweight p t []) with 0%Qc. unfold share, Qcdiv. ring.
    + intros x Hx. apply in_map_iff in Hx. destruct Hx as (y & <- & Hy). apply G in Hy. subst y. now left.
  - destruct (eqs k p) eqn:E.
    + apply eqs_eq in E. subst k. destruct (tagsadd_ok rest tags ND) as (A & B & C). assert (S1 : sorted ((p, tagsadd rest tags) :: r)) by (inversion S0 as [|? ? S1 F]; inversion S1; inversion F; subst; constructor; auto). destruct (IH p _ A S1) as [(P1 & P2 & P3) P4]. split; [split; [|split]|].
      * exact P1.
      * intros word tag. rewrite P2. split.
        -- intros (ts & [H|H] & Ht); [|exists ts; split; auto; right; right; auto]. injection H as <- <-. apply B in Ht. destruct Ht as [Ht|Ht]; [exists rest|exists tags]; split; auto; [right; left|left]; reflexivity.
        -- intros (ts & [H|[H|H]] & Ht); [| |exists ts; split; auto; right; auto]; injection H as <- <-; (exists (tagsadd rest tags); split; [now left|apply B; auto]).
      * intros word ts Hin. destruct (P3 word ts Hin) as [Q1 Q2]. split; auto. intros tag w Ht. rewrite (Q2 tag w Ht), !tagweight_cons. destruct (eqs p word); [rewrite C|]; unfold Qcdiv; ring.
      * intros x Hx. specialize (P4 x Hx). cbn in *. tauto.
    + assert (NDr : NoDup (map fst (tagsadd rest []))) by (apply (tagsadd_ok rest []); constructor). destruct (tagsadd_ok rest [] ltac:(constructor)) as (A & B & C). assert (S1 : sorted ((k, tagsadd rest []) :: r)) by (inversion S0 as [|? ? S1 F]; inversion S1; subst; constructor; auto). destruct (IH k _ NDr S1) as [(P1 & P2 & P3) P4].
      assert (NI : ~ In p (map fst ((k, rest) :: r))). { intros H. apply (sorted_head _ p tags ((k, rest) :: r) p S0); auto. }
      assert (NO : ~ In p (map fst (sumlex_loop n (Some k) (tagsadd rest []) r))) by (intros H; apply NI; apply (P4 p H)).
      assert (G : forall x, In x (lexline n (Some p) tags) -> x = (p, map (fun tw => (fst tw, share n (snd tw))) tags)) by (intros x; destruct tags; [intros []|intros [<-|[]]; reflexivity]).
      assert (GM : map fst (map (fun tw : pystr * Qc => (fst tw, share n (snd tw))) tags) = map fst tags) by (rewrite map_map; now apply map_ext).
      split; [split; [|split]|].
      * destruct tags; [exact P1|]. cbn [lexline app map fst]. constructor; auto.
      * intros word tag. split.
        -- intros (ts & Hin & Ht). apply in_app_or in Hin. destruct Hin as [Hin|Hin].
           ++ apply G in Hin. injection Hin as -> ->. rewrite GM in Ht. exists tags. split; [now left|auto].
           ++ destruct (proj1 (P2 word tag)) as (us & [Hu|Hu] & Hv); [eauto| |exists us; split; auto; right; right; auto]. injection Hu as <- <-. apply B in Hv. destruct Hv as [Hv|[]]. exists rest. split; auto. right. now left.
        -- intros (ts & [H|H] & Ht).
           ++ injection H as <- <-. eexists. split; [apply in_or_app; left; destruct tags; [destruct Ht|now left]|rewrite GM; exact Ht].
           ++ destruct (proj2 (P2 word tag)) as (us & Hu & Hv); [|exists us; split; auto; apply in_or_app; auto]. destruct H as [H|H]; [|exists ts; split; auto; now right]. injection H as <- <-. exists (tagsadd rest []). split; [now left|apply B; auto].
      * intros word ts Hin. apply in_app_or in Hin. destruct Hin as [Hin|Hin].
        -- apply G in Hin. injection Hin as -> ->. rewrite GM. split; auto. intros tag w Ht. apply in_map_iff in Ht. destruct Ht as ([t w'] & Et & Ht). injection Et as <- <-. cbn [fst snd]. rewrite tagweight_cons, eqs_refl, (weight_in tags t w' ND Ht), tagweight_none by exact NI. unfold share, Qcdiv. ring.
        -- destruct (P3 word ts Hin) as [Q1 Q2]. split; auto. intros tag w Ht. rewrite (Q2 tag w Ht), !tagweight_cons. rewrite (eqs_neq_ p word); [|intros ->; apply NO; apply in_map_iff; exists (word, ts); auto].
           destruct (eqs k word); [rewrite C; change (weight tag []) with 0%Qc|]; unfold Qcdiv; ring.
      * intros x Hx. rewrite map_app in Hx. apply in_app_or in Hx. destruct Hx as [Hx|Hx]; [apply in_map_iff in Hx; destruct Hx as (y & <- & Hy); apply G in Hy; subst y; now left|]. right. apply (P4 x Hx).
Qed.
Theorem C33_sumlex : forall n lines, sorted lines -> lexsummed n lines (sumlex n lines).
Proof.
  intros n [|[k rest] r] S0.
  - split; [constructor|]. split; [intros; split; intros (? & [] & _)|intros ? ? []].
  - unfold sumlex. cbn [sumlex_loop lexline app]. destruct (tagsadd_ok rest [] ltac:(constructor)) as (A & B & C). destruct (lex_loop n r k (tagsadd rest []) A) as [(P1 & P2 & P3) _]; [inversion S0; constructor; auto|]. split; auto. split.
    + intros word tag. rewrite P2. split; intros (ts & [H|H] & Ht); try (exists ts; split; auto; now right); injection H as <- <-; [exists rest|exists (tagsadd rest [])]; (split; [now left|]); [apply B in Ht; destruct Ht as [Ht|[]]; auto|apply B; auto].
    + intros word ts H. destruct (P3 word ts H) as [Q1 Q2]. split; auto. intros tag w Ht. rewrite (Q2 tag w Ht), !tagweight_cons. destruct (eqs k word); [rewrite C; change (weight tag []) with 0%Qc|]; unfold Qcdiv; ring.
Qed.
Theorem C33_merge_lexicon : forall files, Forall sorted files -> lexsummed (length files) (concat files) (mergelex files).
Proof.
  intros files H. assert (P := C13_merge_permutation _ _ fst strlt eqs str_values files). assert (S0 := C13_merge_sorted _ _ fst strlt eqs str_values files H). destruct (C33_sumlex (length files) _ S0) as (A & B & C). unfold mergelex. split; auto. split.
  - intros word tag. rewrite B. split; intros (ts & Hin & Ht); exists ts; split; auto; [|symmetry in P]; eapply Permutation_in; eauto.
  - intros word ts Hin. destruct (C word ts Hin) as [D E]. split; auto. intros tag w Ht. rewrite (E tag w Ht). f_equal. clear - P. unfold tagweight. induction P as [|[a b]|[a b] [c d]|]; cbn [filter fst]; auto.
    + destruct (eqs a word); cbn [flat_map]; rewrite ?weight_app; congruence.
    + destruct (eqs a word), (eqs c word); cbn [flat_map]; rewrite ?weight_app; try ring.
    + congruence.
Qed.

(** ---- concrete case ---- *)
Definition file1 := [(str "(A a)", Q2Qc (1 # 2)); (str "(B b)", 1%Qc)].
Definition file2 := [(str "(A a)", Q2Qc (3 # 2)); (str "(C c)", 1%Qc)].
Example C33_ex : sorted file1 /\ sorted file2 /\ mergefrags [file1; file2] = [(str "(A a)", 1%Qc); (str "(B b)", Q2Qc (1 # 2)); (str "(C c)", Q2Qc (1 # 2))] /\
  mergerules [file1; file2] = Some [(str "(B b)", 1%Qc); (str "(C c)", Q2Qc (1 # 2)); (str "(C c)", Q2Qc (1 # 2))].
Proof.
  split; [repeat constructor|]. split; [repeat constructor|].
  assert (E : merge fst strlt eqs [file1; file2] = [(str "(A a)", Q2Qc (1 # 2)); (str "(A a)", Q2Qc (3 # 2)); (str "(B b)", 1%Qc); (str "(C c)", 1%Qc)]) by reflexivity.
  unfold mergefrags, mergerules, sumfrags, sumrules. rewrite E. cbn [sumfrags_loop sumrules_loop length app option_map]. 
  assert (A : eqs (str "(A a)") (str "(A a)") = true /\ eqs (str "(B b)") (str "(A a)") = false /\ eqs (str "(C c)") (str "(B b)") = false) by (repeat split). destruct A as (-> & -> & ->).
  assert (B : share 2 (0 + Q2Qc (1 # 2) + Q2Qc (3 # 2)) = 1%Qc /\ share 2 (0 + 1) = Q2Qc (1 # 2)) by (split; apply Qc_is_canon; reflexivity). destruct B as [-> ->]. split; reflexivity.
Qed.
Print Assumptions C33_merge_fragments.
Print Assumptions C33_merge_lexicon.
Print Assumptions C33_sumfrags.
Print Assumptions C33_sumlex.
Print Assumptions C33_sumrules_shifted.
Print Assumptions C33_sumrules_refuted.
