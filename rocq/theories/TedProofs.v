(** Proofs for C47 (1): alignments, edit sequences and the distance *)
From Coq Require Import List Bool Arith NArith Lia.
From Verif Require Import PyStr TedModel TedSpec.
Import ListNotations.
Open Scope list_scope.
Open Scope nat_scope.

Lemma kids_eta : forall t, T (label t) (kids t) = t.
Proof. intros [l ts]; reflexivity. Qed.
Lemma fsize_app : forall a b, fsize (a ++ b) = fsize a + fsize b.
Proof. intros. unfold fsize. rewrite map_app, list_sum_app. reflexivity. Qed.
Lemma fsize_one : forall t, fsize [t] = S (fsize (kids t)).
Proof. intros [l ts]. unfold fsize. cbn [map kids tsize list_sum fold_right]. apply Nat.add_0_r. Qed.
Lemma fsize_cons : forall t f, fsize (t :: f) = tsize t + fsize f.
Proof. reflexivity. Qed.
Lemma tsize_kids : forall t, tsize t = S (fsize (kids t)).
Proof. intros [l ts]. reflexivity. Qed.
Lemma strdist_refl : forall a, strdist a a = 0.
Proof. intros. unfold strdist. now rewrite eqs_refl. Qed.
Lemma strdist_sym : forall a b, strdist a b = strdist b a.
Proof. intros. unfold strdist. destruct (eqs a b) eqn:E, (eqs b a) eqn:F; auto; [apply eqs_eq in E|apply eqs_eq in F]; subst; rewrite eqs_refl in *; discriminate. Qed.
Lemma strdist_zero : forall a b, strdist a b = 0 <-> a = b.
Proof. intros. unfold strdist. destruct (eqs a b) eqn:E; [apply eqs_eq in E; tauto|apply eqs_neq in E; split; [discriminate|contradiction]]. Qed.
Lemma strdist_le : forall a b, strdist a b <= 1.
Proof. intros. unfold strdist. destruct (eqs a b); lia. Qed.
Lemma strdist_tri : forall a b c, strdist a c <= strdist a b + strdist b c.
Proof. intros. destruct (eqs_dec a b) as [->|N]; [lia|]. assert (strdist a b <> 0) by (now rewrite strdist_zero). assert (H' := strdist_le a c). lia. Qed.

(** alignments, from right to left, with their costs *)
Inductive al : list ltree -> list ltree -> nat -> Prop :=
| al_nil : al [] [] 0
| al_del : forall i s g c, al (i ++ kids s) g c -> al (i ++ [s]) g (c + 1)
| al_ins : forall f j t c, al f (j ++ kids t) c -> al f (j ++ [t]) (c + 1)
| al_match : forall i j s t c d, al (kids s) (kids t) c -> al i j d -> al (i ++ [s]) (j ++ [t]) (c + d + strdist (label s) (label t)).
Lemma al_inv : forall f g c, al f g c ->
  (f = [] /\ g = [] /\ c = 0) \/
  (exists i s c', f = i ++ [s] /\ c = c' + 1 /\ al (i ++ kids s) g c') \/
  (exists j t c', g = j ++ [t] /\ c = c' + 1 /\ al f (j ++ kids t) c') \/
  (exists i j s t c' d, f = i ++ [s] /\ g = j ++ [t] /\ c = c' + d + strdist (label s) (label t) /\ al (kids s) (kids t) c' /\ al i j d).
Proof. intros f g c [|i s g' c' H|f' j t c' H|i j s t c' d H1 H2]; [left; auto|right; left; exists i, s, c'; auto|right; right; left; exists j, t, c'; auto|right; right; right; exists i, j, s, t, c', d; auto 10]. Qed.
Lemma al_app : forall f g c, al f g c -> forall i j d, al i j d -> al (i ++ f) (j ++ g) (d + c).
Proof.
  induction 1 as [|i s g c H IH|f j t c H IH|i j s t c d H1 IH1 H2 IH2]; intros a b e A.
  - rewrite !app_nil_r, Nat.add_0_r. exact A.
  - rewrite app_assoc, Nat.add_assoc. apply al_del. rewrite <- app_assoc. auto.
  - rewrite app_assoc, Nat.add_assoc. apply al_ins. rewrite <- app_assoc. auto.
  - rewrite !app_assoc. replace (e + (c + d + strdist (label s) (label t))) with (c + (e + d) + strdist (label s) (label t)) by lia. apply al_match; auto.
Qed.
Lemma al_refl : forall f, al f f 0.
Proof.
  intros f. remember (fsize f) as n eqn:E. revert f E. induction n as [n IH] using lt_wf_ind. intros f E. destruct (rev f) as [|t r] eqn:R.
  - assert (f = []) by (rewrite <- (rev_involutive f), R; reflexivity). subst. constructor.
  - assert (F : f = rev r ++ [t]) by (rewrite <- (rev_involutive f), R; reflexivity). rewrite F in *. rewrite fsize_app, fsize_one in E. replace 0 with (0 + 0 + strdist (label t) (label t)) by (rewrite strdist_refl; lia). apply al_match; eapply IH; eauto; lia.
Qed.
Lemma al_sym : forall f g c, al f g c -> al g f c.
Proof. induction 1; [constructor|now apply al_ins|now apply al_del|]. rewrite strdist_sym. now apply al_match. Qed.
Lemma snoc_inj : forall (a b : list ltree) x y, a ++ [x] = b ++ [y] -> a = b /\ x = y.
Proof. intros. now apply app_inj_tail. Qed.
Lemma snoc_nil : forall (a : list ltree) x, a ++ [x] <> [].
Proof. intros a x E. apply app_eq_nil in E. destruct E; discriminate. Qed.
Lemma al_trans : forall f g h a b, al f g a -> al g h b -> exists c, al f h c /\ c <= a + b.
Proof.
  intros f g h. remember (fsize f + fsize g + fsize h) as n eqn:E. revert f g h E. induction n as [n IH] using lt_wf_ind. intros f g h E a b A B.
  assert (IH' : forall f g h, fsize f + fsize g + fsize h < n -> forall a b, al f g a -> al g h b -> exists c, al f h c /\ c <= a + b) by (intros f' g' h' L a' b'; exact (IH _ L f' g' h' eq_refl a' b')). clear IH.
  assert (SZ : forall i t, fsize (i ++ kids t) < fsize (i ++ [t])) by (intros; rewrite !fsize_app, fsize_one; lia).
  destruct (al_inv _ _ _ A) as [(-> & -> & ->)|[(i & s & a' & -> & -> & A')|[(j & t & a' & -> & -> & A')|(i & j & s & t & a1 & a2 & -> & -> & -> & A1 & A2)]]].
  - exists b. split; auto.
  - specialize (SZ i s). destruct (fun L => IH' _ _ _ L _ _ A' B) as (c & C1 & C2); [lia|]. exists (c + 1). split; [now apply al_del|lia].
  - destruct (al_inv _ _ _ B) as [(X & _)|[(j' & t' & b' & X & -> & B')|[(k & u & b' & -> & -> & B')|(j' & k & t' & u & b1 & b2 & X & -> & -> & B1 & B2)]]].
    + destruct (snoc_nil _ _ X).
    + apply snoc_inj in X. destruct X as [-> ->]. specialize (SZ j' t'). destruct (fun L => IH' _ _ _ L _ _ A' B') as (c & C1 & C2); [lia|]. exists c. split; auto. lia.
    + specialize (SZ k u). destruct (fun L => IH' _ _ _ L _ _ A B') as (c & C1 & C2); [lia|]. exists (c + 1). split; [now apply al_ins|lia].
    + apply snoc_inj in X. destruct X as [-> ->]. assert (S1 := SZ j' t'). assert (S2 := SZ k u). destruct (fun L => IH' _ _ _ L _ _ A' (al_app _ _ _ B1 _ _ _ B2)) as (c & C1 & C2); [lia|]. exists (c + 1). split; [now apply al_ins|lia].
  - destruct (al_inv _ _ _ B) as [(X & _)|[(j' & t' & b' & X & -> & B')|[(k & u & b' & -> & -> & B')|(j' & k & t' & u & b1 & b2 & X & -> & -> & B1 & B2)]]].
    + destruct (snoc_nil _ _ X).
    + apply snoc_inj in X. destruct X as [-> ->]. assert (S1 := SZ i s). assert (S2 := SZ j' t'). destruct (fun L => IH' _ _ _ L _ _ (al_app _ _ _ A1 _ _ _ A2) B') as (c & C1 & C2); [lia|]. exists (c + 1). split; [now apply al_del|lia].
    + specialize (SZ k u). destruct (fun L => IH' _ _ _ L _ _ A B') as (c & C1 & C2); [lia|]. exists (c + 1). split; [now apply al_ins|lia].
    + apply snoc_inj in X. destruct X as [-> ->]. rewrite !fsize_app, !fsize_one in E. destruct (fun L => IH' _ _ _ L _ _ A1 B1) as (c & C1 & C2); [lia|]. destruct (fun L => IH' _ _ _ L _ _ A2 B2) as (d & D1 & D2); [lia|].
      exists (c + d + strdist (label s) (label u)). split; [now apply al_match|]. assert (TR := strdist_tri (label s) (label t') (label u)). lia.
Qed.
Lemma al_zero : forall f g c, al f g c -> c = 0 -> f = g.
Proof.
  induction 1 as [|i s g c H IH|f j t c H IH|i j s t c d H1 IH1 H2 IH2]; intros E; auto; try lia. assert (D : strdist (label s) (label t) = 0) by lia. apply strdist_zero in D. rewrite IH2 by lia. assert (K : kids s = kids t) by (apply IH1; lia). rewrite <- (kids_eta s), <- (kids_eta t). congruence.
Qed.

(** ---- alignments and edit sequences ---- *)
Lemma edit_al : forall f g, edit f g -> exists c, al f g c /\ c <= 1.
Proof.
  assert (CTX : forall a b f g c, al f g c -> al (a ++ f ++ b) (a ++ g ++ b) c).
  { intros a b f g c H. replace c with (0 + (c + 0)) by lia. apply al_app; [|apply al_refl]. apply al_app; [apply al_refl|exact H]. }
  induction 1 as [a b l m ts|a b l ts|a b l ts|a b l ts us E (c & A & L)].
  - exists (0 + 0 + strdist l m). split; [|assert (H := strdist_le l m); lia]. apply CTX. apply (al_match [] [] (T l ts) (T m ts)); [apply al_refl|constructor].
  - exists (0 + 1). split; auto. apply CTX. apply (al_del [] (T l ts)). apply al_refl.
  - exists (0 + 1). split; auto. apply CTX. apply (al_ins _ [] (T l ts)). apply al_refl.
  - exists c. split; auto. apply CTX. replace c with (c + 0 + strdist l l) by (rewrite strdist_refl; lia). apply (al_match [] [] (T l ts) (T l us)); [exact A|constructor].
Qed.
Lemma edits_al : forall n f g, edits n f g -> exists c, al f g c /\ c <= n.
Proof.
  induction 1 as [f|n f g h E _ (c & A & L)]; [exists 0; split; auto; apply al_refl|]. destruct (edit_al _ _ E) as (d & D & K). destruct (al_trans _ _ _ _ _ D A) as (e & X & Y). exists e. split; auto. lia.
Qed.
Lemma edits_trans : forall n f g, edits n f g -> forall m h, edits m g h -> edits (n + m) f h.
Proof. induction 1 as [f|n f g h E _ IH]; intros m k H; auto. cbn. eapply es_step; eauto. Qed.
Lemma edit_ctx : forall a b f g, edit f g -> edit (a ++ f ++ b) (a ++ g ++ b).
Proof.
  intros a b f g H. destruct H as [c d l m ts|c d l ts|c d l ts|c d l ts us E]; rewrite <- !app_assoc, !(app_assoc a c); rewrite <- ?(app_assoc _ d b).
  - exact (e_relabel (a ++ c) (d ++ b) l m ts).
  - exact (e_delete (a ++ c) (d ++ b) l ts).
  - exact (e_insert (a ++ c) (d ++ b) l ts).
  - exact (e_inside (a ++ c) (d ++ b) l ts us E).
Qed.
Lemma edits_ctx : forall a b n f g, edits n f g -> edits n (a ++ f ++ b) (a ++ g ++ b).
Proof. intros a b. induction 1 as [|n f g h E _ IH]; [constructor|]. eapply es_step; [apply edit_ctx; exact E|exact IH]. Qed.
Lemma edits_inside : forall n f g l, edits n f g -> edits n [T l f] [T l g].
Proof. induction 1 as [|n f g h E _ IH]; [constructor|]. eapply es_step; [apply (e_inside [] [] l f g E)|exact IH]. Qed.
Lemma al_edits : forall f g c, al f g c -> edits c f g.
Proof.
  induction 1 as [|i s g c H IH|f j t c H IH|i j s t c d H1 IH1 H2 IH2].
  - constructor.
  - rewrite Nat.add_1_r. eapply es_step; [|exact IH]. assert (E := e_delete i [] (label s) (kids s)). rewrite kids_eta, !app_nil_r in E. exact E.
  - eapply edits_trans; [exact IH|]. eapply es_step; [|constructor]. assert (E := e_insert j [] (label t) (kids t)). rewrite kids_eta, !app_nil_r in E. exact E.
  - replace (c + d + strdist (label s) (label t)) with (d + (c + strdist (label s) (label t))) by lia.
    eapply edits_trans; [apply (edits_ctx [] [s]); exact IH2|]. cbn [app]. eapply edits_trans.
    + assert (E := edits_ctx j [] _ _ _ (edits_inside _ _ _ (label s) IH1)). rewrite kids_eta, !app_nil_r in E. exact E.
    + unfold strdist. destruct (eqs (label s) (label t)) eqn:Q.
      * apply eqs_eq in Q. rewrite Q, kids_eta. constructor.
      * eapply es_step; [|constructor]. assert (E := e_relabel j [] (label s) (label t) (kids t)). rewrite kids_eta, !app_nil_r in E. exact E.
Qed.

(** ---- the least cost ---- *)
Lemma splitlast_snoc : forall i t, splitlast (i ++ [t]) = Some (i, t).
Proof. induction i as [|x i IH]; intros t; cbn; auto. now rewrite IH. Qed.
Lemma splitlast_some : forall f i t, splitlast f = Some (i, t) -> f = i ++ [t].
Proof.
  induction f as [|x f IH]; intros i t E; [discriminate|]. cbn in E. destruct (splitlast f) as [[i' z]|] eqn:S.
  - injection E as <- <-. cbn. f_equal. now apply IH.
  - injection E as <- <-. destruct f as [|y f]; auto. cbn in S. destruct (splitlast f) as [[? ?]|]; discriminate.
Qed.
Lemma splitlast_none : forall f, splitlast f = None -> f = [].
Proof. intros [|t f] E; auto. cbn in E. destruct (splitlast f) as [[? ?]|]; discriminate. Qed.
Definition least (f g : list ltree) (d : nat) : Prop := al f g d /\ forall c, al f g c -> d <= c.
Lemma least_unique : forall f g d e, least f g d -> least f g e -> d = e.
Proof. intros f g d e [A B] [C D]. specialize (B _ C). specialize (D _ A). lia. Qed.
Lemma least_nil : least [] [] 0.
Proof. split; [constructor|]. intros. lia. Qed.
Lemma least_del : forall i s d, least (i ++ kids s) [] d -> least (i ++ [s]) [] (d + 1).
Proof.
  intros i s d [A B]. split; [now apply al_del|]. intros c C. destruct (al_inv _ _ _ C) as [(X & _)|[(i' & s' & c' & X & -> & C')|[(j & t & c' & X & _)|(i' & j & s' & t & c' & e & _ & X & _)]]].
  - destruct (snoc_nil _ _ X).
  - apply snoc_inj in X. destruct X as [<- <-]. specialize (B _ C'). lia.
  - symmetry in X. destruct (snoc_nil _ _ X).
  - symmetry in X. destruct (snoc_nil _ _ X).
Qed.
Lemma least_sym : forall f g d, least f g d -> least g f d.
Proof. intros f g d [A B]. split; [now apply al_sym|]. intros c C. apply B. now apply al_sym. Qed.
Lemma least_ins : forall j t d, least [] (j ++ kids t) d -> least [] (j ++ [t]) (d + 1).
Proof. intros j t d H. apply least_sym, least_del, least_sym, H. Qed.
Lemma least_both : forall i j s t d1 d2 d3 d4, least (i ++ kids s) (j ++ [t]) d1 -> least (i ++ [s]) (j ++ kids t) d2 -> least (kids s) (kids t) d3 -> least i j d4 ->
  least (i ++ [s]) (j ++ [t]) (Nat.min (Nat.min (d1 + 1) (d2 + 1)) (d3 + d4 + strdist (label s) (label t))).
Proof.
  intros i j s t d1 d2 d3 d4 [A1 B1] [A2 B2] [A3 B3] [A4 B4]. split.
  - destruct (Nat.min_spec (Nat.min (d1 + 1) (d2 + 1)) (d3 + d4 + strdist (label s) (label t))) as [[_ ->]|[_ ->]]; [|now apply al_match]. destruct (Nat.min_spec (d1 + 1) (d2 + 1)) as [[_ ->]|[_ ->]]; [now apply al_del|now apply al_ins].
  - intros c C. destruct (al_inv _ _ _ C) as [(X & _)|[(i' & s' & c' & X & -> & C')|[(j' & t' & c' & X & -> & C')|(i' & j' & s' & t' & c' & e & X & Y & -> & C1 & C2)]]].
    + destruct (snoc_nil _ _ X).
    + apply snoc_inj in X. destruct X as [<- <-]. specialize (B1 _ C'). lia.
    + apply snoc_inj in X. destruct X as [<- <-]. specialize (B2 _ C'). lia.
    + apply snoc_inj in X, Y. destruct X as [<- <-], Y as [<- <-]. specialize (B3 _ C1). specialize (B4 _ C2). lia.
Qed.
(** the recurrence of Zhang & Shasha *)
Lemma least_trees : forall i j s t d1 d2 d3 d4, least (i ++ kids s) (j ++ [t]) d1 -> least (i ++ [s]) (j ++ kids t) d2 -> least [s] [t] d3 -> least i j d4 ->
  least (i ++ [s]) (j ++ [t]) (Nat.min (Nat.min (d1 + 1) (d2 + 1)) (d4 + d3)).
Proof.
  intros i j s t d1 d2 d3 d4 [A1 B1] [A2 B2] [A3 B3] [A4 B4]. split.
  - destruct (Nat.min_spec (Nat.min (d1 + 1) (d2 + 1)) (d4 + d3)) as [[_ ->]|[_ ->]]; [|now apply al_app]. destruct (Nat.min_spec (d1 + 1) (d2 + 1)) as [[_ ->]|[_ ->]]; [now apply al_del|now apply al_ins].
  - intros c C. destruct (al_inv _ _ _ C) as [(X & _)|[(i' & s' & c' & X & -> & C')|[(j' & t' & c' & X & -> & C')|(i' & j' & s' & t' & c' & e & X & Y & -> & C1 & C2)]]].
    + destruct (snoc_nil _ _ X).
    + apply snoc_inj in X. destruct X as [<- <-]. specialize (B1 _ C'). lia.
    + apply snoc_inj in X. destruct X as [<- <-]. specialize (B2 _ C'). lia.
    + apply snoc_inj in X, Y. destruct X as [<- <-], Y as [<- <-]. specialize (B4 _ C2). specialize (B3 _ (al_match [] [] s t c' 0 C1 al_nil)). lia.
Qed.
Lemma snoc_case : forall f : list ltree, f = [] \/ exists i t, f = i ++ [t].
Proof. intros f. destruct (splitlast f) as [[i t]|] eqn:E; [right; exists i, t; now apply splitlast_some|left; now apply splitlast_none]. Qed.
Lemma least_exists : forall f g, exists d, least f g d.
Proof.
  intros f g. remember (fsize f + fsize g) as n eqn:E. revert f g E. induction n as [n IH] using lt_wf_ind. intros f g E. assert (IH' : forall f g, fsize f + fsize g < n -> exists d, least f g d) by (intros f' g' L; exact (IH _ L f' g' eq_refl)). clear IH.
  assert (SZ : forall i t, fsize (i ++ kids t) < fsize (i ++ [t])) by (intros; rewrite !fsize_app, fsize_one; lia).
  destruct (snoc_case f) as [->|(i & s & ->)], (snoc_case g) as [->|(j & t & ->)].
  - exists 0. apply least_nil.
  - specialize (SZ j t). destruct (IH' [] (j ++ kids t)) as (d & D); [cbn [fsize map list_sum fold_right] in *; lia|]. exists (d + 1). now apply least_ins.
  - specialize (SZ i s). destruct (IH' (i ++ kids s) []) as (d & D); [cbn [fsize map list_sum fold_right] in *; lia|]. exists (d + 1). now apply least_del.
  - assert (S1 := SZ i s). assert (S2 := SZ j t). destruct (IH' (i ++ kids s) (j ++ [t])) as (d1 & D1); [cbn [fsize map list_sum fold_right] in *; lia|]. destruct (IH' (i ++ [s]) (j ++ kids t)) as (d2 & D2); [cbn [fsize map list_sum fold_right] in *; lia|]. rewrite !fsize_app, !fsize_one in E. destruct (IH' (kids s) (kids t)) as (d3 & D3); [cbn [fsize map list_sum fold_right] in *; lia|]. destruct (IH' i j) as (d4 & D4); [cbn [fsize map list_sum fold_right] in *; lia|]. eexists. eapply least_both; eauto.
Qed.
Lemma least_edits : forall s t d, least [s] [t] d <-> edit_distance s t d.
Proof.
  intros s t d. split.
  - intros [A B]. split; [now apply al_edits|]. intros n E. destruct (edits_al _ _ _ E) as (c & C & L). specialize (B _ C). lia.
  - intros [A B]. destruct (least_exists [s] [t]) as (e & L). assert (L' := L). destruct L' as [C D]. assert (d <= e) by (apply B; now apply al_edits). destruct (edits_al _ _ _ A) as (c & C' & K). specialize (D _ C'). replace d with e by lia. exact L.
Qed.
