(** C64: a Double-DOP grammar encodes the tree-substitution grammar of its
    fragments. *)
From Coq Require Import String.
From Coq Require Import List Bool Arith NArith ZArith QArith Qcanon Lia Permutation Sorted.
From Verif Require Import PyStr TreeModel BracketModel BinarizeModel TransformModel SortProofs LcfrsModel LcfrsProps TreebankModel DopModel DopProofs DDopModel DDopSpec DDopProofs DDopProofs2 DDopProofs3 DDopProofs4 DDopProofs5 DDopProofs6 DDopProofs7 DDopProofs8 DDopProofs9.
Import ListNotations.
Open Scope nat_scope.
Open Scope list_scope.

(** the grammar can be built for all fragments *)
Theorem C64_total : forall prefix fs, okfragments fs -> exists G B, dopgrammar prefix fs = Some (G, B).
Proof.
  intros prefix fs Ok. destruct (rules_of_fragments prefix fs Ok) as (g & done & E & _). unfold dopgrammar. rewrite E. eauto.
Qed.
Lemma setup : forall prefix fs G B, okfragments fs -> dopgrammar prefix fs = Some (G, B) -> exists g done, Inv prefix g done /\ map fst done = fs /\ G = sortgrammar (g_rules g) /\
  B = flat_map (fun rw => match backlookup (fst rw) (g_back g) with Some t => [t] | None => [] end) G.
Proof.
  intros prefix fs G B Ok E. destruct (rules_of_fragments prefix fs Ok) as (g & done & E' & IV & M). unfold dopgrammar in E. rewrite E' in E. injection E as <- <-. exists g, done. auto.
Qed.
(** if binarization is unambiguous: there is a one-to-one correspondence
    between the derivations of the TSG and those of the grammar, with the same
    probability, and the tree is recovered from the derivation of the grammar *)
Theorem C64_encoding : forall prefix fs G B, okfragments fs -> dopgrammar prefix fs = Some (G, B) -> unambiguous G ->
  exists enc : tsgderiv -> deriv, forall sent,
    (forall l d p, Valid fs sent l d p ->
       Der G sent l (enc d) p /\ recoverfragments G B (enc d) = Some (derived d) /\ Permutation (positions (enc d)) (leaves (derived d)) /\
       ((forall f n, In (f, n) fs -> continuous f) -> positions (enc d) = leaves (derived d))) /\
    (forall l g p, oklabel l -> Der G sent l g p -> exists d, Valid fs sent l d p /\ enc d = g) /\
    (forall l d p l' d' p', Valid fs sent l d p -> Valid fs sent l' d' p' -> enc d = enc d' -> d = d').
Proof.
  intros prefix fs G B Ok E UN. destruct (setup prefix fs G B Ok E) as (g & done & IV & M & EG & EB). set (fin := g_ids g).
  assert (PG : Permutation (g_rules g) G) by (rewrite EG; apply sort_perm).
  assert (HR : forall r w, In (r, w) G <-> exists f n u, In (f, n, u) done /\ ((r = ftop prefix fin f u /\ w = n) \/ (In r (fothers prefix fin f u) /\ w = 1%N))).
  { intros r w. rewrite <- (i_rules _ _ _ IV fin (ext_refl _)). split; apply Permutation_in; [now apply Permutation_sym|exact PG]. }
  assert (HN : NoDup (map fst G)) by (eapply Permutation_NoDup; [apply Permutation_map; exact PG|exact (i_nodup _ _ _ IV)]).
  assert (HOK : forall f n u, In (f, n, u) done -> okfrag f) by (intros f n u H; exact (proj1 (i_ok _ _ _ IV _ _ _ H))).
  pose proof (i_inj _ _ _ IV) as HINJ.
  assert (HD : NoDup (map dfrag done)) by (destruct Ok as [ND _]; rewrite <- M, map_map in ND; exact ND).
  assert (HT : forall f n u, In (f, n, u) done -> isInner f -> exists k, ruleno (ftop prefix fin f u) (map fst (filter phrasal G)) = Some k /\ nth_error B k = Some (totemplate (ordered f) f)).
  { intros f n u H If. rewrite EB, EG. exact (top_template prefix g done f n u IV H If). }
  exists (enc prefix done fin). intros sent. rewrite <- M. split; [|split].
  - intros l d p V. split; [eapply (enc_der prefix); eassumption|]. split.
    + assert (VT : valid_tree prefix G B done fin d) by (eapply (enc_tree prefix); eassumption). destruct VT as (T & R1 & R2). unfold recoverfragments. unfold raw in R1. rewrite R1. cbn. now rewrite R2.
    + eapply (enc_positions prefix); eassumption.
  - intros l d p OL D. eapply (enc_onto prefix) with (k := dsize d); try eassumption. apply le_n.
  - intros l d p l' d' p' V V'. eapply (enc_inj prefix); eassumption.
Qed.
(** for continuous fragments, and labels that are not confused by commas, it is *)
Theorem C64_unambiguous : forall prefix fs G B, okfragments fs -> (forall f n, In (f, n) fs -> continuous f) -> joinable fs -> dopgrammar prefix fs = Some (G, B) -> unambiguous G.
Proof.
  intros prefix fs G B Ok C J E. destruct (setup prefix fs G B Ok E) as (g & done & IV & M & EG & EB). pose proof (cont_unambiguous prefix g done fs IV M C J) as U.
  intros r n r' n' H H'. rewrite EG in H, H'. apply sort_In in H, H'. exact (U r n r' n' H H').
Qed.
Theorem C64_joinable : forall fs, okfragments fs -> (forall f n c, In (f, n) fs -> In c (sites f) -> ~ In (ch ",") (wlabel c)) -> joinable fs.
Proof.
  intros fs [_ Ok] H. apply nocomma_joinable. intros f n c Hf Hc. split; [|eauto]. destruct (Ok f n Hf) as [(O & _) _]. destruct (ok_sites _ O) as [S _]. rewrite Forall_forall in S. specialize (S c Hc).
  destruct c as [l idx|l i w|]; [| |destruct S]; inversion S as [? ? (A & _)|? ? ? (A & _)|]; subst; cbn; [exact A|]. destruct l; [congruence|discriminate].
Qed.
(** so for continuous fragments without commas the grammar is the TSG *)
Corollary C64_tsg : forall prefix fs, okfragments fs -> (forall f n, In (f, n) fs -> continuous f) -> (forall f n c, In (f, n) fs -> In c (sites f) -> ~ In (ch ",") (wlabel c)) ->
  exists G B, dopgrammar prefix fs = Some (G, B) /\ exists enc : tsgderiv -> deriv, forall sent,
    (forall l d p, Valid fs sent l d p -> Der G sent l (enc d) p /\ recoverfragments G B (enc d) = Some (derived d) /\ positions (enc d) = leaves (derived d)) /\
    (forall l g p, oklabel l -> Der G sent l g p -> exists d, Valid fs sent l d p /\ enc d = g) /\
    (forall l d p l' d' p', Valid fs sent l d p -> Valid fs sent l' d' p' -> enc d = enc d' -> d = d').
Proof.
  intros prefix fs Ok C NC. destruct (C64_total prefix fs Ok) as (G & B & E). exists G, B. split; [exact E|].
  destruct (C64_encoding prefix fs G B Ok E (C64_unambiguous prefix fs G B Ok C (C64_joinable fs Ok NC) E)) as (enc & H). exists enc. intros sent. destruct (H sent) as (H1 & H2 & H3).
  split; [|auto]. intros l d p V. destruct (H1 l d p V) as (A & B0 & _ & D). auto.
Qed.

(** ** the hypotheses can be checked, and hold for an example *)
Definition oklabelb (l : pystr) : bool := match l with [] => false | _ => true end && negb (existsb (N.eqb (ch "@")) l) && negb (contains l (str "}<")).
Definition okwordb (w : pystr) : bool := match w with [] => false | _ => true end && eqs (escape (Some w)) w && negb (contains w (str "}<")).
Fixpoint oknodeb (f : frag) : bool :=
  match f with
  | Site l idx => oklabelb l && match idx with [] => false | _ => true end
  | Term l _ w => oklabelb l && okwordb w
  | Inner l fs => oklabelb l && match fs with [] => false | _ => true end && forallb oknodeb fs
  end.
Definition okfragb (f : frag) : bool := oknodeb f && nodupb (flat_map fidx (sites f)) && match f with Site _ _ => false | Term _ i _ => i =? 0 | Inner _ _ => true end.
Lemma oklabelb_ok : forall l, oklabelb l = true -> oklabel l.
Proof.
  intros l H. unfold oklabelb in H. apply andb_prop in H. destruct H as [H H3]. apply andb_prop in H. destruct H as [H1 H2]. split; [intros ->; discriminate|]. split.
  - intros X. apply negb_true_iff in H2. assert (Y : existsb (N.eqb (ch "@")) l = true) by (apply existsb_exists; exists (ch "@"); split; [exact X|apply N.eqb_refl]). congruence.
  - rewrite has_contains. apply negb_true_iff in H3. congruence.
Qed.
Lemma okwordb_ok : forall l, okwordb l = true -> okword l.
Proof.
  intros l H. unfold okwordb in H. apply andb_prop in H. destruct H as [H H3]. apply andb_prop in H. destruct H as [H1 H2]. split; [intros ->; discriminate|]. split.
  - now apply eqs_eq in H2.
  - rewrite has_contains. apply negb_true_iff in H3. congruence.
Qed.
Lemma oknodeb_ok : forall f, oknodeb f = true -> oknode f.
Proof.
  intros f. induction f as [l idx|l i w|l fs IH] using frag_ind'; intros H; cbn [oknodeb] in H; apply andb_prop in H; destruct H as [H1 H2].
  - constructor; [now apply oklabelb_ok|]. intros ->. discriminate.
  - constructor; [now apply oklabelb_ok|now apply okwordb_ok].
  - apply andb_prop in H1. destruct H1 as [H1 H3]. constructor; [now apply oklabelb_ok|intros ->; discriminate|]. rewrite forallb_forall in H2. rewrite Forall_forall in *. auto.
Qed.
Lemma okfragb_ok : forall f, okfragb f = true -> okfrag f.
Proof.
  intros f H. unfold okfragb in H. apply andb_prop in H. destruct H as [H H3]. apply andb_prop in H. destruct H as [H1 H2]. split; [now apply oknodeb_ok|]. split; [now apply nodupb_spec|]. destruct f; auto; [discriminate|now apply Nat.eqb_eq].
Qed.
Fixpoint nodupfb (l : list frag) : bool := match l with [] => true | x :: l => (if in_dec frag_dec x l then false else true) && nodupfb l end.
Lemma nodupfb_ok : forall l, nodupfb l = true -> NoDup l.
Proof. induction l as [|x l IH]; intros H; constructor; cbn in H; apply andb_prop in H; destruct H as [H1 H2]; [|auto]. destruct (in_dec frag_dec x l); [discriminate|auto]. Qed.
Lemma okfragments_check : forall fs, nodupfb (map fst fs) = true -> forallb (fun x => okfragb (fst x) && negb (snd x =? 0)%N) fs = true -> okfragments fs.
Proof.
  intros fs ND H. split; [now apply nodupfb_ok|]. intros f n Hf. rewrite forallb_forall in H. specialize (H _ Hf). cbn [fst snd] in H. apply andb_prop in H. destruct H as [H1 H2]. split; [now apply okfragb_ok|]. apply negb_true_iff, N.eqb_neq in H2. exact H2.
Qed.
Section Example.
Let w (l x : string) : frag * N := (Term (str l) 0 (str x), 2%N).
(** two fragments with four frontier nodes and terminals that share part of
    their binarization, one with two, one with one *)
Definition ex_fs : list (frag * N) :=
  [(Inner (str "S") [Site (str "NP") [0]; Inner (str "VP") [Term (str "VB") 1 (str "gave"); Site (str "NP") [2]; Site (str "NP") [3]]], 3%N);
   (Inner (str "S") [Site (str "NP") [0]; Inner (str "VP") [Term (str "VB") 1 (str "gave"); Site (str "NP") [2]; Site (str "PP") [3]]], 1%N);
   (Inner (str "NP") [Term (str "DT") 0 (str "the"); Site (str "NN") [1]], 1%N);
   (Inner (str "NP") [Inner (str "NX") [Site (str "NN") [0]]], 2%N);
   w "NN" "cat"; w "NN" "mice"].
Example ex_ok : okfragments ex_fs.
Proof. apply okfragments_check; vm_compute; reflexivity. Qed.
Example ex_continuous : forall f n, In (f, n) ex_fs -> continuous f.
Proof. intros f n H. unfold ex_fs in H. cbn [In] in H. repeat match goal with H : _ \/ _ |- _ => destruct H | H : False |- _ => destruct H end; injection H as <- <-; reflexivity. Qed.
Example ex_nocomma : forall f n c, In (f, n) ex_fs -> In c (sites f) -> ~ In (ch ",") (wlabel c).
Proof.
  assert (X : forallb (fun fn => forallb (fun c => negb (existsb (N.eqb (ch ",")) (wlabel c))) (sites (fst fn))) ex_fs = true) by (vm_compute; reflexivity).
  intros f n c Hf Hc Hi. rewrite forallb_forall in X. specialize (X _ Hf). rewrite forallb_forall in X. specialize (X _ Hc). apply negb_true_iff in X.
  assert (Y : existsb (N.eqb (ch ",")) (wlabel c) = true) by (apply existsb_exists; exists (ch ","); split; [exact Hi|apply N.eqb_refl]). congruence.
Qed.
(** "mice gave the cat mice": probability 3/4 * (2/3 * 1/2) * (1/3 * 1/2) * (2/3 * 1/2) = 1/72 *)
Definition ex_sent (i : nat) : pystr := str (nth i ["mice"; "gave"; "the"; "cat"; "mice"]%string ""%string).
Definition ex_nn (i : nat) (x : string) : tsgderiv := Use (fst (w "NN" x)) [Word i].
Definition ex_d : tsgderiv := Use (fst (nth 0 ex_fs (w "" "")))
  [Use (fst (nth 3 ex_fs (w "" ""))) [ex_nn 0 "mice"]; Word 1; Use (fst (nth 2 ex_fs (w "" ""))) [Word 2; ex_nn 3 "cat"]; Use (fst (nth 3 ex_fs (w "" ""))) [ex_nn 4 "mice"]].
Example ex_valid : exists p, Valid ex_fs ex_sent (str "S") ex_d p /\ p = Q2Qc (1 # 72).
Proof.
  eexists. split.
  - unfold ex_d, ex_nn. cbn [nth ex_fs fst w].
    apply (v_use ex_fs ex_sent (Inner (str "S") _)) with (n := 3%N); [now left|]. cbn [sites flat_map app].
    apply s_site; [apply (v_use ex_fs ex_sent (Inner (str "NP") _)) with (n := 2%N); [cbn; auto 10|]; cbn [sites flat_map app]; apply s_site; [|apply s_nil]; apply (v_use ex_fs ex_sent (Term (str "NN") 0 (str "mice"))) with (n := 2%N); [cbn; auto 10|]; apply s_word; [reflexivity|apply s_nil]|].
    apply s_word; [reflexivity|]. apply s_site; [apply (v_use ex_fs ex_sent (Inner (str "NP") _)) with (n := 1%N); [cbn; auto 10|]; cbn [sites flat_map app]; apply s_word; [reflexivity|]; apply s_site; [|apply s_nil]; apply (v_use ex_fs ex_sent (Term (str "NN") 0 (str "cat"))) with (n := 2%N); [cbn; auto 10|]; apply s_word; [reflexivity|apply s_nil]|].
    apply s_site; [|apply s_nil]. apply (v_use ex_fs ex_sent (Inner (str "NP") _)) with (n := 2%N); [cbn; auto 10|]; cbn [sites flat_map app]; apply s_site; [|apply s_nil]; apply (v_use ex_fs ex_sent (Term (str "NN") 0 (str "mice"))) with (n := 2%N); [cbn; auto 10|]; apply s_word; [reflexivity|apply s_nil].
  - apply Qc_is_canon. vm_compute. reflexivity.
Qed.
End Example.

(** ** with discontinuous fragments the claim fails: two fragments share the
    label of a binarized node although the children below it are combined in a
    different way, so its probability is divided between them, and fragments
    can be mixed *)
Definition bad_fs : list (frag * N) :=
  [(Inner (str "S") [Site (str "A_2") [0; 3]; Site (str "B_2") [1; 4]; Site (str "C") [2]; Site (str "D") [5]; Site (str "E") [6]], 1%N);
   (Inner (str "S") [Site (str "A_2") [0; 2]; Site (str "B_2") [1; 4]; Site (str "C") [3]; Site (str "D") [5]; Site (str "E") [6]], 1%N);
   (Term (str "A_2") 0 (str "a"), 1%N); (Term (str "B_2") 0 (str "b"), 1%N); (Term (str "C") 0 (str "c"), 1%N); (Term (str "D") 0 (str "d"), 1%N); (Term (str "E") 0 (str "e"), 1%N)].
Definition bad_sent (i : nat) : pystr := str (nth i ["a"; "b"; "c"; "d"; "e"]%string ""%string).
Definition bad_r (nts : list string) (yf : list (list nat)) : rule := (map (fun x => str x) nts, PYf yf).
(** the second rule is from the first fragment, the fourth from the second *)
Definition bad_g : deriv :=
  DBin (bad_r ["S"; "S}<2>"; "E"]%string [[0; 1]])
    (DBin (bad_r ["S}<2>"; "S}<1>"; "D"]%string [[0; 1]])
      (DBin (bad_r ["S}<1>"; "S}<3>_2"; "C"]%string [[0; 1; 0]])
        (DBin (bad_r ["S}<3>_2"; "A_2"; "B_2"]%string [[0; 1; 0]; [1]]) (DLex (str "A_2") 0) (DLex (str "B_2") 1))
        (DLex (str "C") 2)) (DLex (str "D") 3)) (DLex (str "E") 4).
Lemma qc_eq : forall a b : Qc, Qcompare a b = Eq -> a = b.
Proof. intros a b H. apply Qc_is_canon. now apply Qeq_alt. Qed.
Lemma bad_leaf : forall l d p, In l [str "A_2"; str "B_2"; str "C"; str "D"; str "E"] -> Valid bad_fs bad_sent l d p -> p = 1%Qc.
Proof.
  intros l d p Hl V. inversion V as [f n subs q Hf Hs]; subst. cbn [bad_fs In] in Hf. cbn [In] in Hl.
  assert (SQ : forall l i w subs q, Subs bad_fs bad_sent [Term l i w] subs q -> q = 1%Qc) by (clear; intros l i w subs q H; inversion H as [|? ? ? j ? ds ? E H'|]; subst; inversion H'; reflexivity).
  repeat match goal with H : _ \/ _ |- _ => destruct H | H : False |- _ => destruct H end;
  repeat match goal with H : (_, _) = (f, n) |- _ => injection H as <- <- end; try discriminate; apply SQ in Hs; subst q; apply qc_eq; vm_compute; reflexivity.
Qed.
Theorem C64_discontinuous_refuted : okfragments bad_fs /\ exists G B, dopgrammar [] bad_fs = Some (G, B) /\ ~ unambiguous G /\
  Der G bad_sent (str "S") bad_g (Q2Qc (1 # 4)) /\ forall d p, Valid bad_fs bad_sent (str "S") d p -> p = Q2Qc (1 # 2).
Proof.
  split; [apply okfragments_check; vm_compute; reflexivity|].
  destruct (dopgrammar [] bad_fs) as [[G B]|] eqn:E; [|vm_compute in E; discriminate]. exists G, B. split; [reflexivity|].
  assert (IN : forall r, existsb (fun x => rule_eqb (fst x) r && (snd x =? 1)%N) G = true -> In (r, 1%N) G).
  { intros r H. apply existsb_exists in H. destruct H as ([r' n'] & H & H'). apply andb_prop in H'. destruct H' as [H1 H2]. apply rule_eqb_eq in H1. apply N.eqb_eq in H2. cbn in H1, H2. subst. exact H. }
  assert (EG : G = match dopgrammar [] bad_fs with Some (G, _) => G | None => [] end) by (now rewrite E). clear E. split; [|split].
  - intros U. specialize (U (bad_r ["S}<1>"; "S}<0>_2"; "C"]%string [[0; 1; 0]]) 1%N (bad_r ["S}<1>"; "S}<3>_2"; "C"]%string [[0; 1; 0]]) 1%N).
    assert (X : bad_r ["S}<1>"; "S}<0>_2"; "C"]%string [[0; 1; 0]] = bad_r ["S}<1>"; "S}<3>_2"; "C"]%string [[0; 1; 0]]).
    { apply U; [apply IN; rewrite EG; vm_compute; reflexivity|apply IN; rewrite EG; vm_compute; reflexivity| |reflexivity]. rewrite has_contains. vm_compute. reflexivity. }
    discriminate.
  - assert (P : exists p, Der G bad_sent (str "S") bad_g p /\ p = Q2Qc (1 # 4)).
    { eexists. split.
      - unfold bad_g, bad_r. cbn [map].
        assert (L : forall l i, existsb (fun x => rule_eqb (fst x) ([l; str "Epsilon"], PWord (bad_sent i)) && (snd x =? 1)%N) G = true -> Der G bad_sent l (DLex l i) (ruleprob G ([l; str "Epsilon"], PWord (bad_sent i)) 1%N)) by (intros l i H; apply d_lex; now apply IN).
        repeat (apply d_bin with (n := 1%N); [apply IN; rewrite EG; vm_compute; reflexivity| |]); apply L; rewrite EG; vm_compute; reflexivity.
      - rewrite EG. apply qc_eq. vm_compute. reflexivity. }
    destruct P as (p & D & ->). exact D.
  - intros d p V. inversion V as [f n subs q Hf Hs EL ED EP]. cbn [bad_fs In] in Hf.
    assert (SQ : forall ls subs q, (forall c, In c ls -> exists l idx, c = Site l idx /\ In l [str "A_2"; str "B_2"; str "C"; str "D"; str "E"]) -> Subs bad_fs bad_sent ls subs q -> q = 1%Qc).
    { clear. intros ls subs q H Hs. induction Hs as [|l i w j ls ds q E Hs IH|l idx d ls ds p q V Hs IH].
      - reflexivity.
      - destruct (H _ (or_introl eq_refl)) as (l0 & idx & X & _). discriminate.
      - destruct (H _ (or_introl eq_refl)) as (l0 & idx0 & X & Hl). injection X as <- <-. rewrite (bad_leaf _ _ _ Hl V), IH by (intros; apply H; now right). reflexivity. }
    assert (SI : forall f n, In (f, n) bad_fs -> flabel f = str "S" -> forall c, In c (sites f) -> exists l idx, c = Site l idx /\ In l [str "A_2"; str "B_2"; str "C"; str "D"; str "E"]).
    { clear. intros f n Hf EL c Hc. cbn [bad_fs In] in Hf. repeat match goal with H : _ \/ _ |- _ => destruct H | H : False |- _ => destruct H end;
      repeat match goal with H : (_, _) = (f, n) |- _ => injection H as <- <- end; try discriminate; cbn in Hc; repeat match goal with H : _ \/ _ |- _ => destruct H | H : False |- _ => destruct H end; subst c; eexists; eexists; (split; [reflexivity|cbn; auto 10]). }
    rewrite (SQ _ _ _ (SI f n Hf EL) Hs). rewrite Qcmult_1_r. rewrite EL. assert (n = 1%N) as -> by (repeat match goal with H : _ \/ _ |- _ => destruct H | H : False |- _ => destruct H end; congruence).
    apply qc_eq. vm_compute. reflexivity.
Qed.
