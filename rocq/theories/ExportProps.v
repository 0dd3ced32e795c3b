(** C45: the export format *)
From Coq Require Import String.
From Coq Require Import List Bool Arith NArith Lia Permutation.
From Verif Require Import PyStr TreeModel TreeProps BracketModel TransformModel BinarizeProps TransformProps ExportModel ExportSpec ExportProofs ExportProofs2 ExportProofs3 ExportProofs4.
Import ListNotations.
Open Scope list_scope.
Open Scope nat_scope.

Lemma block_spec : forall t sent, exportable t sent -> exists table, (forall row, In row table -> goodrow row) /\
  (forall key comment, writeexporttree t sent key comment = Some (bos key comment :: map (join [tab]) table ++ [eos key])) /\
  exists t', tperm (rooted t) t' /\ forall b e, exporttree (b :: map (join [tab]) table ++ [e]) = Some (t', map wordtext sent, commentof b).
Proof.
  intros [a|l ts] sent H; [destruct H|]. destruct H as (PT & LV & LB & WD & PH).
  destruct (written_spec l ts sent PT LV) as (pre & ns & vs & E & LE & PN & LVS & ET & M1 & M2).
  destruct (read_spec l ts sent PT LB WD PH ns vs _ PN LVS M1 M2 eq_refl) as (G & AP & TS & us & cs & EC & F & P).
  set (table := map (fun wv => termrow ns (fst wv) (snd wv)) (combine sent vs) ++ noderows ns 0 ns) in *. exists table. split; [exact G|]. split.
  - intros key comment. unfold writeexporttree. rewrite E, LE, Nat.eqb_refl, ET. reflexivity.
  - exists (Node (str "ROOT", None) cs). split; [cbn [rooted]; eapply tp_node; eauto|]. intros b e. unfold exporttree. cbn [tl hd]. rewrite removelast_last. rewrite all_ok_some; [|intros row R; destruct (G row R) as [L FO]; now apply exportsplit_row]. rewrite AP, EC, TS. reflexivity.
Qed.
(** ---- C45: reading back what was written for one sentence ---- *)
Theorem C45_sentence : forall t sent key comment, exportable t sent -> field_ok key -> comment_ok comment ->
  exists lines t', writeexporttree t sent key comment = Some lines /\ exporttree lines = Some (t', map wordtext sent, comment_read comment) /\ tperm (rooted t) t'.
Proof.
  intros t sent key comment H K C. destruct (block_spec t sent H) as (table & _ & W & t' & TP & R). exists (bos key comment :: map (join [tab]) table ++ [eos key]), t'. split; [apply W|]. split; auto. rewrite R. f_equal. f_equal. rewrite comment_line; [destruct comment as [[|c r]|]; reflexivity|now apply field_fok|]. destruct comment as [c|]; [|exact I]. cbn. apply pp_infix. apply C.
Qed.
Lemma exported_leaves : forall t, leaves (exported t) = leaves t.
Proof.
  induction t as [a|l ts IH] using tree_ind'; [reflexivity|]. rewrite exported_node. cbn [leaves]. induction IH as [|c r Hc HR IHr]; [reflexivity|]. cbn [map flat_map]. now rewrite Hc, IHr.
Qed.
Lemma exported_every : forall (P : elabel -> list etree -> Prop), (forall l l' ts, P l ts -> P l' (map exported ts)) -> forall t, every_node P t -> every_node P (exported t).
Proof.
  intros P HP. induction t as [a|l ts IH] using tree_ind'; intros H; [exact I|]. rewrite exported_node. cbn [every_node] in *. rewrite fold_and in *. destruct H as [H1 H2]. split; [eapply HP; eauto|]. clear - IH H2. induction IH as [|c r Hc HR IHr]; [constructor|]. inversion H2; subst. constructor; auto.
Qed.
Lemma ptree_every : forall t : etree, ptree t -> every_node alone t /\ every_node (fun _ ts => ts <> []) t.
Proof.
  induction t as [a|l ts IH] using tree_ind'; intros H; [split; exact I|]. inversion H as [? a|? ? NE PC]; subst.
  - split; cbn [every_node]; (split; [|repeat constructor]); [intros b _; reflexivity|discriminate].
  - cbn [every_node]. rewrite !fold_and. rewrite !Forall_forall in *. repeat split; auto; try (intros c C; now apply IH, PC). intros a Ha. exfalso. apply (noleaf (L := elabel) a). now apply PC.
Qed.
Lemma rooted_canon : forall t sent t', exportable t sent -> sent <> [] -> tperm (rooted t) t' -> canonicalize (rooted t) = canonicalize t'.
Proof.
  intros [a|l ts] sent t' H NE TP; [destruct H|]. destruct H as (PT & LV & _). cbn [rooted] in *. apply C27_normal_form; auto.
  - cbn [every_node]. rewrite fold_and. split; [intros a Ha; exfalso; apply in_map_iff in Ha; destruct Ha as ([b|m us] & E & Ha); [apply (noleaf (L := elabel) b); now apply PT|rewrite exported_node in E; discriminate]|]. apply Forall_forall. intros c C. apply in_map_iff in C. destruct C as (d & <- & D). apply exported_every; [|now apply ptree_every, PT].
    intros l1 l2 us A a Ha. rewrite map_length. apply in_map_iff in Ha. destruct Ha as ([b|m vs] & E & Ha); [apply (A b Ha)|rewrite exported_node in E; discriminate].
  - cbn [every_node]. rewrite fold_and. split; [intros E; apply map_eq_nil in E; subst ts; destruct sent; [contradiction|apply Permutation_length in LV; discriminate]|]. apply Forall_forall. intros c C. apply in_map_iff in C. destruct C as (d & <- & D). apply exported_every; [|now apply ptree_every, PT]. intros l1 l2 us A E. apply map_eq_nil in E. contradiction.
  - assert (E : leaves (Node (str "ROOT", None) (map exported ts)) = flat_map leaves ts) by (clear; cbn [leaves]; induction ts as [|c r IH]; [reflexivity|]; cbn [map flat_map]; now rewrite exported_leaves, IH). refine (eq_ind_r (@NoDup nat) _ E). eapply Permutation_NoDup; [symmetry; exact LV|apply seq_NoDup].
Qed.
(** ---- C45: writing a corpus and reading it ---- *)
Definition sentence := (pystr * (etree * list (option pystr) * option pystr))%type.
Definition written_as (it : sentence) (s : pystr) : Prop :=
  let '(key, (t, sent, comment)) := it in option_map text (writeexporttree t sent key comment) = Some s.
Definition read_as (it : sentence) : pystr * (etree * list pystr * option pystr) :=
  let '(key, (t, sent, comment)) := it in (key, (canonicalize (rooted t), map wordtext sent, comment_read comment)).
Definition item_ok (it : sentence) : Prop := let '(key, (t, sent, comment)) := it in field_ok key /\ exportable t sent /\ comment_ok comment.
Lemma corpus_blocks : forall items, (forall it, In it items -> item_ok it) -> NoDup (map fst items) ->
  exists texts, Forall2 written_as items texts /\
  forall id block results, (forall it, In it items -> ~ In (fst it) results) ->
  exists bs, readblocks (filelines (concat texts) []) false id block results = Some bs /\
  all_ok (map (fun kb => option_map (fun i => (fst kb, parsetree i)) (exporttree (snd kb))) bs) = Some (map read_as items).
Proof.
  induction items as [|[key [[t sent] comment]] items IH]; intros OK ND.
  - exists []. split; [constructor|]. intros. exists []. split; reflexivity.
  - destruct (OK _ (or_introl eq_refl)) as (K & X & C). cbn [map fst] in ND. inversion ND as [|? ? N1 N2]; subst. destruct IH as (texts & F & R); [intros; apply OK; now right|exact N2|].
    destruct (block_spec t sent X) as (table & G & W & t' & TP & RD). set (lines := bos key comment :: map (join [tab]) table ++ [eos key]) in *.
    exists (text lines :: texts). split; [constructor; auto; cbn; rewrite W; reflexivity|]. intros id block results NI.
    assert (CP : comment_pp comment) by (destruct comment as [c|]; [apply pp_infix; apply C|exact I]). assert (K' := field_fok _ K).
    cbn [concat]. rewrite text_flat by discriminate. rewrite filelines_lines.
    + destruct (readblocks_block key comment table (filelines (concat texts) []) id block results K' CP G (NI _ (or_introl eq_refl))) as (b & CB & EB). unfold lines. rewrite EB.
      destruct (R key (b :: map (join [tab]) table ++ [eos key]) (key :: results)) as (bs & E1 & E2). { intros it Hit [E|H]; [|now apply (NI it (or_intror Hit))]. apply N1. rewrite E. now apply in_map. }
      rewrite E1. cbn [option_map]. eexists. split; [reflexivity|]. cbn [map fst snd all_ok]. rewrite RD. cbn [option_map]. rewrite E2, CB. cbn [option_map]. f_equal. f_equal. cbn [read_as]. f_equal.
      assert (CR : commentread comment = comment_read comment) by (destruct comment as [[|c r]|]; reflexivity). rewrite CR. unfold parsetree. destruct sent as [|w sent].
      * cbn [map]. f_equal. f_equal. destruct t as [a|l ts]; [destruct X|]. destruct X as (PT & LV & _). assert (EN : ts = []). { destruct ts as [|c r]; auto. exfalso. assert (PC := PT c (or_introl eq_refl)). apply Permutation_length in LV. cbn [flat_map] in LV. rewrite app_length in LV. cbn in LV. assert (NE : leaves c <> []). { clear - PC. induction c as [a|l ts IH] using tree_ind'; [inversion PC|]. inversion PC as [? a|? ? NE PP]; subst; [discriminate|]. destruct ts as [|d r]; [contradiction|]. inversion IH as [|? ? H1 H2]; subst. cbn [leaves flat_map]. intros E. apply app_eq_nil in E. destruct E as [E _]. apply H1; auto. apply PP. now left. } destruct (leaves c); [contradiction|]. cbn in LV. lia. }
        subst ts. cbn [rooted map] in *. inversion TP as [|? ? us vs FF PP]; subst. inversion FF; subst. apply Permutation_nil in PP. subst vs. reflexivity.
      * cbn [map]. f_equal. f_equal. symmetry. now apply (rooted_canon t (w :: sent)).
    + intros l [<-|H].
      * unfold bos. apply nonl_app; [intros c D; cbn in D; repeat (destruct D as [<-|D]; [split; discriminate|]); destruct D|]. apply nonl_app; [apply nonl_nows; apply K'|]. destruct comment as [[|c r]|]; try (intros ? []; fail). apply nonl_app; [intros d D; cbn in D; repeat (destruct D as [<-|D]; [split; discriminate|]); destruct D|]. exact (proj1 C).
      * apply in_app_or in H. destruct H as [H|[<-|[]]]; [apply in_map_iff in H; destruct H as (row & <- & H); apply nonl_join; now apply G|]. unfold eos. apply nonl_app; [intros d D; cbn in D; repeat (destruct D as [<-|D]; [split; discriminate|]); destruct D|]. apply nonl_nows; apply K'.
Qed.
Theorem C45_roundtrip : forall items : list sentence, (forall it, In it items -> item_ok it) -> NoDup (map fst items) ->
  exists texts, Forall2 written_as items texts /\ readcorpus (concat texts) = Some (map read_as items).
Proof.
  intros items OK ND. destruct (corpus_blocks items OK ND) as (texts & F & R). exists texts. split; auto. destruct (R [] [] []) as (bs & E1 & E2); [intros ? ? []|]. unfold readcorpus. rewrite E1. exact E2.
Qed.
(** ---- a concrete case: a discontinuous VP, a missing word, a comment ---- *)
Definition ex_src : option source := Some ([], str "3.Sg", str "HD").
Definition ex_tree : etree := Node (str "TOP", None)
  [Node (str "S", None) [Node (str "VP", ex_src) [Node (str "ADV", None) [Leaf 0]; Node (str "VVPP", Some (str "lesen", str "--", str "HD")) [Leaf 2]]; Node (str "VAFIN", ex_src) [Leaf 1]]; Node (str "$[", None) [Leaf 3]].
Definition ex_sent : list (option pystr) := [Some (str "#BOS"); Some (str "is"); None; Some (str "#49")].
Lemma ex_item_ok : item_ok (str "1", (ex_tree, ex_sent, Some (str " a comment "))).
Proof.
  assert (FO : forall s, s <> [] -> forallb (fun c => negb (isspace c)) s = true -> ~ (exists a b, s = a ++ 37%N :: 37%N :: b) -> field_ok s). { intros s A B C. split; auto. split; [intros c D; rewrite forallb_forall in B; apply negb_true_iff; auto|intros a b E; apply C; eauto]. }
  assert (NP : forall s, ~ In 37%N s -> ~ (exists a b, s = a ++ 37%N :: 37%N :: b)). { intros s A (a & b & ->). apply A. apply in_or_app. right. now left. }
  assert (FO' : forall s, s <> [] -> forallb (fun c => negb (isspace c) && negb (N.eqb c 37)) s = true -> field_ok s). { intros s A B. rewrite forallb_forall in B. apply FO; auto. - apply forallb_forall. intros c C. apply B in C. now apply andb_true_iff in C. - apply NP. intros C. apply B in C. discriminate C. }
  split; [apply FO'; [discriminate|reflexivity]|]. split.
  - cbn [exportable ex_tree]. split; [|split; [|split; [|split]]].
    + intros c [<-|[<-|[]]]; [|constructor]. apply pt_node; [discriminate|]. intros d [<-|[<-|[]]]; [|constructor]. apply pt_node; [discriminate|]. intros e [<-|[<-|[]]]; constructor.
    + cbn. apply perm_skip. apply perm_swap.
    + intros l o H. cbn in H. assert (NB : forall s x, existsb (N.eqb x) s = false -> ~ In x s). { intros s x E C. assert (existsb (N.eqb x) s = true) by (apply existsb_exists; exists x; split; [exact C|apply N.eqb_refl]). congruence. }
      assert (LO : forall s, s <> [] -> forallb (fun c => negb (isspace c) && negb (N.eqb c 37)) s = true -> existsb (N.eqb openb) s = false -> existsb (N.eqb closeb) s = false -> label_ok s) by (intros s A B C D; split; auto).
      repeat (destruct H as [H|H]; [injection H as <- <-; split; [apply LO; [discriminate|reflexivity|reflexivity|reflexivity]|cbn; split; [|split]; apply FO'; first [discriminate|reflexivity]]|]). destruct H.
    + intros w H. cbn in H. assert (WO : forall s, s <> [] -> forallb (fun c => negb (isspace c) && negb (N.eqb c 37)) s = true -> nonterminal s = None -> word_ok s). { intros s A B C. split; auto. intros k Hk E. rewrite E in C. replace k with (500 + (k - 500)) in C by lia. rewrite nonterminal_id in C by lia. discriminate. }
      repeat (destruct H as [<-|H]; [apply WO; [discriminate|reflexivity|reflexivity]|]). destruct H.
    + cbn. lia.
  - split; [intros x H; cbn in H; repeat (destruct H as [<-|H]; [split; discriminate|]); destruct H|]. intros a b E. assert (In 37%N (str " a comment ")) by (rewrite E; apply in_or_app; right; now left). cbn in H. repeat (destruct H as [H|H]; [discriminate H|]). exact H.
Qed.
Example ex_corpus : exists s, written_as (str "1", (ex_tree, ex_sent, Some (str " a comment "))) s /\ readcorpus s =
  Some [(str "1", (Node (str "ROOT", None)
    [Node (str "S", Some (str "--", str "--", str "--")) [Node (str "VP", Some (str "--", str "3.Sg", str "HD")) [Node (str "ADV", Some (str "--", str "--", str "--")) [Leaf 0]; Node (str "VVPP", Some (str "lesen", str "--", str "HD")) [Leaf 2]]; Node (str "VAFIN", Some (str "--", str "3.Sg", str "HD")) [Leaf 1]];
     Node (str "$[", Some (str "--", str "--", str "--")) [Leaf 3]], [str "#BOS"; str "is"; str "..."; str "#49"], Some (str "a comment")))].
Proof. eexists. split; reflexivity. Qed.
(** ---- the bounds are needed ---- *)
Fixpoint chain (n : nat) : etree := match n with O => Node (str "T", None) [Leaf 0] | S m => Node (str "X", None) [chain m] end.
Theorem C45_500_phrases : exists s, written_as (str "1", (Node (str "ROOT", None) [chain 501], [Some (str "w")], None)) s /\ readcorpus s = None.
Proof. eexists. split; [vm_compute; reflexivity|vm_compute; reflexivity]. Qed.
(** a word that looks like the identifier of a constituent disappears *)
Theorem C45_word_as_node : exists s, written_as (str "1", (Node (str "ROOT", None) [Node (str "T", None) [Leaf 0]; Node (str "T", None) [Leaf 1]], [Some (str "w"); Some (str "#500")], None)) s /\
  readcorpus s = Some [(str "1", (Node (str "ROOT", None) [Node (str "T", Some (str "--", str "--", str "--")) []; Node (str "T", Some (str "--", str "--", str "--")) [Leaf 0]], [str "w"], None))].
Proof. eexists. split; vm_compute; reflexivity. Qed.
(** '%%' in a word makes the file unreadable *)
Theorem C45_percent : exists s, written_as (str "1", (Node (str "ROOT", None) [Node (str "T", None) [Leaf 0]], [Some (str "100%%")], None)) s /\ readcorpus s = None.
Proof. eexists. split; vm_compute; reflexivity. Qed.
(** the same identifier twice in a corpus is an error *)
Theorem C45_duplicate_key : forall t sent c t' sent' c' key, exportable t sent -> exportable t' sent' -> field_ok key -> comment_ok c -> comment_ok c' ->
  exists s s', written_as (key, (t, sent, c)) s /\ written_as (key, (t', sent', c')) s' /\ readcorpus (s ++ s') = None.
Proof.
  intros t sent c t' sent' c' key X X' K C C'. destruct (block_spec t sent X) as (table & G & W & _). destruct (block_spec t' sent' X') as (table' & G' & W' & _).
  assert (K' := field_fok _ K). assert (CP : comment_pp c) by (destruct c; [apply pp_infix; apply C|exact I]). assert (CP' : comment_pp c') by (destruct c'; [apply pp_infix; apply C'|exact I]).
  eexists. eexists. split; [cbn; rewrite W; reflexivity|]. split; [cbn; rewrite W'; reflexivity|]. rewrite !text_flat by discriminate.
  assert (NL : forall cc tb, comment_ok cc -> (forall r, In r tb -> goodrow r) -> forall l, In l (bos key cc :: map (join [tab]) tb ++ [eos key]) -> nonl l).
  { clear - K'. intros cc tb C G l [<-|H].
    - unfold bos. apply nonl_app; [intros x D; cbn in D; repeat (destruct D as [<-|D]; [split; discriminate|]); destruct D|]. apply nonl_app; [apply nonl_nows; apply K'|]. destruct cc as [[|x r]|]; try (intros ? []; fail). apply nonl_app; [intros d D; cbn in D; repeat (destruct D as [<-|D]; [split; discriminate|]); destruct D|]. exact (proj1 C).
    - apply in_app_or in H. destruct H as [H|[<-|[]]]; [apply in_map_iff in H; destruct H as (row & <- & H); apply nonl_join; now apply G|]. unfold eos. apply nonl_app; [intros d D; cbn in D; repeat (destruct D as [<-|D]; [split; discriminate|]); destruct D|]. apply nonl_nows; apply K'. }
  unfold readcorpus. rewrite filelines_lines by (apply NL; auto). rewrite <- (app_nil_r (flat_map (fun l => l ++ [newline]) (bos key c' :: map (join [tab]) table' ++ [eos key]))). rewrite filelines_lines by (apply NL; auto).
  destruct (readblocks_block key c table (map (fun l => l ++ [newline]) (bos key c' :: map (join [tab]) table' ++ [eos key]) ++ filelines [] []) [] [] [] K' CP G ltac:(intros [])) as (b & _ & ->).
  assert (BAD : forall id block results, In key results -> readblocks (map (fun l => l ++ [newline]) (bos key c' :: map (join [tab]) table' ++ [eos key]) ++ filelines [] []) false id block results = None).
  { intros id block results HI. destruct (bos_line key c' K' CP') as (x & E & X0 & _). cbn [map app readblocks]. rewrite E.
    change (str "#BOS " ++ key ++ x) with (str "#BOS" ++ space :: (key ++ x)). assert (S1 : startswith (str "#BOS" ++ space :: key ++ x) (str "#BOS ") = true) by (change (str "#BOS" ++ space :: key ++ x) with (str "#BOS " ++ (key ++ x)); apply startswith_app). rewrite S1.
    assert (N1 : nows (str "#BOS")) by (intros d D; cbn in D; repeat (destruct D as [<-|D]; [reflexivity|]); destruct D). assert (N2 : nows (str "#EOS")) by (intros d D; cbn in D; repeat (destruct D as [<-|D]; [reflexivity|]); destruct D).
    destruct (split_marker (str "#BOS") key x ltac:(discriminate) N1 K' X0) as (more & ->). rewrite map_app, map_map, <- app_assoc. rewrite readblocks_rows by exact G'. cbn [map app readblocks]. rewrite rstrip_line by (unfold eos; apply lastns_app, lastns_fok; exact K').
    assert (S2 : startswith (eos key) (str "#BOS ") = false) by reflexivity. rewrite S2. unfold eos at 1. rewrite startswith_app. cbn [negb]. destruct (split_marker (str "#EOS") key [] ltac:(discriminate) N2 K' (or_introl eq_refl)) as (m' & Em). rewrite app_nil_r in Em. change (split (eos key)) with (split (str "#EOS" ++ space :: key)). rewrite Em. rewrite eqs_refl. cbn [negb].
    assert (S4 : existsb (eqs key) results = true) by (apply existsb_exists; exists key; split; [exact HI|apply eqs_refl]). rewrite S4. reflexivity. }
  rewrite BAD by now left. reflexivity.
Qed.
