(** C41: the chart made by the CKY parser contains exactly the edges of the
    derivations of the sentence, and the best probabilities *)
From Coq Require Import List Bool Arith NArith ZArith Lia.
From Verif Require Import CkyModel CkySpec CkyProofs CkyProofs3 CkyProofs4.
Import ListNotations.
Open Scope list_scope.
Open Scope nat_scope.

Section C41.
Variables (rules : list rule) (nts : nat) (mask : nat -> bool) (prio : chart -> nat -> item -> option N).
Variables (lexrules : nat -> list (nat * N)) (tag : nat -> option (nat -> bool)) (lexicallhs : list nat) (n : nat).
Notation parse := (parse rules nts mask prio lexrules tag lexicallhs).
Notation derives := (derives rules mask lexrules tag lexicallhs).
Notation derivable := (derivable rules mask lexrules tag lexicallhs).
Notation best := (best rules mask lexrules tag lexicallhs).
Notation valid_edge := (valid_edge rules mask lexrules tag lexicallhs).
Notation tagged := (tagged lexrules tag lexicallhs).

(** The parser ends, whatever the grammar, the sentence and the order in which
    the unary rules are tried; it reports failure iff a word has no tag. *)
Theorem C41_terminates : (forall r, In r rules -> 1 <= lhs r < nts) ->
  exists F ok ch, (forall fuel, F <= fuel -> parse fuel n = Some (ok, ch)) /\ (ok = true <-> forall i, i < n -> exists x c, tagged i x c).
Proof.
  intros HL. destruct (parse_total rules nts mask prio lexrules tag lexicallhs HL n) as (F & b & ch & H1 & H2 & _). eauto.
Qed.
Lemma parse_inv : (forall r, In r rules -> 1 <= lhs r < nts) -> forall fuel ch, parse fuel n = Some (true, ch) -> exists m, inv rules mask lexrules tag lexicallhs n (all_done n) (ch, m).
Proof.
  intros HL fuel ch E. destruct (parse_total rules nts mask prio lexrules tag lexicallhs HL n) as (F & b & ch' & H1 & _ & H2). specialize (H1 (F + fuel) ltac:(lia)). apply (parse_fuel _ _ _ _ _ _ _ _ (F + fuel)) in E; [|lia]. rewrite H1 in E. injection E as -> ->. auto.
Qed.
(** The probability of an item is that of its best derivation; items that are
    not derivable are not in the chart. *)
Theorem C41_viterbi : (forall r, In r rules -> 1 <= lhs r < nts) -> forall fuel ch, parse fuel n = Some (true, ch) ->
  forall i j x, i < j <= n -> (forall p, prob ch (i, j, x) = Some p <-> best i j x p) /\ (prob ch (i, j, x) = None <-> ~ derivable i j x).
Proof.
  intros HL fuel ch E i j x IJ. destruct (parse_inv HL fuel ch E) as (m & I). assert (CO := inv_complete _ _ _ _ _ _ _ _ I). assert (SO := i_sound _ _ _ _ _ _ _ _ I). cbn [fst] in SO. split.
  - intros p. split.
    + intros P. split; [auto|]. intros c D. destruct (CO _ _ _ _ D) as (q & Q1 & Q2); [lia|]. congruence.
    + intros [D1 D2]. destruct (CO _ _ _ _ D1) as (q & Q1 & Q2); [lia|]. rewrite Q1. f_equal. specialize (D2 q (SO _ _ _ _ Q1)). lia.
  - split.
    + intros P (c & D). destruct (CO _ _ _ _ D) as (q & Q1 & Q2); [lia|]. congruence.
    + intros D. destruct (prob ch (i, j, x)) as [p|] eqn:P; auto. exfalso. apply D. exists p. auto.
Qed.
(** The edges of the chart are those of the derivations. *)
Theorem C41_edges : (forall r, In r rules -> 1 <= lhs r < nts) -> forall fuel ch, parse fuel n = Some (true, ch) ->
  forall i j x e, i < j <= n -> In e (edges ch (i, j, x)) <-> valid_edge i j x e.
Proof. intros HL fuel ch E i j x e IJ. destruct (parse_inv HL fuel ch E) as (m & I). now apply (inv_edges _ _ _ _ _ _ _ _ I). Qed.
(** Nothing is recorded outside of the sentence. *)
Theorem C41_inside : (forall r, In r rules -> 1 <= lhs r < nts) -> forall fuel ch, parse fuel n = Some (true, ch) ->
  forall i j x, ~ i < j <= n -> prob ch (i, j, x) = None /\ edges ch (i, j, x) = [].
Proof. intros HL fuel ch E i j x IJ. destruct (parse_inv HL fuel ch E) as (m & I). exact (i_empty _ _ _ _ _ _ _ _ I i j x IJ). Qed.
(** The list of items has each item with a finite probability once; this also
    holds when a word has no tags. *)
Theorem C41_items : forall fuel ok ch, parse fuel n = Some (ok, ch) -> NoDup (items ch) /\ forall it, In it (items ch) <-> prob ch it <> None.
Proof.
  intros fuel ok ch E. refine (parse_pres rules nts mask prio lexrules tag lexicallhs items_ok _ _ fuel n ok ch _ E).
  - intros. now apply items_ok_update.
  - intros c it k r H. exact H.
  - split; [constructor|]. intros it. cbn. split; [intros []|congruence].
Qed.
End C41.
(** In the sparse chart no edge occurs twice. *)
Theorem C41_no_duplicates_sparse : forall rules nts mask lexrules tag lexicallhs n fuel ch,
  (forall r, In r rules -> 1 <= lhs r < nts) -> NoDup rules -> (forall i, NoDup (map fst (lexrules i))) -> NoDup lexicallhs ->
  parse rules nts mask sparseprio lexrules tag lexicallhs fuel n = Some (true, ch) -> forall it, NoDup (edges ch it).
Proof. intros. eapply parse_once; eauto. Qed.

(** In the dense chart a unary edge can occur twice: 750 gives the position of
    the item in the list to subtreeprob, which takes it for the item, so that the
    agenda is in the wrong order and a label can be taken from it twice. *)
Definition dup_rules : list rule := [Rule 1 2 0 0 0; Rule 3 1 0 1 1].
Definition dup_lex (i : nat) : list (nat * N) := [(2, 1%N); (1, 5%N)].
Theorem C41_duplicates_refuted_dense : exists ch, parse dup_rules 4 (fun _ => false) (denseprio 1 4) dup_lex (fun _ => None) [] 10 1 = Some (true, ch) /\
  edges ch (0, 1, 3) = [(Some (Rule 3 1 0 1 1), 1); (Some (Rule 3 1 0 1 1), 1)].
Proof. eexists. split; [vm_compute; reflexivity|vm_compute; reflexivity]. Qed.
Example dup_rules_ok : (forall r, In r dup_rules -> 1 <= lhs r < 4) /\ NoDup dup_rules /\ (forall i, NoDup (map fst (dup_lex i))).
Proof.
  split; [|split].
  - intros r [<-|[<-|[]]]; cbn; lia.
  - repeat constructor; cbn; intuition discriminate.
  - intros i. cbn. repeat constructor; cbn; intuition discriminate.
Qed.
Example dup_sparse : exists ch, parse dup_rules 4 (fun _ => false) sparseprio dup_lex (fun _ => None) [] 10 1 = Some (true, ch) /\
  edges ch (0, 1, 3) = [(Some (Rule 3 1 0 1 1), 1)] /\ prob ch (0, 1, 3) = Some 2%N.
Proof. eexists. split; [vm_compute; reflexivity|split; vm_compute; reflexivity]. Qed.

(** parse_leftchildloop, the variant that is used with a whitelist, is not
    sound: 570 tests only the end position of the items of the left cell.  When
    the cells (1,3) and (2,4) are empty, the items of (0,3) are taken for items
    of (1,3).  Grammar: 5 -> 1 2, 6 -> 5 3, 7 -> 6 4, 8 -> 1 7 (start symbol 8);
    the sentence consists of words with tags 1 2 3 4. *)
Definition left_rules : list rule := [Rule 5 1 2 1 0; Rule 6 5 3 1 1; Rule 7 6 4 1 2; Rule 8 1 7 1 3].
Definition left_lex (i : nat) : list (nat * N) := [(i + 1, 1%N)].
Theorem C41_leftchild_refuted : exists ch, parse_left left_rules (fun _ => false) left_lex (fun _ => None) [] 10 4 = Some (true, ch) /\
  prob ch (0, 4, 8) = Some 9%N /\ ~ CkySpec.derivable left_rules (fun _ => false) left_lex (fun _ => None) [] 0 4 8.
Proof.
  eexists. split; [vm_compute; reflexivity|]. split; [vm_compute; reflexivity|].
  destruct (parse left_rules 9 (fun _ => false) sparseprio left_lex (fun _ => None) [] 10 4) as [[b ch]|] eqn:E; [|vm_compute in E; discriminate E].
  assert (EB : b = true /\ prob ch (0, 4, 8) = None) by (vm_compute in E; injection E as <- <-; split; vm_compute; reflexivity). destruct EB as [-> P].
  apply (C41_viterbi left_rules 9 (fun _ => false) sparseprio left_lex (fun _ => None) [] 4) with (i := 0) (j := 4) (x := 8) in E; [|intros r [<-|[<-|[<-|[<-|[]]]]]; cbn; lia|lia]. now apply E.
Qed.

(** ---- an example: an ambiguous grammar with a unary cycle ----
    1: start, 2: NP, 3: N, 4: X.  1 -> 2 2 | 1 2; 2 -> 3; 3 -> 2; words are 3 *)
Definition ex_rules : list rule := [Rule 1 2 2 3 0; Rule 1 1 2 1 1; Rule 2 3 0 2 2; Rule 3 2 0 0 3; Rule 4 1 0 7 4].
Definition ex_lex (i : nat) : list (nat * N) := match i with 1 => [(3, 2%N); (2, 1%N)] | _ => [(3, 2%N)] end.
Example ex_parse : exists ch, parse ex_rules 5 (fun r => r =? 4) sparseprio ex_lex (fun _ => None) [3] 20 3 = Some (true, ch) /\
  prob ch (0, 3, 1) = Some 13%N /\ edges ch (0, 3, 1) = [(Some (Rule 1 1 2 1 1), 2)] /\ prob ch (0, 3, 4) = None /\ prob ch (1, 2, 3) = Some 1%N /\
  edges ch (1, 2, 2) = [(None, 2); (Some (Rule 2 3 0 2 2), 2)].
Proof. eexists. split; [vm_compute; reflexivity|repeat split; vm_compute; reflexivity]. Qed.
(** gold tags: only matching labels; if the lexicon has none, all matching ones *)
Example ex_tags : wordtags ex_lex (fun i => Some (fun x => x =? (if i =? 0 then 4 else 2))) [3; 4; 2] 1 = [(2, 1%N)] /\
  wordtags ex_lex (fun i => Some (fun x => x =? (if i =? 0 then 4 else 2))) [3; 4; 2] 0 = [(4, 0%N)].
Proof. split; reflexivity. Qed.
Example ex_fail : exists ch, parse ex_rules 5 (fun _ => false) sparseprio (fun _ => []) (fun _ => None) [] 20 3 = Some (false, ch).
Proof. eexists. vm_compute. reflexivity. Qed.
