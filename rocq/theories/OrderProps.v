(** C88: reordering a sentence so that its tree is continuous (canonicallyorderedtree). *)
From Coq Require Import String.
From Coq Require Import List Bool Arith NArith Lia Permutation Sorted.
From Verif Require Import PyStr TreeModel BinarizeModel SortProofs TreeProps BinarizeProps TransformModel TransformProps GenModel RrProps OrderModel.
Import ListNotations.
Open Scope list_scope.

(** ** Specification *)
(** a tree with words in place of their positions *)
Fixpoint shown {L W} (none : W) (sent : list W) (t : tree L nat) : tree L W :=
  match t with
  | Leaf a => Leaf (nth a sent none)
  | Node l ts => Node l (map (shown none sent) ts)
  end.
(** the children of every node are in the order of their rightmost words *)
Definition byrightmost {L} (l : L) (ts : list (tree L nat)) : Prop :=
  StronglySorted (fun x y => list_max (leaves x) < list_max (leaves y)) ts.
(** a tree for a sentence: every word has its own preterminal, no node is empty *)
Definition sentencetree {L} (t : tree L nat) (len : nat) : Prop :=
  ptree t /\ NoDup (leaves t) /\ forall a, In a (leaves t) -> a < len.

(** ** Lemmas *)
Section Order.
Context {L W : Type}.
Notation T := (tree L nat).
Variable fn : T -> pystr.

Lemma tperm_sym : forall (s : T), forall t, tperm s t -> tperm t s.
Proof.
  clear. intros s. induction s as [a|l ts IH] using tree_ind'; intros t H; inversion H as [|? ? us vs F P]; subst; [constructor|].
  assert (G : forall X (R : X -> X -> Prop) (a a' : list X), Permutation a a' -> forall b, Forall2 R a b -> exists b', Permutation b b' /\ Forall2 R a' b').
  { clear. intros X R a a' P. induction P as [|x l l' P IH|x y l|l1 l2 l3 P1 IH1 P2 IH2]; intros b F.
    - exists []. inversion F. split; [apply Permutation_refl|constructor].
    - inversion F as [|? y0 ? b0 R0 F0]; subst. destruct (IH _ F0) as (b' & A & B). exists (y0 :: b'). split; [now constructor|now constructor].
    - inversion F as [|? y0 ? b0 R0 F0]; subst. inversion F0 as [|? y1 ? b1 R1 F1]; subst. exists (y1 :: y0 :: b1). split; [constructor|now repeat constructor].
    - destruct (IH1 _ F) as (b' & A & B). destruct (IH2 _ B) as (b'' & C & D). exists b''. split; [eapply perm_trans; eauto|exact D]. }
  assert (F' : Forall2 tperm us ts).
  { clear - IH F. induction F as [|x y ts us Hxy F IH2]; [constructor|]. inversion IH; subst. constructor; auto. }
  destruct (G _ _ _ _ P _ F') as (ts' & A & B). eapply tp_node; [exact B|now apply Permutation_sym].
Qed.
Lemma tperm_trans : forall (s : T), forall t u, tperm s t -> tperm t u -> tperm s u.
Proof.
  clear. intros s. induction s as [a|l ts IH] using tree_ind'; intros t u H H2; inversion H as [|? ? us vs F P]; subst; [exact H2|].
  inversion H2 as [|? ? ws xs F2 P2]; subst.
  assert (G : forall X (R : X -> X -> Prop) (a a' : list X), Permutation a a' -> forall b, Forall2 R a b -> exists b', Permutation b b' /\ Forall2 R a' b').
  { clear. intros X R a a' P. induction P as [|x l l' P IH|x y l|l1 l2 l3 P1 IH1 P2 IH2]; intros b F.
    - exists []. inversion F. split; [apply Permutation_refl|constructor].
    - inversion F as [|? y0 ? b0 R0 F0]; subst. destruct (IH _ F0) as (b' & A & B). exists (y0 :: b'). split; [now constructor|now constructor].
    - inversion F as [|? y0 ? b0 R0 F0]; subst. inversion F0 as [|? y1 ? b1 R1 F1]; subst. exists (y1 :: y0 :: b1). split; [constructor|now repeat constructor].
    - destruct (IH1 _ F) as (b' & A & B). destruct (IH2 _ B) as (b'' & C & D). exists b''. split; [eapply perm_trans; eauto|exact D]. }
  destruct (G _ _ _ _ (Permutation_sym P) _ F2) as (ws' & A & B).
  apply (tp_node l ts ws'); [|eapply perm_trans; [apply Permutation_sym; exact A|exact P2]].
  clear - IH F B. revert ws' B. induction F as [|x y ts us Hxy F IH2]; intros ws B; inversion B; subst; [constructor|]. inversion IH; subst. constructor; eauto.
Qed.

Definition sorts (us : list T) : list T :=
  if (1 <? length us) && (match us with u :: _ => is_node u | [] => false end) then sort (alpino_le fn) us else us.
Lemma sorts_perm : forall us, Permutation us (sorts us).
Proof. intros. unfold sorts. destruct (_ && _); [apply sort_perm|auto]. Qed.
Lemma canon_tperm : forall t, tperm t (canonicalizealpino fn t).
Proof.
  induction t as [a|l ts IH] using tree_ind'; [constructor|]. cbn [canonicalizealpino]. eapply tp_node; [|apply sorts_perm].
  clear - IH. induction IH; cbn; constructor; auto.
Qed.
Lemma canon_ptree : forall t, ptree t -> ptree (canonicalizealpino fn t).
Proof.
  induction t as [a|l ts IH] using tree_ind'; intros H; [inversion H|]. cbn [canonicalizealpino]. fold (sorts (map (canonicalizealpino fn) ts)).
  inversion H as [? a E|? ? NE C]; subst; [apply pt_pre|]. apply pt_node.
  - intros E. pose proof (sorts_perm (map (canonicalizealpino fn) ts)) as P. rewrite E in P. apply Permutation_sym, Permutation_nil in P. now destruct ts.
  - intros c Hc. apply (Permutation_in _ (Permutation_sym (sorts_perm _))) in Hc. apply in_map_iff in Hc. destruct Hc as (x & <- & Hx). rewrite Forall_forall in IH. auto.
Qed.
Lemma alpino_total : forall x y, alpino_le fn x y = true \/ alpino_le fn y x = true.
Proof.
  intros x y. unfold alpino_le. destruct (Nat.lt_trichotomy (last (leaves x) 0) (last (leaves y) 0)) as [A|[A|A]].
  - left. apply Nat.ltb_lt in A. now rewrite A.
  - rewrite A, Nat.ltb_irrefl, Nat.eqb_refl. cbn [orb andb]. destruct (lex_le (leaves x) (leaves y)) eqn:E1, (lex_le (leaves y) (leaves x)) eqn:E2; cbn; auto.
    + destruct (strleb (fn x) (fn y)) eqn:E; [now left|right; now apply strleb_total].
    + destruct (lex_total (leaves x) (leaves y)) as [X|X]; congruence.
  - right. apply Nat.ltb_lt in A. now rewrite A.
Qed.
Lemma alpino_trans : forall x y z, alpino_le fn x y = true -> alpino_le fn y z = true -> alpino_le fn x z = true.
Proof.
  intros x y z. unfold alpino_le. rewrite !orb_true_iff, !andb_true_iff, !orb_true_iff, !negb_true_iff, !Nat.ltb_lt, !Nat.eqb_eq.
  intros [A|(A1 & A2 & A3)] [B|(B1 & B2 & B3)]; try (left; lia). right. split; [lia|]. split; [eapply lex_trans; eauto|].
  destruct (lex_le (leaves z) (leaves x)) eqn:E; [right|now left].
  destruct A3 as [A3|A3].
  - pose proof (lex_trans _ _ _ B2 E) as X. congruence.
  - destruct B3 as [B3|B3]; [pose proof (lex_trans _ _ _ E A2) as X; congruence|]. eapply strleb_trans; eauto.
Qed.
Lemma last_app : forall X (a b : list X) d, b <> [] -> last (a ++ b) d = last b d.
Proof.
  clear. intros X a b d H. induction a as [|x a IH]; [reflexivity|]. cbn [app]. destruct (a ++ b) eqn:E; [apply app_eq_nil in E; tauto|]. exact IH.
Qed.
Lemma last_in : forall X (l : list X) d, l <> [] -> In (last l d) l.
Proof. clear. intros X l d H. induction l as [|x l IH]; [congruence|]. destruct l as [|y l]; [now left|]. right. apply IH. discriminate. Qed.
Lemma max_in : forall l, l <> [] -> In (list_max l) l.
Proof.
  clear. induction l as [|x l IH]; intros H; [congruence|]. cbn [list_max fold_right]. change (fold_right Nat.max 0 l) with (list_max l).
  destruct l as [|y l]; [left; cbn; lia|]. destruct (Nat.max_spec x (list_max (y :: l))) as [[_ E]|[_ E]]; rewrite E; [right; apply IH; discriminate|now left].
Qed.
Lemma max_ge : forall l a, In a l -> a <= list_max l.
Proof. clear. intros l a H. pose proof (proj1 (list_max_le l (list_max l)) (Nat.le_refl _)) as F. rewrite Forall_forall in F. auto. Qed.
Lemma max_perm : forall l m, Permutation l m -> list_max l = list_max m.
Proof.
  clear. intros l m P. apply Nat.le_antisymm; apply list_max_le; rewrite Forall_forall; intros a Ha; apply max_ge; [eapply Permutation_in; [exact P|exact Ha]|].
  eapply Permutation_in; [apply Permutation_sym; exact P|exact Ha].
Qed.
(** distinct words: in the order of the key is in the order of the last words *)
Lemma strict : forall us : list T, (forall c, In c us -> ptree c) -> NoDup (flat_map leaves us) ->
  StronglySorted (fun x y => alpino_le fn x y = true) us -> StronglySorted (fun x y => last (leaves x) 0 < last (leaves y) 0) us.
Proof.
  intros us HP ND S. induction S as [|x us S IH F]; [constructor|]. cbn in ND. constructor.
  - apply IH; [intros; apply HP; now right|]. clear - ND. induction (leaves x) as [|a r IHr]; [exact ND|]. inversion ND; subst. now apply IHr.
  - rewrite Forall_forall in *. intros y Hy. specialize (F y Hy). unfold alpino_le in F.
    rewrite !orb_true_iff, !andb_true_iff, !Nat.ltb_lt, !Nat.eqb_eq in F. destruct F as [F|(F & _)]; [exact F|exfalso].
    pose proof (last_in _ (leaves x) 0 (ptree_leaves x (HP x (or_introl eq_refl)))) as I1.
    pose proof (last_in _ (leaves y) 0 (ptree_leaves y (HP y (or_intror Hy)))) as I2. rewrite <- F in I2.
    remember (last (leaves x) 0) as a. clear - ND I1 I2 Hy. induction (leaves x) as [|b r IHr]; [contradiction|]. cbn in ND. inversion ND as [|? ? N1 N2]; subst.
    destruct I1 as [->|I1]; [|now apply IHr]. apply N1. apply in_or_app. right. apply in_flat_map. eauto.
Qed.
Lemma nodup_children : forall (ts : list T) c, NoDup (flat_map leaves ts) -> In c ts -> NoDup (leaves c).
Proof. intros ts c N H. eapply nodup_child; eauto. Qed.
Lemma canon_ordered : forall t, ptree t -> NoDup (leaves t) ->
  every_node byrightmost (canonicalizealpino fn t) /\ last (leaves (canonicalizealpino fn t)) 0 = list_max (leaves t).
Proof.
  induction t as [a|l ts IH] using tree_ind'; intros H ND; [inversion H|]. inversion H as [? a E|? ? NE C]; subst.
  { cbn. split; [|lia]. split; [|split; exact I]. repeat constructor. }
  rewrite leaves_node in ND. cbn [canonicalizealpino every_node]. rewrite fold_and. fold (sorts (map (canonicalizealpino fn) ts)). rewrite !leaves_node.
  set (us := map (canonicalizealpino fn) ts).
  assert (PU : forall c, In c us -> ptree c) by (intros c Hc; apply in_map_iff in Hc; destruct Hc as (x & <- & Hx); apply canon_ptree; auto).
  assert (PL : Permutation (flat_map leaves ts) (flat_map leaves us)).
  { unfold us. clear. induction ts as [|c ts IH]; [constructor|]. cbn. apply Permutation_app; [apply tperm_leaves, canon_tperm|exact IH]. }
  assert (NU : NoDup (flat_map leaves us)) by (eapply Permutation_NoDup; eauto).
  assert (S : StronglySorted (fun x y => last (leaves x) 0 < last (leaves y) 0) (sorts us)).
  { unfold sorts. destruct (Nat.ltb_spec 1 (length us)) as [G|G].
    - cbn [andb]. destruct us as [|u us'] eqn:EU; [constructor|]. rewrite <- EU in *. assert (IN : is_node u = true).
      { destruct (ptree_isnode u) as (lu & ku & ->); [apply PU; rewrite EU; now left|reflexivity]. }
      rewrite IN. apply strict.
      + intros c Hc. apply sort_In in Hc. auto.
      + eapply Permutation_NoDup; [|exact NU]. apply Permutation_flat_map, sort_perm.
      + apply (sort_sorted (alpino_le fn) alpino_total alpino_trans).
    - cbn [andb]. destruct us as [|u [|v us']]; [constructor|repeat constructor|cbn in G; lia]. }
  assert (M : forall c, In c us -> last (leaves c) 0 = list_max (leaves c)).
  { intros c Hc. apply in_map_iff in Hc. destruct Hc as (x & <- & Hx). rewrite Forall_forall in IH. destruct (IH x Hx (C x Hx)) as [_ E].
    - now apply nodup_children with (ts := ts).
    - rewrite E. apply max_perm, tperm_leaves, canon_tperm. }
  assert (MS : forall c, In c (sorts us) -> last (leaves c) 0 = list_max (leaves c)).
  { intros c Hc. apply M. eapply Permutation_in; [apply Permutation_sym, sorts_perm|exact Hc]. }
  assert (PS : forall c, In c (sorts us) -> ptree c).
  { intros c Hc. apply PU. eapply Permutation_in; [apply Permutation_sym, sorts_perm|exact Hc]. }
  split; [split|].
  - unfold byrightmost. revert S MS. clear. intros S. induction S as [|x vs S IH F]; intros MS; [constructor|]. constructor; [apply IH; intros; apply MS; now right|].
    rewrite Forall_forall in *. intros y Hy. rewrite <- (MS x), <- (MS y) by (try (now left); now right). auto.
  - eapply Permutation_Forall; [apply sorts_perm|]. apply Forall_forall. intros c Hc. apply in_map_iff in Hc. destruct Hc as (x & <- & Hx).
    rewrite Forall_forall in IH. apply IH; auto. now apply nodup_children with (ts := ts).
  - rewrite (max_perm _ _ PL), (max_perm _ _ (Permutation_flat_map leaves (sorts_perm us))).
    assert (NS : sorts us <> []).
    { intros E. pose proof (sorts_perm us) as P. rewrite E in P. apply Permutation_sym, Permutation_nil in P. unfold us in P. now destruct ts. }
    revert S MS PS NS. clear. intros S. induction S as [|x vs S IH F]; intros MS PS NS; [congruence|]. cbn [flat_map]. rewrite list_max_app.
    destruct vs as [|y vs].
    + cbn [flat_map]. rewrite app_nil_r. cbn [list_max fold_right]. rewrite Nat.max_0_r. apply MS. now left.
    + assert (E : last (flat_map leaves (y :: vs)) 0 = list_max (flat_map leaves (y :: vs))).
      { apply IH; [intros; apply MS; now right|intros; apply PS; now right|discriminate]. }
      rewrite last_app.
      * rewrite E. rewrite Nat.max_r; [reflexivity|]. rewrite <- MS by now left. inversion F as [|? ? F1 F2]; subst.
        transitivity (last (leaves y) 0); [lia|]. rewrite MS by (right; now left). cbn [flat_map]. rewrite list_max_app. lia.
      * cbn [flat_map]. intros EE. apply app_eq_nil in EE. apply (ptree_leaves y); [apply PS; right; now left|tauto].
Qed.
Lemma max_tperm : forall s t : T, tperm s t -> list_max (leaves s) = list_max (leaves t).
Proof. intros. now apply max_perm, tperm_leaves. Qed.
(** the order determines the tree *)
Lemma determined : forall s : T, forall t, tperm s t -> every_node byrightmost s -> every_node byrightmost t -> s = t.
Proof.
  clear. intros s. induction s as [a|l ts IH] using tree_ind'; intros t H A B; inversion H as [|? ? us vs F P]; subst; [reflexivity|].
  cbn [every_node] in A, B. rewrite fold_and in A, B. destruct A as [A1 A2], B as [B1 B2]. unfold byrightmost in A1, B1.
  assert (S : StronglySorted (fun x y => list_max (leaves x) < list_max (leaves y)) us).
  { revert A1. clear - F. induction F as [|x y ts us Hxy F IH]; intros S; [constructor|]. inversion S as [|? ? S1 S2]; subst. constructor; [auto|].
    apply Forall_forall. intros z Hz. destruct (Forall2_in_l _ _ (fun a b => tperm b a) us ts z) as (w & Hw & Tw); [clear - F; induction F; constructor; auto|exact Hz|].
    rewrite Forall_forall in S2. specialize (S2 w Hw). now rewrite <- (max_tperm _ _ Hxy), <- (max_tperm _ _ Tw). }
  assert (E : us = vs).
  { eapply sorted_unique; [exact S|exact B1|exact P|]. intros x y _ _ X Y. exfalso. cbn beta in X, Y. clear - X Y. lia. }
  subst vs. f_equal. clear - IH F A2 B2. induction F as [|x y ts us Hxy F IH2]; [reflexivity|]. inversion IH; inversion A2; inversion B2; subst. f_equal; auto.
Qed.

(** numbering *)
Variables (none : W) (sent : list W).
Notation rn := (renumleaves none sent).
Definition gos (first : bool) (ts : list T) (n : nat) : list T * list W * nat :=
  (fix go (first : bool) (ts : list T) (n : nat) : list T * list W * nat :=
         match ts with
         | [] => ([], [], n)
         | Leaf a :: r =>
           if first
           then let '(us, ws, k) := go false r (S n) in (Leaf n :: us, nth a sent none :: ws, k)
           else let '(us, ws, k) := go false r n in (Leaf a :: us, ws, k)
         | c :: r =>
           let '(c', ws, k) := rn c n in
           let '(us, ws', k') := go false r k in (c' :: us, ws ++ ws', k')
         end) first ts n.
Lemma rn_node : forall l ts n, rn (Node l ts) n = let '(us, ws, k) := gos true ts n in (Node l us, ws, k).
Proof. reflexivity. Qed.
Lemma gos_node : forall f l ks r n, gos f (Node l ks :: r) n =
  let '(c', ws, k) := rn (Node l ks) n in let '(us, ws', k') := gos false r k in (c' :: us, ws ++ ws', k').
Proof. reflexivity. Qed.
Lemma shown_ext : forall (t : T) s s', (forall a, In a (leaves t) -> nth a s none = nth a s' none) -> shown none s t = shown none s' t.
Proof.
  clear. induction t as [a|l ts IH] using tree_ind'; intros s s' H; cbn.
  - f_equal. apply H. now left.
  - f_equal. apply map_ext_in. intros c Hc. rewrite Forall_forall in IH. apply IH; auto. intros a Ha. apply H. rewrite leaves_node. apply in_flat_map. eauto.
Qed.
Lemma nth_pad : forall (a b c : list W) i, length a <= i < length a + length b -> nth i (a ++ b ++ c) none = nth (i - length a) b none.
Proof. intros a b c i H. rewrite app_nth2 by lia. rewrite app_nth1 by lia. reflexivity. Qed.
Lemma rn_spec : forall t, ptree t -> forall n (t' : T) ws k, rn t n = (t', ws, k) ->
  k = n + length (leaves t) /\ leaves t' = seq n (length (leaves t)) /\ ws = map (fun a => nth a sent none) (leaves t) /\
  ptree t' /\ forall pre post, length pre = n -> shown none (pre ++ ws ++ post) t' = shown none sent t.
Proof.
  induction t as [a|l ts IH] using tree_ind'; intros H n t' ws k E; [inversion H|]. inversion H as [? a EE|? ? NE C]; subst.
  { cbn in E. injection E as <- <- <-. cbn. repeat split; auto; [lia|constructor|]. intros pre post <-. do 2 f_equal.
    rewrite app_nth2 by lia. now rewrite Nat.sub_diag. }
  rewrite rn_node in E. destruct (gos true ts n) as [[us vs] j] eqn:G. injection E as <- <- <-. rewrite !leaves_node.
  assert (X : forall f (ts : list T), Forall (fun t => ptree t -> forall n (t' : T) ws k, rn t n = (t', ws, k) ->
      k = n + length (leaves t) /\ leaves t' = seq n (length (leaves t)) /\ ws = map (fun a => nth a sent none) (leaves t) /\
      ptree t' /\ forall pre post, length pre = n -> shown none (pre ++ ws ++ post) t' = shown none sent t) ts -> (forall c, In c ts -> ptree c) ->
    forall n us vs j, gos f ts n = (us, vs, j) ->
      j = n + length (flat_map leaves ts) /\ flat_map leaves us = seq n (length (flat_map leaves ts)) /\ vs = map (fun a => nth a sent none) (flat_map leaves ts) /\
      length us = length ts /\ (forall c, In c us -> ptree c) /\
      forall pre post, length pre = n -> map (shown none (pre ++ vs ++ post)) us = map (shown none sent) ts).
  { clear. intros f ts. revert f. induction ts as [|c ts IHts]; intros f F C n us vs j G.
    - cbn in G. injection G as <- <- <-. cbn. repeat split; auto; try lia; contradiction.
    - destruct (ptree_isnode c (C c (or_introl eq_refl))) as (lc & kc & EC). rewrite EC in G. rewrite gos_node, <- EC in G. pose proof (Forall_inv F) as F1. pose proof (Forall_inv_tail F) as F2. cbn beta in F1.
      destruct (rn c n) as [[c' w] k] eqn:Q1. destruct (gos false ts k) as [[us' w'] k'] eqn:Q2. injection G as <- <- <-.
      destruct (F1 (C c (or_introl eq_refl)) n c' w k Q1) as (A1 & A2 & A3 & A4 & A5).
      destruct (IHts false F2 (fun x Hx => C x (or_intror Hx)) k us' w' k' Q2) as (B1 & B2 & B3 & B4 & B5 & B6).
      cbn [flat_map length]. rewrite app_length, map_app. repeat split.
      + lia.
      + rewrite A2, B2, seq_app. now rewrite A1.
      + now rewrite A3, B3.
      + now rewrite B4.
      + intros x [<-|Hx]; auto.
      + intros pre post HL. cbn [map]. f_equal.
        * specialize (A5 pre (w' ++ post) HL). now rewrite <- app_assoc.
        * specialize (B6 (pre ++ w) post). rewrite !app_assoc in *. apply B6. rewrite app_length, A3, map_length. lia. }
  destruct (X true ts IH C n us vs j G) as (A1 & A2 & A3 & A4 & A5 & A6). repeat split; auto.
  - apply pt_node; [|exact A5]. intros ->. destruct ts; [congruence|discriminate].
  - intros pre post HL. cbn [shown]. f_equal. now apply A6.
Qed.
End Order.

(** ** C88 *)
(** The words keep their part-of-speech tags and constituents: the new tree and
    the new sentence show the same tree of words as the old ones, except that
    children are reordered, by their rightmost words.  The new tree has the
    words 0, 1, ... in this order; words that are not in the tree are lost. *)
Theorem C88_reordered : forall L W fn (none : W) (t : tree L nat) sent t' sent',
  sentencetree t (length sent) -> canonicallyorderedtree fn none t sent = (t', sent') ->
  exists s, tperm t s /\ every_node byrightmost s /\
    shown none sent' t' = shown none sent s /\
    leaves t' = seq 0 (length (leaves t)) /\ length sent' = length sent /\
    sent' = map (fun a => nth a sent none) (leaves s) ++ repeat none (length sent - length (leaves t)).
Proof.
  intros L W fn none t sent t' sent' (HP & ND & HB) E. unfold canonicallyorderedtree in E.
  destruct (renumleaves none sent (canonicalizealpino fn t) 0) as [[u ws] n] eqn:Q. injection E as <- <-.
  pose proof (canon_tperm fn t) as TP. destruct (canon_ordered fn t HP ND) as [CO _].
  destruct (rn_spec none sent _ (canon_ptree fn t HP) 0 u ws n Q) as (A1 & A2 & A3 & A4 & A5).
  pose proof (Permutation_length (tperm_leaves _ _ _ _ TP)) as LE.
  assert (LS : length (leaves t) <= length sent).
  { pose proof (NoDup_incl_length ND (l' := seq 0 (length sent))) as X. rewrite seq_length in X. apply X. intros a Ha. apply in_seq. specialize (HB a Ha). lia. }
  exists (canonicalizealpino fn t). repeat split; auto.
  - specialize (A5 [] (repeat none (length sent - length ws)) eq_refl). exact A5.
  - now rewrite A2, LE.
  - rewrite app_length, repeat_length, A3, map_length. lia.
  - rewrite A3 at 1. do 2 f_equal. rewrite A3, map_length. lia.
Qed.

(** When every word is in the tree, the new sentence is a permutation of the old one. *)
Corollary C88_words : forall L W fn (none : W) (t : tree L nat) sent t' sent',
  ptree t -> Permutation (leaves t) (seq 0 (length sent)) -> canonicallyorderedtree fn none t sent = (t', sent') ->
  Permutation sent sent' /\ leaves t' = seq 0 (length sent').
Proof.
  intros L W fn none t sent t' sent' HP P E. assert (LE : length (leaves t) = length sent) by (rewrite (Permutation_length P); apply seq_length).
  destruct (C88_reordered L W fn none t sent t' sent') as (s & TP & _ & _ & A & B & C); auto.
  - split; [exact HP|]. split; [eapply Permutation_NoDup; [apply Permutation_sym; exact P|apply seq_NoDup]|]. intros a Ha. apply (Permutation_in _ P), in_seq in Ha. lia.
  - split; [|now rewrite A, B, LE]. rewrite C, LE, Nat.sub_diag. cbn [repeat]. rewrite app_nil_r.
    assert (X : sent = map (fun a => nth a sent none) (seq 0 (length sent))).
    { clear. induction sent as [|w sent IH]; [reflexivity|]. cbn [length seq map nth]. f_equal. rewrite <- seq_shift, map_map. exact IH. }
    rewrite X at 1. apply Permutation_map. eapply perm_trans; [apply Permutation_sym; exact P|now apply tperm_leaves].
Qed.

(** Every constituent of the new tree is a contiguous part of the sentence. *)
Corollary C88_continuous : forall L W fn (none : W) (t : tree L nat) sent t' sent',
  sentencetree t (length sent) -> canonicallyorderedtree fn none t sent = (t', sent') ->
  forall l ls, In (l, ls) (constituents t') -> exists a, ls = seq a (length ls).
Proof.
  intros L W fn none t sent t' sent' HS E. destruct (C88_reordered L W fn none t sent t' sent' HS E) as (s & _ & _ & _ & A & _).
  assert (X : forall (u : tree L nat) a k, leaves u = seq a k -> forall l ls, In (l, ls) (constituents u) -> exists b, ls = seq b (length ls)).
  { clear. induction u as [x|l ts IH] using tree_ind'; intros a k E m ls H; [contradiction|]. cbn [constituents] in H. destruct H as [H|H].
    - rewrite leaves_node in E. injection H as <- <-. exists a. change (flat_map leaves ts = seq a (length (flat_map leaves ts))). rewrite E at 1. f_equal. now rewrite E, seq_length.
    - apply in_flat_map in H. destruct H as (c & Hc & H). rewrite leaves_node in E. revert a k E. induction ts as [|d ts IH2]; intros a k E; [contradiction|].
      cbn in E. assert (Y : leaves d = seq a (length (leaves d)) /\ flat_map leaves ts = seq (a + length (leaves d)) (length (flat_map leaves ts))).
      { clear - E. revert a k E. induction (leaves d) as [|x r IHr]; intros a k E; cbn in *.
        - split; [reflexivity|]. rewrite Nat.add_0_r, E. f_equal. now rewrite seq_length.
        - destruct k as [|k]; [discriminate|]. cbn in E. injection E as -> E. destruct (IHr _ _ E) as [P1 P2]. split; [now f_equal|]. rewrite P2 at 1. f_equal. lia. }
      destruct Y as [Y1 Y2]. inversion IH as [|? ? I1 I2]; subst. destruct Hc as [->|Hc]; [eapply I1; eauto|]. eapply IH2; eauto. }
  intros l ls H. eapply X; eauto.
Qed.

(** The result depends only on the tree up to the order of its children. *)
Theorem C88_normal_form : forall L W fn (none : W) (s t : tree L nat) sent, tperm s t -> ptree s -> ptree t -> NoDup (leaves s) ->
  canonicallyorderedtree fn none s sent = canonicallyorderedtree fn none t sent.
Proof.
  intros L W fn none s t sent TP PS PT ND. unfold canonicallyorderedtree. f_equal.
  assert (E : canonicalizealpino fn s = canonicalizealpino fn t); [|now rewrite E].
  assert (ND' : NoDup (leaves t)) by (eapply Permutation_NoDup; [apply tperm_leaves; exact TP|exact ND]).
  apply determined; [|now apply canon_ordered|now apply canon_ordered].
  eapply tperm_trans; [apply tperm_sym, canon_tperm|]. eapply tperm_trans; [exact TP|apply canon_tperm].
Qed.

(** A tree whose words are in their order is not changed. *)
Theorem C88_unchanged : forall L W fn (none : W) (t : tree L nat) sent, ptree t -> leaves t = seq 0 (length sent) ->
  canonicallyorderedtree fn none t sent = (t, sent).
Proof.
  intros L W fn none t sent HP HL.
  assert (ND : NoDup (leaves t)) by (rewrite HL; apply seq_NoDup).
  assert (O : every_node byrightmost t).
  { assert (X : forall (u : tree L nat), ptree u -> StronglySorted lt (leaves u) -> every_node byrightmost u).
    { clear. induction u as [a|l ts IH] using tree_ind'; intros H S; [exact I|]. inversion H as [? a E|? ? NE C]; subst; [cbn; repeat constructor|].
      cbn [every_node]. rewrite fold_and. rewrite leaves_node in S. clear H NE. unfold byrightmost. induction ts as [|c ts IH2]; [split; constructor|].
      inversion IH as [|? ? I1 I2]; subst. cbn in S.
      assert (Y : StronglySorted lt (leaves c) /\ StronglySorted lt (flat_map leaves ts) /\ forall a b, In a (leaves c) -> In b (flat_map leaves ts) -> a < b).
      { clear - S. induction (leaves c) as [|x r IHr]; [repeat split; [constructor|exact S|contradiction]|]. cbn in S. inversion S as [|? ? S1 S2]; subst.
        destruct (IHr S1) as (A & B & D). rewrite Forall_forall in S2. split; [constructor; [exact A|apply Forall_forall; intros; apply S2; apply in_or_app; now left]|].
        split; [exact B|]. intros a b [<-|Ha] Hb; [apply S2; apply in_or_app; now right|auto]. }
      destruct Y as (Y1 & Y2 & Y3). destruct (IH2 I2 Y2 (fun x Hx => C x (or_intror Hx))) as [Z1 Z2]. split.
      - constructor; [exact Z1|]. apply Forall_forall. intros y Hy. apply Y3; [apply max_in, ptree_leaves, C; now left|].
        apply in_flat_map. exists y. split; [exact Hy|apply max_in, ptree_leaves, C; now right].
      - constructor; [apply I1; [apply C; now left|exact Y1]|exact Z2]. }
    apply X; [exact HP|]. rewrite HL. clear. generalize 0. induction (length sent) as [|k IH]; intros a; [constructor|]. cbn. constructor; [apply IH|].
    apply Forall_forall. intros x Hx. apply in_seq in Hx. lia. }
  assert (E : canonicalizealpino fn t = t).
  { symmetry. apply determined; [apply canon_tperm|exact O|now apply canon_ordered]. }
  assert (SH : forall (u u' : tree L nat), ptree u -> ptree u' -> shown tt [] u = shown tt [] u' -> leaves u = leaves u' -> u = u').
  { clear. induction u as [a|l ts IH] using tree_ind'; intros u' H H' S EL; [inversion H|]. destruct u' as [a'|l' ts']; [inversion H'|].
    cbn in S. injection S as -> S. rewrite !leaves_node in EL. f_equal.
    assert (G : forall ts, Forall (fun t => forall u' : tree L nat, ptree t -> ptree u' -> shown tt [] t = shown tt [] u' -> leaves t = leaves u' -> t = u') ts ->
       forall ts', (forall c, In c ts -> ptree c) -> (forall c, In c ts' -> ptree c) -> map (shown tt []) ts = map (shown tt []) ts' -> flat_map leaves ts = flat_map leaves ts' -> ts = ts').
    { clear. intros ts F. induction F as [|x ts Hx F IH]; intros [|y ts'] C C' S E; try discriminate; [reflexivity|]. cbn in S, E. injection S as S1 S2.
      assert (LX : length (leaves x) = length (leaves y)).
      { clear - S1. revert y S1. induction x as [a|l ts IH] using tree_ind'; intros [b|m us] S; try discriminate; [reflexivity|]. cbn in S. injection S as _ S. rewrite !leaves_node.
        revert us S. induction ts as [|c ts IH2]; intros [|d us] S; try discriminate; [reflexivity|]. cbn in S. injection S as S1 S2. inversion IH; subst. cbn. rewrite !app_length. f_equal; auto. }
      assert (EX : leaves x = leaves y /\ flat_map leaves ts = flat_map leaves ts').
      { revert LX E. generalize (flat_map leaves ts) (flat_map leaves ts') (leaves x) (leaves y). clear. intros p q a. induction a as [|z a IH]; intros [|w b] LX E; try discriminate; [split; auto|].
        cbn in *. injection E as -> E. destruct (IH b) as [A B]; auto. subst. auto. }
      destruct EX as [E1 E2]. f_equal; [apply Hx; auto; [apply C; now left|apply C'; now left]|]. apply IH; auto; intros; [apply C|apply C']; now right. }
    inversion H as [? a EE|? ? NE C]; subst.
    - destruct ts' as [|d ts']; [discriminate|]. cbn in S. injection S as S1 S2. destruct d as [b|]; [|discriminate]. destruct ts'; [|discriminate]. cbn in EL. congruence.
    - inversion H' as [? a EE|? ? NE' C']; subst.
      + destruct ts as [|d ts]; [congruence|]. destruct (ptree_isnode d (C d (or_introl eq_refl))) as (ld & kd & ->). discriminate.
      + exact (G ts IH ts' C C' S EL). }
  unfold canonicallyorderedtree. rewrite E. destruct (renumleaves none sent t 0) as [[u ws] n] eqn:Q.
  destruct (rn_spec none sent t HP 0 u ws n Q) as (A1 & A2 & A3 & A4 & A5).
  assert (WS : ws = sent).
  { rewrite A3, HL. clear. induction sent as [|w sent IH]; [reflexivity|]. cbn [length seq map nth]. f_equal. rewrite <- seq_shift, map_map. exact IH. }
  subst ws. rewrite WS, Nat.sub_diag. cbn [repeat]. rewrite app_nil_r. f_equal.
  assert (EL : leaves u = leaves t) by (rewrite A2, HL, seq_length; reflexivity).
  apply SH; auto.
  assert (FG : forall v : tree L nat, shown tt [] v = (fix m (v : tree L W) : tree L unit := match v with Leaf _ => Leaf tt | Node l ts => Node l (map m ts) end) (shown none sent v)).
  { clear. induction v as [a|l ts IH] using tree_ind'; cbn; [now destruct a|]. f_equal. rewrite map_map. apply map_ext_in. intros c Hc. rewrite Forall_forall in IH. auto. }
  rewrite !FG. f_equal. specialize (A5 [] [] eq_refl). rewrite WS in A5. cbn [app] in A5. rewrite app_nil_r in A5. exact A5.
Qed.
(** Reordering twice is reordering once. *)
Corollary C88_idempotent : forall L W fn (none : W) (t : tree L nat) sent t' sent',
  ptree t -> Permutation (leaves t) (seq 0 (length sent)) -> canonicallyorderedtree fn none t sent = (t', sent') ->
  canonicallyorderedtree fn none t' sent' = (t', sent').
Proof.
  intros L W fn none t sent t' sent' HP P E. destruct (C88_words L W fn none t sent t' sent' HP P E) as [_ H]. apply C88_unchanged; [|exact H].
  unfold canonicallyorderedtree in E. destruct (renumleaves none sent (canonicalizealpino fn t) 0) as [[u ws] n] eqn:Q. injection E as <- _.
  now destruct (rn_spec none sent _ (canon_ptree fn t HP) 0 u ws n Q) as (_ & _ & _ & A4 & _).
Qed.

(** the example of the documentation: [inf] comes after [kunnen] because its last
    word does; a word that is not in the tree is lost *)
Definition order_ex : tree pystr nat :=
  Node (str "smain") [Node (str "noun") [Leaf 0]; Node (str "inf") [Node (str "inf") [Node (str "np") [Node (str "noun") [Leaf 4]; Node (str "det") [Leaf 2]]; Node (str "verb") [Leaf 6]];
    Node (str "verb") [Leaf 5]]; Node (str "verb") [Leaf 1]].
Definition order_sent : list pystr := map str ["Het"; "had"; "een"; ","; "dag"; "kunnen"; "zijn"]%string.
Example C88_example : sentencetree order_ex (length order_sent) /\ canonicallyorderedtree (fun _ => []) [] order_ex order_sent =
  (Node (str "smain") [Node (str "noun") [Leaf 0]; Node (str "verb") [Leaf 1]; Node (str "inf") [Node (str "verb") [Leaf 2]; Node (str "inf")
     [Node (str "np") [Node (str "det") [Leaf 3]; Node (str "noun") [Leaf 4]]; Node (str "verb") [Leaf 5]]]],
   map str ["Het"; "had"; "kunnen"; "een"; "dag"; "zijn"; ""]%string).
Proof.
  split; [|vm_compute; reflexivity]. split; [|split].
  - repeat (apply pt_node; [discriminate|]; intros c Hc; repeat (destruct Hc as [<-|Hc]; [try apply pt_pre|]); try contradiction).
    all: repeat (apply pt_node; [discriminate|]; intros c Hc2; repeat (destruct Hc2 as [<-|Hc2]; [try apply pt_pre|]); try contradiction).
    all: repeat (apply pt_node; [discriminate|]; intros c Hc3; repeat (destruct Hc3 as [<-|Hc3]; [try apply pt_pre|]); try contradiction).
  - repeat constructor; cbn; intuition discriminate.
  - cbn. intuition lia.
Qed.
