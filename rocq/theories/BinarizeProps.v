(** Binarization and collapsing of unary productions.

    C20 binarize keeps the terminals and makes the tree binary
    C21 unbinarize undoes binarize
    C24 collapseunary
    C36 factorconstituent *)
From Coq Require Import String.
From Coq Require Import List Bool Arith NArith Lia.
From Verif Require Import PyStr TreeModel BracketModel BinarizeModel.
Import ListNotations.
Open Scope list_scope.

(** ---- specification vocabulary ---- *)
(** a property of every node (its label and its list of children) *)
Fixpoint every_node {L A} (P : L -> list (tree L A) -> Prop) (t : tree L A) : Prop :=
  match t with Leaf _ => True | Node l ts => P l ts /\ fold_right (fun c r => every_node P c /\ r) True ts end.
Definition occurs (p w : pystr) : Prop := exists l r, w = l ++ p ++ r.
(** labels that do not contain the markers of binarize *)
Definition plain_label (eu : bool) (l : pystr) : Prop :=
  ~ occurs (str "|<") l /\ ~ occurs (str "^<") l /\ (eu = true -> ~ In 43%N l).

Lemma fold_and : forall T (P : T -> Prop) l, fold_right (fun c r => P c /\ r) True l <-> Forall P l.
Proof.
  induction l as [|x l IH]; cbn; split; auto.
  - intros [H1 H2]. constructor; [auto|now apply IH].
  - intros H. inversion H; subst. split; auto. now apply IH.
Qed.
Lemma every_node_impl : forall L A (P Q : L -> list (tree L A) -> Prop) t, (forall l ts, P l ts -> Q l ts) -> every_node P t -> every_node Q t.
Proof.
  intros L A P Q t H. induction t as [a|l ts IH] using tree_ind'; [auto|]. cbn. rewrite !fold_and. intros [H1 H2]. split; auto.
  rewrite Forall_forall in *. auto.
Qed.

(** ---- the factorization keeps the list of children ---- *)
Section Keep.
Context {B : Type}.
Variable o : opts.
Variables (origlabel parents : pystr) (headidx : option nat) (childlabels : list pystr) (n : nat).
(** any way of reading off a list from the nodes that looks through artificial ones *)
Variable read : btree -> list B.
Variable art : pystr -> Prop.
Hypothesis Hread : forall l ts, art l -> read (Node (l, false) ts) = flat_map read ts.
Hypothesis Hmid : forall right i, i + (if rightmostunary o then 0 else 1) < n -> art (midlabel o origlabel parents headidx childlabels n right i).
Hypothesis Hswitch : forall right i, art (switchlabel o origlabel parents headidx childlabels n right i).
Hypothesis Hfirst : forall right, art (firstlabel o origlabel parents headidx childlabels n right).
Hypothesis Hsmall : forall ts, art (smallmark o origlabel parents headidx ts).
Lemma loop_keep : forall k i right cs, k < length cs -> i + k + (if rightmostunary o then 0 else 1) <= n ->
  flat_map read (factorloop o origlabel parents headidx childlabels n k i right cs) = flat_map read cs.
Proof.
  induction k as [|k IH]; intros i right cs H Hn; [reflexivity|]. cbn [factorloop].
  assert (G : forall right' cs', k < length cs' ->
     flat_map read (if isheadidx o headidx i && direction o && negb (i + 1 =? n)
       then [Node (switchlabel o origlabel parents headidx childlabels n right i, false)
                (factorloop o origlabel parents headidx childlabels n k (i + 1) right' cs')]
       else factorloop o origlabel parents headidx childlabels n k (i + 1) right' cs') = flat_map read cs').
  { intros right' cs' Hc. destruct (isheadidx o headidx i && direction o && negb (i + 1 =? n)).
    - cbn [flat_map]. rewrite Hread by auto. rewrite app_nil_r. apply IH; auto. lia.
    - apply IH; auto. lia. }
  destruct right.
  - destruct cs as [|c cs]; [cbn in H; lia|]. cbn [flat_map]. rewrite app_nil_r, Hread by (apply Hmid; lia). f_equal. apply G. cbn in H. lia.
  - cbn [flat_map]. rewrite app_nil_r, Hread by (apply Hmid; lia). rewrite G.
    + transitivity (flat_map read (removelast cs ++ [last cs (Leaf 0)])).
      * rewrite flat_map_app. cbn [flat_map]. now rewrite app_nil_r.
      * rewrite <- app_removelast_last by (destruct cs; [cbn in H; lia|discriminate]). reflexivity.
    + assert (L : length cs = length (removelast cs) + 1).
      { rewrite (app_removelast_last (l := cs) (Leaf 0)) at 1 by (destruct cs; [cbn in H; lia|discriminate]). now rewrite app_length. }
      lia.
Qed.
Lemma factorize_keep : forall ts0 ts, length ts = n ->
  flat_map read (factorize o origlabel parents headidx childlabels n ts0 ts) = flat_map read ts.
Proof.
  intros ts0 ts HL. unfold factorize. destruct (n <=? threshold o); [reflexivity|]. destruct (n <=? 2) eqn:E2.
  - destruct (oright o).
    + rewrite flat_map_app. cbn [flat_map]. rewrite Hread by auto. rewrite app_nil_r, <- flat_map_app. now rewrite firstn_skipn.
    + cbn [flat_map]. rewrite Hread by auto. rewrite <- flat_map_app. now rewrite firstn_skipn.
  - apply Nat.leb_gt in E2. set (right := if isheadidx o headidx 0 then negb (oright o) else oright o).
    assert (LK : flat_map read (factorloop o origlabel parents headidx childlabels n (n - 1 - (if rightmostunary o then 0 else 1)) 1 right ts) = flat_map read ts).
    { apply loop_keep; destruct (rightmostunary o); lia. }
    destruct (leftmostunary o); [|exact LK]. cbn [flat_map]. rewrite Hread by auto. now rewrite app_nil_r.
Qed.
End Keep.

(** ---- C20 ---- *)
Theorem C20_yield : forall o t, leaves (binarize o t) = leaves t.
Proof.
  intros o t. unfold binarize. generalize true as root, [labelof t] as parent.
  induction t as [a|l ts IH] using tree_ind'; intros root parent; [reflexivity|]. destruct l as [l h].
  cbn [bin leaves]. rewrite (factorize_keep o _ _ _ _ _ leaves (fun _ => True)); auto; [|apply map_length].
  rewrite flat_map_concat_map, map_map, (flat_map_concat_map leaves). f_equal. apply map_ext_in. intros c Hc.
  rewrite Forall_forall in IH. now apply IH.
Qed.
Definition atmost {L A} (m : nat) : tree L A -> Prop := every_node (fun _ ts => length ts <= m).
Lemma loop_binary : forall o ol pa hi cl n m, 2 <= m -> forall k i right cs, k < length cs -> (k = 0 -> length cs <= m) -> length cs <= k + 2 ->
  Forall (atmost m) cs -> let r := factorloop o ol pa hi cl n k i right cs in Forall (atmost m) r /\ length r <= m.
Proof.
  intros o ol pa hi cl n m Hm. induction k as [|k IH]; intros i right cs H H0 H2 HF; cbn [factorloop]; [split; auto|].
  assert (G : forall right' cs', k < length cs' -> length cs' <= k + 2 -> Forall (atmost m) cs' ->
     let b := (if isheadidx o hi i && direction o && negb (i + 1 =? n)
       then [Node (switchlabel o ol pa hi cl n right i, false) (factorloop o ol pa hi cl n k (i + 1) right' cs')]
       else factorloop o ol pa hi cl n k (i + 1) right' cs') in Forall (atmost m) b /\ length b <= m).
  { intros right' cs' A1 A2 A3. destruct (IH (i + 1) right' cs' A1 ltac:(lia) A2 A3) as [B1 B2]. cbv zeta.
    destruct (isheadidx o hi i && direction o && negb (i + 1 =? n)); auto. split; [|cbn; lia]. constructor; [|constructor].
    cbn. split; auto. now rewrite fold_and. }
  destruct right.
  - destruct cs as [|c cs]; [cbn in H; lia|]. cbn in H, H2. inversion HF; subst.
    destruct (G (if isheadidx o hi i then negb true else true) cs ltac:(lia) ltac:(lia) ltac:(auto)) as [B1 B2]. split; [|cbn; lia].
    constructor; auto. constructor; [|constructor]. cbn. split; auto. now rewrite fold_and.
  - assert (NE : cs <> []) by (destruct cs; [cbn in H; lia|discriminate]).
    pose proof (app_removelast_last (l := cs) (Leaf 0) NE) as E.
    assert (L : length cs = length (removelast cs) + 1) by (rewrite E at 1; now rewrite app_length).
    rewrite E in HF. apply Forall_app in HF. destruct HF as [F1 F2].
    destruct (G (if isheadidx o hi i then negb false else false) (removelast cs) ltac:(lia) ltac:(lia) ltac:(auto)) as [B1 B2]. split; [|cbn; lia].
    constructor; [|exact F2]. cbn. split; auto. now rewrite fold_and.
Qed.
(** With the default threshold of 2: no node has more than two children.  In
    general nodes with at most [threshold] children are left alone. *)
Theorem C20_binary : forall o t, every_node (fun _ ts => length ts <= max 2 (threshold o)) (binarize o t).
Proof.
  intros o t. unfold binarize. generalize true as root, [labelof t] as parent.
  induction t as [a|l ts IH] using tree_ind'; intros root parent; [exact I|]. destruct l as [l h]. cbn [bin].
  set (m := max 2 (threshold o)). assert (Hm : m = max 2 (threshold o)) by reflexivity. clearbody m.
  match goal with |- every_node _ (Node _ (factorize o ?ol ?pa ?hi ?cl ?n ?a ?b)) => set (OL := ol); set (PA := pa); set (HI := hi); set (CL := cl); set (TS := b) end.
  assert (F : Forall (atmost m) TS).
  { unfold TS. apply Forall_forall. intros c Hc. apply in_map_iff in Hc. destruct Hc as (d & <- & Hd). rewrite Forall_forall in IH. rewrite Hm. now apply IH. }
  assert (L : length TS = length ts) by apply map_length.
  assert (G : Forall (atmost m) (factorize o OL PA HI CL (length ts) ts TS) /\ length (factorize o OL PA HI CL (length ts) ts TS) <= m).
  { unfold factorize. destruct (Nat.leb_spec (length ts) (threshold o)); [split; auto; lia|]. destruct (Nat.leb_spec (length ts) 2) as [H2|H2].
    - assert (F1 : Forall (atmost m) (firstn 1 TS) /\ Forall (atmost m) (skipn 1 TS)) by (rewrite <- Forall_app, firstn_skipn; auto).
      destruct F1 as [F1 F2]. pose proof (firstn_length 1 TS) as L1. pose proof (skipn_length 1 TS) as L2.
      destruct (oright o); (split; [|rewrite ?app_length; cbn [length]; lia]).
      + apply Forall_app. split; auto. constructor; [|constructor]. cbn [atmost every_node]. split; [lia|]. now rewrite fold_and.
      + constructor; auto. cbn [atmost every_node]. split; [lia|]. now rewrite fold_and.
    - set (right := if isheadidx o HI 0 then negb (oright o) else oright o).
      assert (G : forall k, k = length ts - 1 - (if rightmostunary o then 0 else 1) ->
        let r := factorloop o OL PA HI CL (length ts) k 1 right TS in Forall (atmost m) r /\ length r <= m).
      { intros k Hk. apply loop_binary; auto; destruct (rightmostunary o); lia. }
      specialize (G _ eq_refl). destruct (leftmostunary o); [|exact G]. destruct G as [G1 G2]. split; [|cbn; lia].
      constructor; [|constructor]. cbn [atmost every_node]. split; auto. now rewrite fold_and. }
  destruct G as [G1 G2]. cbn [every_node]. split; auto. now rewrite fold_and.
Qed.
(** without parent annotation the root keeps its label, and constituents that
    are small enough are returned as they are *)
Theorem C20_small_unchanged : forall o t, vertmarkov o <= 1 -> every_node (fun _ ts => length ts <= threshold o) t -> binarize o t = t.
Proof.
  intros o t V H. unfold binarize. generalize true as root, [labelof t] as parent. revert H.
  induction t as [a|l ts IH] using tree_ind'; intros H root parent; [reflexivity|]. destruct l as [l h]. cbn [bin].
  replace (2 <=? vertmarkov o) with false by (symmetry; apply Nat.leb_gt; lia). cbn [andb]. cbn in H. rewrite fold_and in H. destruct H as [H1 H2].
  unfold factorize. replace (length ts <=? threshold o) with true by (symmetry; now apply Nat.leb_le).
  replace (map (bin o false parent) ts) with ts; [reflexivity|]. rewrite <- (map_id ts) at 1. apply map_ext_in. intros c Hc. rewrite Forall_forall in *. symmetry. auto.
Qed.

(** FINDING: with threshold=0 and factor='right' a unary constituent gets an
    empty artificial sister *)
Theorem C20_empty_node_refuted : exists o t, every_node (fun _ ts => ts <> []) t /\ ~ every_node (fun _ ts => ts <> []) (binarize o t).
Proof.
  exists (Opts true 999 1 0 false false (str "|") (str "^") [] false false 0 true None [] labelof false false), (Node (str "A", false) [Node (str "B", false) [Leaf 0]]).
  split.
  - cbn. repeat split; discriminate.
  - intros H. vm_compute in H. destruct H as (_ & _ & (H & _) & _). now apply H.
Qed.

(** ---- C21 ---- *)
Lemma contains_occurs : forall p w, contains w p = true <-> occurs p w.
Proof. intros. apply contains_iff. Qed.
Lemma not_contains : forall p w, contains w p = false <-> ~ occurs p w.
Proof. intros. rewrite <- contains_occurs. apply iff_sym, not_true_iff_false. Qed.
Lemma contains_art : forall a b, contains (a ++ str "|" ++ str "<" ++ b) cchar = true.
Proof. intros. apply contains_iff. exists a, b. reflexivity. Qed.
Lemma domark_start : forall o s p, exists r, domark o s p = str "<" ++ r.
Proof. intros. unfold domark. destruct (oids o); eexists; reflexivity. Qed.
Lemma before_none : forall p s, ~ occurs p s -> before p s = s.
Proof.
  induction s as [|c s IH]; intros H; [reflexivity|]. cbn [before]. destruct (startswith (c :: s) p) eqn:E.
  - apply startswith_iff in E. destruct E as [t E]. exfalso. apply H. exists [], t. exact E.
  - f_equal. apply IH. intros (l & r & E'). apply H. exists (c :: l), r. cbn. now rewrite E'.
Qed.
(** a two-character marker a b in x ++ y, where y does not start with b *)
Lemma two_app : forall a b x y, (match y with c :: _ => c <> b | [] => True end) ->
  contains (x ++ y) [a; b] = contains x [a; b] || contains y [a; b].
Proof.
  intros a b x y H. induction x as [|c x IH].
  - cbn [app]. change (contains [] [a; b]) with false. reflexivity.
  - cbn [app contains]. rewrite IH, orb_assoc. f_equal. f_equal. destruct x as [|d x]; cbn [app startswith].
    2: { replace (startswith (x ++ y) []) with true by (destruct (x ++ y); reflexivity). now replace (startswith x []) with true by (destruct x; reflexivity). }
    destruct (N.eqb a c); [|reflexivity]. cbn [andb]. destruct y as [|e y]; [reflexivity|]. cbn [startswith].
    destruct (N.eqb_spec b e); [subst; congruence|reflexivity].
Qed.
Lemma commas_no : forall ls, Forall (fun l => ~ occurs (str "|<") l) ls -> contains (commas ls) [124; 60]%N = false.
Proof.
  intros ls H. induction H as [|l ls H HF IH]; [reflexivity|]. unfold commas in *. cbn [join]. destruct ls as [|l2 ls].
  - now apply not_contains.
  - rewrite two_app by (cbn; discriminate). change (str ",") with [44%N]. apply not_contains in H. change (str "|<") with [124; 60]%N in H. rewrite H.
    cbn [orb app]. change (44%N :: join [44%N] (l2 :: ls)) with ([44%N] ++ join [44%N] (l2 :: ls)).
    change (contains ([44%N] ++ join [44%N] (l2 :: ls)) [124; 60]%N) with (false || contains (join [44%N] (l2 :: ls)) [124; 60]%N). exact IH.
Qed.
Lemma before_app : forall l r, ~ occurs pchar l -> before pchar (l ++ str "^<" ++ r) = l.
Proof.
  induction l as [|c l IH]; intros r H; [destruct r; reflexivity|]. cbn [app before]. destruct (startswith (c :: l ++ str "^<" ++ r) pchar) eqn:E.
  - exfalso. change pchar with [94; 60]%N in E. cbn [startswith] in E. apply andb_prop in E. destruct E as [E1 E2]. destruct l as [|d l].
    + discriminate E2.
    + cbn [app startswith] in E2. apply andb_prop in E2. destruct E2 as [E2 _]. apply H. exists [], l.
      apply N.eqb_eq in E1, E2. subst. reflexivity.
  - f_equal. apply IH. intros (a & b & E'). apply H. exists (c :: a), b. cbn. now rewrite E'.
Qed.
Lemma splitplus_none : forall l, ~ In 43%N l -> splitplus l = None.
Proof.
  induction l as [|c l IH]; intros H; [reflexivity|]. cbn [splitplus]. unfold uchar. destruct (N.eqb_spec c 43); [subst; exfalso; apply H; now left|].
  rewrite IH; auto. intros X. apply H. now right.
Qed.
Lemma expand_plain : forall f eu l h ts, before pchar l = l -> (eu = true -> splitplus l = None) -> expand f eu l h ts = Node (l, h) ts.
Proof. intros f eu l h ts H1 H2. destruct f; cbn [expand]; rewrite H1; destruct eu; auto; rewrite H2; auto. Qed.

Theorem C21_unbinarize_binarize : forall o eu t,
  childchar o = str "|" -> parentchar o = str "^" -> (tailmarker o = [] \/ rightmostunary o = false) ->
  every_node (fun l _ => plain_label eu (fst l)) t ->
  unbinarize eu (binarize o t) = t.
Proof.
  intros o eu t CC PC TM PL. unfold binarize.
  (* what happens below a node *)
  assert (ART : forall ol pa hi cl n,
      (forall right i, i + (if rightmostunary o then 0 else 1) < n -> contains (midlabel o ol pa hi cl n right i) cchar = true) /\
      (forall right i, contains (switchlabel o ol pa hi cl n right i) cchar = true) /\
      (forall right, contains (firstlabel o ol pa hi cl n right) cchar = true) /\
      (forall ts, contains (smallmark o ol pa hi ts) cchar = true)).
  { intros ol pa hi cl n. repeat split; intros.
    - unfold midlabel. replace (if i + 1 =? n then tailmarker o else []) with (@nil N).
      + rewrite CC. cbn [app]. destruct (domark_start o (siblingsof o hi cl n right i) pa) as [r ->]. apply contains_art.
      + destruct (Nat.eqb_spec (i + 1) n); auto. destruct TM as [->|TM]; auto. rewrite TM in H. lia.
    - unfold switchlabel. rewrite CC. apply contains_art.
    - unfold firstlabel. rewrite CC. match goal with |- context [domark o ?s ?p] => destruct (domark_start o s p) as [r ->] end. apply contains_art.
    - unfold smallmark. rewrite CC. match goal with |- context [domark o ?s ?p] => destruct (domark_start o s p) as [r ->] end. apply contains_art. }
  assert (KEEP : forall ol pa hi cl ts0 ts, length ts = length ts0 -> flat_map (unb eu) (factorize o ol pa hi cl (length ts0) ts0 ts) = flat_map (unb eu) ts).
  { intros ol pa hi cl ts0 ts L. destruct (ART ol pa hi cl (length ts0)) as (A1 & A2 & A3 & A4).
    apply (factorize_keep o ol pa hi cl (length ts0) (unb eu) (fun l => contains l cchar = true)); auto.
    intros l us H. cbn [unb]. now rewrite H. }
  assert (SUB : forall t parent, every_node (fun l _ => plain_label eu (fst l)) t -> Forall (fun l => ~ occurs (str "|<") l) parent ->
    unb eu (bin o false parent t) = [t]).
  { clear t PL. intros t. induction t as [a|l ts IH] using tree_ind'; intros parent PL PA; [reflexivity|]. destruct l as [l h]. cbn [bin].
    cbn in PL. rewrite fold_and in PL. destruct PL as [(P1 & P2 & P3) P4]. cbn [negb]. rewrite andb_true_r.
    match goal with |- context [if ?b then l ++ _ else l] => set (annotate := b) end. clearbody annotate.
    set (ann := parentchar o ++ str "<" ++ commas parent ++ str ">").
    set (l' := if annotate then l ++ ann else l).
    match goal with |- context [map (bin o false ?p) ts] => set (parent' := p) end.
    assert (PA' : Forall (fun l => ~ occurs (str "|<") l) parent').
    { unfold parent'. destruct annotate; auto. constructor.
      - destruct (vertmarkov o =? 0); auto. intros X. apply contains_occurs in X. discriminate X.
      - apply Forall_forall. intros x Hx. rewrite Forall_forall in PA. apply PA. revert Hx. generalize (vertmarkov o - 2). clear.
        induction parent as [|y p IH]; intros [|k] H; cbn in H; try contradiction. destruct H; [now left|right; eauto]. }
    assert (AN : ann = str "^<" ++ commas parent ++ str ">") by (unfold ann; rewrite PC; reflexivity).
    assert (C1 : contains l' cchar = false).
    { unfold l'. apply not_contains in P1. destruct annotate; [|exact P1]. change cchar with [124; 60]%N in *.
      rewrite AN. rewrite two_app by (cbn; discriminate). change (str "|<") with [124; 60]%N in P1. rewrite P1. cbn [orb].
      change (contains (str "^<" ++ commas parent ++ str ">") [124; 60]%N) with (false || (false || contains (commas parent ++ str ">") [124; 60]%N)).
      cbn [orb]. rewrite two_app by (cbn; discriminate). rewrite commas_no by auto. reflexivity. }
    assert (C2 : before pchar l' = l).
    { unfold l'. destruct annotate; [|now apply before_none]. rewrite AN. now apply before_app. }
    cbn [unb]. rewrite C1. f_equal. rewrite KEEP by apply map_length.
    assert (CH : flat_map (unb eu) (map (bin o false parent') ts) = ts).
    { clearbody parent'. clear - IH P4 PA'. induction ts as [|c ts IHt]; [reflexivity|]. inversion IH; subst. inversion P4; subst.
      cbn [map flat_map]. rewrite H1 by auto. cbn [app]. f_equal. auto. }
    rewrite CH. remember (length l') as f eqn:Ef. destruct f as [|f].
    - cbn [expand]. rewrite C2. destruct eu; reflexivity.
    - cbn [expand]. rewrite C2. destruct eu; [|reflexivity]. rewrite splitplus_none by auto. reflexivity. }
  destruct t as [a|[l h] ts]; [reflexivity|]. cbn [bin labelof]. cbn [every_node] in PL. rewrite fold_and in PL. destruct PL as [(P1 & P2 & P3) P4].
  cbn [negb]. rewrite andb_false_r. cbn [andb]. cbn [unbinarize]. rewrite KEEP by apply map_length.
  assert (CH : flat_map (unb eu) (map (bin o false [l]) ts) = ts).
  { assert (PA : Forall (fun l => ~ occurs (str "|<") l) [l]) by (constructor; auto). revert PA. generalize [l] as parent. intros parent PA.
    clear - SUB P4 PA. induction P4 as [|c ts Hc HF IH]; [reflexivity|]. cbn [map flat_map]. rewrite SUB by auto. cbn [app]. f_equal. auto. }
  rewrite CH. apply expand_plain; [now apply before_none|]. intros E. apply splitplus_none. auto.
Qed.
(** FINDING: the tail marker hides the artificial nodes from unbinarize. *)
Definition default_opts : opts := Opts true 999 1 0 false false (str "|") (str "^") [] false false 2 true None [] labelof false false.
Theorem C21_tailmarker_refuted : exists o t, childchar o = str "|" /\ parentchar o = str "^" /\
  every_node (fun l _ => plain_label true (fst l)) t /\ unbinarize true (binarize o t) <> t.
Proof.
  exists (Opts true 999 1 0 false false (str "|") (str "^") (str "$") false true 2 true None [] labelof false false),
    (Node (str "X", false) [Node (str "A", false) [Leaf 0]; Node (str "B", false) [Leaf 1]; Node (str "C", false) [Leaf 2]]).
  split; [reflexivity|]. split; [reflexivity|]. split.
  - cbn [every_node fold_right fst]. unfold plain_label. repeat (match goal with |- _ /\ _ => split end); try exact I;
    try (apply not_contains; reflexivity); try (intros _ H; cbn in H; intuition discriminate).
  - intros H. vm_compute in H. discriminate H.
Qed.

(** ---- C24 ---- *)
(** the tree without the node types, which is what == compares *)
Fixpoint erase (t : btree) : tree pystr nat := match t with Leaf a => Leaf a | Node (l, _) ts => Node l (map erase ts) end.
Theorem C24_yield : forall cp cr t, leaves (collapseunary cp cr t) = leaves t.
Proof.
  intros cp cr t.
  assert (G : forall t pre, leaves (col cp pre t) = leaves t).
  { clear. intros t. induction t as [a|l ts IH] using tree_ind'; intros pre; [reflexivity|]. destruct l as [m h].
    rewrite Forall_forall in IH.
    assert (M : forall l0, leaves (Node l0 (map (col cp None) ts) : btree) = flat_map leaves ts).
    { intros l0. cbn [leaves]. rewrite flat_map_concat_map, map_map, (flat_map_concat_map leaves). f_equal. apply map_ext_in. intros c Hc. now apply IH. }
    destruct ts as [|c [|c2 ts]]; [exact (M _)| |exact (M _)]. cbn [col]. destruct (mergeable cp c).
    - rewrite IH by (now left). cbn. now rewrite app_nil_r.
    - exact (M _). }
  unfold collapseunary. destruct t as [a|l [|c [|c2 ts]]]; try apply G. destruct cr; [apply G|]. cbn. now rewrite G.
Qed.
(** no unary production is left, except over preterminals when collapsepos is
    off, and at the root when collapseroot is off *)
Definition no_unary (cp : bool) : nlabel -> list btree -> Prop :=
  fun _ ts => forall l us, ts = [Node l us] -> cp = false /\ match us with u :: _ => exists a, u = Leaf a | [] => True end.
Lemma col_no_unary : forall cp t pre, every_node (no_unary cp) (col cp pre t).
Proof.
  intros cp t. induction t as [a|l ts IH] using tree_ind'; intros pre; [exact I|]. destruct l as [m h]. rewrite Forall_forall in IH.
  assert (F : fold_right (fun c r => every_node (no_unary cp) c /\ r) True (map (col cp None) ts)).
  { apply fold_and. apply Forall_forall. intros c Hc. apply in_map_iff in Hc. destruct Hc as (d & <- & Hd). now apply IH. }
  destruct ts as [|c [|c2 ts]].
  - cbn. split; auto. intros l us H. discriminate.
  - cbn [col]. destruct (mergeable cp c) eqn:M; [apply IH; now left|]. cbn [every_node]. split; [|exact F].
    intros l us H. injection H as H. destruct c as [a|[n h'] vs]; [discriminate|]. cbn [mergeable] in M. apply orb_false_elim in M. destruct M as [-> M].
    split; auto. destruct vs as [|v vs].
    + cbn in H. injection H as _ <-. exact I.
    + destruct v as [a|]; [|discriminate]. destruct vs as [|v2 vs]; cbn in H; injection H as _ <-; eauto.
  - cbn [col every_node]. split; [|exact F]. intros l us H. cbn in H. discriminate.
Qed.
Theorem C24_no_unary_left : forall cp cr t,
  (cr = true -> every_node (no_unary cp) (collapseunary cp cr t)) /\
  match collapseunary cp cr t with Leaf _ => True | Node _ ts => Forall (every_node (no_unary cp)) ts end.
Proof.
  intros cp cr t.
  assert (G : forall u, every_node (no_unary cp) u -> match u with Leaf _ => True | Node _ ts => Forall (every_node (no_unary cp)) ts end).
  { intros [a|l ts] H; [exact I|]. cbn in H. rewrite fold_and in H. tauto. }
  unfold collapseunary. destruct t as [a|l [|c [|c2 ts]]]; try (split; [intros _; apply col_no_unary|apply G, col_no_unary]).
  destruct cr; [split; [intros _; apply col_no_unary|apply G, col_no_unary]|]. split; [discriminate|]. constructor; [|constructor]. apply col_no_unary.
Qed.
Definition plusplain (l : pystr) : Prop := plain_label true l.
Lemma splitplus_app : forall a b, ~ In 43%N a -> splitplus (a ++ 43%N :: b) = Some (a, b).
Proof.
  induction a as [|c a IH]; intros b H; [reflexivity|]. cbn [app splitplus]. unfold uchar. destruct (N.eqb_spec c 43); [subst; exfalso; apply H; now left|].
  rewrite IH; auto. intros X. apply H. now right.
Qed.
(** labels joined with + *)
Fixpoint plusjoin (ls : list pystr) : pystr := match ls with [] => [] | [l] => l | l :: r => l ++ 43%N :: plusjoin r end.
Lemma plusjoin_no : forall a b ls, b <> 43%N -> a <> 43%N -> Forall (fun l => contains l [a; b] = false) ls -> contains (plusjoin ls) [a; b] = false.
Proof.
  intros a b ls Hb Ha H. induction H as [|l ls H HF IH]; [reflexivity|]. destruct ls as [|l2 ls]; [exact H|].
  change (plusjoin (l :: l2 :: ls)) with (l ++ 43%N :: plusjoin (l2 :: ls)). rewrite two_app by congruence. rewrite H. cbn [orb].
  cbn [contains startswith]. replace (N.eqb a 43) with false by (symmetry; now apply N.eqb_neq). exact IH.
Qed.
Fixpoint chain (ls : list pystr) (ts : list (tree pystr nat)) : tree pystr nat :=
  match ls with [] => Node [] ts | [l] => Node l ts | l :: r => Node l [chain r ts] end.
Lemma plain_no : forall l, plain_label true l -> contains l [124; 60]%N = false /\ contains l [94; 60]%N = false /\ ~ In 43%N l.
Proof. intros l (H1 & H2 & H3). apply not_contains in H1, H2. auto. Qed.
Lemma expand_chain : forall ls f h ts, ls <> [] -> Forall (plain_label true) ls -> length (plusjoin ls) <= f ->
  erase (expand f true (plusjoin ls) h ts) = chain ls (map erase ts).
Proof.
  induction ls as [|l ls IH]; intros f h ts NE PL Hf; [congruence|]. clear NE.
  assert (NB : forall ms, Forall (plain_label true) ms -> before pchar (plusjoin ms) = plusjoin ms).
  { intros ms F. apply before_none. apply not_contains. apply plusjoin_no; try discriminate. eapply Forall_impl; [|exact F].
    intros x Hx. now apply plain_no. }
  inversion PL as [|? ? P1 P2]; subst. destruct ls as [|l2 ls].
  - cbn [plusjoin chain]. rewrite expand_plain; [reflexivity| |].
    + apply (NB [l]). auto.
    + intros _. apply splitplus_none. now apply plain_no.
  - change (plusjoin (l :: l2 :: ls)) with (l ++ 43%N :: plusjoin (l2 :: ls)) in *.
    destruct f as [|f]; [rewrite app_length in Hf; cbn in Hf; lia|]. cbn [expand].
    pose proof (NB _ PL) as NB1. change (plusjoin (l :: l2 :: ls)) with (l ++ 43%N :: plusjoin (l2 :: ls)) in NB1. rewrite NB1.
    rewrite splitplus_app by now apply plain_no.
    replace (contains (plusjoin (l2 :: ls)) cchar) with false.
    + cbn [erase map chain]. f_equal. f_equal. apply IH; [discriminate|auto|]. rewrite app_length in Hf. cbn [length] in Hf. lia.
    + symmetry. apply plusjoin_no; try discriminate. eapply Forall_impl; [|exact P2]. intros x Hx. now apply plain_no.
Qed.
Lemma plusjoin_snoc : forall ls l, ls <> [] -> plusjoin (ls ++ [l]) = plusjoin ls ++ 43%N :: l.
Proof.
  induction ls as [|x ls IH]; intros l H; [congruence|]. destruct ls as [|y ls]; [reflexivity|].
  cbn [app]. change (plusjoin (x :: y :: ls ++ [l])) with (x ++ 43%N :: plusjoin ((y :: ls) ++ [l])). rewrite IH by discriminate.
  change (plusjoin (x :: y :: ls)) with (x ++ 43%N :: plusjoin (y :: ls)). rewrite <- app_assoc. reflexivity.
Qed.
Lemma chain_snoc : forall ls l ts, ls <> [] -> chain (ls ++ [l]) ts = chain ls [Node l ts].
Proof.
  induction ls as [|x ls IH]; intros l ts H; [congruence|]. destruct ls as [|y ls]; [reflexivity|].
  cbn [app]. change (chain (x :: y :: ls ++ [l]) ts) with (Node x [chain ((y :: ls) ++ [l]) ts]). rewrite IH by discriminate. reflexivity.
Qed.
(** the chain of unary nodes that is merged with t, and the children below it *)
Fixpoint spine (cp : bool) (t : btree) : list pystr * list btree :=
  match t with
  | Leaf _ => ([], [])
  | Node (m, _) ts => match ts with
                      | [c] => if mergeable cp c then (m :: fst (spine cp c), snd (spine cp c)) else ([m], ts)
                      | _ => ([m], ts)
                      end
  end.
Lemma spine_ne : forall cp t, is_node t = true -> fst (spine cp t) <> [].
Proof. intros cp [a|[m h] ts] H; [discriminate|]. destruct ts as [|c [|c2 ts]]; cbn [spine]; try discriminate. destruct (mergeable cp c); discriminate. Qed.
Lemma plusjoin_cons : forall l ls, ls <> [] -> plusjoin (l :: ls) = l ++ 43%N :: plusjoin ls.
Proof. intros l [|x ls] H; [congruence|reflexivity]. Qed.
Lemma mergeable_node : forall cp c, mergeable cp c = true -> is_node c = true.
Proof. intros cp [a|l ts] H; [discriminate|reflexivity]. Qed.
Lemma col_spine : forall cp t, is_node t = true ->
  (forall p h0, col cp (Some (p, h0)) t = Node (p ++ 43%N :: plusjoin (fst (spine cp t)), h0) (map (col cp None) (snd (spine cp t)))) /\
  (exists h, col cp None t = Node (plusjoin (fst (spine cp t)), h) (map (col cp None) (snd (spine cp t)))) /\
  erase t = chain (fst (spine cp t)) (map erase (snd (spine cp t))) /\
  (every_node (fun l _ => plain_label true (fst l)) t -> Forall (plain_label true) (fst (spine cp t))).
Proof.
  intros cp t. induction t as [a|l ts IH] using tree_ind'; intros IN; [discriminate|clear IN]. destruct l as [m h].
  assert (DONE : forall us, us = ts -> every_node (fun l _ => plain_label true (fst l)) (Node (m, h) us) -> Forall (plain_label true) [m]).
  { intros us _ H. cbn in H. constructor; [tauto|constructor]. }
  destruct ts as [|c [|c2 ts]]; cbn [spine col].
  - cbn [fst snd plusjoin chain erase]. split; [reflexivity|]. split; [eauto|]. split; [reflexivity|]. now apply DONE.
  - destruct (mergeable cp c) eqn:M.
    + inversion IH as [|? ? Hc _]; subst. pose proof (mergeable_node _ _ M) as NC. destruct (Hc NC) as (C1 & C2 & C3 & C4).
      pose proof (spine_ne cp c NC) as NE. cbn [fst snd]. rewrite plusjoin_cons by auto. split; [|split; [|split]].
      * intros p h0. rewrite C1. unfold uchar. rewrite <- app_assoc. reflexivity.
      * exists h. rewrite C1. reflexivity.
      * cbn [erase map]. rewrite C3. destruct (fst (spine cp c)); [congruence|reflexivity].
      * intros H. cbn in H. constructor; [tauto|]. apply C4. tauto.
    + cbn [fst snd plusjoin chain erase]. split; [reflexivity|]. split; [eauto|]. split; [reflexivity|]. now apply DONE.
  - cbn [fst snd plusjoin chain erase]. split; [reflexivity|]. split; [eauto|]. split; [reflexivity|]. now apply DONE.
Qed.
Lemma unb_col : forall cp t, every_node (fun l _ => plain_label true (fst l)) t ->
  map erase (unb true (col cp None t)) = [erase t] /\
  map erase (flat_map (unb true) (map (col cp None) (snd (spine cp t)))) = map erase (snd (spine cp t)).
Proof.
  intros cp t. induction t as [a|l ts IH] using tree_ind'; intros PL; [split; reflexivity|].
  assert (Q : map erase (flat_map (unb true) (map (col cp None) (snd (spine cp (Node l ts))))) = map erase (snd (spine cp (Node l ts)))).
  { destruct l as [m h]. cbn [every_node fst] in PL. rewrite fold_and in PL. destruct PL as [_ P2].
    assert (ALL : map erase (flat_map (unb true) (map (col cp None) ts)) = map erase ts).
    { clear - IH P2. induction ts as [|c ts IHt]; [reflexivity|]. inversion IH; subst. inversion P2; subst.
      cbn [map flat_map]. rewrite map_app. destruct (H1 H3) as [-> _]. cbn [app]. f_equal. auto. }
    destruct ts as [|c [|c2 ts]]; cbn [spine]; try exact ALL. destruct (mergeable cp c); [|exact ALL].
    inversion IH; subst. inversion P2; subst. cbn [snd]. now apply H1. }
  split; [|exact Q]. destruct (col_spine cp (Node l ts) eq_refl) as (_ & (h & E) & C3 & C4). specialize (C4 PL).
  rewrite E, C3. cbn [unb].
  replace (contains (plusjoin (fst (spine cp (Node l ts)))) cchar) with false.
  2: { symmetry. apply plusjoin_no; try discriminate. eapply Forall_impl; [|exact C4]. intros x Hx. now apply plain_no. }
  cbn [map]. rewrite expand_chain; auto; [now rewrite Q|]. now apply spine_ne.
Qed.
(** unbinarize (which expands unary chains) gives the original tree back, up to
    the node types, when no label contains + or the binarization markers *)
Theorem C24_restore : forall cp cr t, every_node (fun l _ => plain_label true (fst l)) t ->
  erase (unbinarize true (collapseunary cp cr t)) = erase t.
Proof.
  intros cp cr t PL. destruct t as [a|l ts]; [reflexivity|].
  assert (FULL : erase (unbinarize true (col cp None (Node l ts))) = erase (Node l ts)).
  { destruct (unb_col cp _ PL) as [U1 _]. destruct (col_spine cp (Node l ts) eq_refl) as (_ & (h & E) & _ & C4). specialize (C4 PL).
    rewrite E in *. cbn [unb unbinarize] in *.
    replace (contains (plusjoin (fst (spine cp (Node l ts)))) cchar) with false in U1.
    2: { symmetry. apply plusjoin_no; try discriminate. eapply Forall_impl; [|exact C4]. intros x Hx. now apply plain_no. }
    cbn [map] in U1. injection U1 as U1. exact U1. }
  unfold collapseunary. destruct ts as [|c [|c2 ts]]; try exact FULL. destruct cr; [exact FULL|]. destruct l as [l h].
  cbn [every_node fst fold_right] in PL. destruct PL as [P1 [P2 _]]. cbn [unbinarize flat_map]. rewrite app_nil_r.
  apply plain_no in P1. destruct P1 as (_ & P1 & P3). rewrite expand_plain.
  - cbn [erase map]. f_equal. destruct (unb_col cp _ P2) as [-> _]. reflexivity.
  - apply before_none. now apply not_contains.
  - intros _. now apply splitplus_none.
Qed.
Theorem C24_idempotent : forall cp cr t, collapseunary cp cr (collapseunary cp cr t) = collapseunary cp cr t.
Proof.
  intros cp cr t.
  assert (FIX : forall t, every_node (no_unary cp) t -> col cp None t = t).
  { clear. intros t. induction t as [a|l ts IH] using tree_ind'; intros H; [reflexivity|]. destruct l as [m h].
    cbn [every_node] in H. rewrite fold_and in H. destruct H as [H1 H2]. rewrite Forall_forall in *.
    assert (M : map (col cp None) ts = ts) by (rewrite <- (map_id ts) at 2; apply map_ext_in; auto).
    cbn [col]. destruct ts as [|c [|c2 ts]]; [reflexivity| |now rewrite M].
    destruct (mergeable cp c) eqn:E; [exfalso|cbn [map] in M; injection M as ->; reflexivity].
    destruct c as [a|l us]; [discriminate|]. destruct (H1 l us eq_refl) as [-> K]. cbn in E. destruct us as [|u us]; [discriminate|].
    destruct K as [a ->]. discriminate. }
  assert (TOP : forall t, collapseunary cp true t = col cp None t).
  { clear. intros [a|l [|c [|c2 ts]]]; reflexivity. }
  destruct cr.
  - rewrite !TOP. apply FIX. apply col_no_unary.
  - destruct t as [a|l [|c [|c2 ts]]]; try reflexivity.
    + destruct l as [m h]. reflexivity.
    + cbn [collapseunary]. f_equal. f_equal. apply FIX. apply col_no_unary.
    + destruct l as [m h]. cbn [collapseunary col map]. f_equal. f_equal; [apply FIX, col_no_unary|]. f_equal; [apply FIX, col_no_unary|].
      rewrite <- (map_id (map (col cp None) ts)) at 2. apply map_ext_in. intros x Hx. apply in_map_iff in Hx. destruct Hx as (y & <- & _).
      apply FIX, col_no_unary.
Qed.
(** without the condition on labels the original cannot be recovered *)
Theorem C24_plus_refuted : exists t, erase (unbinarize true (collapseunary false false t)) <> erase t.
Proof. exists (Node (str "A+B", false) [Leaf 0]). intros H. vm_compute in H. discriminate H. Qed.

(** ---- C36 ---- *)
(** right- and left-branching trees over a list of children *)
Section Branching.
Context {L A : Type}.
Variable key : nat -> L.
Fixpoint right_branching (i : nat) (ts : list (tree L A)) (d : tree L A) : tree L A :=
  match ts with [] => d | [x] => x | x :: r => Node (key i) [x; right_branching (i + 1) r d] end.
(** over the children in reverse order *)
Fixpoint left_branching (i : nat) (rts : list (tree L A)) (d : tree L A) : tree L A :=
  match rts with [] => d | [x] => x | x :: r => Node (key i) [left_branching (i - 1) r d; x] end.
Lemma fc_right_spec : forall ts d i, S i < length ts ->
  fc_right key i ts (right_branching (S i) (skipn (S i) ts) d) = right_branching 1 (skipn 1 ts) d.
Proof.
  intros ts d. induction i as [|i IH]; intros H; [reflexivity|]. cbn [fc_right]. rewrite <- IH by lia. f_equal.
  assert (E : skipn (S i) ts = nth (S i) ts d :: skipn (S (S i)) ts).
  { clear IH. revert i H. induction ts as [|x ts IHt]; intros i H; [cbn in H; lia|]. destruct i as [|i].
    - destruct ts as [|y ts]; [cbn in H; lia|]. reflexivity.
    - change (skipn (S (S i)) (x :: ts)) with (skipn (S i) ts). rewrite IHt by (cbn in H; lia). reflexivity. }
  rewrite E. assert (NE : skipn (S (S i)) ts <> []).
  { intros X. apply (f_equal (@length _)) in X. rewrite skipn_length in X. cbn in X. lia. }
  destruct (skipn (S (S i)) ts) as [|y r] eqn:F; [congruence|]. 
  change (right_branching (S i) (nth (S i) ts d :: y :: r) d) with (Node (key (S i)) [nth (S i) ts d; right_branching (S i + 1) (y :: r) d]).
  replace (S i + 1) with (S (S i)) by lia.
  rewrite (nth_indep ts (right_branching (S (S i)) (y :: r) d) d) by lia. reflexivity.
Qed.
End Branching.
Theorem C36_right : forall L A (key : nat -> L) l t0 (ts : list (tree L A)) th,
  max th 2 < S (length ts) ->
  factorconstituent key true th (Node l (t0 :: ts)) = Node l [t0; right_branching key 1 ts t0].
Proof.
  intros L A key l t0 ts th H. unfold factorconstituent. set (all := t0 :: ts). assert (LA : length all = S (length ts)) by reflexivity.
  rewrite LA. replace (S (length ts) <=? th) with false by (symmetry; apply Nat.leb_gt; lia).
  replace (S (length ts) <=? 2) with false by (symmetry; apply Nat.leb_gt; lia). unfold all at 1. f_equal. f_equal. f_equal.
  change ts with (skipn 1 all) at 3. rewrite <- (fc_right_spec key all t0 (S (length ts) - 2)) by lia. f_equal.
  replace (S (S (length ts) - 2)) with (length ts) by lia.
  assert (E : skipn (length ts) all = [last all t0]).
  { unfold all. rewrite (app_removelast_last (l := t0 :: ts) t0) at 1 by discriminate.
    assert (LR : length (removelast (t0 :: ts)) = length ts).
    { pose proof (app_removelast_last (l := t0 :: ts) t0 ltac:(discriminate)) as X. apply (f_equal (@length _)) in X. rewrite app_length in X. cbn in X. cbn. lia. }
    rewrite skipn_app, LR, Nat.sub_diag. rewrite <- LR at 1. now rewrite skipn_all. }
  rewrite E. reflexivity.
Qed.

Section LeftBranching.
Context {L A : Type}.
Variable key : nat -> L.
Lemma lb_step : forall k x (r : list (tree L A)) d, r <> [] -> left_branching key k (x :: r) d = Node (key k) [left_branching key (k - 1) r d; x].
Proof. intros k x [|y r] d H; [congruence|reflexivity]. Qed.
Lemma fc_left_spec : forall k i (ts : list (tree L A)) d, 1 <= i -> i + k <= length ts ->
  fc_left key k i ts (left_branching key (i - 1) (rev (firstn i ts)) d) = left_branching key (i + k - 1) (rev (firstn (i + k) ts)) d.
Proof.
  induction k as [|k IH]; intros i ts d H1 H2; [now rewrite Nat.add_0_r|]. cbn [fc_left].
  replace (i + S k) with (i + 1 + k) by lia. rewrite <- IH by lia. f_equal.
  assert (E : firstn (i + 1) ts = firstn i ts ++ [nth i ts d]).
  { clear - H2. assert (H : i < length ts) by lia. clear H2. revert i H. induction ts as [|x ts IHt]; intros i H; [cbn in H; lia|]. destruct i as [|i]; [reflexivity|].
    cbn [firstn Nat.add nth app]. f_equal. apply IHt. cbn in H. lia. }
  rewrite E, rev_app_distr. cbn [rev app].
  assert (NE : rev (firstn i ts) <> []).
  { intros X. apply (f_equal (@length _)) in X. rewrite rev_length, firstn_length in X. cbn in X. lia. }
  rewrite lb_step by auto. replace (i + 1 - 1) with i by lia. f_equal. f_equal. f_equal. apply nth_indep. lia.
Qed.
End LeftBranching.
Theorem C36_left : forall L A (key : nat -> L) l t0 (ts : list (tree L A)) th,
  max th 2 < S (length ts) ->
  factorconstituent key false th (Node l (t0 :: ts)) = Node l [left_branching key (length ts - 1) (rev (removelast (t0 :: ts))) t0; last (t0 :: ts) t0].
Proof.
  intros L A key l t0 ts th H. unfold factorconstituent. set (all := t0 :: ts). assert (LA : length all = S (length ts)) by reflexivity.
  rewrite LA. replace (S (length ts) <=? th) with false by (symmetry; apply Nat.leb_gt; lia).
  replace (S (length ts) <=? 2) with false by (symmetry; apply Nat.leb_gt; lia). unfold all at 1. f_equal. f_equal.
  pose proof (fc_left_spec key (S (length ts) - 2) 1 all t0 ltac:(lia) ltac:(lia)) as S1.
  change (left_branching key (1 - 1) (rev (firstn 1 all)) t0) with t0 in S1. change (t0 :: ts) with all. rewrite S1.
  replace (1 + (S (length ts) - 2)) with (length ts) by lia.
  replace (firstn (length ts) all) with (removelast all); [reflexivity|].
  rewrite removelast_firstn_len. rewrite LA. reflexivity.
Qed.
(** the children, in order, are what one finds below the new nodes; small nodes
    are returned unchanged or get one extra node *)
Theorem C36_yield : forall L A (key : nat -> L) right th (t : tree L A), leaves (factorconstituent key right th t) = leaves t.
Proof.
  intros L A key right th t. destruct t as [a|l ts]; [reflexivity|]. unfold factorconstituent.
  destruct (Nat.leb_spec (length ts) th); [reflexivity|]. destruct (Nat.leb_spec (length ts) 2); [cbn; now rewrite app_nil_r|].
  destruct ts as [|t0 ts]; [reflexivity|].
  assert (RB : forall i (us : list (tree L A)) d, us <> [] -> leaves (right_branching key i us d) = flat_map leaves us).
  { clear. intros i us d H. revert i. induction us as [|x us IH]; intros i; [congruence|]. destruct us as [|y us]; [cbn; now rewrite app_nil_r|].
    change (right_branching key i (x :: y :: us) d) with (Node (key i) [x; right_branching key (i + 1) (y :: us) d]).
    cbn [leaves flat_map]. rewrite IH by discriminate. now rewrite app_nil_r. }
  assert (LB : forall i (us : list (tree L A)) d, us <> [] -> leaves (left_branching key i us d) = flat_map leaves (rev us)).
  { clear. intros i us d H. revert i. induction us as [|x us IH]; intros i; [congruence|]. destruct us as [|y us]; [cbn; now rewrite app_nil_r|].
    change (left_branching key i (x :: y :: us) d) with (Node (key i) [left_branching key (i - 1) (y :: us) d; x]).
    cbn [leaves flat_map]. rewrite IH by discriminate. change (rev (x :: y :: us)) with (rev (y :: us) ++ [x]). rewrite flat_map_app. cbn [flat_map]. reflexivity. }
  pose proof (C36_right L A key l t0 ts th ltac:(cbn in *; lia)) as R. pose proof (C36_left L A key l t0 ts th ltac:(cbn in *; lia)) as Lf.
  unfold factorconstituent in R, Lf.
  replace (length (t0 :: ts) <=? th) with false in * by (symmetry; apply Nat.leb_gt; auto).
  replace (length (t0 :: ts) <=? 2) with false in * by (symmetry; apply Nat.leb_gt; auto).
  destruct right; [rewrite R|rewrite Lf]; cbn [leaves flat_map].
  - rewrite RB by (destruct ts; [cbn in *; lia|discriminate]). now rewrite app_nil_r.
  - rewrite LB.
    + rewrite rev_involutive, app_nil_r. change (leaves (last (t0 :: ts) t0)) with (leaves (last (t0 :: ts) t0)).
      rewrite <- (app_nil_r (leaves (last (t0 :: ts) t0))). change (leaves (last (t0 :: ts) t0) ++ []) with (flat_map leaves [last (t0 :: ts) t0]).
      rewrite <- flat_map_app, <- app_removelast_last by discriminate. reflexivity.
    + destruct ts; [cbn in *; lia|]. cbn [removelast]. intros X. apply (f_equal (@length _)) in X. rewrite rev_length in X. discriminate.
Qed.

(** ---- instances ---- *)
Definition ex_tree : btree := Node (str "S", false) [Node (str "VP", true) [Node (str "PDS", false) [Leaf 0]; Node (str "ADV", false) [Leaf 3]; Node (str "VVINF", true) [Leaf 4]];
   Node (str "VMFIN", false) [Leaf 1]; Node (str "PIS", false) [Leaf 2]].
Example C21_ex : every_node (fun l _ => plain_label true (fst l)) ex_tree.
Proof.
  cbn [ex_tree every_node fold_right fst]. unfold plain_label. repeat (match goal with |- _ /\ _ => split end); try exact I;
    try (apply not_contains; reflexivity); try (intros _ H; cbn in H; intuition discriminate).
Qed.
Example C21_ex2 : let o := Opts true 1 2 1 true true (str "|") (str "^") [] true true 2 true None [] labelof true true in
  binarize o ex_tree <> ex_tree /\ unbinarize true (binarize o ex_tree) = ex_tree.
Proof. split; [intros H; vm_compute in H; discriminate H|vm_compute; reflexivity]. Qed.
(** the example in the docstring of binarize *)
Example C20_ex : pprint_flat dec (erase (binarize
  (Opts true 999 1 0 false true (str "|") (str "^") [] true true 2 true None [] labelof false false)
  (Node (str "S", false) [Node (str "X", false) [Node (str "A", false) [Leaf 0]; Node (str "B", false) [Leaf 3]; Node (str "C", false) [Leaf 4]];
     Node (str "D", true) [Leaf 1]; Node (str "E", false) [Leaf 2]])))
  = str "(S (S|<X,D,E> (X (X|<A,B,C> (A 0) (X|<B,C> (B 3) (X|<C> (C 4))))) (S|<D,E> (S|<D,E> (D 1)) (E 2))))".
Proof. vm_compute. reflexivity. Qed.
Example C24_ex : let t := Node (str "TOP", false) [Node (str "S", false) [Node (str "VP", false) [Node (str "V", false) [Leaf 0]; Node (str "NP", false) [Node (str "N", false) [Leaf 1]]]]] in
  pprint_flat dec (erase (collapseunary false false t)) = str "(TOP (S+VP (V 0) (NP (N 1))))" /\
  pprint_flat dec (erase (collapseunary true true t)) = str "(TOP+S+VP (V 0) (NP+N 1))".
Proof. split; vm_compute; reflexivity. Qed.
Print Assumptions C20_yield.
Print Assumptions C20_binary.
Print Assumptions C20_small_unchanged.
Print Assumptions C21_unbinarize_binarize.
Print Assumptions C24_restore.
Print Assumptions C24_no_unary_left.
Print Assumptions C24_idempotent.
Print Assumptions C36_right.
Print Assumptions C36_left.
Print Assumptions C36_yield.
