(** C52: the horizontal and vertical context in the labels of binarized trees.
    Specification of treetransforms.binarize with parameters horzmarkov and
    vertmarkov (and artpa), written without reference to the model's loop. *)
From Coq Require Import String.
From Coq Require Import List Bool Arith NArith Lia.
From Verif Require Import PyStr TreeModel TreeProps BracketModel BinarizeModel BinarizeProps TransformProps.
Import ListNotations.
Open Scope list_scope.
Open Scope nat_scope.

(** ---- specification ---- *)
(** [lu], [ru]: the options leftmostunary and rightmostunary *)
Definition options (right lu ru : bool) (h v : nat) (artpa : bool) : opts :=
  Opts right h v 0 false false (str "|") (str "^") [] lu ru 2 artpa None [] labelof false false.
(** the label of a new node: the parent, the labels in the context, the ancestors *)
Definition newlabel (l : pystr) (context : list pystr) (ancestors : pystr) : nlabel :=
  (l ++ str "|<" ++ join (str ",") context ++ str ">" ++ ancestors, false).
(** right: each new node spans the remaining children; its context is the next
    [h] of them.  With [ru] the last child also gets a new node of its own.
    Children are given with their original labels. *)
Fixpoint right_spine (ru : bool) (l : pystr) (h : nat) (a : pystr) (cs : list (pystr * btree)) : list btree :=
  match cs with
  | [] => []
  | (_, c) :: rest =>
    match rest with
    | [] => [c]
    | [(s, d)] => if ru then [c; Node (newlabel l (firstn h [s]) a) [d]] else [c; d]
    | _ => [c; Node (newlabel l (firstn h (map fst rest)) a) (right_spine ru l h a rest)]
    end
  end.
(** left: each new node spans the children before the last; the children are
    given from right to left.  Its context is the last [h] of them. *)
Fixpoint left_spine (l : pystr) (h : nat) (a : pystr) (cs : list (pystr * btree)) : list btree :=
  match cs with
  | [] => []
  | (_, c) :: rest =>
    match rest with
    | [] => [c]
    | [(_, d)] => [d; c]
    | _ => [Node (newlabel l (rev (firstn h (map fst rest))) a) (left_spine l h a rest); c]
    end
  end.
(** [anc]: the labels of the ancestors, the nearest first; [v - 1] of them are
    added to the label of every phrase but the root.  With [lu], the children of
    a phrase of more than two are put below one more new node, whose context is
    the first [h] children. *)
Fixpoint markovized (right lu ru : bool) (h v : nat) (artpa : bool) (anc : list pystr) (t : btree) : btree :=
  match t with
  | Leaf a => Leaf a
  | Node (l, hd) ts =>
    let phrase := match ts with Node _ _ :: _ => true | _ => false end in
    let mark := if (2 <=? v) && phrase && negb (match anc with [] => true | _ => false end)
                then str "^<" ++ join (str ",") (firstn (v - 1) anc) ++ str ">" else [] in
    let cs := combine (map labelof ts) (map (markovized right lu ru h v artpa (l :: anc)) ts) in
    let a := if artpa then mark else [] in
    Node (l ++ mark, hd)
      (if length ts <=? 2 then map snd cs
       else if right then (if lu then [Node (newlabel l (firstn h (map fst cs)) a) (right_spine ru l h a cs)] else right_spine ru l h a cs)
       else left_spine l h a (rev cs))
  end.

(** ---- the loop ---- *)
Section Loop.
Variables (h v : nat) (pa lu ru : bool) (ol par : pystr) (all : list pystr) (n : nat).
Lemma kept_all : forall l, BinarizeModel.kept (options true lu ru h v pa) l = l /\ BinarizeModel.kept (options false false false h v pa) l = l.
Proof. assert (X : forall l : list pystr, filter (fun _ => true) l = l) by (induction l; cbn; congruence). intros l. split; apply X. Qed.
Lemma mid_right : forall i, midlabel (options true lu ru h v pa) ol par None all n true i = fst (newlabel ol (firstn h (skipn i all)) par).
Proof.
  intros i. unfold midlabel, siblingsof, domark, dirmark, headmark, newlabel. cbn [options childchar tailmarker oids direction dot revhorzmarkov markhead horzmarkov Nat.eqb fst hd0 app].
  destruct (i + 1 =? n); cbn [app]; rewrite (proj1 (kept_all _)); rewrite Nat.add_0_r || idtac; unfold commas; reflexivity.
Qed.
Lemma mid_left : forall i, midlabel (options false false false h v pa) ol par None all n false i = fst (newlabel ol (firstn h (skipn (n - i - h) all)) par).
Proof.
  intros i. unfold midlabel, siblingsof, domark, dirmark, headmark, newlabel. cbn [options childchar tailmarker oids direction dot revhorzmarkov markhead horzmarkov Nat.eqb fst hd0 app].
  destruct (i + 1 =? n); cbn [app]; rewrite (proj2 (kept_all _)); rewrite Nat.add_0_r; unfold commas; reflexivity.
Qed.
Lemma tl_skip : forall X (l : list X) i, skipn (1 + i) l = tl (skipn i l).
Proof using. clear. intros X l i. revert l. induction i as [|i IH]; intros l; destruct l; cbn; auto. apply IH. Qed.
Lemma first_right : firstlabel (options true lu ru h v pa) ol par None all n true = fst (newlabel ol (firstn h all) par).
Proof.
  unfold firstlabel, domark, dirmark, headmark, newlabel, BinarizeModel.slice. cbn [options childchar oids direction dot markhead horzmarkov fst hd0 app]. rewrite Nat.sub_0_r. cbn [skipn].
  rewrite (proj1 (kept_all _)). unfold commas. reflexivity.
Qed.
Lemma loop_right : forall k i cs, skipn i all = map fst (tl cs) -> length cs = k + (if ru then 1 else 2) -> factorloop (options true lu ru h v pa) ol par None all n k i true (map snd cs) = right_spine ru ol h par cs.
Proof.
  induction k as [|k IH]; intros i cs HS HL.
  - destruct ru; cbn in HL; [destruct cs as [|[a c] [|]]|destruct cs as [|[a c] [|[b d] [|]]]]; cbn in HL; try lia; reflexivity.
  - destruct cs as [|[a c] [|[b d] r]]; try (cbn in HL; destruct ru; lia). cbn [map snd factorloop]. cbv zeta. change (isheadidx (options true lu ru h v pa) None i) with false. cbn [andb negb]. cbv iota. rewrite mid_right, HS. cbn [tl].
    assert (E : right_spine ru ol h par ((a, c) :: (b, d) :: r) = [c; Node (newlabel ol (firstn h (map fst ((b, d) :: r))) par) (right_spine ru ol h par ((b, d) :: r))]).
    { destruct r as [|[b' d'] r]; [|reflexivity]. cbn in HL. destruct ru; [reflexivity|lia]. }
    rewrite E. clear E. f_equal. f_equal. f_equal. 
    change (d :: map snd r) with (map snd ((b, d) :: r)). rewrite IH; [reflexivity| |cbn [length] in *; lia]. cbn [tl] in HS. replace (i + 1) with (1 + i) by lia. rewrite tl_skip, HS. reflexivity.
Qed.
Lemma loop_left : forall k i cs, h <= 2 -> n = length all -> all = map fst (rev cs) ++ skipn (length cs) all -> i + length cs = n + 1 -> length cs = k + 2 -> factorloop (options false false false h v pa) ol par None all n k i false (map snd (rev cs)) = left_spine ol h par cs.
Proof.
  induction k as [|k IH]; intros i cs H2 HN HS HI HL.
  - destruct cs as [|[a c] [|[b d] [|]]]; try (cbn in HL; lia). reflexivity.
  - destruct cs as [|[a c] cs]; [cbn in HL; lia|]. cbn [length] in *. cbn [factorloop]. cbv zeta. change (isheadidx (options false false false h v pa) None i) with false. cbn [andb negb]. cbv iota. rewrite mid_left. cbn [rev]. rewrite map_app. cbn [map snd]. rewrite removelast_last, last_last.
    assert (E : left_spine ol h par ((a, c) :: cs) = [Node (newlabel ol (rev (firstn h (map fst cs))) par) (left_spine ol h par cs); c]) by (destruct cs as [|[b d] [|[b' d'] r]]; cbn [length] in HL; try lia; reflexivity). rewrite E. clear E.
    assert (E1 : firstn h (skipn (n - i - h) all) = rev (firstn h (map fst cs))).
    { cbn [rev] in HS. rewrite map_app in HS. rewrite HS, <- app_assoc. cbn [map fst app]. replace (n - i - h) with (length cs - h) by lia. rewrite skipn_app, firstn_app. rewrite map_length, rev_length. replace (length cs - h - length cs) with 0 by lia. rewrite skipn_length, map_length, rev_length.
      replace (h - (length cs - (length cs - h))) with 0 by lia. rewrite firstn_O, app_nil_r. rewrite firstn_all2 by (rewrite skipn_length, map_length, rev_length; lia). rewrite map_rev. rewrite skipn_rev. rewrite map_length. replace (length cs - (length cs - h)) with h by lia. reflexivity. }
    rewrite E1. rewrite (IH (i + 1) cs); auto; try lia.
    cbn [rev] in HS. rewrite map_app in HS. rewrite <- app_assoc in HS. assert (Z : forall X (a b l : list X), l = a ++ b -> l = a ++ skipn (length a) l) by (intros X x y z ->; rewrite skipn_app, skipn_all, Nat.sub_diag; reflexivity). apply Z in HS. rewrite map_length, rev_length in HS. exact HS.
Qed.
End Loop.

Lemma bin_spec : forall (right lu ru : bool) h v pa, (right = true \/ (h <= 2 /\ lu = false /\ ru = false)) -> 1 <= v -> forall t root anc parent, every_node alone t ->
  (root = true <-> anc = []) -> (forall l hd ts, t = Node (l, hd) ts -> 2 <= v -> parent = if root then [l] else firstn (v - 1) anc) ->
  bin (options right lu ru h v pa) root parent t = markovized right lu ru h v pa anc t.
Proof.
  intros right lu ru h v pa HR HV t. induction t as [a|[l hd] ts IH] using tree_ind'; intros root anc parent A R P; [reflexivity|]. fold nlabel in *.
  cbn [every_node] in A. rewrite fold_and in A. destruct A as [A1 A2]. cbn [bin markovized]. cbv zeta.
  assert (EO : (if vertmarkov (options right lu ru h v pa) =? 0 then str "_" else l) = l) by (cbn [options vertmarkov]; destruct v; [lia|reflexivity]). rewrite EO. clear EO.
  change (vertmarkov (options right lu ru h v pa)) with v. change (artpa (options right lu ru h v pa)) with pa. change (labelfun (options right lu ru h v pa)) with labelof. change (headoutward (options right lu ru h v pa) || markhead (options right lu ru h v pa)) with false. cbv iota.
  set (fn := match ts with c :: _ => is_node c | [] => false end). assert (EF : match ts with Node _ _ :: _ => true | _ => false end = fn) by (destruct ts as [|[|]]; reflexivity). rewrite ?EF.
  assert (ER : negb (match anc with [] => true | _ => false end) = negb root) by (destruct R as [R1 R2]; destruct anc, root; auto; exfalso; specialize (R1 eq_refl); discriminate). rewrite ER. replace ((2 <=? v) && fn && negb root) with ((2 <=? v) && negb root && fn) by (destruct (2 <=? v), fn, root; reflexivity).
  set (an := (2 <=? v) && negb root && fn). change (parentchar (options right lu ru h v pa)) with (str "^").
  assert (EP : an = true -> parent = firstn (v - 1) anc). { unfold an. intros E. apply andb_true_iff in E. destruct E as [E _]. apply andb_true_iff in E. destruct E as [E1 E2]. apply Nat.leb_le in E1. rewrite (P l hd ts eq_refl E1). destruct root; [discriminate|reflexivity]. }
  assert (EM : (if an then str "^" ++ str "<" ++ commas parent ++ str ">" else []) = (if an then str "^<" ++ join (str ",") (firstn (v - 1) anc) ++ str ">" else [])). { destruct an eqn:Ean; [|reflexivity]. rewrite (EP eq_refl). reflexivity. }
  assert (EL : (if an then l ++ str "^" ++ str "<" ++ commas parent ++ str ">" else l) = l ++ (if an then str "^<" ++ join (str ",") (firstn (v - 1) anc) ++ str ">" else [])). { rewrite <- EM. destruct an; [reflexivity|now rewrite app_nil_r]. } rewrite EL. clear EL.
  assert (EA : (if an && pa then str "^" ++ str "<" ++ commas parent ++ str ">" else []) = (if pa then (if an then str "^<" ++ join (str ",") (firstn (v - 1) anc) ++ str ">" else []) else [])). { rewrite <- EM. destruct an, pa; reflexivity. } rewrite EA. clear EA EM.
  set (mk := if pa then _ else _). f_equal.
  assert (EC : fn = true -> map (bin (options right lu ru h v pa) false (if an then l :: firstn (v - 2) parent else parent)) ts = map (markovized right lu ru h v pa (l :: anc)) ts).
  { intros EFN. apply map_ext_in. intros c Hc. rewrite Forall_forall in IH, A2. apply IH; auto; [split; discriminate|]. intros l' hd' ts' _ V2. unfold an. rewrite EFN. destruct (Nat.leb_spec 2 v); [|lia]. cbn [andb]. rewrite (P l hd ts eq_refl V2). rewrite andb_true_r. destruct root; cbn [negb].
    - assert (anc = []) by now apply R. subst anc. destruct v as [|[|v]]; try lia. cbn. now rewrite firstn_nil.
    - destruct v as [|[|v]]; try lia. cbn [Nat.sub]. rewrite Nat.sub_0_r, firstn_firstn, Nat.min_l by lia. reflexivity. }
  destruct fn eqn:EFN.
  - (* a phrase *)
    rewrite EC by reflexivity. clear EC. unfold factorize. change (threshold (options right lu ru h v pa)) with 2.
    assert (LC : length (combine (map labelof ts) (map (markovized right lu ru h v pa (l :: anc)) ts)) = length ts) by (rewrite combine_length, !map_length; lia).
    set (cs := combine (map labelof ts) (map (markovized right lu ru h v pa (l :: anc)) ts)) in *.
    assert (ES : map snd cs = map (markovized right lu ru h v pa (l :: anc)) ts) by (unfold cs; clear; induction ts as [|c r IH]; [reflexivity|cbn; now rewrite IH]).
    assert (EF1 : map fst cs = map labelof ts) by (unfold cs; clear; induction ts as [|c r IH]; [reflexivity|cbn; now rewrite IH]).
    destruct (Nat.leb_spec (length ts) 2) as [L2|L2].
    + rewrite <- ES. reflexivity.
    + change (leftmostunary (options right lu ru h v pa)) with lu. change (rightmostunary (options right lu ru h v pa)) with ru. cbv iota. change (isheadidx (options right lu ru h v pa) None 0) with false. cbv iota. change (oright (options right lu ru h v pa)) with right. rewrite <- ES. destruct right.
      * assert (LP : factorloop (options true lu ru h v pa) l mk None (map labelof ts) (length ts) (length ts - 1 - (if ru then 0 else 1)) 1 true (map snd cs) = right_spine ru l h mk cs).
        { apply loop_right; [rewrite <- EF1; destruct cs; reflexivity|]. rewrite LC. destruct ru; lia. }
        match goal with |- context [factorloop ?a ?b ?c ?d ?e ?f ?g ?x ?y ?z] => change (factorloop a b c d e f g x y z) with (factorloop (options true lu ru h v pa) l mk None (map labelof ts) (length ts) (length ts - 1 - (if ru then 0 else 1)) 1 true (map snd cs)) end. rewrite LP. destruct lu; [|reflexivity]. rewrite first_right, EF1. reflexivity.
      * destruct HR as [HR|(HR & -> & ->)]; [discriminate|]. rewrite <- (rev_involutive cs) at 1. apply (loop_left h v pa false false).
        -- auto.
        -- symmetry. apply map_length.
        -- rewrite rev_involutive, rev_length, EF1, LC. rewrite skipn_all2 by (rewrite map_length; lia). now rewrite app_nil_r.
        -- rewrite rev_length. lia.
        -- rewrite rev_length. lia.
  - (* a preterminal *)
    destruct ts as [|[a|l' ts'] r]; [|  |discriminate EFN].
    + unfold factorize. reflexivity.
    + assert (L1 := A1 a (or_introl eq_refl)). cbn in L1. destruct r; [|discriminate]. reflexivity.
Qed.
(** ---- C52 ---- *)
Theorem C52_right : forall lu ru h v artpa t, 1 <= v -> every_node alone t -> binarize (options true lu ru h v artpa) t = markovized true lu ru h v artpa [] t.
Proof.
  intros lu ru h v artpa t V A. unfold binarize. apply bin_spec; auto; [split; auto|]. intros l hd ts -> _. reflexivity.
Qed.
Theorem C52_left : forall h v artpa t, h <= 2 -> 1 <= v -> every_node alone t -> binarize (options false false false h v artpa) t = markovized false false false h v artpa [] t.
Proof.
  intros h v artpa t H V A. unfold binarize. apply bin_spec; auto; [split; auto|]. intros l hd ts -> _. reflexivity.
Qed.
Definition pret (s : string) (i : nat) : btree := Node (str s, false) [Leaf i].
Definition ex : btree := Node (str "S", false) [Node (str "A", false) [pret "a" 0; pret "b" 2; pret "c" 3; pret "d" 4]; pret "e" 1].
Example ex_alone : every_node alone ex.
Proof. cbn. unfold alone. repeat split; intros a H; cbn in *; intuition discriminate. Qed.
Example ex_right : binarize (options true false false 1 2 true) ex =
  Node (str "S", false) [Node (str "A^<S>", false) [pret "a" 0; Node (str "A|<b>^<S>", false) [pret "b" 2; Node (str "A|<c>^<S>", false) [pret "c" 3; pret "d" 4]]]; pret "e" 1].
Proof. reflexivity. Qed.
Example ex_right_unary : binarize (options true true true 1 1 true) ex =
  Node (str "S", false) [Node (str "A", false) [Node (str "A|<a>", false) [pret "a" 0; Node (str "A|<b>", false) [pret "b" 2; Node (str "A|<c>", false) [pret "c" 3; Node (str "A|<d>", false) [pret "d" 4]]]]]; pret "e" 1].
Proof. reflexivity. Qed.
Example ex_left : binarize (options false false false 1 2 true) ex =
  Node (str "S", false) [Node (str "A^<S>", false) [Node (str "A|<c>^<S>", false) [Node (str "A|<b>^<S>", false) [pret "a" 0; pret "b" 2]; pret "c" 3]; pret "d" 4]; pret "e" 1].
Proof. reflexivity. Qed.
(** with more context, factor='left' puts siblings into the label that the new
    node does not span; with the default (infinite) context all new nodes of a
    constituent get the same label, so that new generalizations are introduced,
    contrary to the docstring *)
Theorem C52_left_refuted : exists t, every_node alone t /\ binarize (options false false false 999 1 true) t <> markovized false false false 999 1 true [] t /\
  binarize (options false false false 999 1 true) t = Node (str "A", false) [Node (str "A|<a,b,c,d>", false) [Node (str "A|<a,b,c,d>", false) [pret "a" 0; pret "b" 1]; pret "c" 2]; pret "d" 3].
Proof.
  exists (Node (str "A", false) [pret "a" 0; pret "b" 1; pret "c" 2; pret "d" 3]). split; [|split; [|reflexivity]].
  - cbn. unfold alone. repeat split; intros a H; cbn in *; intuition discriminate.
  - intros H. vm_compute in H. discriminate H.
Qed.
