(** Optimal binarization (C77) *)
From Coq Require Import String.
From Coq Require Import List Bool Arith NArith Lia Permutation Sorted.
From Verif Require Import PyStr TreeModel TreeProps BracketModel BinarizeModel BinarizeProps TransformModel SortProofs TransformProps OptModel OptProofs OptProofs2.
Import ListNotations.
Open Scope list_scope.
Open Scope nat_scope.
Notation ptree := (tree pystr nat) (only parsing).

(** ---- specification ---- *)
(** a binary tree over a list of trees, in the order of the list *)
Inductive groups : list ptree -> ptree -> Prop :=
| g_one : forall t, groups [t] t
| g_two : forall a b x y l, groups a x -> groups b y -> groups (a ++ b) (Node l [x; y]).
(** a chain of [vs] that ends in [h]: [v1 [v2 [ ... [vn h]]]] *)
Inductive spine (h : ptree) : list ptree -> ptree -> Prop :=
| sp_one : forall c l, spine h [c] (Node l [c; h])
| sp_more : forall c vs x l, spine h vs x -> spine h (c :: vs) (Node l [c; x]).
(** [T] is [t] with the children of every node with more than two children grouped by
    binary nodes in some order; labels and the order of two children do not matter.
    [hd]: the groups are a chain that ends in the last child, the head *)
Inductive binarizes (hd : bool) : ptree -> ptree -> Prop :=
| bz_leaf : forall a, binarizes hd (Leaf a) (Leaf a)
| bz_small : forall l l' ts us vs, length ts <= 2 -> Forall2 (binarizes hd) ts us -> Permutation us vs -> binarizes hd (Node l ts) (Node l' vs)
| bz_big : forall l l' ts us a b x y, hd = false -> 2 < length ts -> Forall2 (binarizes hd) ts us -> Permutation (a ++ b) us -> groups a x -> groups b y -> binarizes hd (Node l ts) (Node l' [x; y])
| bz_head : forall l ts init h vs T, hd = true -> 2 < length ts -> Forall2 (binarizes hd) ts (init ++ [h]) -> Permutation vs init -> spine h vs T -> binarizes hd (Node l ts) T.
(** all nodes of a tree *)
Fixpoint nodesof (t : ptree) : list ptree := match t with Leaf _ => [] | Node _ ts => t :: flat_map nodesof ts end.
(** the highest score in [S] is not above the highest score in [T] *)
Definition treenoworse (score : ptree -> nat * nat) (S T : ptree) : Prop :=
  forall p, In p (nodesof S) -> exists q, In q (nodesof T) /\ le2 (score p) (score q).
(** scores: smaller fan-out and smaller complexity is not worse *)
Definition monotone (score : ptree -> nat * nat) : Prop :=
  forall s t, treefanout s <= treefanout t -> complexity s <= complexity t -> le2 (score s) (score t).
Lemma monotone_cf : monotone complexityfanout.
Proof. intros s t A B. unfold complexityfanout, le2. cbn. lia. Qed.
Lemma monotone_fc : monotone fanoutcomplexity.
Proof. intros s t A B. unfold fanoutcomplexity, le2. cbn. lia. Qed.

(** ---- fan-out ---- *)
Definition isstart (ls : list nat) (a : nat) : Prop := In a ls /\ match a with O => True | S p => ~ In p ls end.
Definition starts (ls : list nat) : list nat := filter (fun a => match a with O => true | S p => negb (existsb (Nat.eqb p) ls) end) (sort Nat.leb (TransformModel.dedup ls)).
Lemma existsb_in : forall p ls, existsb (Nat.eqb p) ls = true <-> In p ls.
Proof. intros p ls. rewrite existsb_exists. split; [intros (x & I & E); apply Nat.eqb_eq in E; now subst|intros I; exists p; split; [exact I|apply Nat.eqb_refl]]. Qed.
Lemma starts_in : forall ls a, In a (starts ls) <-> isstart ls a.
Proof.
  intros ls a. unfold starts, isstart. rewrite filter_In, sort_In, dedup_in. destruct a as [|p]; [tauto|]. rewrite negb_true_iff, <- not_true_iff_false, existsb_in. tauto.
Qed.
Lemma starts_nodup : forall ls, NoDup (starts ls).
Proof. intros ls. apply NoDup_filter. apply (Permutation_NoDup (sort_perm _ _)). apply dedup_nodup. Qed.
Lemma fanout_ext : forall l m, (forall a, In a l <-> In a m) -> fanout_of l = fanout_of m.
Proof.
  intros l m H. change (length (starts l) = length (starts m)). apply Permutation_length. apply NoDup_Permutation; [apply starts_nodup|apply starts_nodup|]. intros a. rewrite !starts_in. unfold isstart. rewrite H. destruct a; [tauto|]. rewrite H. tauto.
Qed.
Lemma start_below : forall ls x, In x ls -> exists s, isstart ls s /\ s <= x /\ forall y, s <= y <= x -> In y ls.
Proof.
  intros ls. induction x as [|x IH]; intros I; [exists 0; split; [split; auto|]; split; [lia|]; intros y Y; now replace y with 0 by lia|].
  destruct (in_dec Nat.eq_dec x ls) as [J|J].
  - destruct (IH J) as (s & A & B & C). exists s. split; [exact A|]. split; [lia|]. intros y Y. destruct (Nat.eq_dec y (S x)) as [->|N]; [exact I|apply C; lia].
  - exists (S x). split; [split; assumption|]. split; [lia|]. intros y Y. now replace y with (S x) by lia.
Qed.
Lemma fanout_pos : forall ls a, In a ls -> 1 <= fanout_of ls.
Proof. intros ls a I. destruct (start_below ls a I) as (s & A & _). apply starts_in in A. change (1 <= length (starts ls)). destruct (starts ls); [contradiction|cbn; lia]. Qed.
Definition convex (ls : list nat) : Prop := forall x y z, In x ls -> In z ls -> x <= y <= z -> In y ls.
Lemma fanout_one : forall ls, fanout_of ls = 1 -> convex ls.
Proof.
  intros ls E x y z X Z Y. change (length (starts ls) = 1) in E. destruct (start_below ls x X) as (s & A & B & C), (start_below ls z Z) as (s' & A' & B' & C').
  apply starts_in in A, A'. destruct (starts ls) as [|s0 [|]]; [discriminate| |discriminate]. destruct A as [->|[]], A' as [->|[]]. apply C'. lia.
Qed.
Lemma convex_fanout : forall ls a, In a ls -> convex ls -> fanout_of ls = 1.
Proof.
  intros ls a I C. pose proof (fanout_pos ls a I) as P. change (length (starts ls) = 1). change (1 <= length (starts ls)) in P. pose proof (starts_nodup ls) as ND. destruct (starts ls) as [|s [|s' r]] eqn:E; [cbn in P; lia|reflexivity|exfalso].
  assert (S1 : isstart ls s) by (apply starts_in; rewrite E; now left). assert (S2 : isstart ls s') by (apply starts_in; rewrite E; right; now left).
  inversion ND; subst. assert (N : s <> s') by (intros ->; apply H1; now left). destruct S1 as [A1 B1], S2 as [A2 B2].
  destruct (Nat.lt_ge_cases s s') as [L|L].
  - destruct s' as [|p]; [lia|]. apply B2. apply (C s p (S p)); auto. lia.
  - destruct s as [|p]; [lia|]. apply B1. apply (C s' p (S p)); auto. lia.
Qed.

(** ---- scores do not depend on labels ---- *)
Fixpoint erase (t : ptree) : ptree := match t with Leaf a => Leaf a | Node _ ts => Node [] (map erase ts) end.
Lemma flat_map_map' : forall A B C (f : B -> list C) (g : A -> B) l, flat_map f (map g l) = flat_map (fun x => f (g x)) l.
Proof. induction l as [|a l IH]; cbn; [reflexivity|]. now rewrite IH. Qed.
Lemma flat_map_ext_F : forall A B (f g : A -> list B) l, Forall (fun x => f x = g x) l -> flat_map f l = flat_map g l.
Proof. intros A B f g l H. induction H; cbn; congruence. Qed.
Lemma erase_leaves : forall t, leaves (erase t) = leaves t.
Proof. induction t as [a|l ts IH] using tree_ind'; [reflexivity|]. cbn. rewrite flat_map_map'. now apply flat_map_ext_F. Qed.
Lemma erase_fanout : forall t, treefanout (erase t) = treefanout t.
Proof. intros [a|l ts]; [reflexivity|]. unfold treefanout. change (erase (Node l ts)) with (Node [] (map erase ts) : ptree) at 1. rewrite <- (erase_leaves (Node l ts)). reflexivity. Qed.
Lemma erase_complexity : forall t, complexity (erase t) = complexity t.
Proof. intros t. unfold complexity. rewrite erase_fanout. f_equal. destruct t as [a|l ts]; [reflexivity|]. cbn [erase]. rewrite map_map. f_equal. apply map_ext. apply erase_fanout. Qed.
Lemma erase_nodes : forall t, map erase (nodesof t) = nodesof (erase t).
Proof.
  induction t as [a|l ts IH] using tree_ind'; [reflexivity|]. cbn [nodesof erase map]. f_equal. rewrite flat_map_map'. clear l. induction IH as [|t ts E IH IH2]; [reflexivity|]. cbn. rewrite map_app, E. now f_equal.
Qed.
Section Score.
Variable score : ptree -> nat * nat.
Hypothesis mono : monotone score.
Lemma score_same : forall s t, treefanout s = treefanout t -> complexity s = complexity t -> score s = score t.
Proof. intros s t A B. apply le2_antisym; apply mono; lia. Qed.
Lemma score_erase : forall s t, erase s = erase t -> score s = score t.
Proof. intros s t E. apply score_same; [rewrite <- (erase_fanout s), E; apply erase_fanout|rewrite <- (erase_complexity s), E; apply erase_complexity]. Qed.
Lemma node_erase : forall s t q, erase s = erase t -> In q (nodesof s) -> exists q', In q' (nodesof t) /\ score q' = score q.
Proof.
  intros s t q E I. apply (in_map erase) in I. rewrite erase_nodes, E, <- erase_nodes in I. apply in_map_iff in I. destruct I as (q' & E' & I). exists q'. split; [exact I|now apply score_erase].
Qed.

(** ---- rendering ---- *)
Lemma render_leaves : forall lab cs p, leaves (render lab cs p) = flat_map (fun i => leaves (nth i cs (Leaf 0))) (btleaves p).
Proof. intros lab cs p. induction p as [i|l IHl r IHr]; cbn; [now rewrite app_nil_r|]. rewrite app_nil_r, IHl, IHr, flat_map_app. reflexivity. Qed.
Definition allnodes (cs : list ptree) : Prop := forall c, In c cs -> is_node c = true.
Lemma render_node : forall lab cs p, allnodes cs -> (forall j, In j (btleaves p) -> j < length cs) -> is_node (render lab cs p) = true.
Proof. intros lab cs [i|l r] A B; [|reflexivity]. cbn. apply A. apply nth_In. apply B. now left. Qed.
Lemma fanout_node : forall t, is_node t = true -> treefanout t = fanout_of (leaves t).
Proof. intros [a|l ts]; [discriminate|reflexivity]. Qed.
Lemma render_fanout : forall lab cs p, allnodes cs -> (forall j, In j (btleaves p) -> j < length cs) -> treefanout (render lab cs p) = fanout_of (flat_map (fun i => leaves (nth i cs (Leaf 0))) (btleaves p)).
Proof. intros lab cs p A B. rewrite fanout_node by (apply render_node; assumption). now rewrite render_leaves. Qed.
(** two lists of trees with the same terminals *)
Definition sameleaves (cs ds : list ptree) : Prop := Forall2 (fun c d => forall a, In a (leaves c) <-> In a (leaves d)) cs ds.
Lemma sameleaves_nth : forall cs ds i, sameleaves cs ds -> forall a, In a (leaves (nth i cs (Leaf 0))) <-> In a (leaves (nth i ds (Leaf 0))).
Proof. intros cs ds i H. revert i. induction H; intros [|i] a; cbn; try tauto; auto. Qed.
Lemma sameleaves_refl : forall cs, sameleaves cs cs.
Proof. induction cs; constructor; [tauto|auto]. Qed.
Lemma render_fanout_same : forall lab lab' cs ds p q, allnodes cs -> allnodes ds -> sameleaves cs ds -> (forall j, In j (btleaves p) -> j < length cs) -> (forall j, In j (btleaves q) -> j < length ds) ->
  (forall j, In j (btleaves p) <-> In j (btleaves q)) -> treefanout (render lab cs p) = treefanout (render lab' ds q).
Proof.
  intros lab lab' cs ds p q A1 A2 S B1 B2 E. rewrite !render_fanout by assumption. apply fanout_ext. intros a. rewrite !in_flat_map. split; intros (i & I & J); exists i; (split; [now apply E|]); apply (sameleaves_nth _ _ i S); exact J.
Qed.
Lemma render_score : forall lab lab' cs ds l r l' r', allnodes cs -> allnodes ds -> sameleaves cs ds -> (forall j, In j (btleaves (BN l r)) -> j < length cs) -> (forall j, In j (btleaves (BN l' r')) -> j < length ds) ->
  (forall j, In j (btleaves l) <-> In j (btleaves l')) -> (forall j, In j (btleaves r) <-> In j (btleaves r')) -> score (render lab cs (BN l r)) = score (render lab' ds (BN l' r')).
Proof.
  intros lab lab' cs ds l r l' r' A1 A2 S B1 B2 E1 E2. cbn [btleaves] in *.
  assert (F0 : treefanout (render lab cs (BN l r)) = treefanout (render lab' ds (BN l' r'))) by (apply render_fanout_same; auto; intros j; cbn [btleaves]; rewrite !in_app_iff, E1, E2; tauto).
  apply score_same; [exact F0|]. unfold complexity. rewrite F0. f_equal. cbn [render map list_sum fold_right].
  rewrite (render_fanout_same lab lab' cs ds l l') by (auto; intros j J; try apply B1; try apply B2; apply in_or_app; now left).
  rewrite (render_fanout_same lab lab' cs ds r r') by (auto; intros j J; try apply B1; try apply B2; apply in_or_app; now right). reflexivity.
Qed.
Lemma render_score_swap : forall lab cs l r, allnodes cs -> (forall j, In j (btleaves (BN l r)) -> j < length cs) -> score (render lab cs (BN l r)) = score (render lab cs (BN r l)).
Proof.
  intros lab cs l r A B. cbn [btleaves] in B.
  assert (F0 : treefanout (render lab cs (BN l r)) = treefanout (render lab cs (BN r l))) by (apply render_fanout_same; auto; [apply sameleaves_refl|intros j J; apply B; cbn in J; rewrite in_app_iff in *; tauto|intros j; cbn [btleaves]; rewrite !in_app_iff; tauto]).
  apply score_same; [exact F0|]. unfold complexity. rewrite F0. f_equal. cbn [render map list_sum fold_right]. lia.
Qed.
Lemma part_node : forall lab cs p l r, In (BN l r) (parts p) -> In (render lab cs (BN l r)) (nodesof (render lab cs p)).
Proof.
  intros lab cs p. induction p as [i|a IHa b IHb]; intros l r I; [destruct I as [E|[]]; discriminate|]. cbn [parts] in I. destruct I as [E|I]; [injection E as -> ->; now left|].
  cbn [render nodesof flat_map]. right. rewrite app_nil_r. apply in_app_iff in I. apply in_or_app. destruct I as [I|I]; [left; exact (IHa _ _ I)|right; exact (IHb _ _ I)].
Qed.
Lemma leaf_node : forall lab cs p i q, In i (btleaves p) -> In q (nodesof (nth i cs (Leaf 0))) -> In q (nodesof (render lab cs p)).
Proof.
  intros lab cs p i q. induction p as [j|a IHa b IHb]; cbn [btleaves render]; intros I Q; [destruct I as [->|[]]; exact Q|]. cbn [nodesof flat_map]. right. rewrite app_nil_r. apply in_app_iff in I. apply in_or_app. destruct I; [left|right]; auto.
Qed.
Lemma node_part : forall lab cs p q, In q (nodesof (render lab cs p)) -> (exists l r, In (BN l r) (parts p) /\ q = render lab cs (BN l r)) \/ exists i, In i (btleaves p) /\ In q (nodesof (nth i cs (Leaf 0))).
Proof.
  intros lab cs p q. induction p as [j|a IHa b IHb]; intros I; [right; exists j; split; [now left|exact I]|]. cbn [render nodesof flat_map] in I. rewrite app_nil_r in I. destruct I as [<-|I]; [left; exists a, b; split; [now left|reflexivity]|].
  cbn [parts btleaves]. apply in_app_iff in I. destruct I as [I|I].
  - destruct (IHa I) as [(l & r & A & B)|(i & A & B)]; [left; exists l, r; split; [right; apply in_or_app; now left|exact B]|right; exists i; split; [apply in_or_app; now left|exact B]].
  - destruct (IHb I) as [(l & r & A & B)|(i & A & B)]; [left; exists l, r; split; [right; apply in_or_app; now right|exact B]|right; exists i; split; [apply in_or_app; now right|exact B]].
Qed.
Lemma parts_leaves : forall p s j, In s (parts p) -> In j (btleaves s) -> In j (btleaves p).
Proof.
  induction p as [i|a IHa b IHb]; intros s j I J; cbn [parts] in I; [destruct I as [<-|[]]; exact J|]. destruct I as [<-|I]; [exact J|]. cbn [btleaves]. apply in_app_iff in I. apply in_or_app. destruct I; [left|right]; eauto.
Qed.
Lemma render_groups : forall lab cs p, groups (map (fun i => nth i cs (Leaf 0)) (btleaves p)) (render lab cs p).
Proof. intros lab cs p. induction p as [i|l IHl r IHr]; cbn [btleaves map render]; [constructor|]. rewrite map_app. now constructor. Qed.
Lemma groups_render : forall vs x, groups vs x -> forall cs is, vs = map (fun i => nth i cs (Leaf 0)) is -> exists p, btleaves p = is /\ erase x = erase (render (fun _ => []) cs p).
Proof.
  induction 1 as [t|a b x y l Ga IHa Gb IHb]; intros cs is E.
  - destruct is as [|i [|]]; [discriminate| |discriminate]. cbn in E. injection E as ->. exists (BL i). auto.
  - symmetry in E. apply map_eq_app in E. destruct E as (i1 & i2 & -> & E1 & E2). destruct (IHa cs i1 (eq_sym E1)) as (p & P1 & P2), (IHb cs i2 (eq_sym E2)) as (q & Q1 & Q2).
    exists (BN p q). cbn [btleaves render erase map]. split; congruence.
Qed.
Lemma perm_index : forall (vs cs : list ptree), Permutation vs cs -> exists is, vs = map (fun i => nth i cs (Leaf 0)) is /\ Permutation is (seq 0 (length cs)).
Proof.
  intros vs cs P. assert (E : cs = map (fun i => nth i cs (Leaf 0)) (seq 0 (length cs))).
  { clear. induction cs as [|c cs IH]; [reflexivity|]. cbn [length seq map nth]. f_equal. rewrite <- seq_shift, map_map. exact IH. }
  assert (Q : Permutation (map (fun i => nth i cs (Leaf 0)) (seq 0 (length cs))) vs) by (rewrite <- E; now apply Permutation_sym).
  apply Permutation_sym, Permutation_map_inv in Q. destruct Q as (is & A & B). exists is. split; [exact A|now apply Permutation_sym].
Qed.

(** ---- trees that are binarized ---- *)
Lemma groups_leaves : forall vs x, groups vs x -> leaves x = flat_map leaves vs.
Proof. induction 1 as [t|a b x y l Ga IHa Gb IHb]; cbn; [now rewrite app_nil_r|]. rewrite app_nil_r, IHa, IHb, flat_map_app. reflexivity. Qed.
Lemma spine_form : forall h vs T, spine h vs T -> exists l c vs' y, T = Node l [c; y] /\ vs = c :: vs' /\ groups (vs' ++ [h]) y.
Proof.
  induction 1 as [c l|c vs x l S (l2 & c2 & vs2 & y & -> & -> & G)]; [exists l, c, [], h; repeat split; constructor|].
  exists l, c, (c2 :: vs2), (Node l2 [c2; y]). repeat split. apply (g_two [c2] (vs2 ++ [h])); [constructor|exact G].
Qed.
(** more than two children *)
Lemma big_form : forall hd l ts T, binarizes hd (Node l ts) T -> 2 < length ts -> exists l' us a b x y, T = Node l' [x; y] /\ Forall2 (binarizes hd) ts us /\ Permutation (a ++ b) us /\ groups a x /\ groups b y.
Proof.
  intros hd l ts T B L. inversion B as [|? ? ? us vs L' F P|? ? ? us a b x y E L' F P Ga Gb|? ? init h vs ? E L' F P S]; subst; [lia| |].
  - exists l', us, a, b, x, y. auto.
  - destruct (spine_form _ _ _ S) as (l' & c & vs' & y & -> & -> & G). exists l', (init ++ [h]), [c], (vs' ++ [h]), c, y. repeat split; auto; [|constructor]. rewrite app_assoc. apply Permutation_app_tail. exact P.
Qed.
Lemma forall2_perm : forall (R : ptree -> ptree -> Prop) ts us, (forall t u, In t ts -> R t u -> Permutation (leaves t) (leaves u)) -> Forall2 R ts us -> Permutation (flat_map leaves ts) (flat_map leaves us).
Proof. intros R ts us H F. induction F as [|t u ts us E F IH]; [constructor|]. cbn. apply Permutation_app; [apply H; [now left|exact E]|apply IH; intros; apply H; [now right|assumption]]. Qed.
Lemma binarizes_leaves : forall hd t T, binarizes hd t T -> Permutation (leaves t) (leaves T).
Proof.
  intros hd. induction t as [a0|l ts IH] using tree_ind'; intros T B; [inversion B; apply Permutation_refl|]. rewrite Forall_forall in IH.
  destruct (Nat.le_gt_cases (length ts) 2) as [L|L].
  - inversion B as [|? ? ? us vs L' F P|? ? ? us a b x y E L' F P Ga Gb|? ? init h vs ? E L' F P S]; subst; [|lia|lia]. rewrite !leaves_node. rewrite (forall2_perm _ _ _ (fun t u I => IH t I u) F). now apply Permutation_flat_map.
  - destruct (big_form _ _ _ _ B L) as (l' & us & a & b & x & y & -> & F & P & Ga & Gb). cbn [leaves flat_map]. rewrite app_nil_r, (groups_leaves _ _ Ga), (groups_leaves _ _ Gb), <- flat_map_app. rewrite (forall2_perm _ _ _ (fun t u I => IH t I u) F).
    apply Permutation_sym. now apply Permutation_flat_map.
Qed.
Lemma binarizes_node : forall hd t T, binarizes hd t T -> is_node t = is_node T.
Proof. intros hd t T B. inversion B as [| | |? ? ? ? ? ? ? ? ? ? S]; try reflexivity. destruct (spine_form _ _ _ S) as (? & ? & ? & ? & -> & _). reflexivity. Qed.
Lemma forall2_sameleaves : forall hd ts us, Forall2 (binarizes hd) ts us -> sameleaves ts us.
Proof. induction 1; constructor; auto. intros a. split; apply Permutation_in; [|apply Permutation_sym]; eapply binarizes_leaves; eassumption. Qed.
Lemma forall2_nodes : forall hd ts us, Forall2 (binarizes hd) ts us -> allnodes ts -> allnodes us.
Proof. intros hd ts us F A. induction F as [|t u ts us B F IH]; intros c I; [contradiction|]. destruct I as [<-|I]; [rewrite <- (binarizes_node _ _ _ B); apply A; now left|apply IH; [intros d D; apply A; now right|exact I]]. Qed.
Lemma sameleaves_sym : forall a b, sameleaves a b -> sameleaves b a.
Proof. intros a b H. induction H as [|x y a b E H IH]; constructor; [|exact IH]. intros z. symmetry. apply E. Qed.
Lemma sameleaves_trans : forall a b c, sameleaves a b -> sameleaves b c -> sameleaves a c.
Proof. intros a b c H. revert c. induction H as [|x y a b E H IH]; intros c K; inversion K as [|? ? ? ? E2 K2]; subst; constructor; [intros z; rewrite (E z); exact (E2 z)|exact (IH _ K2)]. Qed.
Lemma forall2_nth : forall (R : ptree -> ptree -> Prop) a b i, Forall2 R a b -> i < length a -> R (nth i a (Leaf 0)) (nth i b (Leaf 0)).
Proof. intros R a b i H. revert i. induction H as [|x y a b E H IH]; intros [|i] L; cbn in *; try lia; [exact E|apply IH; lia]. Qed.
(** nodes of a grouping of [ds], compared with a grouping [p] of [cs]: [cs] is the result
    for the children, [ds] any other *)
Lemma compare_groups : forall lab cs ds p p' T', allnodes cs -> allnodes ds -> sameleaves cs ds -> length cs = length ds ->
  Forall2 (treenoworse score) cs ds -> erase T' = erase (render (fun _ => []) ds p') -> Permutation (btleaves p') (seq 0 (length ds)) ->
  Permutation (btleaves p) (seq 0 (length cs)) -> noworse (fun t => score (render lab cs t)) p p' ->
  treenoworse score (render lab cs p) T'.
Proof.
  intros lab cs ds p p' T' A1 A2 SL LN IH ET PB PP OPT q Q.
  assert (TO : forall q', In q' (nodesof (render (fun _ => []) ds p')) -> exists q2, In q2 (nodesof T') /\ score q2 = score q').
  { intros q' I. eapply node_erase; [symmetry; exact ET|exact I]. }
  assert (BD : forall j, In j (btleaves p') -> j < length ds) by (intros j J; apply (Permutation_in _ PB), in_seq in J; lia).
  assert (BP : forall j, In j (btleaves p) -> j < length cs) by (intros j J; apply (Permutation_in _ PP), in_seq in J; lia).
  assert (LEAF : forall i q0, i < length cs -> In q0 (nodesof (nth i cs (Leaf 0))) -> exists q2, In q2 (nodesof T') /\ le2 (score q0) (score q2)).
  { intros i q0 L I. pose proof (forall2_nth _ _ _ i IH L q0 I) as (q' & Q1 & Q2). assert (J : In i (btleaves p')) by (apply (Permutation_in _ (Permutation_sym PB)), in_seq; lia).
    destruct (TO q' (leaf_node _ _ _ _ _ J Q1)) as (q2 & T1 & T2). exists q2. split; [exact T1|]. rewrite T2. exact Q2. }
  destruct (node_part _ _ _ _ Q) as [(l & r & I & ->)|(i & I & J)]; [|eapply LEAF; eauto].
  destruct (OPT (BN l r) I) as (s & S1 & S2). cbn beta in S2. destruct s as [i|l2 r2].
  - assert (L : i < length cs) by (rewrite LN; apply BD; eapply parts_leaves; [exact S1|now left]). cbn [render] in S2.
    assert (C : is_node (nth i cs (Leaf 0)) = true) by (apply A1, nth_In, L).
    destruct (LEAF i (nth i cs (Leaf 0)) L) as (q2 & T1 & T2); [destruct (nth i cs (Leaf 0)); [discriminate|now left]|]. exists q2. split; [exact T1|]. eapply le2_trans; eauto.
  - destruct (TO _ (part_node (fun _ => []) ds p' l2 r2 S1)) as (q2 & T1 & T2). exists q2. split; [exact T1|]. rewrite T2. eapply le2_trans; [exact S2|].
    rewrite (render_score lab (fun _ => []) cs ds l2 r2 l2 r2); auto; try tauto; try apply le2_refl.
    + intros j J. rewrite LN. apply BD. eapply parts_leaves; eauto.
    + intros j J. apply BD. eapply parts_leaves; eauto.
Qed.

Lemma groups_p' : forall ds l' x y a b, groups a x -> groups b y -> Permutation (a ++ b) ds -> exists p', Permutation (btleaves p') (seq 0 (length ds)) /\ erase (Node l' [x; y]) = erase (render (fun _ => []) ds p').
Proof.
  intros ds l' x y a b Ga Gb P. destruct (perm_index _ _ P) as (is & E & PI). symmetry in E. apply map_eq_app in E. destruct E as (i1 & i2 & -> & E1 & E2).
  destruct (groups_render _ _ Ga ds i1 (eq_sym E1)) as (px & X1 & X2), (groups_render _ _ Gb ds i2 (eq_sym E2)) as (py & Y1 & Y2).
  exists (BN px py). cbn [btleaves]. split; [rewrite X1, Y1; exact PI|]. cbn [erase map render]. rewrite X2, Y2. reflexivity.
Qed.
Lemma spine_p' : forall h vs T, spine h vs T -> forall ds k is, nth k ds (Leaf 0) = h -> vs = map (fun i => nth i ds (Leaf 0)) is -> (forall i, In i is -> i <> k) ->
  exists p', btleaves p' = is ++ [k] /\ headfirst k p' /\ erase T = erase (render (fun _ => []) ds p').
Proof.
  induction 1 as [c l|c vs x l S IH]; intros ds k is K E N.
  - destruct is as [|i [|]]; [discriminate| |discriminate]. cbn in E. injection E as ->. exists (BN (BL i) (BL k)). cbn [btleaves app render erase map]. rewrite K. repeat split. constructor. apply N. now left.
  - destruct is as [|i is]; [discriminate|]. cbn in E. injection E as -> E. destruct (IH ds k is K E) as (p & P1 & P2 & P3); [intros j J; apply N; now right|]. exists (BN (BL i) p). cbn [btleaves app render erase map]. rewrite P1, P3. repeat split. now constructor.
Qed.
Lemma spine_index : forall init h vs T, spine h vs T -> Permutation vs init -> exists p', Permutation (btleaves p') (seq 0 (length (init ++ [h]))) /\ headfirst (length init) p' /\ erase T = erase (render (fun _ => []) (init ++ [h]) p').
Proof.
  intros init h vs T S P. destruct (perm_index _ _ P) as (is & E & PI). assert (B : forall i, In i is -> i < length init) by (intros i I; apply (Permutation_in _ PI), in_seq in I; lia).
  destruct (spine_p' _ _ _ S (init ++ [h]) (length init) is) as (p & P1 & P2 & P3).
  - rewrite app_nth2 by lia. now rewrite Nat.sub_diag.
  - rewrite E. apply map_ext_in. intros i I. now rewrite app_nth1 by auto.
  - intros i I. specialize (B i I). lia.
  - exists p. split; [|auto]. rewrite P1, app_length, seq_app. cbn [length seq]. now apply Permutation_app_tail.
Qed.

(** ---- one node ---- *)
Lemma noworse_erase : forall S S' T, erase S = erase S' -> treenoworse score S' T -> treenoworse score S T.
Proof.
  intros S S' T E H q I. destruct (node_erase S S' q E I) as (q' & I' & E'). destruct (H q' I') as (q2 & A & B). exists q2. split; [exact A|]. now rewrite <- E'.
Qed.
Definition nonvoid (cs : list ptree) : Prop := forall c, In c cs -> leaves c <> [].
Lemma same_fanout : forall us vs, sameleaves us vs -> Forall2 (fun u v => is_node u = is_node v) us vs -> map treefanout us = map treefanout vs.
Proof.
  intros us vs S. induction S as [|u v us vs E S IH]; intros F; [reflexivity|]. inversion F as [|? ? ? ? N F2]; subst. cbn [map]. rewrite (IH F2). f_equal.
  destruct u as [a|l ts], v as [b|m ks]; try discriminate; [reflexivity|]. unfold treefanout. apply fanout_ext. exact E.
Qed.
Lemma same_flat : forall us vs, sameleaves us vs -> forall a, In a (flat_map leaves us) <-> In a (flat_map leaves vs).
Proof. intros us vs S. induction S as [|u v us vs E S IH]; intros a; [tauto|]. cbn. rewrite !in_app_iff, IH, (E a). tauto. Qed.
Lemma small_score : forall l l' us vs, sameleaves us vs -> Forall2 (fun u v => is_node u = is_node v) us vs -> score (Node l us) = score (Node l' vs).
Proof.
  intros l l' us vs S N. assert (E : treefanout (Node l us) = treefanout (Node l' vs)) by (unfold treefanout; rewrite !leaves_node; apply fanout_ext; now apply same_flat).
  apply score_same; [exact E|]. unfold complexity. now rewrite E, (same_fanout us vs S N).
Qed.
Lemma small_noworse : forall l l' us vs, sameleaves us vs -> Forall2 (fun u v => is_node u = is_node v) us vs -> Forall2 (treenoworse score) us vs -> treenoworse score (Node l us) (Node l' vs).
Proof.
  intros l l' us vs S N F q [<-|I].
  - exists (Node l' vs). split; [now left|]. rewrite (small_score l l' us vs S N). apply le2_refl.
  - cbn [nodesof]. clear - F I. assert (G : exists q', In q' (flat_map nodesof vs) /\ le2 (score q) (score q')).
    { induction F as [|u v us vs E F IH]; [contradiction|]. cbn [flat_map] in *. apply in_app_iff in I. destruct I as [I|I].
      - destruct (E q I) as (q' & A & B). exists q'. split; [apply in_or_app; now left|exact B].
      - destruct (IH I) as (q' & A & B). exists q'. split; [apply in_or_app; now right|exact B]. }
    destruct G as (q' & A & B). exists q'. split; [now right|exact B].
Qed.
(** the search *)
Lemma search_free : forall lab cs, allnodes cs -> 2 < length cs ->
  exists l r, minimal (length cs) None (fun p => score (render lab cs p)) = Found (BN l r) /\ Permutation (btleaves (BN l r)) (seq 0 (length cs)) /\
  forall t, Permutation (btleaves t) (seq 0 (length cs)) -> noworse (fun t => score (render lab cs t)) (BN l r) t.
Proof.
  intros lab cs A L. destruct (free_ok (length cs) (fun p => score (render lab cs p))) as (p & E & P & O).
  - intros l r l' r' W1 W2 W3 W4 M1 M2. destruct (wf_leaves _ _ W1) as [_ B1], (wf_leaves _ _ W2) as [_ B2], (wf_leaves _ _ W3) as [_ B3], (wf_leaves _ _ W4) as [_ B4].
    apply render_score; auto; try apply sameleaves_refl; intros j; cbn [btleaves]; rewrite ?in_app_iff.
    + intros [J|J]; auto.
    + intros [J|J]; auto.
    + rewrite <- !mask_spec, M1. tauto.
    + rewrite <- !mask_spec, M2. tauto.
  - intros l r W1 W2. destruct (wf_leaves _ _ W1) as [_ B1], (wf_leaves _ _ W2) as [_ B2]. apply render_score_swap; auto. intros j; cbn [btleaves]; rewrite in_app_iff. intros [J|J]; auto.
  - lia.
  - destruct p as [i|l r]; [apply Permutation_length in P; rewrite seq_length in P; cbn in P; lia|]. exists l, r. auto.
Qed.
Lemma search_head : forall lab cs, allnodes cs -> 2 < length cs ->
  exists l r, minimal (length cs) (Some (length cs - 1)) (fun p => score (render lab cs p)) = Found (BN l r) /\ Permutation (btleaves (BN l r)) (seq 0 (length cs)) /\ headfirst (length cs - 1) (BN l r) /\
  forall t, Permutation (btleaves t) (seq 0 (length cs)) -> headfirst (length cs - 1) t -> noworse (fun t => score (render lab cs t)) (BN l r) t.
Proof.
  intros lab cs A L. destruct (head_ok (length cs) (length cs - 1) (fun p => score (render lab cs p))) as (p & E & P & H & O).
  - intros l r l' r' W1 W2 W3 W4 M1 M2. destruct (wf_leaves _ _ W1) as [_ B1], (wf_leaves _ _ W2) as [_ B2], (wf_leaves _ _ W3) as [_ B3], (wf_leaves _ _ W4) as [_ B4].
    apply render_score; auto; try apply sameleaves_refl; intros j; cbn [btleaves]; rewrite ?in_app_iff.
    + intros [J|J]; auto.
    + intros [J|J]; auto.
    + rewrite <- !mask_spec, M1. tauto.
    + rewrite <- !mask_spec, M2. tauto.
  - intros l r W1 W2. destruct (wf_leaves _ _ W1) as [_ B1], (wf_leaves _ _ W2) as [_ B2]. apply render_score_swap; auto. intros j; cbn [btleaves]; rewrite in_app_iff. intros [J|J]; auto.
  - lia.
  - lia.
  - destruct p as [i|l r]; [apply Permutation_length in P; rewrite seq_length in P; cbn in P; lia|]. exists l, r. auto.
Qed.
Lemma headfirst_leaves : forall k p, headfirst k p -> exists is, btleaves p = is ++ [k] /\ forall lab cs, spine (nth k cs (Leaf 0)) (map (fun i => nth i cs (Leaf 0)) is) (render lab cs p).
Proof.
  induction 1 as [i N|i t H (is & E & S)]; [exists [i]; split; [reflexivity|]; intros; constructor|]. exists (i :: is). split; [cbn; now rewrite E|]. intros lab cs. cbn [map render]. constructor. apply S.
Qed.
Lemma spine_root : forall h vs l l' ks, spine h vs (Node l ks) -> spine h vs (Node l' ks).
Proof. intros h vs l l' ks S. inversion S; subst; constructor; assumption. Qed.
Lemma rf_spine : forall hh sep label h init, init <> [] -> spine h init (rightfactor hh sep label (init ++ [h])).
Proof.
  intros hh sep label h init. induction init as [|c init IH]; intros NE; [congruence|]. destruct init as [|d init]; [constructor|]. change (spine h (c :: d :: init) (Node (keylabel hh sep label (c :: (d :: init) ++ [h])) [c; rightfactor hh sep label ((d :: init) ++ [h])])). constructor. apply IH. discriminate.
Qed.
(** right factoring *)
Lemma rf_groups : forall h sep label cs, cs <> [] -> groups cs (rightfactor h sep label cs).
Proof.
  intros h sep label cs. induction cs as [|c cs IH]; intros NE; [congruence|]. destruct cs as [|d cs]; [constructor|]. cbn [rightfactor]. apply (g_two [c] (d :: cs)); [constructor|]. apply IH. discriminate.
Qed.
Lemma rf_leaves : forall h sep label cs, cs <> [] -> leaves (rightfactor h sep label cs) = flat_map leaves cs.
Proof. intros. apply groups_leaves. now apply rf_groups. Qed.
Lemma groups_node : forall vs x, groups vs x -> allnodes vs -> is_node x = true.
Proof. intros vs x G A. inversion G; subst; [apply A; now left|reflexivity]. Qed.
Lemma groups_nonvoid : forall vs x, groups vs x -> nonvoid vs -> leaves x <> [].
Proof.
  intros vs x G. induction G as [t|a b x y l Ga IHa Gb IHb]; intros N; [apply N; now left|]. cbn. intros E. apply app_eq_nil in E. destruct E as [E _]. apply IHa in E; [exact E|]. intros c C. apply N, in_or_app. now left.
Qed.
Lemma node_fanout_pos : forall t, is_node t = true -> leaves t <> [] -> 1 <= treefanout t.
Proof. intros t A B. rewrite fanout_node by exact A. destruct (leaves t) as [|a r] eqn:E; [congruence|]. apply (fanout_pos _ a). now left. Qed.
Lemma rf_nodes : forall h sep label cs q, In q (nodesof (rightfactor h sep label cs)) -> (exists c, In c cs /\ In q (nodesof c)) \/ exists pre suf, cs = pre ++ suf /\ 2 <= length suf /\ q = rightfactor h sep label suf.
Proof.
  intros h sep label cs q. induction cs as [|c cs IH]; intros I; [contradiction|]. destruct cs as [|d cs]; [left; exists c; split; [now left|exact I]|].
  cbn [rightfactor] in I. destruct I as [<-|I]; [right; exists [], (c :: d :: cs); cbn; repeat split; lia|]. cbn [flat_map] in I. rewrite app_nil_r in I. apply in_app_iff in I. destruct I as [I|I]; [left; exists c; split; [now left|exact I]|].
  destruct (IH I) as [(e & A & B)|(pre & suf & A & B & C)]; [left; exists e; split; [now right|exact B]|]. right. exists (c :: pre), suf. cbn. rewrite A. auto.
Qed.
Definition below (s t : ptree) : Prop := forall x y, In x (leaves s) -> In y (leaves t) -> x < y.
Lemma suffix_convex : forall pre suf, StronglySorted below (pre ++ suf) -> convex (flat_map leaves (pre ++ suf)) -> convex (flat_map leaves suf).
Proof.
  intros pre suf S C x y z X Z Y. assert (I : In y (flat_map leaves (pre ++ suf))).
  { apply (C x y z); [| |exact Y]; rewrite flat_map_app; apply in_or_app; now right. }
  rewrite flat_map_app in I. apply in_app_iff in I. destruct I as [I|I]; [exfalso|exact I].
  apply in_flat_map in I. destruct I as (c & I1 & I2). apply in_flat_map in X. destruct X as (d & X1 & X2).
  assert (B : below c d). { clear - S I1 X1. induction pre as [|a pre IH]; [contradiction|]. cbn in S. inversion S as [|? ? S1 S2]; subst. destruct I1 as [->|I1]; [rewrite Forall_forall in S2; apply S2, in_or_app; now right|auto]. }
  specialize (B y x I2 X2). lia.
Qed.
Lemma continuous_ok : forall h sep label us vs l' x y a b, allnodes us -> allnodes vs -> nonvoid us -> nonvoid vs -> 2 <= length us -> StronglySorted below us ->
  convex (flat_map leaves us) -> (forall u, In u us -> treefanout u = 1) -> length us = length vs -> Forall2 (treenoworse score) us vs ->
  Permutation (a ++ b) vs -> groups a x -> groups b y -> treenoworse score (rightfactor h sep label us) (Node l' [x; y]).
Proof.
  intros h sep label us vs l' x y a b A1 A2 N1 N2 L2 S C F1 LN IH P Ga Gb q Q.
  assert (FO : forall pre suf, us = pre ++ suf -> suf <> [] -> treefanout (rightfactor h sep label suf) = 1).
  { intros pre suf E NE. assert (IN : forall c, In c suf -> In c us) by (intros c K; rewrite E; apply in_or_app; now right).
    rewrite fanout_node by (eapply groups_node; [apply rf_groups; exact NE|]; intros c K; auto). rewrite rf_leaves by exact NE.
    assert (NV : leaves (rightfactor h sep label suf) <> []) by (eapply groups_nonvoid; [apply rf_groups; exact NE|]; intros c K; auto). rewrite rf_leaves in NV by exact NE.
    destruct (flat_map leaves suf) as [|v r] eqn:EV; [congruence|]. rewrite <- EV in *. apply (convex_fanout _ v); [rewrite EV; now left|]. apply (suffix_convex pre suf); rewrite <- E; assumption. }
  destruct (rf_nodes _ _ _ _ _ Q) as [(c & I & J)|(pre & suf & E & LS & ->)].
  - destruct (In_nth us c (Leaf 0) I) as (i & Li & <-). destruct (forall2_nth _ _ _ i IH Li q J) as (q' & Q1 & Q2).
    assert (K : In (nth i vs (Leaf 0)) (a ++ b)) by (apply (Permutation_in _ (Permutation_sym P)), nth_In; lia).
    assert (GN : forall g z, groups g z -> forall d, In d g -> incl (nodesof d) (nodesof z)).
    { clear. intros g z G. induction G as [t|a b x y l Ga IHa Gb IHb]; intros d D; [destruct D as [->|[]]; apply incl_refl|]. cbn [nodesof flat_map]. rewrite app_nil_r. intros k K. right. apply in_app_iff in D. apply in_or_app. destruct D; [left; eapply IHa; eauto|right; eapply IHb; eauto]. }
    exists q'. split; [|exact Q2]. cbn [nodesof flat_map]. right. rewrite app_nil_r. apply in_app_iff in K. apply in_or_app. destruct K as [K|K]; [left; exact (GN _ _ Ga _ K q' Q1)|right; exact (GN _ _ Gb _ K q' Q1)].
  - exists (Node l' [x; y]). split; [now left|].
    assert (VA : forall d, In d (a ++ b) -> In d vs) by (intros d; apply Permutation_in; exact P).
    assert (PX : 1 <= treefanout x) by (apply node_fanout_pos; [eapply groups_node; [exact Ga|]|eapply groups_nonvoid; [exact Ga|]]; intros d D; [apply A2|apply N2]; apply VA, in_or_app; now left).
    assert (PY : 1 <= treefanout y) by (apply node_fanout_pos; [eapply groups_node; [exact Gb|]|eapply groups_nonvoid; [exact Gb|]]; intros d D; [apply A2|apply N2]; apply VA, in_or_app; now right).
    assert (PR : 1 <= treefanout (Node l' [x; y])).
    { apply node_fanout_pos; [reflexivity|]. cbn. rewrite app_nil_r. intros K. apply app_eq_nil in K. destruct K as [K _]. revert K. eapply groups_nonvoid; [exact Ga|]. intros d D. apply N2, VA, in_or_app. now left. }
    destruct suf as [|c [|d suf]]; [cbn in LS; lia|cbn in LS; lia|].
    assert (FR : treefanout (rightfactor h sep label (c :: d :: suf)) = 1) by (apply (FO pre); [exact E|discriminate]).
    apply mono; [rewrite FR; exact PR|]. unfold complexity. rewrite FR. cbn [rightfactor map list_sum fold_right].
    assert (FC : treefanout c = 1) by (apply F1; rewrite E; apply in_or_app; right; now left).
    pose proof (FO (pre ++ [c]) (d :: suf)) as FD. rewrite <- app_assoc in FD. specialize (FD E). cbn [rightfactor] in FD. rewrite FC, FD by discriminate. lia.
Qed.

(** ---- canonical order ---- *)
Definition inhabited (l : pystr) (ts : list ptree) : Prop := ts <> [].
Lemma inhabited_leaves : forall t, every_node inhabited t -> leaves t <> [].
Proof.
  induction t as [a|l ts IH] using tree_ind'; intros H; [discriminate|]. cbn [every_node] in H. rewrite fold_and in H. destruct H as [H1 H2]. rewrite leaves_node.
  destruct ts as [|t ts]; [contradiction|]. inversion IH as [|? ? I1 I2]; subst. inversion H2 as [|? ? K1 K2]; subst. cbn. intros E. apply app_eq_nil in E. destruct E as [E _]. exact (I1 K1 E).
Qed.
Lemma lex_head : forall a r b s, lex_le (a :: r) (b :: s) = true -> a <= b.
Proof. intros a r b s H. cbn in H. destruct (Nat.eqb_spec a b); [lia|]. apply Nat.ltb_lt in H. lia. Qed.
Lemma ordered_first : forall t, every_node ordered t -> every_node inhabited t -> forall a r, leaves t = a :: r -> forall x, In x (leaves t) -> a <= x.
Proof.
  induction t as [b|l ts IH] using tree_ind'; intros O N a r E x X; [cbn in *; destruct X as [->|[]]; injection E as ->; lia|].
  cbn [every_node] in O, N. rewrite fold_and in O, N. destruct O as [O1 O2], N as [N1 N2]. rewrite leaves_node in *. rewrite Forall_forall in *.
  destruct ts as [|t ts]; [discriminate|]. assert (NT : leaves t <> []) by (apply inhabited_leaves, N2; now left). destruct (leaves t) as [|a' r'] eqn:ET; [congruence|].
  assert (a' = a) as -> by (cbn [flat_map] in E; rewrite ET in E; cbn in E; congruence).
  apply in_flat_map in X. destruct X as (c & C & X). destruct C as [<-|C]; [exact (IH t (or_introl eq_refl) (O2 t (or_introl eq_refl)) (N2 t (or_introl eq_refl)) a r' ET x X)|].
  assert (NC : leaves c <> []) by (apply inhabited_leaves, N2; now right). destruct (leaves c) as [|b s] eqn:EC; [congruence|].
  inversion O1 as [|? ? S1 S2]; subst. rewrite Forall_forall in S2. specialize (S2 c C). rewrite ET, EC in S2. apply lex_head in S2.
  assert (b <= x) by (apply (IH c (or_intror C) (O2 c (or_intror C)) (N2 c (or_intror C)) b s EC); rewrite EC; exact X). lia.
Qed.
Lemma ordered_below : forall (ts : list ptree), Forall (every_node ordered) ts -> Forall (every_node inhabited) ts -> ordered (@nil N) ts -> NoDup (flat_map leaves ts) -> (forall t, In t ts -> convex (leaves t)) -> StronglySorted below ts.
Proof.
  intros ts O N S ND C. induction S as [|t ts S IH F]; [constructor|]. inversion O as [|? ? O1 O2]; subst. inversion N as [|? ? N1 N2]; subst.
  assert (DJ : forall x, In x (leaves t) -> In x (flat_map leaves ts) -> False).
  { clear - ND. cbn in ND. induction (leaves t) as [|a r IH]; intros x X Y; [contradiction|]. cbn in ND. inversion ND; subst. destruct X as [->|X]; [apply H1, in_or_app; now right|eauto]. }
  constructor.
  - apply IH; auto; [|intros c K; apply C; now right]. clear - ND. cbn in ND. induction (leaves t) as [|a r IH]; [exact ND|]. cbn in ND. inversion ND; auto.
  - rewrite Forall_forall in *. intros c K x y X Y. specialize (F c K). assert (NT : leaves t <> []) by (now apply inhabited_leaves). assert (NC : leaves c <> []) by (apply inhabited_leaves; auto).
    destruct (leaves t) as [|a r] eqn:ET; [congruence|]. destruct (leaves c) as [|b s] eqn:EC; [congruence|]. apply lex_head in F.
    assert (BY : b <= y) by (eapply (ordered_first c); [now apply O2|now apply N2|exact EC|now rewrite EC]).
    destruct (Nat.lt_ge_cases x y) as [L|L]; [exact L|exfalso]. apply (DJ y); [|apply in_flat_map; exists c; split; [exact K|now rewrite EC]].
    rewrite <- ET in *. apply (C t (or_introl eq_refl) a y x); [rewrite ET; now left|exact X|lia].
Qed.
Lemma below_same : forall ts us, sameleaves ts us -> StronglySorted below ts -> StronglySorted below us.
Proof.
  intros ts us S. induction S as [|t u ts us E S IH]; intros H; [constructor|]. inversion H as [|? ? H1 H2]; subst. constructor; [auto|]. clear - E S H2. induction S as [|t2 u2 ts us E2 S IH]; [constructor|].
  inversion H2; subst. constructor; [|auto]. intros x y X Y. apply H1; [now apply E|now apply E2].
Qed.

(** ---- the whole tree ---- *)
Definition best (hd : bool) (t T : ptree) : Prop := binarizes hd t T /\ forall T', binarizes hd t T' -> treenoworse score T T'.
Lemma allsome_forall2 : forall (f : ptree -> option ptree) (R : ptree -> ptree -> Prop) ts, Forall (fun t => exists u, f t = Some u /\ R t u) ts -> exists us, OptModel.allsome (map f ts) = Some us /\ Forall2 R ts us.
Proof. intros f R ts H. induction H as [|t ts (u & E & R1) H (us & E2 & F)]; [exists []; split; [reflexivity|constructor]|]. exists (u :: us). cbn. rewrite E, E2. split; [reflexivity|now constructor]. Qed.
Lemma nodes_pair : forall hd ts us vs, Forall2 (binarizes hd) ts us -> Forall2 (binarizes hd) ts vs -> Forall2 (fun u v => is_node u = is_node v) us vs.
Proof.
  intros hd ts us vs F. revert vs. induction F as [|t u ts us B F IH]; intros vs G; inversion G as [|? v ? vs' B2 G2]; subst; constructor; [|auto]. rewrite <- (binarizes_node _ _ _ B). apply (binarizes_node _ _ _ B2).
Qed.
Lemma f2_len : forall (R : ptree -> ptree -> Prop) a b, Forall2 R a b -> length a = length b.
Proof. induction 1; cbn; congruence. Qed.
Lemma best_noworse : forall hd ts us vs, Forall2 (best hd) ts us -> Forall2 (binarizes hd) ts vs -> Forall2 (treenoworse score) us vs.
Proof. intros hd ts us vs F. revert vs. induction F as [|t u ts us [B O] F IH]; intros vs G; inversion G as [|? v ? vs' B2 G2]; subst; constructor; auto. Qed.
Lemma best_binarizes : forall hd ts us, Forall2 (best hd) ts us -> Forall2 (binarizes hd) ts us.
Proof. induction 1 as [|? ? ? ? [B O]]; constructor; auto. Qed.
Lemma same_void : forall ts us, sameleaves ts us -> nonvoid ts -> nonvoid us.
Proof.
  intros ts us S. induction S as [|t u ts us E S IH]; intros N c C; [contradiction|]. destruct C as [<-|C].
  - pose proof (N t (or_introl eq_refl)) as NT. destruct (leaves t) as [|a r]; [congruence|]. intros X. specialize (E a). rewrite X in E. destruct E as [E _]. apply E. now left.
  - apply IH; [intros d D; apply N; now right|exact C].
Qed.
Lemma list_sum_perm : forall a b, Permutation a b -> list_sum a = list_sum b.
Proof. intros a b P. induction P; cbn [list_sum fold_right] in *; unfold list_sum in *; cbn [fold_right]; lia. Qed.
Lemma perm_noworse : forall S l us vs, Permutation us vs -> treenoworse score S (Node l us) -> treenoworse score S (Node l vs).
Proof.
  intros S l us vs P H q Q. destruct (H q Q) as (q' & I & E). destruct I as [<-|I].
  - exists (Node l vs). split; [now left|]. replace (score (Node l vs)) with (score (Node l us)); [exact E|].
    assert (FE : treefanout (Node l us) = treefanout (Node l vs)) by (unfold treefanout; apply fanout_ext; intros a; rewrite !leaves_node; split; apply Permutation_in, Permutation_flat_map; [exact P|now apply Permutation_sym]).
    apply score_same; [exact FE|]. unfold complexity. rewrite FE. f_equal. apply list_sum_perm. now apply Permutation_map.
  - exists q'. split; [|exact E]. right. eapply Permutation_in; [apply Permutation_flat_map; exact P|exact I].
Qed.
Lemma map_nth_seq : forall us : list ptree, map (fun i => nth i us (Leaf 0)) (seq 0 (length us)) = us.
Proof. induction us as [|c cs IH]; [reflexivity|]. cbn [length seq map nth]. f_equal. rewrite <- seq_shift, map_map. exact IH. Qed.
Lemma snoc_form : forall us : list ptree, us <> [] -> exists init h, us = init ++ [h].
Proof. intros us N. exists (removelast us), (last us (Leaf 0)). now apply app_removelast_last. Qed.
Lemma last_seq : forall us : list ptree, us <> [] -> map (fun i => nth i us (Leaf 0)) (seq 0 (length us - 1)) = removelast us /\ nth (length us - 1) us (Leaf 0) = last us (Leaf 0).
Proof.
  intros us NE. destruct (snoc_form us NE) as (init & h & ->). rewrite app_length, removelast_last, last_last. cbn [length]. replace (length init + 1 - 1) with (length init) by lia. split.
  - etransitivity; [|apply map_nth_seq]. apply map_ext_in. intros i I. apply in_seq in I. now rewrite app_nth1 by lia.
  - rewrite app_nth2 by lia. now rewrite Nat.sub_diag.
Qed.
Lemma node_best : forall hd sep ps h label l ts us, alone l ts -> Forall2 (binarizes hd) ts us ->
  exists T, minimalbinarization score sep (if hd then Some (length ts - 1) else None) ps h (Node label us) = Some T /\ binarizes hd (Node l ts) T /\
  (every_node ordered (Node l ts) -> every_node inhabited (Node l ts) -> NoDup (leaves (Node l ts)) -> Forall2 (best hd) ts us -> best hd (Node l ts) T).
Proof.
  intros hd sep ps h label l ts us A1 FB. pose proof (f2_len _ _ _ FB) as LN. pose proof (forall2_sameleaves _ _ _ FB) as SL. cbn [minimalbinarization].
  destruct (Nat.leb_spec (length us) 2) as [L|L].
  - exists (Node label us). split; [reflexivity|]. assert (BN : binarizes hd (Node l ts) (Node label us)) by (eapply bz_small; [lia|exact FB|apply Permutation_refl]). split; [exact BN|]. intros _ _ _ F. split; [exact BN|]. intros T' B. inversion B as [|? ? ? vs ws L' F' P| |]; subst; [|lia|lia].
    apply perm_noworse with (us := vs); [exact P|]. apply small_noworse; [eapply sameleaves_trans; [apply sameleaves_sym; exact SL|eapply forall2_sameleaves; exact F']|eapply nodes_pair; eauto|eapply best_noworse; eauto].
  - assert (AT : allnodes ts) by (intros c C; destruct c as [a|]; [exfalso; specialize (A1 a C); lia|reflexivity]).
    assert (AU : allnodes us) by (eapply forall2_nodes; eauto).
    destruct ((treefanout (Node label us) =? 1) && forallb (fun c => treefanout c =? 1) us) eqn:CT.
    + apply andb_true_iff in CT. destruct CT as [C1 C2]. apply Nat.eqb_eq in C1. rewrite forallb_forall in C2.
      assert (ER : exists c rest, us = c :: rest /\ rest <> []) by (destruct us as [|c [|d us']]; [cbn in L; lia|cbn in L; lia|]; exists c, (d :: us'); split; [reflexivity|discriminate]).
      destruct ER as (c & rest & EU & NR). exists (Node label [c; rightfactor h sep label rest]). split; [rewrite EU; reflexivity|].
      assert (EE : erase (Node label [c; rightfactor h sep label rest]) = erase (rightfactor h sep label us)) by (rewrite EU; destruct rest; [congruence|reflexivity]).
      assert (BN : binarizes hd (Node l ts) (Node label [c; rightfactor h sep label rest])).
      { destruct hd.
        - destruct (snoc_form us) as (init & hh & EI); [rewrite EU; discriminate|]. apply (bz_head _ _ _ init hh init); [reflexivity|lia|rewrite <- EI; exact FB|apply Permutation_refl|].
          pose proof (rf_spine h sep label hh init) as S. rewrite <- EI, EU in S. destruct rest as [|d rest]; [congruence|]. cbn [rightfactor] in S. eapply spine_root. apply S. intros ->. rewrite EU in EI. cbn in EI. congruence.
        - eapply (bz_big _ _ _ _ us [c] rest); [reflexivity|lia|exact FB|rewrite EU; apply Permutation_refl|constructor|now apply rf_groups]. }
      split; [exact BN|]. intros O N ND F. split; [exact BN|]. cbn [every_node] in O, N. rewrite fold_and in O, N. destruct O as [O1 O2], N as [N1 N2].
      assert (NT : nonvoid ts) by (intros d D; apply inhabited_leaves; rewrite Forall_forall in N2; auto).
      assert (NU : nonvoid us) by (eapply same_void; eauto).
      intros T' B. destruct (big_form _ _ _ _ B) as (l' & vs & a & b & x & y & -> & F' & P & Ga & Gb); [lia|]. eapply noworse_erase; [exact EE|].
      assert (LV : length ts = length vs) by (exact (f2_len _ _ _ F')).
      apply (continuous_ok h sep label us vs) with (a := a) (b := b); auto.
      * eapply forall2_nodes; eauto.
      * eapply same_void; [eapply forall2_sameleaves; exact F'|exact NT].
      * lia.
      * apply (below_same ts us SL). apply ordered_below; auto. intros t T. assert (FU : exists u, In u us /\ forall a, In a (leaves t) <-> In a (leaves u)).
        { clear - SL T. induction SL as [|t' u ts us E S IH]; [contradiction|]. destruct T as [->|T]; [exists u; split; [now left|exact E]|]. destruct (IH T) as (u' & U1 & U2). exists u'. split; [now right|exact U2]. }
        destruct FU as (u & U1 & U2). intros p q r P1 P2 P3. apply U2. apply (fanout_one (leaves u)) with (x := p) (z := r); [|now apply U2|now apply U2|exact P3].
        rewrite <- fanout_node by (now apply AU). apply Nat.eqb_eq. now apply C2.
      * apply fanout_one. exact C1.
      * intros u U. apply Nat.eqb_eq. now apply C2.
      * lia.
      * eapply best_noworse; eauto.
    + clear CT. rewrite LN. destruct hd.
      * set (lab := artlabel _ h sep label ps us). destruct (search_head lab us AU L) as (p & r & E & P & HF & OPT). rewrite E. eexists. split; [reflexivity|].
        assert (BB : binarizes true (Node l ts) (Node label [render lab us p; render lab us r])).
        { destruct (headfirst_leaves _ _ HF) as (is & EL & SP). assert (NE : us <> []) by (intros X; rewrite X in L; cbn in L; lia).
          apply (bz_head _ _ _ (removelast us) (last us (Leaf 0)) (map (fun i => nth i us (Leaf 0)) is)); [reflexivity|lia|rewrite <- app_removelast_last by exact NE; exact FB| |].
          - rewrite EL in P. replace (length us) with ((length us - 1) + 1) in P at 2 by lia. rewrite seq_app in P. cbn [seq plus] in P. apply Permutation_app_inv_r in P. rewrite (Permutation_map _ P).
            rewrite (proj1 (last_seq us NE)). apply Permutation_refl.
          - specialize (SP lab us). rewrite (proj2 (last_seq us NE)) in SP. eapply spine_root. exact SP. }
        split; [exact BB|]. intros O N ND F. split; [exact BB|].
        intros T' B. inversion B as [| | |? ? init hh vs ? E' L' F' P' S]; subst; [lia|discriminate|]. eapply (noworse_erase _ (render lab us (BN p r))); [reflexivity|].
        assert (LV : length ts = length (init ++ [hh])) by (exact (f2_len _ _ _ F')).
        destruct (spine_index _ _ _ _ S P') as (p' & PP & HP & EP).
        assert (LI : length init = length us - 1) by (rewrite app_length in LV; cbn in LV; lia).
        eapply (compare_groups lab us (init ++ [hh]) (BN p r) p'); eauto.
        -- eapply forall2_nodes; eauto.
        -- eapply sameleaves_trans; [apply sameleaves_sym; exact SL|eapply forall2_sameleaves; exact F'].
        -- lia.
        -- eapply best_noworse; eauto.
        -- apply OPT; [rewrite <- LN, LV; exact PP|rewrite <- LI; exact HP].
      * set (lab := artlabel None h sep label ps us). destruct (search_free lab us AU L) as (p & r & E & P & OPT). rewrite E. eexists. split; [reflexivity|].
        assert (BB : binarizes false (Node l ts) (Node label [render lab us p; render lab us r])).
        { eapply (bz_big _ _ _ _ us); [reflexivity|lia|exact FB| |apply render_groups|apply render_groups]. rewrite <- map_app. change (btleaves p ++ btleaves r) with (btleaves (BN p r)).
          rewrite (Permutation_map _ P), map_nth_seq. apply Permutation_refl. }
        split; [exact BB|]. intros O N ND F. split; [exact BB|].
        intros T' B. destruct (big_form _ _ _ _ B) as (l' & vs & a & b & x & y & -> & F' & P' & Ga & Gb); [lia|]. eapply (noworse_erase _ (render lab us (BN p r))); [reflexivity|].
        assert (LV : length ts = length vs) by (exact (f2_len _ _ _ F')).
        destruct (groups_p' vs l' x y a b Ga Gb P') as (p' & PP & EP).
        eapply (compare_groups lab us vs (BN p r) p'); eauto.
        -- eapply forall2_nodes; eauto.
        -- eapply sameleaves_trans; [apply sameleaves_sym; exact SL|eapply forall2_sameleaves; exact F'].
        -- lia.
        -- eapply best_noworse; eauto.
        -- apply OPT. rewrite <- LN, LV. exact PP.
Qed.
Theorem optbin_ok : forall hd sep h v t anc, every_node alone t -> exists T, optbin score sep hd h v anc t = Some T /\ binarizes hd t T.
Proof.
  intros hd sep h v. induction t as [a|l ts IH] using tree_ind'; intros anc A.
  - exists (Leaf a). split; [reflexivity|constructor].
  - cbn [optbin]. cbn [every_node] in A. rewrite fold_and in A. destruct A as [A1 A2]. destruct (allsome_forall2 (optbin score sep hd h v (l :: anc)) (binarizes hd) ts) as (us & E & F).
    + rewrite Forall_forall in *. intros c C. apply IH; auto.
    + rewrite E. destruct (node_best hd sep (parentstr v anc) h (l ++ parentstr v anc) l ts us A1 F) as (T & E2 & B & _). exists T. auto.
Qed.
Theorem optbin_best : forall hd sep h v t anc, every_node ordered t -> every_node alone t -> every_node inhabited t -> NoDup (leaves t) -> exists T, optbin score sep hd h v anc t = Some T /\ best hd t T.
Proof.
  intros hd sep h v. induction t as [a|l ts IH] using tree_ind'; intros anc O A N ND.
  - exists (Leaf a). split; [reflexivity|]. split; [constructor|]. intros T' B. inversion B; subst. intros q [].
  - cbn [optbin]. destruct (allsome_forall2 (optbin score sep hd h v (l :: anc)) (best hd) ts) as (us & E & F).
    + pose proof O as O'. pose proof A as A'. pose proof N as N'. cbn [every_node] in O', A', N'. rewrite fold_and in O', A', N'. destruct O' as [_ O'], A' as [_ A'], N' as [_ N']. rewrite Forall_forall in *.
      intros c C. apply IH; auto. rewrite leaves_node in ND. eapply nodup_child; eauto.
    + rewrite E. assert (A1 : alone l ts) by (apply A). destruct (node_best hd sep (parentstr v anc) h (l ++ parentstr v anc) l ts us A1 (best_binarizes _ _ _ F)) as (T & E2 & _ & B). exists T. auto.
Qed.
End Score.

(** ---- the order of children does not matter without head ---- *)
Lemma f2_permute : forall (R : ptree -> ptree -> Prop) a a', Permutation a a' -> forall b, Forall2 R a b -> exists b', Permutation b b' /\ Forall2 R a' b'.
Proof.
  intros R a a' P. induction P as [|x l l' P IH|x y l|l1 l2 l3 P1 IH1 P2 IH2]; intros b F.
  - exists []. inversion F. split; [apply Permutation_refl|constructor].
  - inversion F as [|? z ? bs E F2]; subst. destruct (IH _ F2) as (b' & A & B). exists (z :: b'). split; [now constructor|now constructor].
  - inversion F as [|? z ? bs E F2]; subst. inversion F2 as [|? w ? cs E2 F3]; subst. exists (w :: z :: cs). split; [constructor|]. now repeat constructor.
  - destruct (IH1 _ F) as (b1 & A1 & B1). destruct (IH2 _ B1) as (b2 & A2 & B2). exists b2. split; [eapply Permutation_trans; eassumption|exact B2].
Qed.
Lemma f2_through : forall (R Q : ptree -> ptree -> Prop) ts us, Forall (fun t => forall u, R t u -> forall T, Q t T -> Q u T) ts -> Forall2 R ts us -> forall ws, Forall2 Q ts ws -> Forall2 Q us ws.
Proof. intros R Q ts us H F. induction F as [|t u ts us E F IH]; intros ws G; inversion G; subst; constructor; inversion H; subst; eauto. Qed.
Lemma f2_back : forall (R Q : ptree -> ptree -> Prop) ts us, Forall (fun t => forall u, R t u -> forall T, Q u T -> Q t T) ts -> Forall2 R ts us -> forall ws, Forall2 Q us ws -> Forall2 Q ts ws.
Proof. intros R Q ts us H F. induction F as [|t u ts us E F IH]; intros ws G; inversion G; subst; constructor; inversion H; subst; eauto. Qed.
Lemma binarizes_tperm : forall s t, tperm s t -> forall T, binarizes false s T <-> binarizes false t T.
Proof.
  induction s as [a|l ts IH] using tree_ind'; intros t P T; inversion P as [|? ? us vs F Q]; subst; [tauto|].
  assert (L1 : length ts = length vs) by (rewrite <- (Permutation_length Q); clear - F; induction F; cbn; congruence).
  split; intros B.
  - assert (G : forall ws, Forall2 (binarizes false) ts ws -> exists ws', Permutation ws ws' /\ Forall2 (binarizes false) vs ws').
    { intros ws W. apply (f2_permute _ us vs Q). eapply f2_through; [|exact F|exact W]. eapply Forall_impl; [|exact IH]. cbn. intros t0 H u U T0 B0. now apply (H u U). }
    inversion B as [|? ? ? ws zs L' F' P'|? ? ? ws a b x y E L' F' P' Ga Gb|? ? ? ? ? ? E]; subst; [| |discriminate]; destruct (G _ F') as (ws' & W1 & W2).
    + eapply bz_small; [lia|exact W2|]. eapply Permutation_trans; [apply Permutation_sym; exact W1|exact P'].
    + eapply (bz_big _ _ _ _ ws' a b); [reflexivity|lia|exact W2| |exact Ga|exact Gb]. eapply Permutation_trans; eassumption.
  - assert (G : forall ws, Forall2 (binarizes false) vs ws -> exists ws', Permutation ws ws' /\ Forall2 (binarizes false) ts ws').
    { intros ws W. destruct (f2_permute _ vs us (Permutation_sym Q) ws W) as (ws' & W1 & W2). exists ws'. split; [exact W1|]. eapply f2_back; [|exact F|exact W2]. eapply Forall_impl; [|exact IH]. cbn. intros t0 H u U T0 B0. now apply (H u U). }
    inversion B as [|? ? ? ws zs L' F' P'|? ? ? ws a b x y E L' F' P' Ga Gb|? ? ? ? ? ? E]; subst; [| |discriminate]; destruct (G _ F') as (ws' & W1 & W2).
    + eapply bz_small; [lia|exact W2|]. eapply Permutation_trans; [apply Permutation_sym; exact W1|exact P'].
    + eapply (bz_big _ _ _ _ ws' a b); [reflexivity|lia|exact W2| |exact Ga|exact Gb]. eapply Permutation_trans; eassumption.
Qed.
Lemma tperm_inhabited : forall s t, tperm s t -> every_node inhabited s -> every_node inhabited t.
Proof.
  induction s as [a|l ts IH] using tree_ind'; intros t P H; inversion P as [|? ? us vs F Q]; subst; [exact I|]. cbn [every_node] in *. rewrite fold_and in *. destruct H as [H1 H2]. split.
  - intros ->. apply Permutation_sym, Permutation_nil in Q. subst. inversion F; subst. now apply H1.
  - apply Forall_forall. intros c C. apply (Permutation_in _ (Permutation_sym Q)) in C. clear - IH H2 F C. induction F as [|t u ts us E F IH2]; [contradiction|]. inversion IH; subst. inversion H2; subst. destruct C as [<-|C]; auto.
Qed.

(** ---- C77 ---- *)
(** without head: no way to binarize has a lower maximal score *)
Theorem C77_optimal : forall sep v score t, monotone score -> every_node alone t -> every_node inhabited t -> NoDup (leaves t) ->
  exists T, optimalbinarize sep false None v score t = Some T /\ binarizes false t T /\ forall T', binarizes false t T' -> treenoworse score T T'.
Proof.
  intros sep v score t M A N ND. pose proof (C27_same_tree _ t) as TP. unfold optimalbinarize.
  destruct (optbin_best score M false sep 999 v (canonicalize t) []) as (T & E & B & O).
  - now apply C27_ordered.
  - now apply canon_alone.
  - eapply tperm_inhabited; eauto.
  - eapply Permutation_NoDup; [apply tperm_leaves; exact TP|exact ND].
  - exists T. split; [exact E|]. split; [now apply (binarizes_tperm _ _ TP)|]. intros T' B'. apply O. now apply (binarizes_tperm _ _ TP).
Qed.
(** head-driven, for a tree in canonical order *)
Theorem C77_head : forall sep h v score t, monotone score -> every_node ordered t -> every_node alone t -> every_node inhabited t -> NoDup (leaves t) ->
  exists T, optimalbinarize sep true h v score t = Some T /\ binarizes true t T /\ forall T', binarizes true t T' -> treenoworse score T T'.
Proof.
  intros sep h v score t M O A N ND. unfold optimalbinarize. replace (match h with Some _ => t | None => canonicalize t end) with t by (destruct h; [reflexivity|symmetry; now apply C27_fixed]).
  destruct (optbin_best score M true sep (match h with Some (S k) => S k | _ => 999 end) v t [] O A N ND) as (T & E & B & O'). exists T. auto.
Qed.
(** in every case the result is a binarization of the tree *)
Theorem C77_binarizes : forall sep hd h v score t, monotone score -> every_node alone t ->
  exists T, optimalbinarize sep hd h v score t = Some T /\ binarizes hd (match h with Some _ => t | None => canonicalize t end) T.
Proof. intros sep hd h v score t M A. unfold optimalbinarize. apply optbin_ok; [exact M|]. destruct h; [exact A|now apply canon_alone]. Qed.
Lemma groups_two : forall vs x, groups vs x -> Forall (every_node (fun _ ts => length ts <= 2)) vs -> every_node (fun _ ts => length ts <= 2) x.
Proof.
  induction 1 as [t|a b x y l Ga IHa Gb IHb]; intros F; [now inversion F|]. apply Forall_app in F. destruct F as [F1 F2]. cbn [every_node length fold_right]. repeat split; auto.
Qed.
Lemma binarizes_two : forall hd t T, binarizes hd t T -> every_node (fun _ ts => length ts <= 2) T.
Proof.
  intros hd. induction t as [a0|l ts IH] using tree_ind'; intros T B; [inversion B; exact I|].
  assert (G : forall us, Forall2 (binarizes hd) ts us -> Forall (every_node (fun _ ts => length ts <= 2)) us).
  { intros us F. clear - IH F. induction F as [|t u ts us E F IH2]; [constructor|]. inversion IH; subst. constructor; auto. }
  destruct (Nat.le_gt_cases (length ts) 2) as [L|L].
  - inversion B as [|? ? ? us vs L' F P|? ? ? us a b x y E L' F P Ga Gb|? ? init h vs ? E L' F P S]; subst; [|lia|lia]. cbn [every_node]. rewrite fold_and. split; [rewrite <- (Permutation_length P), <- (f2_len _ _ _ F); exact L|].
    apply Forall_forall. intros c C. apply (Permutation_in _ (Permutation_sym P)) in C. specialize (G _ F). rewrite Forall_forall in G. auto.
  - destruct (big_form _ _ _ _ B L) as (l' & us & a & b & x & y & -> & F & P & Ga & Gb). specialize (G _ F).
    assert (FA : Forall (every_node (fun _ ts => length ts <= 2)) (a ++ b)). { apply Forall_forall. intros c C. rewrite Forall_forall in G. apply G. now apply (Permutation_in _ P). }
    apply Forall_app in FA. destruct FA as [FA1 FA2]. cbn [every_node length fold_right]. split; [lia|]. split; [eapply groups_two; eauto|]. split; [eapply groups_two; eauto|exact I].
Qed.
Theorem C77_binary : forall sep hd h v score t T, monotone score -> every_node alone t -> optimalbinarize sep hd h v score t = Some T ->
  every_node (fun _ ts => length ts <= 2) T /\ Permutation (leaves t) (leaves T).
Proof.
  intros sep hd h v score t T M A E. destruct (C77_binarizes sep hd h v score t M A) as (T' & E' & B). rewrite E in E'. injection E' as <-. split; [eapply binarizes_two; exact B|].
  apply binarizes_leaves in B. destruct h; [exact B|]. eapply Permutation_trans; [|exact B]. apply tperm_leaves, C27_same_tree.
Qed.

(** ---- unbinarize gives the tree back ---- *)
(** the same tree, no node marked as head *)
Fixpoint mark (t : ptree) : btree := match t with Leaf a => Leaf a | Node l ts => Node (l, false) (map mark ts) end.
Definition und (t : ptree) : list btree := unb false (mark t).
Lemma und_art : forall l ts, contains l cchar = true -> und (Node l ts) = flat_map und ts.
Proof. intros l ts H. unfold und at 1. cbn [mark unb]. rewrite H, flat_map_map'. reflexivity. Qed.
Lemma und_render : forall lab cs p, (forall p, contains (lab p) cchar = true) -> und (render lab cs p) = flat_map und (map (fun i => nth i cs (Leaf 0)) (btleaves p)).
Proof.
  intros lab cs p H. induction p as [i|l IHl r IHr]; cbn [render btleaves map flat_map]; [now rewrite app_nil_r|]. rewrite und_art by apply H. cbn [flat_map]. rewrite app_nil_r, IHl, IHr, map_app, flat_map_app. reflexivity.
Qed.
Lemma und_rf : forall h label cs, cs <> [] -> und (rightfactor h (str "|") label cs) = flat_map und cs.
Proof.
  intros h label cs. induction cs as [|c cs IH]; intros NE; [congruence|]. destruct cs as [|d cs]; [cbn; now rewrite app_nil_r|]. cbn [rightfactor]. rewrite und_art by apply contains_art. cbn [flat_map]. rewrite app_nil_r. f_equal. apply IH. discriminate.
Qed.
Lemma mb_und : forall score (hd : bool) ps h label us T, monotone score -> (2 < length us -> allnodes us) -> minimalbinarization score (str "|") (if hd then Some (length us - 1) else None) ps h (Node label us) = Some T ->
  exists ks ws, T = Node label ks /\ Permutation us ws /\ flat_map und ks = flat_map und ws.
Proof.
  intros score hd ps h label us T M A E. cbn [minimalbinarization] in E. destruct (Nat.leb_spec (length us) 2) as [L|L]; [injection E as <-; exists us, us; auto|]. specialize (A L).
  destruct ((treefanout (Node label us) =? 1) && _).
  - destruct us as [|c rest] eqn:EU; [cbn in L; lia|]. injection E as <-. exists [c; rightfactor h (str "|") label rest], (c :: rest). split; [reflexivity|]. split; [auto|]. cbn [flat_map]. rewrite app_nil_r, und_rf; [reflexivity|]. intros ->. cbn in L. lia.
  - assert (X : exists lab p r, (forall p, contains (lab p) cchar = true) /\ Some (Node label [render lab us p; render lab us r]) = Some T /\ Permutation (btleaves (BN p r)) (seq 0 (length us))).
    { destruct hd.
      - set (lab := artlabel (Some (length us - 1)) h (str "|") label ps us) in *. destruct (search_head score M lab us A L) as (p & r & E1 & P & _). rewrite E1 in E. exists lab, p, r. split; [intros q; apply contains_art|]. auto.
      - set (lab := artlabel None h (str "|") label ps us) in *. destruct (search_free score M lab us A L) as (p & r & E1 & P & _). rewrite E1 in E. exists lab, p, r. split; [intros q; apply contains_art|]. auto. }
    destruct X as (lab & p & r & C & E1 & P). injection E1 as <-. exists [render lab us p; render lab us r], (map (fun i => nth i us (Leaf 0)) (btleaves (BN p r))). split; [reflexivity|]. split.
    + apply Permutation_sym. rewrite (Permutation_map _ P), map_nth_seq. apply Permutation_refl.
    + cbn [flat_map btleaves]. rewrite app_nil_r, !und_render by exact C. rewrite map_app, flat_map_app. reflexivity.
Qed.
Lemma firstn_forall : forall A (P : A -> Prop) n l, Forall P l -> Forall P (firstn n l).
Proof. intros A P n l H. revert n. induction H; intros [|n]; cbn; constructor; auto. Qed.
Lemma parentstr_ok : forall v anc l, plain_label false l -> Forall (fun l => ~ occurs (str "|<") l) anc -> contains (l ++ parentstr v anc) cchar = false /\ before pchar (l ++ parentstr v anc) = l.
Proof.
  intros v anc l (P1 & P2 & _) F. unfold parentstr. destruct (1 <? v).
  - split; [|now apply before_app]. apply not_contains in P1. change cchar with [124; 60]%N. rewrite two_app by (cbn; discriminate). change (str "|<") with [124; 60]%N in P1. rewrite P1. cbn [orb].
    match goal with |- contains (str "^<" ++ ?x) _ = _ => change (contains (str "^<" ++ x) [124; 60]%N) with (false || (false || contains x [124; 60]%N)) end. cbn [orb].
    rewrite two_app by (cbn; discriminate). change (join comma (firstn (v - 1) anc)) with (commas (firstn (v - 1) anc)). rewrite commas_no by (now apply firstn_forall). reflexivity.
  - rewrite app_nil_r. split; [now apply not_contains|now apply before_none].
Qed.
Lemma allsome_f2 : forall (f : ptree -> option ptree) ts us, OptModel.allsome (map f ts) = Some us -> Forall2 (fun t u => f t = Some u) ts us.
Proof. intros f. induction ts as [|t ts IH]; intros us E; cbn in E; [injection E as <-; constructor|]. destruct (f t) as [u|] eqn:Q; [|discriminate]. destruct (OptModel.allsome (map f ts)) as [us'|]; [|discriminate]. injection E as <-. constructor; auto. Qed.
Lemma optbin_und : forall score hd h v, monotone score -> forall t anc T, every_node alone t -> every_node (fun l _ => plain_label false l) t -> Forall (fun l => ~ occurs (str "|<") l) anc -> optbin score (str "|") hd h v anc t = Some T ->
  exists u, und T = [u] /\ unbinarize false (mark T) = u /\ tperm (mark t) u.
Proof.
  intros score hd h v M. induction t as [a|l ts IH] using tree_ind'; intros anc T A PL FA E; cbn [optbin] in E; [injection E as <-; exists (Leaf a); repeat split; constructor|].
  destruct (OptModel.allsome _) as [us|] eqn:EA; [|discriminate]. apply allsome_f2 in EA. cbn [every_node] in A, PL. rewrite fold_and in A, PL. destruct A as [A1 A2], PL as [P1 P2].
  assert (FB : Forall2 (binarizes hd) ts us).
  { clear - M A2 EA. induction EA as [|t u ts us E F IH]; [constructor|]. inversion A2; subst. constructor; [|auto]. destruct (optbin_ok score M hd (str "|") h v t (l :: anc)) as (T & E2 & B); [assumption|]. rewrite E in E2. injection E2 as <-. exact B. }
  pose proof (f2_len _ _ _ FB) as LN. rewrite LN in E.
  destruct (mb_und score hd (parentstr v anc) h (l ++ parentstr v anc) us T M) as (ks & ws & -> & PW & FW); [|exact E|].
  { intros L. eapply forall2_nodes; [exact FB|]. intros c C. destruct c as [a|]; [exfalso; specialize (A1 a C); lia|reflexivity]. }
  destruct (parentstr_ok v anc l P1 FA) as [C1 C2].
  assert (UN : exists ds, Forall2 tperm (map mark ts) ds /\ Permutation ds (flat_map und us)).
  { assert (FA' : Forall (fun l => ~ occurs (str "|<") l) (l :: anc)) by (constructor; [apply P1|exact FA]). clear - IH A2 P2 FA' EA. induction EA as [|t u ts us E F IH2]; [exists (@nil btree); split; constructor|].
    inversion IH as [|? ? I1 I2]; subst. inversion A2; subst. inversion P2; subst. destruct (IH2 I2) as (ds & D1 & D2); auto. destruct (I1 (l :: anc) u) as (w & W1 & W2 & W3); auto. exists (w :: ds). cbn [map flat_map]. rewrite W1. split; [now constructor|]. cbn. now constructor. }
  destruct UN as (ds & D1 & D2).
  assert (EX : forall x, expand x false (l ++ parentstr v anc) false (flat_map (unb false) (map mark ks)) = Node (l, false) (flat_map und ws)).
  { intros x. rewrite flat_map_map'. change (flat_map (fun x => unb false (mark x)) ks) with (flat_map und ks). rewrite FW. destruct x; cbn [expand]; rewrite C2; reflexivity. }
  exists (Node (l, false) (flat_map und ws)). unfold und at 1. cbn [mark unb unbinarize]. rewrite C1, !EX. split; [reflexivity|]. split; [reflexivity|]. eapply tp_node; [exact D1|]. eapply Permutation_trans; [exact D2|]. now apply Permutation_flat_map.
Qed.
Theorem C77_unbinarize : forall hd h v score t, monotone score -> every_node alone t -> every_node (fun l _ => plain_label false l) t ->
  exists T, optimalbinarize (str "|") hd h v score t = Some T /\ tperm (mark (match h with Some _ => t | None => canonicalize t end)) (unbinarize false (mark T)).
Proof.
  intros hd h v score t M A P. set (t0 := match h with Some _ => t | None => canonicalize t end).
  assert (A0 : every_node alone t0) by (unfold t0; destruct h; [exact A|now apply canon_alone]).
  assert (P0 : every_node (fun l _ => plain_label false l) t0).
  { unfold t0. destruct h; [exact P|]. clear - P. assert (G : forall s t : ptree, tperm s t -> every_node (fun l _ => plain_label false l) s -> every_node (fun l _ => plain_label false l) t).
    { clear. induction s as [a|l ts IH] using tree_ind'; intros t Q H; inversion Q as [|? ? us vs F R]; subst; [exact I|]. cbn [every_node] in *. rewrite fold_and in *. destruct H as [H1 H2]. split; [exact H1|].
      apply Forall_forall. intros c C. apply (Permutation_in _ (Permutation_sym R)) in C. clear - IH H2 F C. induction F as [|t u ts us E F IH2]; [contradiction|]. inversion IH; subst. inversion H2; subst. destruct C as [<-|C]; auto. }
    eapply G; [apply C27_same_tree|exact P]. }
  destruct (optbin_ok score M hd (str "|") (match h with Some (S k) => S k | _ => 999 end) v t0 [] A0) as (T & E & _). exists T. split; [exact E|].
  destruct (optbin_und score hd _ v M t0 [] T A0 P0 (Forall_nil _) E) as (u & _ & -> & TP). exact TP.
Qed.

(** ---- examples ---- *)
Definition pre (l : string) (is : list nat) : ptree := Node (str l) (map (fun i => Node (str "t") [Leaf i]) is).
(** the tree of the docstring: the children interleave *)
Definition ex_tree : ptree := Node (str "A") [pre "B4" [0; 5; 8]; pre "B3" [1; 9; 11; 14; 16]; pre "B2" [3; 7; 10]; pre "B1" [6; 13]].
Fixpoint distinctb (l : list nat) : bool := match l with [] => true | x :: r => negb (existsb (Nat.eqb x) r) && distinctb r end.
Lemma distinctb_ok : forall l, distinctb l = true -> NoDup l.
Proof. induction l as [|x r IH]; cbn; intros H; constructor; apply andb_prop in H; destruct H as [H1 H2]; [|auto]. intros I. apply existsb_in in I. rewrite I in H1. discriminate. Qed.
Definition maxscore (score : ptree -> nat * nat) (t : ptree) : nat * nat := fold_left (fun m q => max2 m (score q)) (nodesof t) (0, 0).
Theorem C77_example : every_node alone ex_tree /\ every_node inhabited ex_tree /\ NoDup (leaves ex_tree) /\ every_node ordered ex_tree /\
  every_node (fun l _ => plain_label false l) ex_tree /\
  option_map (maxscore complexityfanout) (optimalbinarize (str "|") false None 1 complexityfanout ex_tree) = Some (14, 6) /\
  option_map (maxscore complexityfanout) (optimalbinarize (str "|") false None 1 fanoutcomplexity ex_tree) = Some (15, 5).
Proof.
  split; [|split; [|split; [|split; [|split; [|split]]]]]; try (vm_compute; reflexivity).
  - cbn. repeat split; intros a H; cbn in H; intuition discriminate.
  - cbn. repeat split; discriminate.
  - apply distinctb_ok. vm_compute. reflexivity.
  - cbn. repeat (first [exact I | match goal with |- _ /\ _ => split end]); unfold ordered; repeat (constructor; try (vm_compute; reflexivity)).
  - cbn [every_node ex_tree pre map fold_right]. unfold plain_label. repeat (match goal with |- _ /\ _ => split end); try exact I; try (apply not_contains; vm_compute; reflexivity); try (intros X; discriminate X).
Qed.
(** FINDING: when the children are not in canonical order (a value for h is given), a
    continuous constituent is factored without looking for the best order *)
Definition ex_unordered : ptree := Node (str "X") [pre "A" [1]; pre "B" [3]; pre "C" [0]; pre "D" [2]].
Theorem C77_order_refuted : exists t T T', every_node alone t /\ every_node inhabited t /\ NoDup (leaves t) /\
  optimalbinarize (str "|") true (Some 2) 1 complexityfanout t = Some T /\ binarizes true t T' /\ ~ treenoworse complexityfanout T T' /\
  maxscore complexityfanout T = (5, 2) /\ maxscore complexityfanout T' = (3, 1).
Proof.
  exists ex_unordered. eexists. exists (Node (str "X") [pre "C" [0]; Node [] [pre "A" [1]; Node [] [pre "B" [3]; pre "D" [2]]]]).
  split; [cbn; repeat split; intros a H; cbn in H; intuition discriminate|]. split; [cbn; repeat split; discriminate|]. split; [apply distinctb_ok; vm_compute; reflexivity|].
  split; [vm_compute; reflexivity|]. split; [|split; [|split; vm_compute; reflexivity]].
  - assert (PB : forall l i, binarizes true (pre l [i]) (pre l [i])).
    { intros l i. eapply bz_small; [cbn; lia| |apply Permutation_refl]. constructor; [|constructor]. eapply bz_small; [cbn; lia| |apply Permutation_refl]. repeat constructor. }
    apply (bz_head _ _ _ [pre "A" [1]; pre "B" [3]; pre "C" [0]] (pre "D" [2]) [pre "C" [0]; pre "A" [1]; pre "B" [3]]); [reflexivity|cbn; lia| | |repeat constructor].
    + cbn [app]. repeat (constructor; [apply PB|]). constructor.
    + apply (Permutation_sym (l := [pre "A" [1]; pre "B" [3]; pre "C" [0]])). apply (Permutation_cons_append [pre "A" [1]; pre "B" [3]] (pre "C" [0])) || (symmetry; apply (Permutation_middle [pre "A" [1]; pre "B" [3]] [] (pre "C" [0]))).
  - intros H. match type of H with treenoworse _ ?T _ => specialize (H T (or_introl eq_refl)) end. destruct H as (q & I & Q). vm_compute in I. repeat (destruct I as [<-|I]; [vm_compute in Q; lia|]). contradiction.
Qed.
