(** C73: dependencies. *)
From Coq Require Import String.
From Coq Require Import List Bool Arith NArith ZArith Lia Permutation Sorted.
From Verif Require Import PyStr TreeModel TransformModel SortProofs PunctModel HeadModel HeadProofs DepProofs HeadProps.
Import ListNotations.
Open Scope list_scope.
Open Scope nat_scope.
Notation leaves := HeadModel.leaves.

(** ---- specification ---- *)
Inductive sub : htree -> htree -> Prop :=
| sub_refl : forall t, sub t t
| sub_kid : forall t a ts c, In c ts -> sub t c -> sub t (Con a ts).
(** [x] is the head token of a node: follow the (first) heads down *)
Inductive headtoken : htree -> nat -> Prop :=
| ht_pre : forall a i, headtoken (Pre a i) (i + 1)
| ht_con : forall a pre c post x, ishead c = true -> Forall (fun p => ishead p = false) pre -> headtoken c x -> headtoken (Con a (pre ++ c :: post)) x.
(** a node, and a child of it other than its head *)
Inductive nonhead : htree -> htree -> Prop :=
| nonhead_i : forall a pre c post t, ishead c = true -> Forall (fun p => ishead p = false) pre -> In t (pre ++ post) -> nonhead (Con a (pre ++ c :: post)) t.
(** the terminals of every node are consecutive *)
Definition continuous (t : htree) : Prop := forall u, sub u t -> forall x y z, In x (leaves u) -> In z (leaves u) -> x <= y <= z -> In y (leaves u).

Lemma nohead_forall : forall pre, existsb ishead pre = false <-> Forall (fun p => ishead p = false) pre.
Proof.
  induction pre as [|p pre IH]; cbn; [split; auto|]. rewrite orb_false_iff, IH. split; [intros [A B]; now constructor|intros H; inversion H; auto].
Qed.
Lemma makedep_headtoken : forall t h ds, makedep t = Some (h, ds) -> headtoken t h.
Proof.
  induction t as [a i|a ts IH] using htree_ind'; intros h ds E; [cbn in E; injection E as <- <-; constructor|].
  destruct (makedep_con _ _ _ _ E) as (pre & c & post & dc & ps & -> & HC & HP & MC & _). rewrite Forall_forall in IH.
  constructor; [exact HC|now apply nohead_forall|]. eapply IH; [apply in_elt|exact MC].
Qed.
Lemma headtoken_fun : forall t x, headtoken t x -> forall y, headtoken t y -> x = y.
Proof.
  induction 1 as [a i|a pre c post x H1 H2 H3 IH]; intros y H; inversion H as [|? pre' c' post' ? K1 K2 K3 E]; subst; [reflexivity|].
  destruct (first_unique pre' pre c' c post' post) as (<- & <- & <-); auto; now apply nohead_forall.
Qed.
Lemma sub_dep : forall u t, sub u t -> forall h ds, makedep t = Some (h, ds) -> exists h' ds', makedep u = Some (h', ds') /\ forall d, In d ds' -> In d ds.
Proof.
  induction 1 as [t|t a ts c I S IH]; intros h ds E; [eauto|].
  destruct (makedep_con _ _ _ _ E) as (pre & c' & post & dc & ps & -> & HC & HP & MC & MP & ->).
  assert (D : c = c' \/ In c (pre ++ post)) by (apply in_app_or in I; cbn [In] in I; rewrite in_app_iff; intuition). destruct D as [->|D].
  - destruct (IH _ _ MC) as (h' & ds' & A & B). exists h', ds'. split; [exact A|]. intros d Id. apply in_or_app. left. auto.
  - destruct (pairs_in _ _ MP _ D) as ([h1 ds1] & J1 & J2). destruct (IH _ _ J2) as (h' & ds' & A & B). exists h', ds'. split; [exact A|].
    intros d Id. apply in_or_app. right. apply in_concat. eexists. split; [apply in_map_iff; eexists; split; [reflexivity|exact J1]|]. cbn [fst snd]. apply in_or_app. left. auto.
Qed.
Lemma dep_iff : forall t h ds, makedep t = Some (h, ds) -> forall x r y, In (x, r, y) ds <-> exists p c, sub p t /\ nonhead p c /\ headtoken c x /\ headtoken p y /\ r = relname c.
Proof.
  intros t h ds E x r y. split.
  - revert h ds E. induction t as [a i|a ts IH] using htree_ind'; intros h ds E I; [cbn in E; injection E as <- <-; contradiction|].
    pose proof (makedep_headtoken _ _ _ E) as HT. destruct (makedep_con _ _ _ _ E) as (pre & c & post & dc & ps & -> & HC & HP & MC & MP & ->). rewrite Forall_forall in IH.
    assert (DEEP : forall u h' ds', In u (pre ++ c :: post) -> makedep u = Some (h', ds') -> In (x, r, y) ds' -> exists p q, sub p (Con a (pre ++ c :: post)) /\ nonhead p q /\ headtoken q x /\ headtoken p y /\ r = relname q).
    { intros u h' ds' Iu Mu J. destruct (IH u Iu _ _ Mu J) as (p & q & S & R). exists p, q. split; [eapply sub_kid; eauto|exact R]. }
    apply in_app_or in I. destruct I as [I|I]; [eapply DEEP; [apply in_elt|exact MC|exact I]|].
    apply in_concat in I. destruct I as (l & Il & I). apply in_map_iff in Il. destruct Il as ([t [h' ds']] & <- & J). cbn [fst snd] in I. destruct (pairs_of _ _ MP _ _ J) as [J1 J2].
    apply in_app_or in I. destruct I as [I|[I|[]]].
    + eapply (DEEP t); [apply in_app_or in J1; apply in_or_app; destruct J1; [now left|right; now right]|exact J2|exact I].
    + injection I as <- <- <-. exists (Con a (pre ++ c :: post)), t. split; [constructor|]. split; [constructor; auto; now apply nohead_forall|]. split; [eapply makedep_headtoken; eauto|]. auto.
  - intros (p & c & S & NH & HX & HY & ->). destruct (sub_dep _ _ S _ _ E) as (h' & ds' & MP & INC). apply INC. inversion NH as [a pre hc post ? H1 H2 I]; subst.
    pose proof (headtoken_fun _ _ (makedep_headtoken _ _ _ MP) _ HY) as EQ. subst h'.
    destruct (makedep_con _ _ _ _ MP) as (pre' & c' & post' & dc & ps & EQ & HC & HP & MC & MPS & ->). destruct (first_unique _ _ _ _ _ _ EQ H1 HC (proj2 (nohead_forall _) H2) HP) as (<- & <- & <-).
    destruct (pairs_in _ _ MPS _ I) as ([h1 ds1] & J1 & J2). pose proof (headtoken_fun _ _ (makedep_headtoken _ _ _ J2) _ HX) as EQ2. subst h1.
    apply in_or_app. right. apply in_concat. eexists. split; [apply in_map_iff; eexists; split; [reflexivity|exact J1]|]. cbn [fst snd]. apply in_or_app. right. now left.
Qed.

(** ---- the root ---- *)
Lemma rootdeps_spec : forall ts ds, rootdeps ts = Some ds -> exists ps, map makedep ts = map Some ps /\ ds = concat (map (fun p => snd p ++ [(fst p, str "root", 0)]) ps).
Proof.
  induction ts as [|t ts IH]; intros ds E; cbn [rootdeps] in E; [injection E as <-; exists []; auto|].
  destruct (makedep t) as [[h d]|] eqn:M; [|discriminate]. destruct (rootdeps ts) as [rest|] eqn:R; [|discriminate]. injection E as <-. destruct (IH rest eq_refl) as (ps & E1 & ->).
  exists ((h, d) :: ps). cbn. rewrite M, E1, <- app_assoc. auto.
Qed.
Lemma rootdeps_total : forall ts, Forall marked ts -> exists ds, rootdeps ts = Some ds.
Proof. induction 1 as [|t ts M F IH]; cbn [rootdeps]; [eauto|]. destruct (makedep_total _ M) as (h & ds & ->). destruct IH as [rest ->]. eauto. Qed.
Lemma deps_in : forall a ts ds, dependencies (Con a ts) = Some ds -> exists ps, map makedep ts = map Some ps /\ Permutation (concat (map (fun p => snd p ++ [(fst p, str "root", 0)]) ps)) ds.
Proof.
  intros a ts ds E. cbn [dependencies] in E. destruct (rootdeps ts) as [d|] eqn:R; [|discriminate]. cbn in E. injection E as <-. destruct (rootdeps_spec _ _ R) as (ps & E1 & ->).
  exists ps. split; [exact E1|]. apply sort_perm.
Qed.
Lemma map_some_nth : forall ts (ps : list (nat * list dep)), map makedep ts = map Some ps -> forall t, In t ts -> exists p, In p ps /\ makedep t = Some p.
Proof.
  induction ts as [|t ts IH]; intros [|p ps] E u I; cbn in E; try discriminate; [contradiction|]. injection E as E1 E2. destruct I as [->|I]; [exists p; split; [now left|exact E1]|].
  destruct (IH _ E2 _ I) as (q & A & B). exists q. split; [now right|exact B].
Qed.
Lemma map_some_back : forall ts (ps : list (nat * list dep)), map makedep ts = map Some ps -> forall p, In p ps -> exists t, In t ts /\ makedep t = Some p.
Proof.
  induction ts as [|t ts IH]; intros [|p ps] E q I; cbn in E; try discriminate; [contradiction|]. injection E as E1 E2. destruct I as [->|I]; [exists t; split; [now left|exact E1]|].
  destruct (IH _ E2 _ I) as (u & A & B). exists u. split; [now right|exact B].
Qed.
Lemma root_tokens : forall ts (ps : list (nat * list dep)), map makedep ts = map Some ps -> Permutation (map d_tok (concat (map (fun p => snd p ++ [(fst p, str "root", 0)]) ps))) (flat_map tokens ts).
Proof.
  induction ts as [|t ts IH]; intros [|[h d] ps] E; cbn in E; try discriminate; [constructor|]. injection E as E1 E2. cbn [map concat flat_map fst snd]. rewrite !map_app. cbn [map].
  apply Permutation_app; [|now apply IH]. rewrite <- (makedep_tokens _ _ _ E1). apply Permutation_sym, Permutation_cons_append.
Qed.

(** ---- C73 ---- *)
(** every tree with heads can be converted *)
Theorem C73_total : forall a ts, Forall marked ts -> exists ds, dependencies (Con a ts) = Some ds.
Proof. intros a ts F. cbn [dependencies]. destruct (rootdeps_total _ F) as [ds ->]. cbn. eauto. Qed.
Lemma deple_tok : forall x y, d_tok x <> d_tok y -> deple x y = Nat.leb (d_tok x) (d_tok y).
Proof.
  intros x y N. unfold deple. destruct (d_tok x =? d_tok y) eqn:E; [apply Nat.eqb_eq in E; contradiction|]. cbn [andb]. rewrite orb_false_r.
  destruct (d_tok x <? d_tok y) eqn:L; [apply Nat.ltb_lt in L; symmetry; apply Nat.leb_le; lia|apply Nat.ltb_ge in L; symmetry; apply Nat.leb_gt; lia].
Qed.
Lemma sort_distinct : forall A (f : A -> nat) (le : A -> A -> bool), (forall x y, f x <> f y -> le x y = Nat.leb (f x) (f y)) -> forall l, NoDup (map f l) -> map f (sort le l) = sort Nat.leb (map f l).
Proof.
  intros A f le H.
  assert (INS : forall x l, ~ In (f x) (map f l) -> map f (insert le x l) = insert Nat.leb (f x) (map f l)).
  { intros x l N. symmetry. apply insert_map. intros y I. symmetry. apply H. intros X. apply N. rewrite X. now apply in_map. }
  induction l as [|x l IH]; intros ND; [reflexivity|]. inversion ND as [|? ? N1 N2]; subst. cbn [sort map]. rewrite INS; [now rewrite (IH N2)|]. intros I; apply N1; eapply Permutation_in; [apply Permutation_map, Permutation_sym, sort_perm|exact I].
Qed.
(** one dependency for every token, in the order of the sentence *)
Theorem C73_tokens : forall a ts n ds, dependencies (Con a ts) = Some ds -> Permutation (leaves (Con a ts)) (seq 0 n) -> map d_tok ds = seq 1 n.
Proof.
  intros a ts n ds E P. cbn [dependencies] in E. destruct (rootdeps ts) as [d|] eqn:R; [|discriminate]. cbn in E. injection E as <-. destruct (rootdeps_spec _ _ R) as (ps & E1 & ->).
  pose proof (root_tokens _ _ E1) as Q. assert (Q2 : Permutation (flat_map tokens ts) (seq 1 n)).
  { rewrite <- (tokens_con a). unfold tokens. rewrite P. rewrite seq_shift. apply Permutation_refl. }
  rewrite Q2 in Q. rewrite sort_distinct; [|apply deple_tok|eapply Permutation_NoDup; [apply Permutation_sym; exact Q|apply seq_NoDup]]. apply nat_sort_unique; [apply seq_sorted|exact Q].
Qed.
Lemma head_pos : forall t h ds, makedep t = Some (h, ds) -> forall d, In d ds -> d_head d <> 0.
Proof. intros t h ds E d I X. destruct (makedep_inside _ _ _ E d I) as [_ J]. rewrite X in J. unfold tokens in J. apply in_map_iff in J. destruct J as (? & ? & _). discriminate. Qed.
(** exactly the dependencies of the tree: from the head of a child that is not the
    head to the head of the node, with the function of the child; and to 0 for the
    children of the root *)
Theorem C73_arcs : forall a ts ds, dependencies (Con a ts) = Some ds -> forall x r y, In (x, r, y) ds <->
  (y = 0 /\ r = str "root" /\ exists t, In t ts /\ headtoken t x)
  \/ (exists t p c, In t ts /\ sub p t /\ nonhead p c /\ headtoken c x /\ headtoken p y /\ r = relname c).
Proof.
  intros a ts ds E x r y. destruct (deps_in _ _ _ E) as (ps & E1 & P).
  assert (S : In (x, r, y) ds <-> In (x, r, y) (concat (map (fun p => snd p ++ [(fst p, str "root", 0)]) ps))) by (split; apply Permutation_in; [now apply Permutation_sym|exact P]).
  rewrite S, in_concat. split.
  - intros (l & Il & I). apply in_map_iff in Il. destruct Il as ([h d] & <- & J). cbn [fst snd] in I. destruct (map_some_back _ _ E1 _ J) as (t & It & M). apply in_app_or in I. destruct I as [I|[I|[]]].
    + right. apply (proj1 (dep_iff _ _ _ M _ _ _)) in I. destruct I as (p & c & R). exists t, p, c. tauto.
    + left. injection I as <- <- <-. split; [reflexivity|]. split; [reflexivity|]. exists t. split; [exact It|eapply makedep_headtoken; eauto].
  - intros [(-> & -> & t & It & HT)|(t & p & c & It & R)].
    + destruct (map_some_nth _ _ E1 _ It) as ([h d] & J & M). pose proof (headtoken_fun _ _ (makedep_headtoken _ _ _ M) _ HT). subst h. eexists. split; [apply in_map_iff; exists (x, d); split; [reflexivity|exact J]|]. apply in_or_app. right. now left.
    + destruct (map_some_nth _ _ E1 _ It) as ([h d] & J & M). eexists. split; [apply in_map_iff; exists (h, d); split; [reflexivity|exact J]|]. cbn [fst snd]. apply in_or_app. left. apply (proj2 (dep_iff _ _ _ M _ _ _)). exists p, c. exact R.
Qed.
(** as many roots as the root has children *)
Lemma filter_none : forall A (p : A -> bool) l, (forall x, In x l -> p x = false) -> filter p l = [].
Proof. intros A p. induction l as [|x l IH]; intros H; cbn; [reflexivity|]. rewrite (H x) by now left. apply IH. intros y I. apply H. now right. Qed.
Theorem C73_roots : forall a ts ds, dependencies (Con a ts) = Some ds -> length (filter (fun d => d_head d =? 0) ds) = length ts.
Proof.
  intros a ts ds E. destruct (deps_in _ _ _ E) as (ps & E1 & P).
  assert (LF : forall l l' : list dep, Permutation l l' -> length (filter (fun d => d_head d =? 0) l) = length (filter (fun d => d_head d =? 0) l')).
  { induction 1; cbn; auto; try congruence; repeat match goal with |- context [if ?b then _ else _] => destruct b end; cbn; auto. }
  rewrite <- (LF _ _ P). clear P E. revert ps E1. induction ts as [|t ts IH]; intros [|[h d] ps] E1; cbn in E1; try discriminate; [reflexivity|]. injection E1 as M E2.
  cbn [map concat fst snd]. rewrite !filter_app, !app_length. rewrite (filter_none _ _ d); [cbn [length plus d_head snd Nat.eqb filter app]; f_equal; exact (IH _ E2)|]. intros x I. apply Nat.eqb_neq. eapply head_pos; eauto.
Qed.
Lemma root_sub : forall a ts ds t h d, dependencies (Con a ts) = Some ds -> In t ts -> makedep t = Some (h, d) -> (forall x, In x d -> In x ds) /\ In (h, str "root", 0) ds.
Proof.
  intros a ts ds t h d E I M. destruct (deps_in _ _ _ E) as (ps & E1 & P). destruct (map_some_nth _ _ E1 _ I) as (p & J & M'). rewrite M in M'. injection M' as <-.
  assert (K : forall x, In x (d ++ [(h, str "root", 0)]) -> In x ds).
  { intros x X. eapply Permutation_in; [exact P|]. apply in_concat. exists (d ++ [(h, str "root", 0)]). split; [|exact X]. apply in_map_iff. exists (h, d). auto. }
  split; [intros x X|]; apply K, in_or_app; [now left|right; now left].
Qed.
(** following the heads from any token leads to 0: the dependencies are a tree *)
Theorem C73_rooted : forall a ts ds, dependencies (Con a ts) = Some ds -> forall i, In i (leaves (Con a ts)) -> reach ds (i + 1) 0.
Proof.
  intros a ts ds E i I. assert (J : In (S i) (tokens (Con a ts))) by now apply in_map. rewrite tokens_con in J. apply in_flat_map in J. destruct J as (t & It & Ix).
  destruct (deps_in _ _ _ E) as (ps & E1 & _). destruct (map_some_nth _ _ E1 _ It) as ([h d] & _ & M). destruct (root_sub _ _ _ _ _ _ E It M) as [S R].
  rewrite Nat.add_1_r. eapply reach_trans; [eapply reach_mono; [exact S|eapply makedep_reach; eauto]|]. eapply reach_step; [exact R|constructor].
Qed.
(** hence no cycles *)
Theorem C73_acyclic : forall a ts ds n, dependencies (Con a ts) = Some ds -> Permutation (leaves (Con a ts)) (seq 0 n) -> forall x r y, In (x, r, y) ds -> ~ reach ds y x.
Proof.
  intros a ts ds n E P x r y I C.
  assert (TK : map d_tok ds = seq 1 n) by (eapply C73_tokens; eauto).
  assert (UNIQ : forall x r r' y y', In (x, r, y) ds -> In (x, r', y') ds -> y = y').
  { intros x0 r0 r0' y0 y0' A B. assert (ND : NoDup (map d_tok ds)) by (rewrite TK; apply seq_NoDup).
    apply In_nth_error in A, B. destruct A as [i A], B as [j B].
    assert (NI : nth_error (map d_tok ds) i = Some x0) by exact (map_nth_error d_tok _ _ A). assert (NJ : nth_error (map d_tok ds) j = Some x0) by exact (map_nth_error d_tok _ _ B).
    assert (EIJ : i = j). { eapply NoDup_nth_error; [exact ND|apply nth_error_Some; congruence|congruence]. } subst j. congruence. }
  assert (XR : reach ds x 0).
  { assert (J : In x (map d_tok ds)) by (apply in_map_iff; exists (x, r, y); auto). rewrite TK in J. apply in_seq in J. replace x with (x - 1 + 1) by lia. eapply C73_rooted; [exact E|]. eapply Permutation_in; [apply Permutation_sym; exact P|]. apply in_seq. lia. }
  (* from any node on the cycle, 0 is not on it *)
  assert (NZ : forall z, reach ds y z -> reach ds z x -> z <> 0).
  { intros z _ Z. inversion Z as [|? r' y' ? J K]; subst; intros ->.
    - assert (J : In 0 (map d_tok ds)) by (apply in_map_iff; exists (0, r, y); auto). rewrite TK in J. apply in_seq in J. lia.
    - assert (J0 : In 0 (map d_tok ds)) by (apply in_map_iff; exists (0, r', y'); auto). rewrite TK in J0. apply in_seq in J0. lia. }
  assert (STAY : forall u z, reach ds u z -> reach ds y u -> reach ds u x -> reach ds y z /\ reach ds z x).
  { induction 1 as [u|u r' v z J K IH]; intros Y X; [auto|]. apply IH.
    - eapply reach_trans; [exact Y|]. eapply reach_step; [exact J|constructor].
    - inversion X as [|? r'' v' ? J' K']; subst.
      + assert (EV : v = y) by (eapply UNIQ; eauto). now subst v.
      + assert (EV : v = v') by (eapply UNIQ; eauto). now subst v'. }
  destruct (STAY x 0 XR C (reach_refl _ _)) as [A B]. exact (NZ 0 A B eq_refl).
Qed.
(** a dependency subtree is the yield of a node: for a child of the root, or a
    child that is not the head, the tokens below its head token are its tokens *)
Lemma maxproj_sub : forall t u, maxproj t u <-> exists p, sub p t /\ nonhead p u.
Proof.
  intros t u. split.
  - induction 1 as [a pre c post t H1 H2 I|a ts c t I M (p & S & N)].
    + exists (Con a (pre ++ c :: post)). split; [constructor|]. constructor; auto. now apply nohead_forall.
    + exists p. split; [eapply sub_kid; eauto|exact N].
  - intros (p & S & N). induction S as [t|t a ts c I S IH]; [|eapply mp_deep; eauto]. inversion N; subst. apply mp_here; auto. now apply nohead_forall.
Qed.
Lemma reach_inside : forall ds (T : nat -> Prop) x h, reach ds x h -> (forall d, In d ds -> T (d_head d) -> T (d_tok d)) -> T h -> T x.
Proof. intros ds T x h R C. induction R as [x|x r y z J K IH]; intros H; [exact H|]. apply (C (x, r, y) J). cbn [d_head snd]. auto. Qed.
Theorem C73_yield : forall a ts ds n, dependencies (Con a ts) = Some ds -> Permutation (leaves (Con a ts)) (seq 0 n) ->
  forall t u h, In t ts -> (u = t \/ exists p, sub p t /\ nonhead p u) -> headtoken u h -> forall x, reach ds x h <-> exists i, x = i + 1 /\ In i (leaves u).
Proof.
  intros a ts ds n E P t u h It U HT x.
  destruct (deps_in _ _ _ E) as (ps & E1 & PS). destruct (map_some_nth _ _ E1 _ It) as ([ht dt] & _ & M). destruct (root_sub _ _ _ _ _ _ E It M) as [S R].
  assert (ND : NoDup (flat_map tokens ts)).
  { rewrite <- (tokens_con a). unfold tokens. apply FinFun.Injective_map_NoDup; [intros p q X; now injection X|]. eapply Permutation_NoDup; [apply Permutation_sym; exact P|apply seq_NoDup]. }
  assert (MU : exists du, makedep u = Some (h, du) /\ forall d, In d du -> In d dt).
  { destruct U as [->|U]; [exists dt; split; [|auto]; rewrite M; f_equal; f_equal; eapply headtoken_fun; [eapply makedep_headtoken; exact M|exact HT]|].
    apply maxproj_sub in U. destruct (maxproj_dep _ _ U _ _ M) as (h' & du & A & B). exists du. split; [|exact B]. rewrite A. f_equal. f_equal. eapply headtoken_fun; [eapply makedep_headtoken; exact A|exact HT]. }
  destruct MU as (du & MU & SU).
  assert (TOK : (exists i, x = i + 1 /\ In i (leaves u)) <-> In x (tokens u)).
  { unfold tokens. rewrite in_map_iff. split; [intros (i & -> & I); exists i; split; [lia|exact I]|intros (i & <- & I); exists i; split; [lia|exact I]]. }
  rewrite TOK. split.
  - intros RX. apply (reach_inside ds (fun y => In y (tokens u)) x h RX); [|eapply makedep_head; eauto].
    intros d Id Hh. (* the dependency is in t, since its head is *)
    assert (Hz : In (d_head d) (tokens t)) by (destruct U as [->|U]; [exact Hh|apply maxproj_sub in U; eapply maxproj_tokens; eauto]).
    assert (Dt : In d dt).
    { apply (Permutation_in _ (Permutation_sym PS)) in Id. apply in_concat in Id. destruct Id as (l & Il & Id). apply in_map_iff in Il. destruct Il as ([h' d'] & <- & J). cbn [fst snd] in Id.
      destruct (map_some_back _ _ E1 _ J) as (t' & It' & M'). apply in_app_or in Id. destruct Id as [Id|[<-|[]]].
      - destruct (makedep_inside _ _ _ M' d Id) as [_ Y]. apply In_nth_error in It, It'. destruct It as [k K], It' as [k' K']. pose proof (nodup_disj _ ND _ _ _ _ _ K K' Hz Y). subst k'. assert (t' = t) by congruence. subst t'. rewrite M in M'. injection M' as <- <-. exact Id.
      - exfalso. cbn [d_head snd] in Hz. unfold tokens in Hz. apply in_map_iff in Hz. destruct Hz as (? & ? & _). discriminate. }
    destruct U as [->|U].
    + exact (proj1 (makedep_inside _ _ _ M d Dt)).
    + apply maxproj_sub in U. eapply closed_below; [exact U|exact M|eapply nodup_sub; eauto|exact Dt|exact Hh].
  - intros I. eapply reach_mono; [|eapply makedep_reach; eauto]. auto.
Qed.
(** without discontinuous constituents the dependencies are projective: all
    tokens between a token and its head are below that head *)
Lemma sub_trans : forall u t, sub u t -> forall s, sub t s -> sub u s.
Proof. intros u t S s T. revert u S. induction T; intros u S; [exact S|]. eapply sub_kid; eauto. Qed.
Theorem C73_projective : forall a ts ds, dependencies (Con a ts) = Some ds -> continuous (Con a ts) ->
  forall x r y, In (x, r, y) ds -> y <> 0 -> forall z, Nat.min x y <= z <= Nat.max x y -> reach ds z y.
Proof.
  intros a ts ds E C x r y I NZ z Z. apply (proj1 (C73_arcs _ _ _ E _ _ _)) in I. destruct I as [(-> & _)|(t & p & c & It & S & N & HX & HY & _)]; [congruence|].
  destruct (deps_in _ _ _ E) as (ps & E1 & _). destruct (map_some_nth _ _ E1 _ It) as ([ht dt] & _ & M). destruct (root_sub _ _ _ _ _ _ E It M) as [SD _].
  destruct (sub_dep _ _ S _ _ M) as (hp & dp & MP & INC). pose proof (headtoken_fun _ _ (makedep_headtoken _ _ _ MP) _ HY). subst hp.
  assert (HYp : In y (tokens p)) by (eapply makedep_head; eauto).
  assert (HXp : In x (tokens p)).
  { assert (D : In (x, relname c, y) dp) by (apply (proj2 (dep_iff _ _ _ MP _ _ _)); exists p, c; split; [constructor|auto]). exact (proj1 (makedep_inside _ _ _ MP _ D)). }
  unfold tokens in HXp, HYp. apply in_map_iff in HXp, HYp. destruct HXp as (i & <- & Hi), HYp as (j & <- & Hj).
  assert (Hz : In z (tokens p)).
  { destruct z as [|z]; [lia|]. unfold tokens. apply in_map. assert (SP : sub p (Con a ts)) by (eapply sub_kid; eauto).
    destruct (le_lt_dec i j).
    - apply (C p SP i z j); auto. lia.
    - apply (C p SP j z i); auto. lia. }
  eapply reach_mono; [|eapply makedep_reach; [exact MP|exact Hz]]. auto.
Qed.
(** the words, tags and dependencies of the conll format belong together *)
Lemma postags_leaves : forall t, map fst (postags t) = leaves t.
Proof.
  induction t as [a i|a ts IH] using htree_ind'; [reflexivity|]. cbn [postags leaves]. induction IH as [|t ts E F IHt]; [reflexivity|]. cbn [flat_map]. now rewrite map_app, E, IHt.
Qed.
Lemma posle_tok : forall x y, fst x <> fst y -> posle x y = Nat.leb (fst x) (fst y).
Proof.
  intros x y N. unfold posle. destruct (fst x =? fst y) eqn:E; [apply Nat.eqb_eq in E; contradiction|]. cbn [andb]. rewrite orb_false_r.
  destruct (fst x <? fst y) eqn:L; [apply Nat.ltb_lt in L; symmetry; apply Nat.leb_le; lia|apply Nat.ltb_ge in L; symmetry; apply Nat.leb_gt; lia].
Qed.
Lemma zip3_length : forall s t d, length t = length s -> length d = length s -> length (zip3 s t d) = length s.
Proof. induction s as [|w s IH]; intros [|t ts] [|d ds] L1 L2; cbn in *; try discriminate; auto. Qed.
Lemma zip3_nth : forall s t d i r, nth_error (zip3 s t d) i = Some r -> exists w tag dp, nth_error s i = Some w /\ nth_error t i = Some tag /\ nth_error d i = Some dp /\ r = (d_tok dp, w, snd tag, d_head dp, d_rel dp).
Proof.
  induction s as [|w s IH]; intros [|t ts] [|d ds] i r E; cbn [zip3] in E; try (destruct i; discriminate). destruct i as [|i]; cbn [nth_error] in E; [injection E as <-; exists w, t, d; auto|]. apply (IH _ _ _ _ E).
Qed.
Theorem C73_conll : forall a ts sent rows, conll (Con a ts) sent = Some rows -> Permutation (leaves (Con a ts)) (seq 0 (length sent)) ->
  length rows = length sent /\
  forall i r, nth_error rows i = Some r -> exists w tag rel h ds,
    r = (i + 1, w, tag, h, rel) /\ nth_error sent i = Some w /\ In (i, tag) (postags (Con a ts)) /\ dependencies (Con a ts) = Some ds /\ In (i + 1, rel, h) ds.
Proof.
  intros a ts sent rows E P. unfold conll in E. destruct (dependencies (Con a ts)) as [ds|] eqn:D; [|discriminate]. cbn [option_map] in E. injection E as <-.
  pose proof (C73_tokens _ _ _ _ D P) as TK.
  assert (PT : map fst (sort posle (postags (Con a ts))) = seq 0 (length sent)).
  { rewrite sort_distinct; [|apply posle_tok|rewrite postags_leaves; eapply Permutation_NoDup; [apply Permutation_sym; exact P|apply seq_NoDup]]. apply nat_sort_unique; [apply seq_sorted|]. now rewrite postags_leaves. }
  assert (L1 : length (sort posle (postags (Con a ts))) = length sent) by (rewrite <- (map_length fst), PT, seq_length; reflexivity).
  assert (L2 : length ds = length sent) by (rewrite <- (map_length d_tok), TK, seq_length; reflexivity).
  split; [now apply zip3_length|]. intros i r N. destruct (zip3_nth _ _ _ _ _ N) as (w & [j tag] & [[x rel] h] & E1 & E2 & E3 & ->).
  assert (LI : i < length sent) by (apply nth_error_Some; congruence).
  assert (EJ : j = i). { assert (X : nth_error (map fst (sort posle (postags (Con a ts)))) i = Some j) by exact (map_nth_error fst _ _ E2). rewrite PT in X. rewrite (nth_error_nth' _ 0) in X by (now rewrite seq_length). rewrite seq_nth in X by exact LI. injection X as <-. reflexivity. }
  assert (EX : x = i + 1). { assert (X : nth_error (map d_tok ds) i = Some x) by exact (map_nth_error d_tok _ _ E3). rewrite TK in X. rewrite (nth_error_nth' _ 0) in X by (now rewrite seq_length). rewrite seq_nth in X by exact LI. injection X as <-. lia. }
  subst j x. exists w, tag, rel, h, ds. split; [reflexivity|]. split; [exact E1|]. split; [|split; [reflexivity|eapply nth_error_In; eauto]].
  eapply Permutation_in; [apply Permutation_sym, sort_perm|]. eapply nth_error_In; eauto.
Qed.
(** the head of a node that getheadpos gives is the head token *)
Theorem C73_headpos : forall t, marked t -> exists a i, getheadpos t = Some (Pre a i) /\ headtoken t (i + 1).
Proof.
  intros t M. destruct (makedep_total _ M) as (h & ds & E). destruct (getheadpos_makedep _ _ _ E) as (a & i & G & ->). exists a, i. split; [exact G|]. eapply makedep_headtoken; eauto.
Qed.
(** deplen is said to leave out the root, but looks for ROOT where the label is
    root: the distance of the head of the sentence to 0 is counted *)
Theorem C73_deplen_refuted : forall a ts ds, dependencies (Con a ts) = Some ds -> (forall t p c, In t ts -> sub p t -> nonhead p c -> relname c <> str "ROOT") ->
  fst (deplen ds) = list_sum (map (fun d => absdiff (d_tok d) (d_head d)) ds).
Proof.
  intros a ts ds E N. unfold deplen. cbn [fst]. f_equal. f_equal.
  assert (F : forall d, In d ds -> negb (eqs (d_rel d) (str "ROOT")) = true).
  { intros [[x r] y] I. apply (proj1 (C73_arcs _ _ _ E _ _ _)) in I. apply negb_true_iff. destruct (eqs r (str "ROOT")) eqn:Q; [|exact Q]. exfalso. apply eqs_eq in Q.
    destruct I as [(_ & X & _)|(t & p & c & It & S & NH & _ & _ & X)]; [rewrite X in Q; discriminate|]. rewrite X in Q. exact (N t p c It S NH Q). }
  clear E N. induction ds as [|d ds IH]; [reflexivity|]. cbn [filter]. rewrite F by now left. f_equal. apply IH. intros x I. apply F. now right.
Qed.

(** ---- examples: a discontinuous tree ---- *)
Definition exroot : htree := applyheadrules asciiupper ex_hr None ex_tree.
Example C73_example : Forall marked [exroot] /\ Permutation (leaves exroot) (seq 0 7) /\
  dependencies (Con (at_ (str "ROOT")) [exroot]) = Some [(1, str "root", 0); (2, str "-", 1); (3, str "-", 1); (4, str "-", 1); (5, str "-", 6); (6, str "-", 1); (7, str "-", 6)].
Proof.
  split; [|split].
  - constructor; [|constructor]. apply headed_marked, C72_onehead; repeat constructor; discriminate.
  - vm_compute. do 4 constructor. apply perm_swap.
  - vm_compute. reflexivity.
Qed.
(** a sentence of one word: length 1, number of dependencies 0 *)
Example C73_example_deplen : option_map deplen (dependencies (Con (at_ (str "ROOT")) [Pre (at_ (str "X")) 0])) = Some (1, 0%Z).
Proof. vm_compute. reflexivity. Qed.
(** a preterminal cannot be converted, nor a tree without heads *)
Example C73_example_fails : dependencies (Pre (at_ (str "X")) 0) = None /\ dependencies (Con (at_ (str "ROOT")) [Con (at_ (str "NP")) ex_kids]) = None.
Proof. split; vm_compute; reflexivity. Qed.
Print Assumptions C73_yield.
Print Assumptions C73_conll.
