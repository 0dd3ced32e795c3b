(** Proofs for C47 (3): the arrays of Zhang & Shasha *)
From Coq Require Import List Bool Arith NArith Lia Permutation Sorted.
From Verif Require Import PyStr TransformModel SortProofs TedModel TedSpec TedProofs TedProofs2.
Import ListNotations.
Open Scope list_scope.
Open Scope nat_scope.

Fixpoint post (t : ltree) : list ltree := match t with T l ts => flat_map post ts ++ [T l ts] end.
Definition posts (f : list ltree) : list ltree := flat_map post f.
Lemma post_kids : forall t, post t = posts (kids t) ++ [t].
Proof. intros [l ts]. reflexivity. Qed.
Lemma posts_cons : forall t f, posts (t :: f) = post t ++ posts f.
Proof. reflexivity. Qed.
Lemma posts_one : forall t, posts [t] = post t.
Proof. intros. cbn. apply app_nil_r. Qed.
Lemma tsize_pos : forall t, 0 < tsize t.
Proof. intros [l ts]. cbn. lia. Qed.
Lemma posts_length : forall f, length (posts f) = fsize f.
Proof.
  intros f. remember (fsize f) as n eqn:E. revert f E. induction n as [n IH] using lt_wf_ind. intros [|t f] E; auto. rewrite posts_cons, post_kids, !app_length. rewrite fsize_cons, tsize_kids in E. rewrite (IH (fsize (kids t))) with (f := kids t) by lia. rewrite (IH (fsize f)) with (f := f) by lia. cbn. lia.
Qed.
Lemma post_length : forall t, length (post t) = tsize t.
Proof. intros t. rewrite <- posts_one, posts_length. cbn. lia. Qed.

(** the forest of the first k nodes *)
Fixpoint pre (t : ltree) (k : nat) : list ltree :=
  match t with T _ ts => (fix go (ts : list ltree) (k : nat) : list ltree := match ts with [] => [] | u :: r => if tsize u <=? k then u :: go r (k - tsize u) else pre u k end) ts k end.
Fixpoint prefs (f : list ltree) (k : nat) : list ltree := match f with [] => [] | u :: r => if tsize u <=? k then u :: prefs r (k - tsize u) else pre u k end.
Lemma pre_kids : forall t k, pre t k = prefs (kids t) k.
Proof. intros [l ts] k. cbn [pre kids]. revert k. induction ts as [|u r IH]; intros k; [reflexivity|]. cbn [prefs]. destruct (tsize u <=? k); [f_equal; apply IH|reflexivity]. Qed.
Lemma prefs_cons : forall t f k, prefs (t :: f) k = if tsize t <=? k then t :: prefs f (k - tsize t) else prefs (kids t) k.
Proof. intros. cbn [prefs]. now rewrite pre_kids. Qed.
Lemma prefs_zero : forall f, prefs f 0 = [].
Proof.
  intros f. remember (fsize f) as n eqn:E. revert f E. induction n as [n IH] using lt_wf_ind. intros [|t f] E; auto. rewrite prefs_cons. assert (P := tsize_pos t). destruct (Nat.leb_spec (tsize t) 0); [lia|]. rewrite fsize_cons, tsize_kids in E. apply (IH (fsize (kids t))); auto. lia.
Qed.
Lemma prefs_all : forall f, prefs f (fsize f) = f.
Proof.
  induction f as [|t f IH]; auto. rewrite prefs_cons, fsize_cons. destruct (Nat.leb_spec (tsize t) (tsize t + fsize f)); [|lia]. f_equal. replace (tsize t + fsize f - tsize t) with (fsize f) by lia. exact IH.
Qed.
(** the k'th node in postorder, and the forests that end before and at it *)
Lemma node_at : forall f k, k < fsize f -> exists u, nth_error (posts f) k = Some u /\ tsize u <= k + 1 /\
  prefs f (k + 1) = prefs f (k + 1 - tsize u) ++ [u] /\ prefs f k = prefs f (k + 1 - tsize u) ++ kids u.
Proof.
  intros f. remember (fsize f) as n eqn:E. revert f E. induction n as [n IH] using lt_wf_ind. intros [|t f] E k K; [cbn in E; lia|]. rewrite fsize_cons in E. rewrite posts_cons, !prefs_cons.
  assert (PL := post_length t). assert (TK := tsize_kids t). destruct (Nat.leb_spec (tsize t) k) as [L|L].
  - destruct (Nat.leb_spec (tsize t) (k + 1)); [|lia]. assert (TP := tsize_pos t). destruct (IH (fsize f) ltac:(lia) f eq_refl (k - tsize t) ltac:(lia)) as (u & U1 & U2 & U3 & U4). exists u. rewrite nth_error_app2 by lia. rewrite PL. split; auto. split; [lia|]. rewrite prefs_cons. destruct (Nat.leb_spec (tsize t) (k + 1 - tsize u)); [|lia].
    replace (k + 1 - tsize t) with (k - tsize t + 1) by lia. replace (k + 1 - tsize u - tsize t) with (k - tsize t + 1 - tsize u) by lia. rewrite U3, U4. auto.
  - destruct (Nat.eq_dec (k + 1) (tsize t)) as [Q|Q].
    + exists t. rewrite nth_error_app1 by lia. rewrite post_kids, nth_error_app2 by (rewrite posts_length; lia). rewrite posts_length. replace (k - fsize (kids t)) with 0 by lia. split; auto. split; [lia|]. destruct (Nat.leb_spec (tsize t) (k + 1)); [|lia]. replace (k + 1 - tsize t) with 0 by lia. rewrite !prefs_zero. split; auto. replace k with (fsize (kids t)) by lia. rewrite prefs_all. reflexivity.
    + destruct (Nat.leb_spec (tsize t) (k + 1)); [lia|]. destruct (IH (fsize (kids t)) ltac:(lia) (kids t) eq_refl k ltac:(lia)) as (u & U1 & U2 & U3 & U4). exists u. rewrite nth_error_app1 by lia. rewrite post_kids, nth_error_app1 by (rewrite posts_length; lia). split; auto. split; auto. rewrite !prefs_cons. destruct (Nat.leb_spec (tsize t) (k + 1 - tsize u)); [lia|]. auto.
Qed.
(** the nodes of a subtree are consecutive *)
Lemma segment : forall f i u, nth_error (posts f) i = Some u -> forall k, k < tsize u -> nth_error (posts f) (i + 1 - tsize u + k) = nth_error (post u) k.
Proof.
  intros f. remember (fsize f) as n eqn:E. revert f E. induction n as [n IH] using lt_wf_ind. intros [|t f] E i u U k K; [destruct i; discriminate U|]. rewrite fsize_cons in E. rewrite posts_cons in *.
  assert (PL := post_length t). assert (TK := tsize_kids t). assert (TP := tsize_pos t). destruct (Nat.ltb_spec i (tsize t)) as [L|L].
  - rewrite nth_error_app1 in U by lia. rewrite post_kids in U. destruct (Nat.eq_dec (i + 1) (tsize t)) as [Q|Q].
    + rewrite nth_error_app2 in U by (rewrite posts_length; lia). rewrite posts_length in U. replace (i - fsize (kids t)) with 0 in U by lia. injection U as <-. replace (i + 1 - tsize t + k) with k by lia. rewrite nth_error_app1 by lia. reflexivity.
    + rewrite nth_error_app1 in U by (rewrite posts_length; lia). destruct (node_at (kids t) i ltac:(lia)) as (u' & U1 & U2 & _). rewrite U in U1. injection U1 as <-. rewrite nth_error_app1 by lia. rewrite post_kids, nth_error_app1 by (rewrite posts_length; lia). apply (IH (fsize (kids t)) ltac:(lia) (kids t) eq_refl); auto.
  - rewrite nth_error_app2 in U by lia. rewrite PL in U. assert (I2 : i - tsize t < fsize f) by (rewrite <- posts_length; apply nth_error_Some; congruence). destruct (node_at f (i - tsize t) I2) as (u' & U1 & U2 & _). rewrite U in U1. injection U1 as <-. rewrite nth_error_app2 by lia. rewrite PL. rewrite <- (IH (fsize f) ltac:(lia) f eq_refl _ _ U k K). f_equal. lia.
Qed.

(** ---- AnnotatedTree ---- *)
Fixpoint ent (n : ltree) (anc : list nat) (j : nat) : list (ltree * nat * list nat) :=
  match n with T l ts =>
    (fix go (ts : list ltree) : list (ltree * nat * list nat) := match ts with [] => [] | c :: r => ent c (j :: anc) (S j + fsize r) ++ go r end) ts ++ [(T l ts, j, anc)]
  end.
Fixpoint entsF (ts : list ltree) (anc : list nat) (j : nat) : list (ltree * nat * list nat) := match ts with [] => [] | c :: r => ent c anc (j + fsize r) ++ entsF r anc j end.
Lemma ent_kids : forall n anc j, ent n anc j = entsF (kids n) (j :: anc) (S j) ++ [(n, j, anc)].
Proof. intros [l ts] anc j. cbn [ent kids]. f_equal. induction ts as [|c r IH]; auto. cbn [entsF]. f_equal. exact IH. Qed.
Fixpoint entsS (st : list (ltree * list nat)) (j : nat) : list (ltree * nat * list nat) := match st with [] => [] | (n, anc) :: r => entsS r (j + tsize n) ++ ent n anc j end.
Definition ssize (st : list (ltree * list nat)) : nat := fsize (map fst st).
Lemma entsF_snoc : forall ts c anc j, entsF (ts ++ [c]) anc j = entsF ts anc (j + tsize c) ++ ent c anc j.
Proof.
  induction ts as [|d ts IH]; intros c anc j; cbn [entsF app]; [rewrite app_nil_r; f_equal; cbn; lia|]. rewrite IH, app_assoc. f_equal. f_equal. f_equal. rewrite fsize_app. unfold fsize at 2. cbn. lia.
Qed.
Lemma entsS_kids : forall ts anc st j, entsS (rev (map (fun c => (c, anc)) ts) ++ st) j = entsS st (j + fsize ts) ++ entsF ts anc j.
Proof.
  induction ts as [|c ts IH] using rev_ind; intros anc st j; cbn [map rev app]; [cbn; rewrite app_nil_r; f_equal; unfold fsize; cbn; lia|]. rewrite map_app, rev_app_distr. cbn [map rev app entsS]. rewrite IH, entsF_snoc, <- app_assoc. f_equal. f_equal. rewrite fsize_app. unfold fsize at 3. cbn. lia.
Qed.
Lemma annot1_spec : forall fuel st j ps, ssize st <= fuel -> annot1 fuel st j ps = entsS st j ++ ps.
Proof.
  induction fuel as [|f IH]; intros st j ps L.
  - destruct st as [|[n anc] st]; auto. unfold ssize in L. cbn in L. assert (P := tsize_pos n). lia.
  - destruct st as [|[n anc] st]; auto. cbn [annot1]. unfold ssize in L. cbn [map fst] in L. rewrite fsize_cons, tsize_kids in L. rewrite IH.
    + rewrite entsS_kids. cbn [entsS]. rewrite ent_kids, <- !app_assoc. cbn [app]. f_equal. f_equal. rewrite tsize_kids. lia.
    + unfold ssize. rewrite map_app, map_rev, map_map, map_id, fsize_app. assert (R : forall l, fsize (rev l) = fsize l). { intros l. unfold fsize. rewrite map_rev. induction (map tsize l) as [|x r IHr]; auto. cbn [rev]. rewrite list_sum_app, IHr. cbn. unfold list_sum. lia. } rewrite R. lia.
Qed.

Lemma setanc_notin : forall anc i d k, ~ In k anc -> setanc anc i d k = d k.
Proof. induction anc as [|a r IH]; intros i d k N; auto. cbn. destruct (d a); auto. rewrite IH by (intros Q; apply N; now right). destruct (Nat.eqb_spec k a) as [->|]; auto. exfalso. apply N. now left. Qed.
Lemma setanc_head : forall p anc i d, setanc (p :: anc) i d p <> None.
Proof.
  intros p anc i d. cbn. destruct (d p) eqn:E; [congruence|]. assert (G : forall anc d, d p <> None -> setanc anc i d p <> None).
  { clear. induction anc as [|a r IH]; intros d H; auto. cbn. destruct (d a) eqn:E; auto. apply IH. destruct (Nat.eqb_spec p a); [discriminate|auto]. }
  apply G. now rewrite Nat.eqb_refl.
Qed.
Lemma setanc_set : forall p anc i d, d p <> None -> setanc (p :: anc) i d = d.
Proof. intros p anc i d H. cbn. destruct (d p); congruence. Qed.
Lemma setanc_agree : forall anc i d d' x, (forall k, k <> x -> d k = d' k) -> ~ In x anc -> forall k, k <> x -> setanc anc i d k = setanc anc i d' k.
Proof.
  induction anc as [|a r IH]; intros i d d' x A N k K; cbn; auto. rewrite <- (A a) by (intros ->; apply N; now left). destruct (d a); auto. apply (IH i _ _ x); auto; [|intros Q; apply N; now right]. intros y Y. destruct (y =? a); auto.
Qed.
Fixpoint lmdlist (us : list ltree) (i : nat) : list nat := match us with [] => [] | u :: r => (i + 1 - tsize u) :: lmdlist r (S i) end.
Fixpoint krs (us : list ltree) (i : nat) (kr : list (nat * nat)) : list (nat * nat) := match us with [] => kr | u :: r => krs r (S i) (kput (i + 1 - tsize u) i kr) end.
Lemma lmdlist_app : forall a b i, lmdlist (a ++ b) i = lmdlist a i ++ lmdlist b (i + length a).
Proof. induction a as [|u a IH]; intros b i; cbn; [now rewrite Nat.add_0_r|]. rewrite IH. now replace (S i + length a) with (i + S (length a)) by lia. Qed.
Lemma krs_app : forall a b i kr, krs (a ++ b) i kr = krs b (i + length a) (krs a i kr).
Proof. induction a as [|u a IH]; intros b i kr; cbn; [now rewrite Nat.add_0_r|]. rewrite IH. now replace (S i + length a) with (i + S (length a)) by lia. Qed.
Definition treeP (n : ltree) : Prop := forall anc j i d rest nodes lmds kr, (forall k, j <= k < j + tsize n -> d k = None) -> (forall a, In a anc -> a < j) ->
  exists d', annot2 (ent n anc j ++ rest) i d nodes lmds kr = annot2 rest (i + tsize n) d' (nodes ++ post n) (lmds ++ lmdlist (post n) i) (krs (post n) i kr) /\
    forall k, ~ (j <= k < j + tsize n) -> d' k = setanc anc i d k.
Lemma annot2_forest : forall ts, Forall treeP ts -> ts <> [] -> forall p anc j i d rest nodes lmds kr, (forall k, j <= k < j + fsize ts -> d k = None) -> p < j -> (forall a, In a anc -> a < j) ->
  exists d', annot2 (entsF ts (p :: anc) j ++ rest) i d nodes lmds kr = annot2 rest (i + fsize ts) d' (nodes ++ posts ts) (lmds ++ lmdlist (posts ts) i) (krs (posts ts) i kr) /\
    forall k, ~ (j <= k < j + fsize ts) -> d' k = setanc (p :: anc) i d k.
Proof.
  induction 1 as [|c r PC FR IH]; intros NE p anc j i d rest nodes lmds kr DN PJ AJ; [contradiction|]. clear NE. rewrite fsize_cons in DN. cbn [entsF]. rewrite <- app_assoc.
  assert (AA : forall a, In a (p :: anc) -> a < j) by (intros a [<-|Ha]; auto).
  destruct (PC (p :: anc) (j + fsize r) i d (entsF r (p :: anc) j ++ rest) nodes lmds kr) as (d1 & E1 & D1).
  { intros k K. apply DN. lia. } { intros a Ha. specialize (AA a Ha). lia. }
  rewrite E1. destruct r as [|c2 r].
  - exists d1. cbn [entsF app]. rewrite posts_one, fsize_cons. unfold fsize. cbn [map list_sum fold_right]. rewrite Nat.add_0_r. split; auto. intros k K. apply D1. unfold fsize. cbn. lia.
  - destruct (IH ltac:(discriminate) p anc j (i + tsize c) d1 rest (nodes ++ post c) (lmds ++ lmdlist (post c) i) (krs (post c) i kr)) as (d2 & E2 & D2); auto.
    { intros k K. rewrite D1 by lia. rewrite setanc_notin; [apply DN; lia|]. intros Q. specialize (AA k Q). lia. }
    exists d2. rewrite E2. split.
    + rewrite (posts_cons c (c2 :: r)), (fsize_cons c (c2 :: r)), lmdlist_app, krs_app, post_length, <- !app_assoc, Nat.add_assoc. reflexivity.
    + intros k K. rewrite (fsize_cons c (c2 :: r)) in K. rewrite D2 by lia. rewrite setanc_set; [|rewrite D1 by lia; apply setanc_head]. apply D1. lia.
Qed.
Lemma annot2_tree : forall n, treeP n.
Proof.
  induction n as [l ts IH] using ltree_ind'. intros anc j i d rest nodes lmds kr DN AJ. rewrite ent_kids, post_kids. cbn [kids]. assert (TS : tsize (T l ts) = S (fsize ts)) by reflexivity. rewrite TS in *. destruct ts as [|c ts].
  - cbn [entsF app annot2 kids posts flat_map lmdlist krs]. rewrite TS. unfold fsize. cbn [map list_sum fold_right]. replace (i + 1 - 1) with i by lia. replace (S i) with (i + 1) by lia. eexists. split; [reflexivity|]. intros k K. reflexivity.
  - rewrite <- app_assoc. destruct (annot2_forest (c :: ts) IH ltac:(discriminate) j anc (S j) i d ([(T l (c :: ts), j, anc)] ++ rest) nodes lmds kr) as (d1 & E1 & D1).
    { intros k K. apply DN. lia. } { lia. } { intros a Ha. specialize (AJ a Ha). lia. }
    rewrite E1. cbn [app annot2 kids]. assert (DJ : d1 j = Some i). { rewrite D1 by lia. cbn [setanc]. rewrite (DN j) by lia. rewrite setanc_notin; [now rewrite Nat.eqb_refl|]. intros Q. specialize (AJ j Q). lia. }
    rewrite DJ. exists d1. split.
    + rewrite lmdlist_app, krs_app, posts_length, <- !app_assoc. cbn [lmdlist krs]. rewrite TS. replace (i + fsize (c :: ts) + 1 - S (fsize (c :: ts))) with i by lia. replace (i + S (fsize (c :: ts))) with (S (i + fsize (c :: ts))) by lia. reflexivity.
    + intros k K. rewrite D1 by lia. cbn [setanc]. rewrite (DN j) by lia. apply (setanc_agree anc i _ _ j); [|intros Q; specialize (AJ j Q); lia|lia]. intros x X. destruct (Nat.eqb_spec x j); [contradiction|auto].
Qed.
Theorem annotate_spec : forall t, annotate t = Some (Ann (post t) (lmdlist (post t) 0) (sort Nat.leb (map snd (krs (post t) 0 [])))).
Proof.
  intros t. unfold annotate. rewrite annot1_spec by (unfold ssize; cbn; lia). cbn [entsS app]. rewrite app_nil_r. destruct (annot2_tree t [] 0 0 (fun _ => None) [] [] [] []) as (d & E & _); auto; [intros a []|]. rewrite app_nil_r in E. rewrite E. reflexivity.
Qed.
(** ---- key roots ---- *)
Lemma kput_in : forall d k v k' v', NoDup (map fst d) -> In (k', v') (kput k v d) <-> (k' = k /\ v' = v) \/ (k' <> k /\ In (k', v') d).
Proof.
  induction d as [|[a b] d IH]; intros k v k' v' ND; cbn.
  - split; [intros [E|[]]; injection E as <- <-; auto|intros [[-> ->]|[_ []]]; auto].
  - inversion ND as [|? ? N1 N2]; subst. cbn in N1. destruct (Nat.eqb_spec a k) as [->|NE]; cbn.
    + split.
      * intros [E|H]; [injection E as <- <-; auto|]. right. split; [|now right]. intros ->. apply N1. exact (in_map fst _ _ H).
      * intros [[-> ->]|[N [E|H]]]; auto. injection E as -> ->. contradiction.
    + rewrite IH by auto. split.
      * intros [E|[?|[? ?]]]; auto. injection E as -> ->. auto.
      * intros [?|[? [E|?]]]; auto.
Qed.
Lemma kput_keys : forall d k v x, In x (map fst (kput k v d)) <-> x = k \/ In x (map fst d).
Proof.
  induction d as [|[a b] d IH]; intros k v x; cbn; [intuition|]. destruct (Nat.eqb_spec a k) as [->|NE]; cbn; [intuition|]. rewrite IH. intuition.
Qed.
Lemma kput_nodup : forall d k v, NoDup (map fst d) -> NoDup (map fst (kput k v d)).
Proof.
  induction d as [|[a b] d IH]; intros k v ND; cbn; [repeat constructor; auto|]. inversion ND as [|? ? N1 N2]; subst. destruct (Nat.eqb_spec a k) as [->|NE]; cbn; constructor; auto. rewrite kput_keys. intros [?|?]; auto.
Qed.
Lemma lmdlist_length : forall us i, length (lmdlist us i) = length us.
Proof. induction us; intros; cbn; auto. Qed.
Lemma krs_spec : forall us, NoDup (map fst (krs us 0 [])) /\ forall k v, In (k, v) (krs us 0 []) <-> (nth_error (lmdlist us 0) v = Some k /\ forall w, v < w -> nth_error (lmdlist us 0) w <> Some k).
Proof.
  induction us as [|u us [IH1 IH2]] using rev_ind; [split; [constructor|]; intros k v; cbn; split; [intros []|intros [H _]; destruct v; discriminate]|].
  rewrite krs_app, lmdlist_app. cbn [krs lmdlist]. rewrite !Nat.add_0_l. split; [now apply kput_nodup|]. intros k v. rewrite kput_in by auto. rewrite IH2. set (q := length us + 1 - tsize u). assert (LL : length (lmdlist us 0) = length us) by apply lmdlist_length.
  assert (NE : forall w, nth_error (lmdlist us 0 ++ [q]) w = if w <? length us then nth_error (lmdlist us 0) w else if w =? length us then Some q else None).
  { intros w. destruct (Nat.ltb_spec w (length us)); [apply nth_error_app1; lia|]. rewrite nth_error_app2 by lia. rewrite LL. destruct (Nat.eqb_spec w (length us)) as [->|]; [now rewrite Nat.sub_diag|]. destruct (w - length us) as [|[|m]] eqn:Q; auto; lia. }
  assert (OUT : forall w x, nth_error (lmdlist us 0) w = Some x -> w < length us) by (intros w x H; rewrite <- LL; apply nth_error_Some; congruence).
  split.
  - intros [[-> ->]|[N [H1 H2]]].
    + rewrite NE, Nat.ltb_irrefl, Nat.eqb_refl. split; auto. intros w W. rewrite NE. destruct (Nat.ltb_spec w (length us)); [lia|]. destruct (Nat.eqb_spec w (length us)); [lia|discriminate].
    + assert (V := OUT _ _ H1). rewrite NE. destruct (Nat.ltb_spec v (length us)); [|lia]. split; auto. intros w W. rewrite NE. destruct (Nat.ltb_spec w (length us)); [auto|]. destruct (Nat.eqb_spec w (length us)); [|discriminate]. intros E. injection E as E. congruence.
  - intros [H1 H2]. rewrite NE in H1. destruct (Nat.ltb_spec v (length us)) as [L|L].
    + right. split; [|split; auto]. * intros ->. apply (H2 (length us) L). rewrite NE, Nat.ltb_irrefl, Nat.eqb_refl. reflexivity.
      * intros w W Q. apply (H2 w W). rewrite NE. assert (V := OUT _ _ Q). destruct (Nat.ltb_spec w (length us)); [auto|lia].
    + destruct (Nat.eqb_spec v (length us)) as [->|]; [|discriminate]. injection H1 as <-. left. auto.
Qed.
