(** Proofs for C46 (1): taking out preterminals; punctroot *)
From Coq Require Import String.
From Coq Require Import List Bool Arith NArith Lia Permutation Sorted.
From Verif Require Import PyStr TreeModel TreeProps TransformModel TransformProps PunctModel PunctSpec.
Import ListNotations.
Open Scope list_scope.
Open Scope nat_scope.

Inductive qtree : ptr -> Prop :=
| q_pre : forall l a, qtree (Node l [Leaf a])
| q_node : forall l ts, (forall c, In c ts -> qtree c) -> qtree (Node l ts).
Lemma ptree_qtree : forall t, ptree t -> qtree t.
Proof. induction t as [a|l ts IH] using tree_ind'; intros H; inversion H; subst; [constructor|]. apply q_node. rewrite Forall_forall in IH. auto. Qed.
Lemma qleaf : forall a, ~ qtree (Leaf a).
Proof. intros a H. inversion H. Qed.
Lemma rest_pre : forall S m a, rest S (Node m [Leaf a]) = if S a m then [] else [Node m [Leaf a]].
Proof. reflexivity. Qed.
Lemma rest_node : forall S m us, (forall c, In c us -> qtree c) -> rest S (Node m us) = match flat_map (rest S) us with [] => [] | vs => [Node m vs] end.
Proof. intros S m [|[a|l ts] [|c r]] H; auto. exfalso. apply (qleaf a). apply H. now left. Qed.
Lemma pret_node : forall l ts, (forall c, In c ts -> qtree c) -> preterminals (Node l ts : ptr) = flat_map preterminals ts.
Proof. intros l ts H. cbn [preterminals]. apply flat_map_ext_in. intros c Hc. specialize (H c Hc). destruct c; [destruct (qleaf _ H)|reflexivity]. Qed.
Lemma rest_facts : forall S c, qtree c -> (forall d, In d (rest S c) -> ptree d) /\ flat_map preterminals (rest S c) = filter (fun p => negb (S (snd p) (fst p))) (preterminals c).
Proof.
  intros S. induction c as [x|l ts IH] using tree_ind'; intros Q; inversion Q as [? a|? ? H]; subst.
  - rewrite rest_pre. cbn. destruct (S a l); cbn; (split; [intros d D; destruct D as [<-|[]] || destruct D; constructor|reflexivity]).
  - rewrite rest_node, pret_node by auto. rewrite Forall_forall in IH.
    assert (G : (forall d, In d (flat_map (rest S) ts) -> ptree d) /\ flat_map preterminals (flat_map (rest S) ts) = filter (fun p => negb (S (snd p) (fst p))) (flat_map preterminals ts)).
    { clear Q. induction ts as [|c ts IHt]; [split; [intros d []|reflexivity]|]. destruct (IH c (or_introl eq_refl) (H c (or_introl eq_refl))) as [A1 A2]. destruct IHt as [B1 B2]; [intros; apply IH; auto; now right|intros; apply H; now right|]. cbn [flat_map]. rewrite flat_map_app, filter_app, A2, B2. split; auto. intros d D. apply in_app_or in D. destruct D; auto. }
    destruct G as [G1 G2]. destruct (flat_map (rest S) ts) as [|v vs] eqn:E; [split; [intros d []|exact G2]|]. split; [intros d [<-|[]]; constructor; [discriminate|auto]|]. cbn [flat_map]. rewrite app_nil_r, pret_node; [exact G2|]. intros c Hc. now apply ptree_qtree, G1.
Qed.
Lemma rest_none : forall S c, ptree c -> (forall m a, In (m, a) (preterminals c) -> S a m = false) -> rest S c = [c].
Proof.
  intros S. induction c as [x|l ts IH] using tree_ind'; intros P H; inversion P as [? a|? ? NE PC]; subst.
  - rewrite rest_pre, (H l a); [reflexivity|]. cbn. now left.
  - assert (QC : forall c, In c ts -> qtree c) by (intros; now apply ptree_qtree, PC). rewrite rest_node by auto. rewrite pret_node in H by auto.
    assert (E : flat_map (rest S) ts = ts). { rewrite Forall_forall in IH. clear NE P. induction ts as [|c ts IHt]; auto. cbn [flat_map]. rewrite (IH c); [|now left|apply PC; now left|intros m a X; apply H; cbn; apply in_or_app; now left]. cbn. f_equal. apply IHt; [intros x X; apply IH; now right|intros m a X; apply H; cbn; apply in_or_app; now right|intros; apply PC; now right|intros; apply QC; now right]. }
    rewrite E. destruct ts; [contradiction|reflexivity].
Qed.
Lemma rest_ext : forall S S' c, qtree c -> (forall m a, In (m, a) (preterminals c) -> S a m = S' a m) -> rest S c = rest S' c.
Proof.
  intros S S'. induction c as [x|l ts IH] using tree_ind'; intros Q H; inversion Q as [? a|? ? QC]; subst.
  - rewrite !rest_pre, (H l a); [reflexivity|]. cbn. now left.
  - rewrite !rest_node by auto. rewrite pret_node in H by auto. rewrite Forall_forall in IH. rewrite (flat_map_ext_in _ _ (rest S) (rest S') ts); auto. intros c C. apply IH; auto. intros m a X. apply H. apply in_flat_map. eauto.
Qed.
Lemma rest_comp : forall S S' c, qtree c -> flat_map (rest S) (rest S' c) = rest (fun a m => S a m || S' a m) c.
Proof.
  intros S S'. induction c as [x|l ts IH] using tree_ind'; intros Q; inversion Q as [? a|? ? QC]; subst.
  - rewrite !rest_pre. destruct (S' a l); cbn; [now rewrite orb_true_r|]. rewrite orb_false_r. destruct (S a l); reflexivity.
  - rewrite !rest_node by auto. rewrite Forall_forall in IH.
    assert (E : flat_map (rest S) (flat_map (rest S') ts) = flat_map (rest (fun a m => S a m || S' a m)) ts). { clear Q. induction ts as [|c ts IHt]; auto. cbn [flat_map]. rewrite flat_map_app, IH by (try apply QC; now left). f_equal. apply IHt; [intros; apply IH; auto; now right|intros; apply QC; now right]. }
    rewrite <- E. assert (PT : forall d, In d (flat_map (rest S') ts) -> ptree d). { intros d D. apply in_flat_map in D. destruct D as (c & C1 & C2). apply (proj1 (rest_facts S' c (QC c C1))). exact C2. }
    destruct (flat_map (rest S') ts) as [|v vs] eqn:V; [reflexivity|]. cbn [flat_map]. rewrite app_nil_r. rewrite rest_node; [reflexivity|]. intros c C. now apply ptree_qtree, PT.
Qed.
Lemma pret_in_leaves : forall (c : ptr) m a, In (m, a) (preterminals c) -> In a (leaves c).
Proof.
  induction c as [a|l ts IH] using tree_ind'; intros m b H; [destruct H|]. cbn in *. apply in_flat_map in H. destruct H as (c & C1 & C2). apply in_flat_map. exists c. split; auto. rewrite Forall_forall in IH. destruct c as [a|m' us]; [destruct C2 as [E|[]]; injection E as _ ->; now left|eauto].
Qed.

(** ---- del tree[...] with the empty ancestors ---- *)
Fixpoint rm (t : ptr) (p : list nat) : ptr :=
  match t, p with
  | Node l ts, i :: q =>
    match q with
    | [] => Node l (firstn i ts ++ skipn (S i) ts)
    | _ => match nth_error ts i with
           | Some c => match rm c q with Node _ [] => Node l (firstn i ts ++ skipn (S i) ts) | c' => Node l (firstn i ts ++ c' :: skipn (S i) ts) end
           | None => t
           end
    end
  | _, _ => t
  end.
Lemma nth_mid : forall X (a b : list X) c, nth_error (a ++ c :: b) (length a) = Some c.
Proof. intros. rewrite nth_error_app2 by lia. now rewrite Nat.sub_diag. Qed.
Lemma firstn_mid : forall X (a b : list X), firstn (length a) (a ++ b) = a.
Proof. intros. rewrite firstn_app, Nat.sub_diag, firstn_all. cbn. apply app_nil_r. Qed.
Lemma skipn_mid : forall X (a b : list X) c, skipn (S (length a)) (a ++ c :: b) = b.
Proof. intros. replace (S (length a)) with (length (a ++ [c])) by (rewrite app_length; cbn; lia). change (c :: b) with ([c] ++ b). rewrite app_assoc, skipn_app, skipn_all, Nat.sub_diag. reflexivity. Qed.
Lemma delpos_mid : forall l A c B q, q <> [] -> delpos (Node l (A ++ c :: B)) (length A :: q) = Node l (A ++ delpos c q :: B).
Proof. intros l A c B q NE. cbn [delpos]. destruct q as [|j q]; [contradiction|]. rewrite firstn_mid, skipn_mid, nth_mid. reflexivity. Qed.
Lemma delpos_one : forall l A c B, delpos (Node l (A ++ c :: B)) [length A] = Node l (A ++ B).
Proof. intros. cbn [delpos]. now rewrite firstn_mid, skipn_mid. Qed.
Lemma getpos_mid : forall l A c B q, getpos (Node l (A ++ c :: B) : ptr) (length A :: q) = getpos c q.
Proof. intros. cbn [getpos]. now rewrite nth_mid. Qed.
Lemma delpos_parent : forall q c x, q <> [] -> getpos c q = Some x -> exists m us, getpos (delpos c q) (removelast q) = Some (Node m us).
Proof.
  induction q as [|j q IH]; intros c x NE G; [contradiction|]. destruct c as [a|l ts]; [discriminate|]. cbn [getpos] in G. destruct (nth_error ts j) as [d|] eqn:Ej; [|discriminate]. apply nth_error_split in Ej. destruct Ej as (A & B & -> & <-). destruct q as [|k q].
  - rewrite delpos_one. cbn. eauto.
  - rewrite delpos_mid by discriminate. replace (removelast (length A :: k :: q)) with (length A :: removelast (k :: q)) by reflexivity. rewrite getpos_mid. apply (IH d x); auto. discriminate.
Qed.
Lemma delpos_ne : forall q c x, 2 <= length q -> getpos c q = Some x -> forall m, delpos c q <> Node m [].
Proof.
  intros [|j [|k q]] [a|l ts] x L G m E; cbn in L; try lia; try discriminate. cbn [getpos] in G. destruct (nth_error ts j) as [d|] eqn:Ej; [|discriminate]. apply nth_error_split in Ej. destruct Ej as (A & B & -> & <-). rewrite delpos_mid in E by discriminate. injection E as _ E. destruct A; discriminate.
Qed.
Lemma removelast_length : forall X (l : list X), l <> [] -> S (length (removelast l)) = length l.
Proof. intros X l. induction l as [|x [|y r] IH]; intros NE; [contradiction|reflexivity|]. cbn [removelast length]. f_equal. apply IH. discriminate. Qed.
Lemma delup_mid : forall k q c l A B x, length q = S k -> getpos c q = Some x ->
  delup (Node l (A ++ c :: B)) (length A :: q) (S (S k)) = match delup c q (S k) with Node _ [] => Node l (A ++ B) | c' => Node l (A ++ c' :: B) end.
Proof.
  induction k as [|k IH]; intros q c l A B x L G; assert (NE : q <> []) by (intros ->; discriminate).
  - destruct q as [|j [|? ?]]; try discriminate. destruct (delpos_parent [j] c x NE G) as (m & us & E). change (Some (delpos c [j]) = Some (Node m us)) in E. assert (E' : delpos c [j] = Node m us) by congruence. clear E.
    cbn [delup]. rewrite delpos_mid by auto. cbn [removelast]. rewrite getpos_mid. cbn [getpos]. rewrite E'. destruct us as [|u us]; [|reflexivity]. cbn [delup]. rewrite delpos_one. cbn. destruct (A ++ B); reflexivity.
  - destruct (delpos_parent q c x NE G) as (m & us & E). assert (L2 := removelast_length _ q NE). destruct q as [|j q]; [contradiction|]. destruct q as [|j2 q]; [discriminate|].
    cbn [delup]. rewrite delpos_mid by auto. replace (removelast (length A :: j :: j2 :: q)) with (length A :: removelast (j :: j2 :: q)) by reflexivity. rewrite getpos_mid, E. destruct us as [|u us].
    + apply (IH _ _ _ _ _ (Node m [])); [lia|exact E].
    + destruct (delpos c (j :: j2 :: q)) as [b|m' [|v vs]] eqn:D; auto. exfalso. apply (delpos_ne (j :: j2 :: q) c x) in D; auto. cbn. lia.
Qed.
Lemma rm_mid : forall l A c B q, q <> [] -> rm (Node l (A ++ c :: B)) (length A :: q) = match rm c q with Node _ [] => Node l (A ++ B) | c' => Node l (A ++ c' :: B) end.
Proof. intros l A c B [|j q] NE; [contradiction|]. cbn [rm]. rewrite nth_mid, firstn_mid, skipn_mid. reflexivity. Qed.
Lemma rm_one : forall l A c B, rm (Node l (A ++ c :: B)) [length A] = Node l (A ++ B).
Proof. intros. cbn [rm]. now rewrite firstn_mid, skipn_mid. Qed.
Lemma delup_rm : forall p t x, p <> [] -> getpos t p = Some x -> delup t p (length p) = rm t p.
Proof.
  induction p as [|j q IH]; intros t x NE G; [contradiction|]. destruct t as [a|l ts]; [discriminate|]. cbn [getpos] in G. destruct (nth_error ts j) as [c|] eqn:Ej; [|discriminate]. apply nth_error_split in Ej. destruct Ej as (A & B & -> & <-). destruct q as [|k q].
  - cbn [length delup]. rewrite delpos_one, rm_one. cbn. destruct (A ++ B); reflexivity.
  - rewrite rm_mid by discriminate. cbn [length]. rewrite (delup_mid _ _ _ _ _ _ x) by auto. change (S (length q)) with (length (k :: q)). rewrite (IH c x) by (auto; discriminate). reflexivity.
Qed.
Definition only (a : nat) : nat -> pystr -> bool := fun j _ => j =? a.
Lemma rest_others : forall a ts, (forall c, In c ts -> ptree c) -> (forall c, In c ts -> ~ In a (leaves c)) -> flat_map (rest (only a)) ts = ts.
Proof.
  induction ts as [|c ts IH]; intros P N; auto. cbn [flat_map]. rewrite rest_none; [|apply P; now left|].
  - cbn. f_equal. apply IH; intros; [apply P|apply N]; now right.
  - intros m b H. unfold only. destruct (Nat.eqb_spec b a) as [->|]; auto. exfalso. apply (N c (or_introl eq_refl)). eapply pret_in_leaves; eauto.
Qed.
Lemma getpos_leaves : forall p (t x : ptr), getpos t p = Some x -> forall a, In a (leaves x) -> In a (leaves t).
Proof.
  induction p as [|j p IH]; intros t x G a H; cbn in G; [injection G as ->; auto|]. destruct t as [b|l ts]; [discriminate|]. destruct (nth_error ts j) as [c|] eqn:E; [|discriminate]. cbn. apply in_flat_map. exists c. split; [eapply nth_error_In; eauto|eauto].
Qed.
Lemma nodup_mid : forall (A B : list ptr) c a, NoDup (flat_map leaves (A ++ c :: B)) -> In a (leaves c) -> (forall d, In d (A ++ B) -> ~ In a (leaves d)) /\ NoDup (leaves c).
Proof.
  intros A B c a N H. split; [|apply (nodup_child (A ++ c :: B)); auto; apply in_or_app; right; now left]. intros d D Q.
  assert (P : Permutation (flat_map leaves (A ++ c :: B)) (leaves c ++ flat_map leaves (A ++ B))). { rewrite !flat_map_app. cbn [flat_map]. rewrite !app_assoc. apply Permutation_app_tail. apply Permutation_app_comm. }
  apply (Permutation_NoDup P) in N. assert (X : In a (flat_map leaves (A ++ B))) by (apply in_flat_map; eauto). clear - N H X. induction (leaves c) as [|b r IH]; [destruct H|]. cbn in N. inversion N as [|? ? N1 N2]; subst. destruct H as [<-|H]; [apply N1; apply in_or_app; now right|auto].
Qed.
Lemma rm_skeleton : forall p l ts m a, p <> [] -> (forall c, In c ts -> ptree c) -> NoDup (flat_map leaves ts) -> getpos (Node l ts : ptr) p = Some (Node m [Leaf a]) -> rm (Node l ts) p = skeleton (only a) (Node l ts).
Proof.
  induction p as [|j q IH]; intros l ts m a NE P N G; [contradiction|]. cbn [getpos] in G. destruct (nth_error ts j) as [c|] eqn:Ej; [|discriminate]. apply nth_error_split in Ej. destruct Ej as (A & B & -> & <-).
  assert (AC : In a (leaves c)) by (apply (getpos_leaves _ _ _ G); now left). destruct (nodup_mid A B c a N AC) as [N1 N2].
  assert (EA : flat_map (rest (only a)) A = A) by (apply rest_others; intros d D; [apply P|apply N1]; apply in_or_app; now left).
  assert (EB : flat_map (rest (only a)) B = B) by (apply rest_others; intros d D; [apply P|apply N1]; apply in_or_app; right; auto; now right).
  assert (PC : ptree c) by (apply P, in_or_app; right; now left).
  cbn [skeleton]. rewrite flat_map_app. cbn [flat_map]. rewrite EA, EB. destruct q as [|k q].
  - cbn in G. injection G as ->. rewrite rm_one, rest_pre. unfold only. rewrite Nat.eqb_refl. reflexivity.
  - rewrite rm_mid by discriminate. destruct c as [b|m' us]; [discriminate G|]. inversion PC as [? b E|? ? NEu PU]; subst.
    + exfalso. cbn [getpos nth_error] in G. destruct k as [|[|k]]; cbn in G; destruct q; discriminate.
    + rewrite (IH m' us m a) by (auto; discriminate). cbn [skeleton]. rewrite rest_node by (intros; now apply ptree_qtree, PU). destruct (flat_map (rest (only a)) us); reflexivity.
Qed.
Lemma leafpos_pre : forall q l ts i, (forall c, In c ts -> ptree c) -> getpos (Node l ts : ptr) q = Some (Leaf i) -> exists p m, q = p ++ [0] /\ p <> [] /\ getpos (Node l ts : ptr) p = Some (Node m [Leaf i]) /\ In (m, i) (preterminals (Node l ts : ptr)).
Proof.
  induction q as [|j q IH]; intros l ts i P G; [discriminate|]. cbn [getpos] in G. destruct (nth_error ts j) as [c|] eqn:Ej; [|discriminate]. assert (HC := nth_error_In _ _ Ej). assert (PC := P c HC).
  assert (PR : forall m, In (m, i) (preterminals c) -> In (m, i) (preterminals (Node l ts : ptr))). { intros m H. rewrite pret_node by (intros; now apply ptree_qtree, P). apply in_flat_map. eauto. }
  destruct c as [b|m us]; [inversion PC|]. inversion PC as [? b E|? ? NE PU]; subst.
  - destruct q as [|k q]; [discriminate|]. cbn [getpos] in G. destruct k as [|k]; [|destruct k; discriminate]. cbn in G. destruct q; [|discriminate]. injection G as ->. exists [j], m. split; auto. split; [discriminate|]. split; [cbn; now rewrite Ej|]. apply PR. cbn. now left.
  - destruct (IH m us i PU G) as (p & m' & -> & NP & E & H). exists (j :: p), m'. split; auto. split; [discriminate|]. split; [cbn [getpos]; now rewrite Ej|]. auto.
Qed.
Lemma left_of_snoc : forall p q, left_of q (p ++ [0]) -> left_of q p.
Proof. induction p as [|i p IH]; intros [|j q] H; cbn in *; auto; [destruct H as [H|[_ H]]; [lia|destruct q; auto]|]. destruct H as [H|[-> H]]; auto. Qed.
Lemma rm_stable : forall p (t x : ptr) q i, p <> [] -> getpos t p = Some x -> left_of q p -> getpos t q = Some (Leaf i) -> getpos (rm t p) q = Some (Leaf i).
Proof.
  induction p as [|j p IH]; intros t x q i NE G LO Gq; [contradiction|]. destruct q as [|j' q]; [destruct LO|]. destruct t as [a|l ts]; [discriminate|]. cbn [getpos] in G. destruct (nth_error ts j) as [c|] eqn:Ej; [|discriminate]. apply nth_error_split in Ej. destruct Ej as (A & B & -> & <-). cbn in LO. destruct LO as [LT|[-> LO]].
  - assert (NA : forall X, nth_error (A ++ X) j' = nth_error A j') by (intros; apply nth_error_app1; auto). cbn [getpos] in Gq. rewrite NA in Gq. assert (Z : forall X, getpos (Node l (A ++ X) : ptr) (j' :: q) = Some (Leaf i)) by (intros X; cbn [getpos]; now rewrite NA). destruct p as [|k p]; [rewrite rm_one; apply Z|]. rewrite rm_mid by discriminate. destruct (rm c (k :: p)) as [|? [|]]; apply Z.
  - destruct p as [|k p]; [destruct q; contradiction|]. rewrite getpos_mid in Gq. assert (H := IH c x q i ltac:(discriminate) G LO Gq). rewrite rm_mid by discriminate. destruct (rm c (k :: p)) as [b|m [|u us]] eqn:E; [now rewrite getpos_mid| |now rewrite getpos_mid]. destruct q as [|z q]; [discriminate|]. cbn in H. destruct z; discriminate.
Qed.
(** ---- the loop of punctroot ---- *)
Definition prenode (p : pystr * nat) : ptr := Node (fst p) [Leaf (snd p)].
Definition punctsel (sent : list word) : nat -> pystr -> bool := fun i l => ispunct (wordof sent i) l.
Lemma skeleton_rooted : forall S l ts, (forall c, In c ts -> ptree c) -> NoDup (flat_map leaves ts) ->
  (forall c, In c (flat_map (rest S) ts) -> ptree c) /\ NoDup (flat_map leaves (flat_map (rest S) ts)) /\ preterminals (skeleton S (Node l ts)) = filter (fun p => negb (S (snd p) (fst p))) (preterminals (Node l ts : ptr)).
Proof.
  intros S l ts P N. assert (Q : forall c, In c ts -> qtree c) by (intros; now apply ptree_qtree, P).
  assert (A : forall c, In c (flat_map (rest S) ts) -> ptree c). { intros c C. apply in_flat_map in C. destruct C as (d & D1 & D2). apply (proj1 (rest_facts S d (Q d D1))). exact D2. }
  assert (B : preterminals (skeleton S (Node l ts)) = filter (fun p => negb (S (snd p) (fst p))) (preterminals (Node l ts : ptr))).
  { cbn [skeleton]. rewrite !pret_node; auto; [|intros; now apply ptree_qtree, A]. clear - Q. induction ts as [|c ts IH]; auto. cbn [flat_map]. rewrite flat_map_app, filter_app, IH by (intros; apply Q; now right). f_equal. apply rest_facts. apply Q. now left. }
  split; auto. split; auto. change (NoDup (leaves (skeleton S (Node l ts)))). rewrite <- preterminals_leaves by (cbn; eauto). rewrite B. apply NoDup_filter_map. rewrite preterminals_leaves by eauto. exact N.
Qed.
Lemma skeleton_comp : forall S S' l ts, (forall c, In c ts -> ptree c) -> skeleton S (skeleton S' (Node l ts)) = skeleton (fun a m => S a m || S' a m) (Node l ts).
Proof.
  intros S S' l ts P. cbn [skeleton]. f_equal. induction ts as [|c ts IH]; auto. cbn [flat_map]. rewrite flat_map_app, rest_comp by (apply ptree_qtree, P; now left). f_equal. apply IH. intros; apply P; now right.
Qed.
Lemma skeleton_ext : forall S S' l ts, (forall c, In c ts -> ptree c) -> (forall m a, In (m, a) (preterminals (Node l ts : ptr)) -> S a m = S' a m) -> skeleton S (Node l ts) = skeleton S' (Node l ts).
Proof.
  intros S S' l ts P H. cbn [skeleton]. f_equal. rewrite pret_node in H by (intros; now apply ptree_qtree, P). apply flat_map_ext_in. intros c C. apply rest_ext; [now apply ptree_qtree, P|]. intros m a X. apply H. apply in_flat_map. eauto.
Qed.
Definition among (is : list (pystr * nat)) (a : nat) : bool := existsb (Nat.eqb a) (map snd is).
Lemma pret_unique : forall (t : ptr) m m' a, (exists l ts, t = Node l ts) -> NoDup (leaves t) -> In (m, a) (preterminals t) -> In (m', a) (preterminals t) -> m = m'.
Proof.
  intros t m m' a E N H H'. rewrite <- preterminals_leaves in N by auto. clear E. induction (preterminals t) as [|[l b] r IH]; [destruct H|]. cbn in N. inversion N as [|? ? N1 N2]; subst. destruct H as [E|H], H' as [E'|H']; auto.
  - congruence.
  - injection E as -> ->. exfalso. apply N1. exact (in_map snd _ _ H').
  - injection E' as -> ->. exfalso. apply N1. exact (in_map snd _ _ H).
Qed.
Lemma rootloop : forall sent l ts, (forall c, In c ts -> ptree c) -> NoDup (flat_map leaves ts) -> forall rs is R punct,
  StronglySorted (fun p q => left_of q p) rs -> Forall2 (fun q mi => getpos (skeleton R (Node l ts)) q = Some (Leaf (snd mi)) /\ In mi (preterminals (Node l ts : ptr))) rs is ->
  fold_left (rootstep sent) rs (skeleton R (Node l ts), punct) =
    (skeleton (fun a m => (among is a && punctsel sent a m) || R a m) (Node l ts), punct ++ map prenode (filter (fun mi => punctsel sent (snd mi) (fst mi)) is)).
Proof.
  intros sent l ts P N. induction rs as [|q rs IH]; intros is R punct SS F; inversion F as [|? [m i] ? is' [Gq Hi] F']; subst.
  - cbn. rewrite app_nil_r. reflexivity.
  - cbn [snd] in Gq. cbn [fold_left]. destruct (skeleton_rooted R l ts P N) as (P1 & N1 & PT). cbn [skeleton] in Gq. destruct (leafpos_pre _ _ _ _ P1 Gq) as (p & m' & -> & NP & Gp & Hm).
    change (Node l (flat_map (rest R) ts)) with (skeleton R (Node l ts)) in *. assert (E : m' = m). { rewrite PT in Hm. apply filter_In in Hm. apply (pret_unique (Node l ts) m' m i); eauto. apply Hm. } subst m'.
    unfold rootstep at 2. rewrite removelast_last, Gq, Gp. fold (punctsel sent i m). destruct (punctsel sent i m) eqn:S1.
    + replace (length (p ++ [0]) - 1) with (length p) by (rewrite app_length; cbn; lia). rewrite (delup_rm p _ _ NP Gp). cbn [skeleton] in Gp |- *. rewrite (rm_skeleton p l _ m i NP P1 N1 Gp). change (Node l (flat_map (rest R) ts)) with (skeleton R (Node l ts)). rewrite skeleton_comp by auto.
      rewrite (IH is' (fun a m => only i a m || R a m) (punct ++ [Node m [Leaf i]])).
      * f_equal; [|cbn [filter map snd fst]; rewrite S1; cbn [map]; rewrite <- app_assoc; reflexivity]. apply skeleton_ext; auto. intros m' a Ha. unfold among, only. cbn [map existsb snd]. rewrite orb_assoc. f_equal. destruct (Nat.eqb_spec a i) as [->|]; [|now rewrite orb_false_r]. assert (m' = m) by (apply (pret_unique (Node l ts) m' m i); eauto). subst m'. rewrite S1. cbn. now rewrite orb_true_r.
      * now inversion SS.
      * assert (RS : forall q', left_of q' (p ++ [0]) -> forall x, getpos (skeleton R (Node l ts)) q' = Some (Leaf x) -> getpos (skeleton (fun a m => only i a m || R a m) (Node l ts)) q' = Some (Leaf x)).
        { intros q' LO x G. rewrite <- skeleton_comp by auto. change (skeleton R (Node l ts)) with (Node l (flat_map (rest R) ts)) in *. rewrite <- (rm_skeleton p l _ m i NP P1 N1 Gp). apply (rm_stable p _ (Node m [Leaf i])); auto. now apply left_of_snoc. }
        inversion SS as [|? ? S2 S3]; subst. clear - F' S3 RS. rewrite Forall_forall in S3. induction F' as [|q mi rs is [A1 A2] F IH]; constructor; [split; auto; apply RS; auto; apply S3; now left|apply IH; intros; apply S3; now right].
    + rewrite (IH is' R punct); [|now inversion SS|auto]. f_equal; [|cbn [filter snd fst]; rewrite S1; reflexivity]. apply skeleton_ext; auto. intros m' a Ha. unfold among. cbn [map existsb snd]. f_equal. destruct (Nat.eqb_spec a i) as [->|]; auto. assert (m' = m) by (apply (pret_unique (Node l ts) m' m i); eauto). subst m'. rewrite S1. now rewrite !andb_false_r.
Qed.
Lemma ss_rev : forall X (R : X -> X -> Prop) l, StronglySorted R l -> StronglySorted (fun a b => R b a) (rev l).
Proof.
  intros X R l H. induction H as [|x l SS IH F]; cbn; [constructor|]. apply ss_app'; auto; [repeat constructor|]. intros a b A B. destruct B as [<-|[]]. apply in_rev in A. rewrite Forall_forall in F. auto.
Qed.
Lemma skeleton_none : forall l ts, (forall c, In c ts -> ptree c) -> skeleton (fun _ _ => false) (Node l ts) = Node l ts.
Proof. intros l ts P. cbn. f_equal. induction ts as [|c ts IH]; auto. cbn [flat_map]. rewrite rest_none by (auto; apply P; now left). cbn. f_equal. apply IH. intros; apply P; now right. Qed.
Lemma punctroot_spec : forall sent l ts, (forall c, In c ts -> ptree c) -> NoDup (flat_map leaves ts) ->
  punctroot (Node l ts) sent = Node l (flat_map (rest (punctsel sent)) ts ++ map prenode (filter (fun mi => punctsel sent (snd mi) (fst mi)) (rev (preterminals (Node l ts : ptr))))).
Proof.
  intros sent l ts P N. unfold punctroot. destruct (C16_treepositions_leaves _ _ (Node l ts : ptr)) as (_ & SS & MP).
  rewrite <- (skeleton_none l ts P) at 2. rewrite (rootloop sent l ts P N _ (rev (preterminals (Node l ts : ptr)))).
  - cbn [skeleton]. f_equal. f_equal. apply flat_map_ext_in. intros c C. apply rest_ext; [now apply ptree_qtree, P|]. intros m a H. rewrite orb_false_r. assert (X : among (rev (preterminals (Node l ts : ptr))) a = true); [|now rewrite X]. unfold among. apply existsb_exists. exists a. split; [|apply Nat.eqb_refl]. apply in_map_iff. exists (m, a). split; auto. apply -> in_rev. rewrite pret_node by (intros; now apply ptree_qtree, P). apply in_flat_map. eauto.
  - now apply ss_rev.
  - rewrite skeleton_none by auto. rewrite <- preterminals_leaves in MP by eauto. assert (G : forall (ps : list (list nat)) (is : list (pystr * nat)), map (getpos (Node l ts : ptr)) ps = map (fun a => Some (Leaf a)) (map snd is) -> (forall mi, In mi is -> In mi (preterminals (Node l ts : ptr))) -> Forall2 (fun q mi => getpos (Node l ts : ptr) q = Some (Leaf (snd mi)) /\ In mi (preterminals (Node l ts : ptr))) ps is).
    { induction ps as [|p ps IH]; intros [|mi is] E H; try discriminate; constructor; cbn in E; injection E as E1 E2; [split; auto; apply H; now left|apply IH; auto; intros; apply H; now right]. }
    apply G; [rewrite map_rev, MP, map_rev, map_rev; reflexivity|intros mi H; now apply in_rev].
Qed.
