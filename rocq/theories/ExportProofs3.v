(** Proofs for C45 (3): the table, one sentence *)
From Coq Require Import String.
From Coq Require Import List Bool Arith NArith Lia Permutation.
From Verif Require Import PyStr TreeModel TreeProps BracketModel TransformProps ExportModel ExportSpec ExportProofs ExportProofs2.
Import ListNotations.
Open Scope list_scope.
Open Scope nat_scope.

Lemma nodes_size : forall t p, length (nodesat p t) <= size t.
Proof.
  induction t as [a|l ts IH] using tree_ind'; intros p; [cbn; lia|]. rewrite nodesat_node. cbn [length size]. apply le_n_S.
  generalize 0 as k. induction IH as [|c ts Hc HR IHt]; intros k; [cbn; lia|]. rewrite kidsat_cons. cbn [flat_map map list_sum fold_right]. rewrite app_length. specialize (IHt (S k)). specialize (Hc (p ++ [k])). unfold nodesof at 1. cbn [fst snd]. unfold list_sum in *. lia.
Qed.
Lemma kids_size : forall ts k p, length (flat_map nodesof (kidsat k p ts)) <= list_sum (map size ts).
Proof.
  induction ts as [|c ts IH]; intros k p; [cbn; lia|]. rewrite kidsat_cons. cbn [flat_map map]. rewrite app_length. specialize (IH (S k) p). assert (H := nodes_size c (p ++ [k])). unfold nodesof at 1. cbn [fst snd]. unfold list_sum in *. cbn [fold_right]. lia.
Qed.
Lemma ht_nodes : forall t p, ht t <= length (nodesat p t).
Proof.
  induction t as [a|l ts IH] using tree_ind'; intros p; [apply Nat.le_0_l|]. rewrite nodesat_node. change (ht (Node l ts)) with (S (fold_right Nat.max 0 (map ht ts))). cbn [length]. apply le_n_S.
  enough (GEN : forall k, fold_right Nat.max 0 (map ht ts) <= length (flat_map nodesof (kidsat k p ts))) by apply GEN. induction IH as [|c ts Hc HR IHt]; intros k; [apply Nat.le_0_l|]. rewrite kidsat_cons. cbn [flat_map map fold_right]. rewrite app_length. specialize (IHt (S k)). specialize (Hc (p ++ [k])). unfold nodesof at 1. cbn [fst snd]. lia.
Qed.
Lemma prent_leaves : forall t p, ptree t -> map fst (flat_map prent (nodesat p t)) = leaves t.
Proof.
  induction t as [a|l ts IH] using tree_ind'; intros p P; [inversion P|]. rewrite nodesat_node. cbn [flat_map]. inversion P as [? a|? ? NE PC]; subst.
  - reflexivity.
  - assert (X : prent (p, Node l ts) = []). { destruct ts as [|[a|] r]; auto. exfalso. apply (noleaf (L := elabel) a). apply PC. now left. } rewrite X. cbn [app leaves].
    clear X P NE. generalize 0 as k. induction IH as [|c ts Hc HR IHt]; intros k; [reflexivity|]. rewrite kidsat_cons. cbn [flat_map]. rewrite flat_map_app, map_app. rewrite IHt by (intros; apply PC; now right). f_equal. unfold nodesof. cbn [fst snd]. apply Hc. apply PC. now left.
Qed.
Lemma phrases_nodes : forall t p, ptree t -> length (filter isph (nodesat p t)) = phrases t.
Proof.
  induction t as [a|l ts IH] using tree_ind'; intros p P; [inversion P|]. rewrite nodesat_node. inversion P as [? a|? ? NE PC]; subst.
  - reflexivity.
  - assert (X : isph (p, Node l ts) = true /\ phrases (Node l ts) = S (list_sum (map phrases ts))). { destruct ts as [|[a|] r]; auto. exfalso. apply (noleaf (L := elabel) a). apply PC. now left. } destruct X as [X ->]. cbn [filter]. rewrite X. cbn [length]. f_equal.
    clear X P NE. generalize 0 as k. induction IH as [|c ts Hc HR IHt]; intros k; [reflexivity|]. rewrite kidsat_cons. cbn [flat_map map]. rewrite filter_app, app_length. rewrite IHt by (intros; apply PC; now right). unfold list_sum. cbn [fold_right]. f_equal. unfold nodesof. cbn [fst snd]. apply Hc. apply PC. now left.
Qed.
Lemma lookup_pre_in : forall d n, In n (map fst d) -> exists v, lookup_pre n d = Some v /\ In (n, v) d.
Proof.
  induction d as [|[m v] d IH]; intros n H; [destruct H|]. cbn [lookup_pre]. destruct (Nat.eqb_spec m n) as [->|NE]; [exists v; split; auto; now left|]. destruct H as [H|H]; [cbn in H; congruence|]. destruct (IH n H) as (w & A & B). exists w. split; auto. now right.
Qed.
Lemma lookup_pre_mem : forall d n v, lookup_pre n d = Some v -> In (n, v) d.
Proof.
  induction d as [|[m w] d IH]; intros n v H; [discriminate|]. cbn [lookup_pre] in H. destruct (Nat.eqb_spec m n) as [->|NE]; [injection H as ->; now left|right; auto].
Qed.
Lemma termrows_spec : forall ns pre sent k, (forall n, k <= n < k + length sent -> In n (map fst pre)) ->
  exists vs, length vs = length sent /\ termrows ns pre k sent = Some (map (fun wv => termrow ns (fst wv) (snd wv)) (combine sent vs)) /\ forall i v, nth_error vs i = Some v -> In (k + i, v) pre.
Proof.
  induction sent as [|w sent IH]; intros k H.
  - exists []. repeat split; auto. intros [|i] v E; discriminate.
  - destruct (lookup_pre_in pre k) as (v & E & IN); [apply H; cbn; lia|]. destruct (IH (S k)) as (vs & L & E2 & M); [intros; apply H; cbn; lia|]. exists (v :: vs). cbn [length termrows combine map]. rewrite E, E2. repeat split; auto. intros [|i] u U; cbn in U; [injection U as <-; now rewrite Nat.add_0_r|]. replace (k + S i) with (S k + i) by lia. auto.
Qed.
Lemma noderows_nth : forall ns vs k m, nth_error (noderows ns k vs) m = option_map (noderow ns (k + m)) (nth_error vs m).
Proof.
  intros ns. induction vs as [|v vs IH]; intros k [|m]; try reflexivity; cbn [noderows nth_error]; [now rewrite Nat.add_0_r|]. rewrite IH. now replace (S k + m) with (k + S m) by lia.
Qed.
Lemma noderows_length : forall ns vs k, length (noderows ns k vs) = length vs.
Proof. intros ns. induction vs; intros k; cbn; auto. Qed.
Lemma indexed_forall2 : forall X Y (R : nat -> Y -> X -> Prop) (a : list X) (b : list Y) k, length a = length b -> (forall n x y, nth_error a n = Some x -> nth_error b n = Some y -> R (k + n) y x) ->
  Forall2 (fun nr nv => fst nr = fst nv /\ R (fst nv) (snd nv) (snd nr)) (combine (seq k (length a)) a) (combine (seq k (length b)) b).
Proof.
  intros X Y R. induction a as [|x a IH]; intros [|y b] k L H; try discriminate; [constructor|]. cbn [length seq combine]. constructor.
  - cbn [fst snd]. split; auto. rewrite <- (Nat.add_0_r k). apply (H 0); reflexivity.
  - apply IH; [now injection L|]. intros n x' y' A B. replace (S k + n) with (k + S n) by lia. apply (H (S n)); auto.
Qed.
Lemma all_ok_some : forall X Y (f : X -> option Y) (g : Y -> X) ys, (forall y, In y ys -> f (g y) = Some y) -> all_ok (map f (map g ys)) = Some ys.
Proof.
  intros X Y f g. induction ys as [|y ys IH]; intros H; [reflexivity|]. cbn [map all_ok]. rewrite (H y) by now left. rewrite IH by (intros; apply H; now right). reflexivity.
Qed.
Lemma nth_combine : forall X Y (a : list X) (b : list Y) n, nth_error (combine a b) n = match nth_error a n, nth_error b n with Some x, Some y => Some (x, y) | _, _ => None end.
Proof.
  intros X Y. induction a as [|x a IH]; intros [|y b] [|n]; cbn; try reflexivity; [destruct (nth_error a n); reflexivity|apply IH].
Qed.
Lemma labels_nodes : forall t p q l ts, In (q, Node l ts) (nodesat p t) -> In l (labels_of t).
Proof.
  induction t as [a|l0 ts0 IH] using tree_ind'; intros p q l ts H; [destruct H|]. rewrite nodesat_node in H. cbn [labels_of]. destruct H as [H|H]; [injection H as _ <- _; now left|]. right. apply in_flat_map in H. destruct H as ([q' c] & H1 & H2). apply in_kidsat in H1. destruct H1 as (i & -> & E). apply nth_error_In in E. rewrite Forall_forall in IH. cbn in H2. apply in_flat_map. exists c. split; auto. eapply IH; eauto.
Qed.
Lemma ptree_nodes : forall t p q s, ptree t -> In (q, s) (nodesat p t) -> ptree s.
Proof.
  induction t as [a|l0 ts0 IH] using tree_ind'; intros p q s P H; [destruct H|]. rewrite nodesat_node in H. destruct H as [H|H]; [injection H as _ <-; exact P|]. apply in_flat_map in H. destruct H as ([q' c] & H1 & H2). apply in_kidsat in H1. destruct H1 as (i & -> & E). apply nth_error_In in E. rewrite Forall_forall in IH. cbn in H2. inversion P as [? a|? ? NE PC]; subst; [destruct E as [<-|[]]; destruct H2|]. eapply IH; eauto.
Qed.

Section Sentence.
Variables (l0 : elabel) (ts : list etree) (sent : list (option pystr)).
Notation t0 := (Node l0 ts).
Hypothesis PT : forall c, In c ts -> ptree c.
Hypothesis LV : Permutation (flat_map leaves ts) (seq 0 (length sent)).
Hypothesis LB : forall l o, In (l, o) (flat_map labels_of ts) -> label_ok l /\ source_ok o.
Hypothesis WD : forall w, In w sent -> word_ok (wordtext w).
Hypothesis PH : list_sum (map phrases ts) <= 500.
Notation NS := (flat_map nodesof (kidsat 0 [] ts)).
Lemma in_NS : forall q s, In (q, s) NS <-> q <> [] /\ getpos t0 q = Some s /\ isN s.
Proof using.
  clear. intros q s. split.
  - intros H. apply in_flat_map in H. destruct H as ([q' c] & H1 & H2). apply in_kidsat in H1. destruct H1 as (i & -> & E). cbn in H2. apply in_nodesat in H2. destruct H2 as (r & -> & G & N). split; [discriminate|]. split; auto. cbn. now rewrite E.
  - intros (NE & G & N). destruct q as [|i r]; [contradiction|]. cbn [getpos] in G. destruct (nth_error ts i) as [c|] eqn:E; [|discriminate]. apply in_flat_map. exists ([i], c). split; [apply in_kidsat; exists i; auto|]. cbn. apply in_nodesat. exists r. auto.
Qed.
Lemma ptree_NS : forall q s, In (q, s) NS -> ptree s.
Proof using PT. intros q s H. apply in_flat_map in H. destruct H as ([q' c] & H1 & H2). apply in_kidsat in H1. destruct H1 as (i & -> & E). cbn in H2. eapply ptree_nodes; [|exact H2]. apply PT. eapply nth_error_In; eauto. Qed.
Lemma labels_NS : forall q l o us, In (q, Node (l, o) us) NS -> label_ok l /\ source_ok o.
Proof using LB. intros q l o us H. apply LB. apply in_flat_map in H. destruct H as ([q' c] & H1 & H2). apply in_kidsat in H1. destruct H1 as (i & -> & E). cbn in H2. apply in_flat_map. exists c. split; [eapply nth_error_In; eauto|]. eapply labels_nodes; eauto. Qed.
Lemma nodup_NS : NoDup (map fst NS).
Proof using. clear. assert (H := nodup_nodesat (Node ([], None) ts) []). rewrite nodesat_node in H. cbn [map] in H. now inversion H. Qed.
Lemma nodup_fst : forall X Y (l : list (X * Y)), NoDup (map fst l) -> NoDup l.
Proof using. clear. intros X Y l H. now apply NoDup_map_inv in H. Qed.
Lemma prent_NS : map fst (flat_map prent NS) = flat_map leaves ts.
Proof using PT.
  generalize (@nil nat) as p. generalize 0 as k. clear - PT. induction ts as [|c r IH]; intros k p; [reflexivity|]. rewrite kidsat_cons. cbn [flat_map]. rewrite flat_map_app, map_app. rewrite IH by (intros; apply PT; now right). f_equal. unfold nodesof. cbn [fst snd]. apply prent_leaves. apply PT. now left.
Qed.
Lemma phrases_NS : length (filter isph NS) = list_sum (map phrases ts).
Proof using PT.
  generalize (@nil nat) as p. generalize 0 as k. clear - PT. induction ts as [|c r IH]; intros k p; [reflexivity|]. rewrite kidsat_cons. cbn [flat_map map]. rewrite filter_app, app_length. rewrite IH by (intros; apply PT; now right). unfold list_sum. cbn [fold_right]. f_equal. unfold nodesof. cbn [fst snd]. apply phrases_nodes. apply PT. now left.
Qed.
(** what is written *)
Lemma written_spec : exists pre ns vs,
  agendaloop (size t0) (rev (children_of [] ts)) [] [] = Some (pre, ns) /\ length sent = length pre /\ Permutation ns (filter isph NS) /\ length vs = length sent /\
  termrows ns pre 0 sent = Some (map (fun wv => termrow ns (fst wv) (snd wv)) (combine sent vs)) /\
  (forall i p l, nth_error vs i = Some (p, l) -> In (p, Node l [Leaf i]) NS) /\
  (forall p l a, In (p, Node l [Leaf a]) NS -> nth_error vs a = Some (p, l)).
Proof using PT LV.
  clear LB WD PH.
  assert (PR : Permutation (flat_map nodesof (rev (kidsat 0 [] ts))) NS) by (apply Permutation_flat_map; symmetry; apply Permutation_rev).
  destruct (agenda_spec (size t0) (rev (kidsat 0 [] ts)) [] []) as (pre & ns & E & E1 & E2).
  - rewrite agsize_flat, (Permutation_length PR). cbn [size]. assert (H := kids_size ts 0 []). lia.
  - intros [q s] H. apply in_rev in H. apply in_kidsat in H. destruct H as (i & _ & H). apply PT. eapply nth_error_In; eauto.
  - rewrite app_nil_r. unfold agleaves. rewrite (Permutation_flat_map (fun v => leaves (snd v)) (Permutation_sym (Permutation_rev _))). change (flat_map (fun v => leaves (snd v)) (kidsat 0 [] ts)) with (agleaves (kidsat 0 [] ts)). rewrite agleaves_kids. eapply Permutation_NoDup; [symmetry; exact LV|apply seq_NoDup].
  - rewrite app_nil_r in E1, E2. assert (E1' : Permutation pre (flat_map prent NS)) by (rewrite E1; now apply Permutation_flat_map). assert (E2' : Permutation ns (filter isph NS)) by (rewrite E2; now apply filter_perm).
    assert (KP : Permutation (map fst pre) (seq 0 (length sent))) by (rewrite (Permutation_map fst E1'), prent_NS; exact LV).
    destruct (termrows_spec ns pre sent 0) as (vs & L & T & M). { intros n H. eapply Permutation_in; [symmetry; exact KP|]. apply in_seq. lia. }
    assert (M1 : forall i p l, nth_error vs i = Some (p, l) -> In (p, Node l [Leaf i]) NS).
    { intros i p l H. apply M in H. cbn in H. apply (Permutation_in _ E1') in H. apply in_flat_map in H. destruct H as ([q s] & H1 & H2). destruct s as [a|l' us]; [destruct H2|]. destruct us as [|[a|] r]; try (destruct H2; fail). destruct H2 as [H2|[]]. injection H2 as -> -> ->. assert (PX := ptree_NS _ _ H1). inversion PX as [? a' E0|? ? NE PC E0]; subst; auto. exfalso. apply (noleaf (L := elabel) i). apply PC. now left. }
    exists pre, ns, vs. split; [exact E|]. split; [rewrite <- (map_length fst pre), (Permutation_length KP), seq_length; reflexivity|]. split; auto. split; auto. split; auto. split; auto.
    intros p l a H. assert (Ha : a < length vs). { assert (X : In (a, (p, l)) (flat_map prent NS)) by (apply in_flat_map; exists (p, Node l [Leaf a]); split; auto; now left). rewrite L. apply (in_map fst) in X. cbn in X. rewrite prent_NS in X. apply (Permutation_in _ LV) in X. apply in_seq in X. lia. }
    destruct (nth_error vs a) as [[q m]|] eqn:EA; [|apply nth_error_None in EA; lia]. apply M1 in EA.
    assert (K : NoDup (map fst (flat_map prent NS))) by (rewrite prent_NS; eapply Permutation_NoDup; [symmetry; exact LV|apply seq_NoDup]).
    assert (X1 : In (a, (p, l)) (flat_map prent NS)) by (apply in_flat_map; exists (p, Node l [Leaf a]); split; auto; now left).
    assert (X2 : In (a, (q, m)) (flat_map prent NS)) by (apply in_flat_map; exists (q, Node m [Leaf a]); split; auto; now left).
    clear - K X1 X2. induction (flat_map prent NS) as [|[b w] r IH]; [destruct X1|]. cbn in K. inversion K as [|? ? N1 N2]; subst. destruct X1 as [X1|X1], X2 as [X2|X2]; [congruence| | |auto].
    + injection X1 as -> ->. exfalso. apply N1. now apply (in_map fst) in X2.
    + injection X2 as -> ->. exfalso. apply N1. now apply (in_map fst) in X1.
Qed.
(** what is read *)
Definition PSof (vs : list (path * elabel)) : list (path * etree) := map (fun nv => (fst (snd nv), Node (snd (snd nv)) [Leaf (fst nv)])) (combine (seq 0 (length vs)) vs).
Lemma PS_nth : forall vs n, nth_error (PSof vs) n = match nth_error vs n with Some (p, l) => Some (p, Node l [Leaf n]) | None => None end.
Proof using.
  clear. intros vs n. unfold PSof. rewrite nth_error_map, nth_combine. destruct (nth_error vs n) as [[p l]|] eqn:E; [|destruct (nth_error (seq 0 (length vs)) n); reflexivity].
  assert (L : n < length vs) by (apply nth_error_Some; congruence). rewrite (nth_error_nth' _ 0) by (rewrite seq_length; exact L). rewrite seq_nth by exact L. reflexivity.
Qed.
Lemma PS_length : forall vs, length (PSof vs) = length vs.
Proof using. clear. intros vs. unfold PSof. rewrite map_length, combine_length, seq_length. lia. Qed.
Lemma read_spec : forall ns vs table, Permutation ns (filter isph NS) -> length vs = length sent ->
  (forall i p l, nth_error vs i = Some (p, l) -> In (p, Node l [Leaf i]) NS) -> (forall p l a, In (p, Node l [Leaf a]) NS -> nth_error vs a = Some (p, l)) ->
  table = map (fun wv => termrow ns (fst wv) (snd wv)) (combine sent vs) ++ noderows ns 0 ns ->
  (forall row, In row table -> length row = 6 /\ Forall fok row) /\ allparents table = true /\ table_sent table = map wordtext sent /\
  exists us cs, getchildren (S (length table)) table (str "0") = Some cs /\ Forall2 tperm (map exported ts) us /\ Permutation us cs.
Proof using l0 PT LB WD PH.
  intros ns vs table PN LVS M1 M2 ET.
  set (NO := PSof vs ++ ns). set (id := idof ns).
  assert (LT : length table = length NO). { unfold NO. rewrite ET, !app_length, map_length, combine_length, noderows_length, PS_length. rewrite LVS, Nat.min_id. reflexivity. }
  assert (NNS : length ns <= 500) by (rewrite (Permutation_length PN), phrases_NS; exact PH).
  assert (NSIN : forall q s, In (q, s) ns -> In (q, s) NS /\ isph (q, s) = true) by (intros q s H; apply (Permutation_in _ PN) in H; now apply filter_In in H).
  assert (NDN : NoDup (map fst ns)). { eapply Permutation_NoDup; [symmetry; apply Permutation_map; exact PN|]. assert (X := nodup_NS). clear - X. induction NS as [|v r IH]; [constructor|]. cbn [map] in X. inversion X as [|? ? N1 N2]; subst. cbn [filter]. destruct (isph v); auto. cbn [map]. constructor; auto. intros H. apply N1. apply in_map_iff in H. destruct H as (w & <- & H). apply filter_In in H. apply in_map. apply H. }
  (* the kinds of nodes *)
  assert (KIND : forall q s, In (q, s) NS -> (exists l a, s = Node l [Leaf a] /\ nth_error vs a = Some (q, l)) \/ (In (q, s) ns /\ exists l us, s = Node l us /\ us <> [] /\ forall c, In c us -> ptree c)).
  { intros q s H. assert (PX := ptree_NS _ _ H). inversion PX as [l a|l us NE PC]; subst; [left; eauto|]. right. split; [|eauto]. eapply Permutation_in; [symmetry; exact PN|]. apply filter_In. split; auto. unfold isph. cbn. destruct us as [|[a|] r]; auto. exfalso. apply (noleaf (L := elabel) a). apply PC. now left. }
  assert (NODES : forall q s, In (q, s) NO <-> q <> [] /\ getpos t0 q = Some s /\ isN s).
  { intros q s. rewrite <- in_NS. unfold NO. rewrite in_app_iff. split.
    - intros [H|H]; [|now apply NSIN]. apply In_nth_error in H. destruct H as [n H]. rewrite PS_nth in H. destruct (nth_error vs n) as [[p l]|] eqn:E; [|discriminate]. injection H as <- <-. auto.
    - intros H. destruct (KIND q s H) as [(l & a & -> & E)|[H1 _]]; auto. left. apply (nth_error_In _ a). rewrite PS_nth, E. reflexivity. }
  assert (ND : NoDup NO).
  { unfold NO. apply nodup_app.
    - apply NoDup_nth_error. intros i j Hi E. rewrite PS_length in Hi. rewrite !PS_nth in E. destruct (nth_error vs i) as [[p l]|] eqn:Ei; [|apply nth_error_None in Ei; lia]. destruct (nth_error vs j) as [[q m]|]; [|discriminate]. injection E as _ _ E. exact E.
    - now apply nodup_fst.
    - intros [q s] H1 H2. apply NSIN in H2. destruct H2 as [_ H2]. apply In_nth_error in H1. destruct H1 as [n H1]. rewrite PS_nth in H1. destruct (nth_error vs n) as [[p l]|]; [|discriminate]. injection H1 as <- <-. discriminate H2. }
  assert (PHR : forall p, phrase_path t0 p -> p = [] \/ In p (map fst ns)).
  { intros p [->|(l & us & G & NE & PC)]; auto. destruct p as [|i p]; auto. right. assert (H : In (i :: p, Node l us) NS) by (apply in_NS; split; [discriminate|split; [exact G|exact I]]). destruct (KIND _ _ H) as [(l' & a & E & _)|[H1 _]]; [|now apply (in_map fst) in H1]. injection E as _ ->. exfalso. apply (noleaf (L := elabel) a). apply PC. now left. }
  assert (INJ : forall p q, phrase_path t0 p -> phrase_path t0 q -> id p = id q -> p = q).
  { intros p q P Q E. apply PHR in P. apply PHR in Q. unfold id, idof in E. destruct P as [->|P], Q as [->|Q]; auto.
    - destruct q as [|i q]; auto. apply dec_inj in E. lia.
    - destruct p as [|i p]; auto. apply dec_inj in E. lia.
    - destruct p as [|i p], q as [|j q]; auto; try (apply dec_inj in E; lia). apply dec_inj in E. apply (pathindex_inj ns); auto. lia. }
  (* the rows *)
  assert (SPLIT : forall n row, nth_error table n = Some row -> (exists w p l o, nth_error sent n = Some w /\ nth_error vs n = Some (p, (l, o)) /\ row = termrow ns w (p, (l, o)) /\ nth_error NO n = Some (p, Node (l, o) [Leaf n])) \/
     (exists m p l o us, nth_error ns m = Some (p, Node (l, o) us) /\ us <> [] /\ (forall c, In c us -> ptree c) /\ row = noderow ns m (p, Node (l, o) us) /\ nth_error NO n = Some (p, Node (l, o) us))).
  { intros n row H. rewrite ET in H. assert (LC : length (map (fun wv => termrow ns (fst wv) (snd wv)) (combine sent vs)) = length (PSof vs)) by (rewrite map_length, combine_length, PS_length; lia). destruct (Nat.lt_ge_cases n (length (PSof vs))) as [Hn|Hn].
    - left. rewrite nth_error_app1 in H by lia. rewrite nth_error_map, nth_combine in H. unfold NO. rewrite nth_error_app1 by lia. rewrite PS_nth. destruct (nth_error sent n) as [w|]; [|discriminate]. destruct (nth_error vs n) as [[p [l o]]|]; [|discriminate]. injection H as <-. exists w, p, l, o. auto.
    - right. rewrite nth_error_app2 in H by lia. rewrite noderows_nth, LC in H. unfold NO. rewrite nth_error_app2 by lia. destruct (nth_error ns (n - length (PSof vs))) as [[p s]|] eqn:E; [|discriminate]. injection H as <-. assert (HI := nth_error_In _ _ E). assert (HI' := proj1 (NSIN _ _ HI)). destruct (KIND _ _ HI') as [(l & a & -> & _)|[_ (l & us & -> & NE & PC)]]; [apply NSIN in HI; destruct HI as [_ HI]; discriminate HI|]. destruct l as [l o]. exists (n - length (PSof vs)), p, l, o, us. repeat split; auto. }
  assert (RSPEC : forall n row v, nth_error table n = Some row -> nth_error NO n = Some v -> rowok id (0 + n) v row /\ length row = 6 /\ Forall fok row).
  { intros n row v H HV. assert (HID : forall p, fok (parentid ns p)). { intros p. unfold parentid. destruct (removelast p); apply dec_fok. }
    destruct (SPLIT n row H) as [(w & p & l & o & E1 & E2 & -> & E3)|(m & p & l & o & us & E1 & NE & PC & -> & E3)]; rewrite E3 in HV; injection HV as <-.
    - assert (HI := M1 _ _ _ E2). destruct (labels_NS _ _ _ _ HI) as [HL HS]. assert (HW := WD w (nth_error_In _ _ E1)). destruct (postag_facts l HL) as [A1 A2]. destruct (source_facts o HS) as (B1 & B2 & B3 & B4). split; [split; [apply parentid_idof|exists (l, o), [Leaf n]; split; [reflexivity|left; repeat split]]|split; [reflexivity|]].
      + exact (word_nonterminal _ HW).
      + unfold flabel. cbn [fst snd]. rewrite B4. unfold termrow, fld, TAG, LEMMA, MORPH, FUNC. cbn [nth]. rewrite A2. reflexivity.
      + unfold termrow. assert (WF : fok (written w)) by (apply field_fok; apply HW). repeat (apply Forall_cons; [auto|]). apply Forall_nil.
    - assert (HI := nth_error_In _ _ E1). apply NSIN in HI. destruct HI as [HI _]. destruct (labels_NS _ _ _ _ HI) as [HL HS]. destruct (label_facts l HL) as [A1 A2]. destruct (source_facts o HS) as (B1 & B2 & B3 & B4).
      assert (HM : m < 500) by (assert (m < length ns) by (apply nth_error_Some; congruence); lia).
      split; [split; [apply parentid_idof|exists (l, o), us; split; [reflexivity|right; split; [exact NE|split; [exact PC|split]]]]|split; [reflexivity|]].
      + unfold noderow, fld, WORD. cbn [nth]. rewrite nonterminal_id by exact HM. assert (X := pathindex_at ns m _ NDN E1). cbn [fst] in *. unfold id, idof. destruct p as [|i p]; [|now rewrite X]. exfalso. apply in_NS in HI. destruct HI as [HI _]. now apply HI.
      + unfold flabel. cbn [fst snd]. rewrite B4. unfold noderow, fld, TAG, LEMMA, MORPH, FUNC. cbn [nth]. rewrite A2. reflexivity.
      + unfold noderow. assert (NF : fok none) by (split; [discriminate|split; [intros c [<-|[<-|[]]]; reflexivity|reflexivity]]). repeat (apply Forall_cons; [auto using id_fok|]). apply Forall_nil. }
  assert (ROWS : Forall2 (fun nr nv => fst nr = fst nv /\ rowok id (fst nv) (snd nv) (snd nr)) (combine (seq 0 (length table)) table) (combine (seq 0 (length NO)) NO)).
  { apply indexed_forall2; [exact LT|]. intros n x y A B. exact (proj1 (RSPEC n x y A B)). }
  split; [|split; [|split]].
  - intros row H. apply In_nth_error in H. destruct H as [n H]. destruct (nth_error NO n) as [v|] eqn:E; [exact (proj2 (RSPEC n row v H E))|]. exfalso. apply nth_error_None in E. assert (n < length table) by (apply nth_error_Some; congruence). lia.
  - unfold allparents. apply forallb_forall. intros row H. apply existsb_exists. apply In_nth_error in H. destruct H as [n H]. destruct (nth_error NO n) as [[q s]|] eqn:E; [|exfalso; apply nth_error_None in E; assert (n < length table) by (apply nth_error_Some; congruence); lia].
    destruct (RSPEC n row _ H E) as [[RP _] _]. cbn [fst] in RP. exists (id (removelast q)). split; [|rewrite RP; apply eqs_refl]. assert (PP := parent_phrase t0 NO NODES q s). destruct (PHR (removelast q)) as [->|HP].
    + apply PP; [intros l' ts' E' c; injection E' as _ <-; apply PT|eapply nth_error_In; eauto].
    + left. reflexivity.
    + right. apply in_flat_map. apply in_map_iff in HP. destruct HP as ([q' s'] & Eq & HP). cbn in Eq. subst q'. apply In_nth_error in HP. destruct HP as [m HP]. exists (noderow ns m (removelast q, s')). split.
      * rewrite ET. apply in_or_app. right. apply (nth_error_In _ m). rewrite noderows_nth, HP. reflexivity.
      * assert (HI := NSIN _ _ (nth_error_In _ _ HP)). destruct HI as [HI1 HI2]. destruct s' as [a|[l o] us]; [discriminate HI2|]. unfold noderow, fld, WORD. cbn [nth]. assert (HM : m < 500) by (assert (m < length ns) by (apply nth_error_Some; congruence); lia). rewrite nonterminal_id by exact HM. left. assert (X := pathindex_at ns m _ NDN HP). cbn [fst] in X. unfold id, idof. destruct (removelast q) as [|i p] eqn:EQ; [|now rewrite X]. exfalso. apply in_NS in HI1. destruct HI1 as [HI1 _]. now apply HI1.
  - rewrite ET. unfold table_sent. rewrite flat_map_app. assert (X : flat_map (fun row => match nonterminal (fld WORD row) with Some _ => [] | None => [fld WORD row] end) (noderows ns 0 ns) = []).
    { assert (GEN : forall rs, (forall r, In r rs -> nonterminal (fld WORD r) <> None) -> flat_map (fun row => match nonterminal (fld WORD row) with Some _ => [] | None => [fld WORD row] end) rs = []). { clear. induction rs as [|r rs IH]; intros H; [reflexivity|]. cbn [flat_map]. rewrite IH by (intros; apply H; now right). assert (X := H r (or_introl eq_refl)). destruct (nonterminal (fld WORD r)); [reflexivity|contradiction]. }
      apply GEN. intros r H. apply In_nth_error in H. destruct H as [m H]. rewrite noderows_nth in H. destruct (nth_error ns m) as [[q s]|] eqn:E; [|discriminate]. injection H as <-. assert (HI := NSIN _ _ (nth_error_In _ _ E)). destruct HI as [_ HI]. destruct s as [a|[l o] us]; [discriminate HI|]. assert (HM : m < 500) by (assert (m < length ns) by (apply nth_error_Some; congruence); lia). change (nonterminal (35%N :: dec (500 + m)) <> None). rewrite (nonterminal_id m HM). discriminate. }
    rewrite X, app_nil_r. clear - WD LVS. revert vs LVS. induction sent as [|w r IH]; intros [|[p [l o]] vs] L; try discriminate; [reflexivity|]. cbn [combine map flat_map]. rewrite IH; [|intros; apply WD; now right|now injection L]. assert (HW := word_nonterminal _ (WD w (or_introl eq_refl))). change (fld WORD (termrow ns (fst (w, (p, (l, o)))) (snd (w, (p, (l, o)))))) with (wordtext w). rewrite HW. reflexivity.
  - apply (getchildren_spec t0 table NO id ROWS NODES ND INJ (S (length table)) [] l0 ts); auto; [intros l' ts' E' c; injection E' as _ <-; apply PT|now left|].
    assert (X := ht_nodes t0 []). rewrite nodesat_node in X. cbn [length] in X. rewrite LT. assert (Y : length NO = length NS). { apply Permutation_length. apply NoDup_Permutation; [exact ND|apply nodup_fst; apply nodup_NS|]. intros [q s]. rewrite NODES, in_NS. reflexivity. } rewrite Y. exact X.
Qed.
End Sentence.
