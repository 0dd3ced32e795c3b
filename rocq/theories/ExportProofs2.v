(** Proofs for C45 (2): the nodes of a tree and their positions; reading *)
From Coq Require Import String.
From Coq Require Import List Bool Arith NArith Lia Permutation.
From Verif Require Import PyStr TreeModel TreeProps BracketModel TransformProps ExportModel ExportSpec ExportProofs.
Import ListNotations.
Open Scope list_scope.
Open Scope nat_scope.

Lemma nodup_app : forall X (a b : list X), NoDup a -> NoDup b -> (forall x, In x a -> In x b -> False) -> NoDup (a ++ b).
Proof.
  induction a as [|x a IH]; intros b A B D; [exact B|]. inversion A as [|? ? N1 N2]; subst. cbn. constructor.
  - intros H. apply in_app_or in H. destruct H as [H|H]; [auto|]. apply (D x); [now left|auto].
  - apply IH; auto. intros y H1 H2. apply (D y); [now right|auto].
Qed.
(** ---- the nodes with their positions ---- *)
Definition kidsat (k : nat) (p : path) (ts : list etree) : list (path * etree) := map (fun kc => (p ++ [fst kc], snd kc)) (combine (seq k (length ts)) ts).
Lemma kidsat_cons : forall k p c ts, kidsat k p (c :: ts) = (p ++ [k], c) :: kidsat (S k) p ts.
Proof. reflexivity. Qed.
Lemma children_kidsat : forall p ts, children_of p ts = kidsat 0 p ts.
Proof. reflexivity. Qed.
Fixpoint nodesat (p : path) (t : etree) : list (path * etree) :=
  match t with
  | Leaf _ => []
  | Node l ts => (p, t) :: (fix go (k : nat) (ts : list etree) : list (path * etree) := match ts with [] => [] | c :: r => nodesat (p ++ [k]) c ++ go (S k) r end) 0 ts
  end.
Definition nodesof (v : path * etree) : list (path * etree) := nodesat (fst v) (snd v).
Lemma nodesat_node : forall p l ts, nodesat p (Node l ts) = (p, Node l ts) :: flat_map nodesof (kidsat 0 p ts).
Proof.
  intros p l ts. cbn [nodesat]. f_equal. generalize 0 as k. induction ts as [|c ts IH]; intros k; [reflexivity|]. rewrite kidsat_cons. cbn [flat_map]. rewrite <- IH. reflexivity.
Qed.
Lemma in_kidsat : forall ts k p q s, In (q, s) (kidsat k p ts) <-> exists i, q = p ++ [k + i] /\ nth_error ts i = Some s.
Proof.
  induction ts as [|c ts IH]; intros k p q s; [split; [intros []|intros ([|i] & _ & E); discriminate]|]. rewrite kidsat_cons. split.
  - intros [E|H]; [injection E as <- <-; exists 0; rewrite Nat.add_0_r; auto|]. apply IH in H. destruct H as (i & -> & E). exists (S i). split; [f_equal; f_equal; lia|exact E].
  - intros ([|i] & -> & E); [left; cbn in E; injection E as ->; now rewrite Nat.add_0_r|]. right. apply IH. exists i. split; [f_equal; f_equal; lia|exact E].
Qed.
Definition isN (t : etree) : Prop := match t with Node _ _ => True | Leaf _ => False end.
Lemma in_nodesat : forall t p q s, In (q, s) (nodesat p t) <-> exists r, q = p ++ r /\ getpos t r = Some s /\ isN s.
Proof.
  induction t as [a|l ts IH] using tree_ind'; intros p q s.
  - split; [intros []|]. intros (r & _ & G & N). destruct r; cbn in G; [injection G as <-; destruct N|discriminate].
  - rewrite nodesat_node. rewrite Forall_forall in IH. split.
    + intros [E|H]; [injection E as <- <-; exists []; rewrite app_nil_r; repeat split|]. apply in_flat_map in H. destruct H as ([q' c] & H1 & H2). apply in_kidsat in H1. destruct H1 as (i & -> & E). cbn in H2. apply IH in H2; [|eapply nth_error_In; eauto]. destruct H2 as (r & -> & G & N). exists (i :: r). split; [now rewrite <- app_assoc|]. split; auto. cbn [getpos]. now rewrite E.
    + intros ([|i r] & -> & G & N); [left; cbn in G; injection G as <-; now rewrite app_nil_r|]. right. cbn [getpos] in G. destruct (nth_error ts i) as [c|] eqn:E; [|discriminate]. apply in_flat_map. exists (p ++ [i], c). split; [apply in_kidsat; exists i; auto|]. cbn. apply IH; [eapply nth_error_In; eauto|]. exists r. split; [now rewrite <- app_assoc|auto].
Qed.
Lemma nodup_nodesat : forall t p, NoDup (map fst (nodesat p t)).
Proof.
  induction t as [a|l ts IH] using tree_ind'; intros p; [constructor|]. rewrite nodesat_node. cbn [map fst]. constructor.
  - intros H. apply in_map_iff in H. destruct H as ([q s] & Eq & H). cbn in Eq. subst q. apply in_flat_map in H. destruct H as ([q' c] & H1 & H2). apply in_kidsat in H1. destruct H1 as (i & -> & _). cbn in H2. apply in_nodesat in H2. destruct H2 as (r & E & _). apply (f_equal (@length nat)) in E. rewrite !app_length in E. cbn in E. lia.
  - generalize 0 as k. induction IH as [|c ts Hc HR IHt]; intros k; [constructor|]. rewrite kidsat_cons. cbn [flat_map]. rewrite map_app. apply nodup_app; [exact (Hc (p ++ [k]))|apply IHt|].
    intros q Q1 Q2. apply in_map_iff in Q1. destruct Q1 as ([q1 s1] & E1 & Q1). cbn in E1. subst q1. cbn in Q1. apply in_nodesat in Q1. destruct Q1 as (r1 & -> & _). apply in_map_iff in Q2. destruct Q2 as ([q2 s2] & E2 & Q2). cbn in E2. apply in_flat_map in Q2. destruct Q2 as ([q3 c3] & H1 & H2). apply in_kidsat in H1. destruct H1 as (i & -> & _). cbn in H2. apply in_nodesat in H2. destruct H2 as (r2 & -> & _). rewrite <- !app_assoc in E2. apply app_inv_head in E2. cbn in E2. injection E2 as E2 _. lia.
Qed.
(** ---- the agenda ---- *)
Definition isph (v : path * etree) : bool := match snd v with Node _ (Leaf _ :: _) => false | Node _ _ => true | Leaf _ => false end.
Definition prent (v : path * etree) : list (nat * (path * elabel)) := match v with (p, Node l (Leaf a :: _)) => [(a, (p, l))] | _ => [] end.
Lemma setpre_new : forall n v d, ~ In n (map fst d) -> setpre n v d = d ++ [(n, v)].
Proof.
  induction d as [|[m w] d IH]; intros H; [reflexivity|]. cbn [setpre]. destruct (Nat.eqb_spec m n) as [->|]; [exfalso; apply H; now left|]. cbn. rewrite IH; auto. intros Q. apply H. now right.
Qed.
Definition agsize (ag : list (path * etree)) : nat := list_sum (map (fun v => length (nodesof v)) ag).
Lemma agsize_flat : forall ag, agsize ag = length (flat_map nodesof ag).
Proof. induction ag as [|v ag IH]; [reflexivity|]. cbn [flat_map]. rewrite app_length, <- IH. reflexivity. Qed.
Definition agleaves (ag : list (path * etree)) : list nat := flat_map (fun v => leaves (snd v)) ag.
Lemma agleaves_kids : forall ts k p, agleaves (kidsat k p ts) = flat_map leaves ts.
Proof. induction ts as [|c ts IH]; intros k p; [reflexivity|]. rewrite kidsat_cons. unfold agleaves in *. cbn [flat_map snd]. now rewrite IH. Qed.
Lemma agenda_spec : forall fuel ag pre ph, agsize ag <= fuel -> (forall v, In v ag -> ptree (snd v)) -> NoDup (agleaves ag ++ map fst pre) ->
  exists pre' ph', agendaloop fuel ag pre ph = Some (pre', ph') /\ Permutation pre' (flat_map prent (flat_map nodesof ag) ++ pre) /\ Permutation ph' (filter isph (flat_map nodesof ag) ++ ph).
Proof.
  induction fuel as [|fuel IH]; intros ag pre ph L P N.
  - destruct ag as [|[p t] ag]; [exists pre, ph; cbn; auto|]. exfalso. assert (PT := P _ (or_introl eq_refl)). cbn in PT. unfold agsize in L. cbn in L. destruct t as [a|l ts]; [inversion PT|]. unfold nodesof in L. cbn [fst snd nodesat length] in L. lia.
  - destruct ag as [|[p t] ag]; [exists pre, ph; cbn; auto|]. cbn [agendaloop]. assert (PT := P _ (or_introl eq_refl)). cbn in PT. destruct t as [x|l ts]; [inversion PT|]. assert (PG : forall v, In v ag -> ptree (snd v)) by (intros; apply P; now right). rewrite agsize_flat in L. cbn [flat_map] in L. rewrite app_length in L. inversion PT as [? a|? ? NE PC]; subst.
    + cbn [agleaves flat_map snd leaves app] in N. assert (N1 : ~ In a (map fst pre) /\ NoDup (agleaves ag ++ map fst pre)). { inversion N as [|? ? N1 N2]; subst. split; auto. intros Q. apply N1. apply in_or_app. now right. } destruct N1 as [N1 N2]. rewrite (setpre_new a (p, l) pre N1).
      destruct (IH ag (pre ++ [(a, (p, l))]) ph) as (pre' & ph' & E & E1 & E2); auto.
      * rewrite agsize_flat. unfold nodesof at 1 in L. cbn [fst snd nodesat length] in L. cbn in L. lia.
      * rewrite map_app. cbn [map fst]. rewrite app_assoc. eapply Permutation_NoDup; [apply Permutation_cons_append|]. exact N.
      * exists pre', ph'. split; auto. cbn [flat_map nodesof fst snd nodesat app filter isph prent]. split; [|exact E2]. rewrite E1. rewrite <- (Permutation_cons_append pre). cbn. symmetry. apply Permutation_middle.
    + assert (X : agendaloop fuel (rev (children_of p ts) ++ ag) pre ((p, Node l ts) :: ph) = match ts with Leaf a :: _ => agendaloop fuel ag (setpre a (p, l) pre) ph | _ => agendaloop fuel (rev (children_of p ts) ++ ag) pre ((p, Node l ts) :: ph) end /\ isph (p, Node l ts) = true /\ prent (p, Node l ts) = []). { destruct ts as [|[a|] r]; [contradiction|exfalso; apply (noleaf (L := elabel) a); apply PC; now left|repeat split]. } destruct X as (X & XP & XE). rewrite <- X. clear X.
      rewrite children_kidsat. assert (PR : Permutation (rev (kidsat 0 p ts)) (kidsat 0 p ts)) by (symmetry; apply Permutation_rev).
      destruct (IH (rev (kidsat 0 p ts) ++ ag) pre ((p, Node l ts) :: ph)) as (pre' & ph' & E & E1 & E2).
      * rewrite agsize_flat, flat_map_app, app_length. rewrite (Permutation_length (Permutation_flat_map nodesof PR)). unfold nodesof at 1 in L. cbn [fst snd] in L. rewrite nodesat_node in L. cbn [length] in L. lia.
      * intros v V. apply in_app_or in V. destruct V as [V|V]; auto. apply in_rev in V. destruct v as [q s]. apply in_kidsat in V. destruct V as (i & _ & V). cbn. apply PC. eapply nth_error_In; eauto.
      * eapply Permutation_NoDup; [|exact N]. apply Permutation_app_tail. unfold agleaves. cbn [flat_map snd]. rewrite flat_map_app. apply Permutation_app_tail. rewrite (Permutation_flat_map (fun v => leaves (snd v)) PR). change (flat_map (fun v => leaves (snd v)) (kidsat 0 p ts)) with (agleaves (kidsat 0 p ts)). now rewrite agleaves_kids.
      * exists pre', ph'. split; auto. assert (FM : Permutation (flat_map nodesof (rev (kidsat 0 p ts) ++ ag)) (flat_map nodesof (kidsat 0 p ts) ++ flat_map nodesof ag)) by (rewrite flat_map_app; apply Permutation_app_tail, Permutation_flat_map, PR).
        cbn [flat_map]. change (nodesof (p, Node l ts)) with (nodesat p (Node l ts)). rewrite nodesat_node. cbn [app filter flat_map]. rewrite XP, XE. cbn [app]. split.
        -- rewrite E1. apply Permutation_app_tail. now apply Permutation_flat_map.
        -- rewrite E2. rewrite (filter_perm _ isph _ _ FM). cbn. symmetry. apply Permutation_middle.
Qed.
(** ---- numbers of nodes ---- *)
Lemma pathindex_nth : forall ns p, In p (map fst ns) -> nth_error (map fst ns) (pathindex p ns) = Some p.
Proof.
  induction ns as [|[q s] ns IH]; intros p H; [destruct H|]. cbn [pathindex map fst]. destruct (list_eq_dec Nat.eq_dec p q) as [->|NE]; [reflexivity|]. destruct H as [H|H]; [cbn in H; congruence|]. cbn [nth_error]. auto.
Qed.
Lemma pathindex_lt : forall ns p, In p (map fst ns) -> pathindex p ns < length ns.
Proof. intros ns p H. assert (E := pathindex_nth ns p H). rewrite <- (map_length fst ns). apply nth_error_Some. congruence. Qed.
Lemma pathindex_inj : forall ns p q, In p (map fst ns) -> In q (map fst ns) -> pathindex p ns = pathindex q ns -> p = q.
Proof. intros ns p q P Q E. apply pathindex_nth in P. apply pathindex_nth in Q. congruence. Qed.
Lemma pathindex_at : forall ns n v, NoDup (map fst ns) -> nth_error ns n = Some v -> pathindex (fst v) ns = n.
Proof.
  intros ns n v N E. assert (E' : nth_error (map fst ns) n = Some (fst v)) by (rewrite nth_error_map, E; reflexivity). assert (X := pathindex_nth ns (fst v) (nth_error_In _ _ E')). rewrite NoDup_nth_error in N. apply N; [|congruence]. apply nth_error_Some. congruence.
Qed.
Definition idof (ns : list (path * etree)) (p : path) : pystr := match p with [] => dec 0 | _ => dec (500 + pathindex p ns) end.
Lemma parentid_idof : forall ns p, parentid ns p = idof ns (removelast p).
Proof. intros ns p. unfold parentid, idof. now destruct (removelast p). Qed.
(** ---- reading ---- *)
Section Read.
Variables (t0 : etree) (table : list (list pystr)) (NO : list (path * etree)) (id : path -> pystr).
Definition flabel (l : elabel) (pre : bool) : elabel := let '(lemma, morph, func) := fields_of (snd l) in (fst l, Some (if pre then lemma else str "--", morph, func)).
Definition rowok (n : nat) (v : path * etree) (row : list pystr) : Prop :=
  fld PARENT row = id (removelast (fst v)) /\
  exists l ts, snd v = Node l ts /\
  ((ts = [Leaf n] /\ nonterminal (fld WORD row) = None /\ (debracket (fld TAG row), Some (fld LEMMA row, fld MORPH row, fld FUNC row)) = flabel l true) \/
   (ts <> [] /\ (forall c, In c ts -> ptree c) /\ nonterminal (fld WORD row) = Some (id (fst v)) /\ (debracket (fld TAG row), Some (fld LEMMA row, fld MORPH row, fld FUNC row)) = flabel l false)).
Hypothesis ROWS : Forall2 (fun nr nv => fst nr = fst nv /\ rowok (fst nv) (snd nv) (snd nr)) (combine (seq 0 (length table)) table) (combine (seq 0 (length NO)) NO).
Hypothesis NODES : forall q s, In (q, s) NO <-> q <> [] /\ getpos t0 q = Some s /\ isN s.
Hypothesis ND : NoDup NO.
Definition phrase_path (p : path) : Prop := p = [] \/ exists l ts, getpos t0 p = Some (Node l ts) /\ ts <> [] /\ forall c, In c ts -> ptree c.
Hypothesis INJ : forall p q, phrase_path p -> phrase_path q -> id p = id q -> p = q.
Definition pathb (p q : path) : bool := if list_eq_dec Nat.eq_dec p q then true else false.
Lemma snoc_path : forall q : path, q <> [] -> exists p i, q = p ++ [i].
Proof using. intros q H. destruct (exists_last H) as (p & i & ->). eauto. Qed.
Lemma getpos_app : forall (p : path) (t : etree) (r : path), getpos t (p ++ r) = match getpos t p with Some c => getpos c r | None => None end.
Proof using.
  clear. induction p as [|i p IH]; intros t r; [reflexivity|]. cbn [app getpos]. destruct t as [a|l ts]; [reflexivity|]. destruct (nth_error ts i); auto.
Qed.
Lemma parent_phrase : forall q s, (forall l ts, t0 = Node l ts -> forall c, In c ts -> ptree c) -> In (q, s) NO -> phrase_path (removelast q).
Proof using NODES.
  intros q s PT H. apply NODES in H. destruct H as (NE & G & N). destruct (snoc_path q NE) as (p & i & ->). rewrite removelast_last. destruct p as [|j p]; [now left|]. right.
  rewrite getpos_app in G. destruct (getpos t0 (j :: p)) as [[a|l ts]|] eqn:E; try discriminate. cbn in G. destruct (nth_error ts i) as [c|] eqn:EI; [|discriminate]. injection G as ->.
  assert (PN : forall p (t u : etree), ptree t -> getpos t p = Some u -> isN u -> ptree u). { clear. induction p as [|k p IH]; intros t u P G N; [cbn in G; injection G as <-; auto|]. cbn [getpos] in G. destruct t as [a|l ts]; [discriminate|]. destruct (nth_error ts k) as [c|] eqn:E; [|discriminate]. apply nth_error_In in E. inversion P as [? a|? ? NE PC]; subst; [destruct E as [<-|[]]; destruct p; cbn in G; [injection G as <-; destruct N|discriminate]|]. exact (IH c u (PC c E) G N). }
  assert (PP : ptree (Node l ts : etree)). { cbn [getpos] in E. destruct t0 as [a|l0 ts0] eqn:T0; [discriminate|]. destruct (nth_error ts0 j) as [d|] eqn:EJ; [|discriminate]. apply (PN p d (Node l ts)); auto; [|exact I]. apply (PT l0 ts0 eq_refl). eapply nth_error_In; eauto. }
  exists l, ts. split; auto. split; [intros ->; destruct i; discriminate|]. inversion PP as [? a|? ? NE' PC]; subst; auto. destruct i as [|[|i]]; cbn in EI; try discriminate. injection EI as <-. destruct N.
Qed.
Definition ht : etree -> nat := fix ht (t : etree) : nat := match t with Leaf _ => 0 | Node _ ts => S (fold_right Nat.max 0 (map ht ts)) end.
Lemma ht_child : forall l ts c, In c ts -> ht c < ht (Node l ts).
Proof using.
  clear. intros l ts c H. cbn [ht]. apply Nat.lt_succ_r. induction ts as [|d ts IH]; [destruct H|]. cbn [map fold_right]. destruct H as [<-|H]; [lia|]. specialize (IH H). lia.
Qed.
Lemma all_ok_forall2 : forall X Y (f : X -> option Y) (R : X -> Y -> Prop) xs, (forall x, In x xs -> exists y, f x = Some y /\ R x y) -> exists ys, all_ok (map f xs) = Some ys /\ Forall2 R xs ys.
Proof using.
  clear. intros X Y f R. induction xs as [|x xs IH]; intros H; [exists []; split; auto|]. destruct (H x (or_introl eq_refl)) as (y & E & Rxy). destruct IH as (ys & E2 & F); [intros; apply H; now right|]. exists (y :: ys). split; [|now constructor]. cbn [map all_ok]. rewrite E, E2. reflexivity.
Qed.
Lemma forall2_filter : forall X Y (R : X -> Y -> Prop) f g xs ys, Forall2 R xs ys -> (forall x y, In x xs -> In y ys -> R x y -> f x = g y) -> Forall2 R (filter f xs) (filter g ys).
Proof using.
  clear. intros X Y R f g xs ys F. induction F as [|x y xs ys H F IH]; intros E; [constructor|]. cbn [filter]. rewrite (E x y (or_introl eq_refl) (or_introl eq_refl) H). assert (IH' := IH ltac:(intros; apply E; auto; now right)). destruct (g y); [constructor; auto|auto].
Qed.
Lemma forall2_perm : forall X Y (R : X -> Y -> Prop) xs xs', Permutation xs xs' -> forall ys, Forall2 R xs ys -> exists ys', Permutation ys ys' /\ Forall2 R xs' ys'.
Proof using.
  clear. intros X Y R xs xs' P. induction P as [|x l l' P IH|x y l|l m n P1 IH1 P2 IH2]; intros ys F.
  - inversion F; subst. exists []. auto.
  - inversion F as [|? b ? bs H F']; subst. destruct (IH bs F') as (ys' & A & B). exists (b :: ys'). auto.
  - inversion F as [|? b ? bs H F']; subst. inversion F' as [|? c ? cs H2 F'']; subst. exists (c :: b :: cs). split; [constructor|repeat constructor; auto].
  - destruct (IH1 ys F) as (ys1 & A & B). destruct (IH2 ys1 B) as (ys2 & C & D). exists ys2. split; auto. etransitivity; eauto.
Qed.
Lemma snd_combine : forall X k (l : list X), map snd (combine (seq k (length l)) l) = l.
Proof using. clear. intros X k l. revert k. induction l as [|x l IH]; intros k; [reflexivity|]. cbn. now rewrite IH. Qed.
Lemma filter_map_snd : forall X Y (g : Y -> bool) (l : list (X * Y)), map snd (filter (fun v => g (snd v)) l) = filter g (map snd l).
Proof using. clear. intros X Y g l. induction l as [|[a b] l IH]; [reflexivity|]. cbn. destruct (g b); cbn; now rewrite IH. Qed.
Lemma exported_node : forall l ts, exported (Node l ts) = Node (flabel l (match ts with Leaf _ :: _ => true | _ => false end)) (map exported ts).
Proof using. clear. intros [l o] ts. unfold flabel. cbn [exported fst snd]. destruct (fields_of o) as [[a b] c]. destruct ts as [|[|]]; reflexivity. Qed.
Lemma getchildren_spec : forall fuel p l ts, (forall l ts, t0 = Node l ts -> forall c, In c ts -> ptree c) -> phrase_path p -> getpos t0 p = Some (Node l ts) -> (forall c, In c ts -> ptree c) -> ht (Node l ts) <= fuel ->
  exists us cs, getchildren fuel table (id p) = Some cs /\ Forall2 tperm (map exported ts) us /\ Permutation us cs.
Proof using ROWS NODES ND INJ.
  induction fuel as [|fuel IH]; intros p l ts PT PP G PC H; [cbn in H; lia|]. cbn [getchildren].
  assert (F : Forall2 (fun nr nv => fst nr = fst nv /\ rowok (fst nv) (snd nv) (snd nr)) (childrows table (id p)) (filter (fun nv => pathb (removelast (fst (snd nv))) p) (combine (seq 0 (length NO)) NO))).
  { unfold childrows. apply forall2_filter; auto. intros [n row] [n' [q s]] _ HV [_ [RP _]]. cbn [fst snd] in *. rewrite RP. assert (HQ : In (q, s) NO) by (apply in_combine_r in HV; exact HV). unfold pathb. destruct (list_eq_dec Nat.eq_dec (removelast q) p) as [->|NE]; [apply eqs_refl|]. apply eqs_neq. intros E. apply NE. apply INJ; auto. eapply parent_phrase; eauto. }
  assert (PERM : Permutation (map snd (filter (fun nv => pathb (removelast (fst (snd nv))) p) (combine (seq 0 (length NO)) NO))) (kidsat 0 p ts)).
  { rewrite (filter_map_snd _ _ (fun v => pathb (removelast (fst v)) p)), snd_combine. apply NoDup_Permutation.
    - now apply NoDup_filter.
    - assert (X : forall ts k, NoDup (kidsat k p ts)). { clear. induction ts as [|c ts IH]; intros k; [constructor|]. rewrite kidsat_cons. constructor; auto. intros Q. apply in_kidsat in Q. destruct Q as (i & E & _). apply app_inv_head in E. injection E as E. lia. } apply X.
    - intros [q s]. rewrite filter_In, in_kidsat. cbn [fst]. unfold pathb. split.
      + intros [H1 H2]. destruct (list_eq_dec Nat.eq_dec (removelast q) p) as [E|]; [|discriminate]. apply NODES in H1. destruct H1 as (NE & GQ & _). destruct (snoc_path q NE) as (p' & i & ->). rewrite removelast_last in E. subst p'. exists i. split; auto. rewrite getpos_app, G in GQ. cbn in GQ. destruct (nth_error ts i); [exact GQ|discriminate].
      + intros (i & -> & E). rewrite removelast_last. destruct (list_eq_dec Nat.eq_dec p p); [|contradiction]. split; auto. apply NODES. split; [destruct p; discriminate|]. rewrite getpos_app, G. cbn. cbn in E. rewrite E. split; auto. assert (PX := PC s (nth_error_In _ _ E)). inversion PX; exact I. }
  set (EL := childrows table (id p)) in *. set (VL := filter (fun nv => pathb (removelast (fst (snd nv))) p) (combine (seq 0 (length NO)) NO)) in *.
  (* each row gives the node *)
  assert (EACH : forall nr, In nr EL -> exists u, (let row := snd nr in let label := (debracket (fld TAG row), Some (fld LEMMA row, fld MORPH row, fld FUNC row)) in match nonterminal (fld WORD row) with Some k => option_map (Node label) (getchildren fuel table k) | None => Some (Node label [Leaf (fst nr)]) end) = Some u /\
    (forall nv, In nv VL -> fst nr = fst nv /\ rowok (fst nv) (snd nv) (snd nr) -> tperm (exported (snd (snd nv))) u)).
  { intros [n row] HN. cbn [fst snd].
    assert (ONE : exists nv, In nv VL /\ fst nv = n /\ rowok (fst nv) (snd nv) row). { clear - F HN. induction F as [|x y xs ys [R1 R2] F IH]; [destruct HN|]. destruct HN as [->|HN]; [exists y; repeat split; auto; [now left| |]; try apply R2; symmetry; exact R1|]. destruct (IH HN) as (nv & A & B). exists nv. split; auto. now right. }
    destruct ONE as ([n' [q s]] & HV & En & RO). cbn [fst snd] in *. subst n'. assert (HV' := HV). unfold VL in HV. apply filter_In in HV. destruct HV as [HV HP]. cbn [fst snd] in HP. unfold pathb in HP. destruct (list_eq_dec Nat.eq_dec (removelast q) p) as [Ep|]; [|discriminate]. assert (HQ : In (q, s) NO) by (apply in_combine_r in HV; exact HV).
    assert (UNIQ : forall nv, In nv VL -> n = fst nv -> snd nv = (q, s)). { intros [n2 v2] H2 E2. cbn in E2. subst n2. unfold VL in H2. apply filter_In in H2. destruct H2 as [H2 _]. clear - HV H2. assert (X : forall (l : list (path * etree)) k n v w, In (n, v) (combine (seq k (length l)) l) -> In (n, w) (combine (seq k (length l)) l) -> v = w). { clear. induction l as [|x l IH]; intros k n v w A B; [destruct A|]. cbn in A, B. assert (LB : forall w, In (n, w) (combine (seq (S k) (length l)) l) -> S k <= n) by (intros w' W; apply in_combine_l in W; apply in_seq in W; lia). destruct A as [A|A], B as [B|B]; [congruence|injection A as <- _; apply LB in B; lia|injection B as <- _; apply LB in A; lia|eauto]. } cbn. eapply X; eauto. }
    destruct RO as (RP & l' & ts' & Es & [(Ets & NT & LB)|(NE & PC' & NT & LB)]); cbn [fst snd] in *; subst s; rewrite NT, LB.
    - subst ts'. exists (Node (flabel l' true) [Leaf n]). split; auto. intros nv HNV [E2 _]. rewrite (UNIQ nv HNV E2). cbn [snd]. rewrite exported_node. eapply tp_node; [|apply Permutation_refl]. repeat constructor.
    - assert (HQ' := HQ). apply NODES in HQ. destruct HQ as (NQ & GQ & _). destruct (IH q l' ts') as (us & cs & EC & F2 & P2); auto.
      + right. exists l', ts'. auto.
      + assert (X : In (Node l' ts') ts). { destruct (snoc_path q NQ) as (p' & i & ->). rewrite removelast_last in Ep. subst p'. rewrite getpos_app, G in GQ. cbn in GQ. destruct (nth_error ts i) as [c|] eqn:EI; [|discriminate]. injection GQ as ->. eapply nth_error_In; eauto. } apply (ht_child l) in X. lia.
      + rewrite EC. cbn [option_map]. exists (Node (flabel l' false) cs). split; auto. intros nv HNV [E2 _]. rewrite (UNIQ nv HNV E2). cbn [snd]. rewrite exported_node. assert (X : match ts' with Leaf _ :: _ => true | _ => false end = false) by (destruct ts' as [|[a|] r]; auto; exfalso; apply (noleaf (L := elabel) a); apply PC'; now left). rewrite X. eapply tp_node; eauto. }
  destruct (all_ok_forall2 _ _ _ (fun nr u => forall nv, In nv VL -> fst nr = fst nv /\ rowok (fst nv) (snd nv) (snd nr) -> tperm (exported (snd (snd nv))) u) EL EACH) as (cs & EC & FC).
  assert (FV : Forall2 (fun v u => tperm (exported (snd v)) u) (map snd VL) cs).
  { assert (GEN : forall els vls, Forall2 (fun nr nv => fst nr = fst nv /\ rowok (fst nv) (snd nv) (snd nr)) els vls -> (forall nv, In nv vls -> In nv VL) -> forall us, Forall2 (fun nr u => forall nv, In nv VL -> fst nr = fst nv /\ rowok (fst nv) (snd nv) (snd nr) -> tperm (exported (snd (snd nv))) u) els us -> Forall2 (fun v u => tperm (exported (snd v)) u) (map snd vls) us).
    { clear. intros els vls F. induction F as [|x y els vls R F IH]; intros IN us FU; inversion FU as [|? u ? us' U FU']; subst; [constructor|]. cbn [map]. constructor; [apply U; auto; apply IN; now left|]. apply IH; auto. intros; apply IN; now right. }
    apply (GEN EL VL F); auto. }
  destruct (forall2_perm _ _ _ _ _ PERM cs FV) as (us & P1 & F1). exists us, cs. split; [exact EC|]. split; [|symmetry; exact P1].
  assert (GEN : forall ts k us, Forall2 (fun v u => tperm (exported (snd v)) u) (kidsat k p ts) us -> Forall2 tperm (map exported ts) us).
  { clear. induction ts as [|c ts IH]; intros k us F; [inversion F; constructor|]. rewrite kidsat_cons in F. inversion F as [|? u ? us' U F']; subst. cbn [map]. constructor; [exact U|]. eapply IH; eauto. }
  exact (GEN ts 0 us F1).
Qed.
End Read.
