(** C67: outside estimates for A* parsing with a PCFG. *)
From Coq Require Import List Bool Arith NArith Lia.
From Verif Require Import McpModel McpProofs EstModel EstSpec EstProofs EstProofs2.
Import ListNotations.
Local Open Scope N_scope.
Local Open Scope list_scope.

Lemma costs_ok : forall g, costs g.
Proof. split; intros; apply N.le_0_l. Qed.
(** The inside table has the cost of the cheapest tree for every label and number
    of words, and no entry where there is no tree. *)
Theorem C67_inside : forall g maxlen ins,
  fewrules g -> (1 <= maxlen)%nat -> pcfginsidesx g maxlen ins ->
  (forall t, derivation g t -> (psize t <= maxlen)%nat ->
     exists v, dget ikey_eqb (plabel t, psize t) ins = Some v /\ v <= pcost t)
  /\ (forall l n v, dget ikey_eqb (l, n) ins = Some v ->
     exists t, derivation g t /\ plabel t = l /\ psize t = n /\ pcost t = v).
Proof.
  intros g maxlen ins F M H. pose proof (costs_ok g) as C. destruct (inside_exact g maxlen C F M ins H) as [A B]. split; [exact B|].
  intros l n v G. now destruct (A l n v G).
Qed.

(** Admissibility: for every constituent of every tree for a sentence of at most
    maxlen words, the estimate exists, and the cost of the constituent plus the
    estimate is no more than the cost of the tree. *)
Theorem C67_admissible : forall g maxlen goal out,
  fewrules g -> (1 <= maxlen)%nat -> getpcfgestimates g maxlen goal out ->
  forall T s m n, derivation g T -> plabel T = goal -> (psize T <= maxlen)%nat -> occurs T s m n ->
  exists v, dget okey_eqb (plabel s, m, n) out = Some v /\ pcost s + v <= pcost T.
Proof.
  intros g maxlen goal out F M (ins & HI & HO) T s m n D L SZ OC.
  pose proof (inside_exact g maxlen (costs_ok g) F M ins HI) as IE.
  pose proof (outside_exact g maxlen goal ins (costs_ok g) M IE out HO) as OE.
  pose proof OE as (_ & _ & (v0 & G0 & L0)). rewrite <- L in G0.
  destruct (outside_lower g maxlen goal ins M IE out OE T s m n OC D 0 0 v0 G0) as (v & G & LE); [lia|].
  rewrite Nat.add_0_l, Nat.add_0_r in G. exists v. split; [exact G|]. lia.
Qed.
(** Tightness: the estimate is the cost of an actual context, around every tree
    for the label; so no larger estimate would be admissible. *)
Theorem C67_tight : forall g maxlen goal out,
  fewrules g -> (1 <= maxlen)%nat -> getpcfgestimates g maxlen goal out ->
  forall l m n v, dget okey_eqb (l, m, n) out = Some v ->
  forall s, derivation g s -> plabel s = l ->
  exists T, derivation g T /\ plabel T = goal /\ occurs T s m n /\ pcost T = pcost s + v.
Proof.
  intros g maxlen goal out F M (ins & HI & HO) l m n v G s D L.
  pose proof (inside_exact g maxlen (costs_ok g) F M ins HI) as IE.
  pose proof (outside_exact g maxlen goal ins (costs_ok g) M IE out HO) as (A & _).
  destruct (A _ _ _ _ G) as [CT _]. destruct (CT s D L) as (T & H1 & H2 & H3 & H4).
  exists T. split; [exact H1|]. split; [exact H2|]. split; [exact H3|]. lia.
Qed.
(** Consistency: going from a daughter to its parent, the estimate decreases by no
    more than the cost of the rule and the sibling. *)
Theorem C67_consistent : forall g maxlen goal out,
  fewrules g -> (1 <= maxlen)%nat -> getpcfgestimates g maxlen goal out ->
  forall r m n v, In r (g_rules g) -> dget okey_eqb (e_lhs r, m, n) out = Some v ->
  (e_rhs2 r = 0%nat -> exists w, dget okey_eqb (e_rhs1 r, m, n) out = Some w /\ w <= e_prob r + v)
  /\ (e_rhs2 r <> 0%nat -> forall b, derivation g b -> (m + n + psize b < maxlen)%nat ->
       (plabel b = e_rhs2 r ->
          exists w, dget okey_eqb (e_rhs1 r, m, (n + psize b)%nat) out = Some w /\ w <= e_prob r + pcost b + v)
       /\ (plabel b = e_rhs1 r ->
          exists w, dget okey_eqb (e_rhs2 r, (m + psize b)%nat, n) out = Some w /\ w <= e_prob r + pcost b + v)).
Proof.
  intros g maxlen goal out F M (ins & HI & HO) r m n v I G.
  pose proof (inside_exact g maxlen (costs_ok g) F M ins HI) as IE. pose proof IE as [_ IC].
  pose proof (outside_exact g maxlen goal ins (costs_ok g) M IE out HO) as (_ & RX & _).
  specialize (RX _ _ G). cbn [fst snd] in RX. unfold relaxed in RX. cbn [fst snd] in RX. split.
  - intros U. apply RX. apply oupd_in. left. exists r. auto.
  - intros U b Db SZ. destruct (IC b Db) as (y & Y & Ly); [lia|]. pose proof (size_pos b). split; intros L; rewrite L in Y.
    + destruct (RX (e_rhs1 r, m, (n + psize b)%nat) (e_prob r + v + y)) as (w & Gw & Lw).
      * apply oupd_in. right. left. exists r, (psize b), y. repeat split; auto; lia.
      * exists w. split; [exact Gw|]. lia.
    + destruct (RX (e_rhs2 r, (m + psize b)%nat, n) (e_prob r + y + v)) as (w & Gw & Lw).
      * apply oupd_in. right. right. exists r, (psize b), y. repeat split; auto; lia.
      * exists w. split; [exact Gw|]. lia.
Qed.
(** The computation always ends: no item is taken from an agenda twice. *)
Theorem C67_total : forall g maxlen goal,
  fewrules g -> (1 <= maxlen)%nat ->
  (exists out, getpcfgestimates g maxlen goal out)
  /\ (forall c ins, inside_loop g maxlen c (inside_init g) [] ins ->
        (c <= (length (g_rules g) + length (g_lexical g)) * maxlen)%nat)
  /\ (forall ins c out, pcfginsidesx g maxlen ins ->
        outside_loop g maxlen ins c [((goal, 0%nat, 0%nat), 0)] [((goal, 0%nat, 0%nat), 0)] out ->
        (c <= (1 + 2 * length (g_rules g)) * maxlen * maxlen)%nat).
Proof.
  intros g maxlen goal F M. pose proof (costs_ok g) as C.
  pose proof (init_inv g maxlen M) as II. split; [|split].
  - destruct (iloop_total g maxlen C F M _ _ _ (le_n _) II) as (c & ins & H).
    assert (PI : pcfginsidesx g maxlen ins) by (exists c; exact H).
    pose proof (inside_exact g maxlen C F M ins PI) as IE.
    destruct (oloop_total g maxlen goal ins C M IE _ [] _ _ (le_n _) (oinit_inv g maxlen goal ins M)) as (c2 & out & H2).
    exists out, ins. split; [exact PI|]. exists c2. exact H2.
  - intros c ins H. pose proof (iloop_bound g maxlen C F M c _ _ _ H II) as B. cbn [length] in B.
    assert (U : length (iuniverse g maxlen) = (length (labelset g) * length (seq 1 maxlen))%nat) by apply prod_length.
    unfold labelset in U. rewrite app_length, !map_length, seq_length in U. lia.
  - intros ins c out PI H. pose proof (inside_exact g maxlen C F M ins PI) as IE.
    pose proof (oloop_bound g maxlen goal ins C M IE c _ _ _ H [] (oinit_inv g maxlen goal ins M)) as B.
    cbn [length] in B.
    assert (U : length (ouniverse g maxlen goal) = (S (length (map e_rhs1 (g_rules g) ++ map e_rhs2 (g_rules g)))
              * length (seq 0 maxlen) * length (seq 0 maxlen))%nat).
    { unfold ouniverse, okey. rewrite (prod_length (A := nat * nat)), (prod_length (A := nat)). reflexivity. }
    rewrite app_length, !map_length, !seq_length in U.
    replace (1 + 2 * length (g_rules g))%nat with (S (length (g_rules g) + length (g_rules g))) by lia. lia.
Qed.

(** *** running the loops *)
Section Exec.
  Context {K : Type}.
  Fixpoint argmin (e : K * N) (l : list (K * N)) : K * N :=
    match l with [] => e | x :: l' => argmin (if Nlt_le_dec (snd x) (snd e) then x else e) l' end.
  Lemma argmin_spec : forall l e, In (argmin e l) (e :: l) /\ forall x, In x (e :: l) -> snd (argmin e l) <= snd x.
  Proof.
    induction l as [|y l IH]; intros e; cbn [argmin].
    - split; [now left|]. intros x [->|[]]. lia.
    - destruct (Nlt_le_dec (snd y) (snd e)) as [H|H].
      + destruct (IH y) as [A B]. split; [now right|]. intros x [->|I]; [|now apply B].
        specialize (B y (or_introl eq_refl)). lia.
      + destruct (IH e) as [A B]. split; [destruct A as [<-|A]; [now left|right; now right]|].
        intros x [->|[->|I]]; [apply B; now left| |apply B; now right].
        specialize (B e (or_introl eq_refl)). lia.
  Qed.
  Lemma argmin_pops : forall eqb (e : K * N) l, 
    pops eqb (e :: l) (fst (argmin e l)) (snd (argmin e l)) (dremove eqb (fst (argmin e l)) (e :: l)).
  Proof.
    intros eqb e l. destruct (argmin_spec l e) as [A B]. split; [now destruct (argmin e l)|].
    split; [|reflexivity]. intros k' x' I. exact (B (k', x') I).
  Qed.
End Exec.
Fixpoint irun (g : egrammar) (maxlen fuel : nat) (ag ins : list (ikey * N)) : option (list (ikey * N)) :=
  match ag with
  | [] => Some ins
  | e :: l => match fuel with
    | O => None
    | S fuel =>
      let k := fst (argmin e l) in let x := snd (argmin e l) in
      irun g maxlen fuel
        (fold_left (setifbetter ikey_eqb) (iupdates g maxlen (istore ins k x) (fst k) (snd k) x) (dremove ikey_eqb k (e :: l)))
        (istore ins k x)
    end
  end.
Fixpoint orun (g : egrammar) (maxlen : nat) (ins : list (ikey * N)) (fuel : nat) (ag : list (okey * N)) (out : otable) : option otable :=
  match ag with
  | [] => Some out
  | e :: l => match fuel with
    | O => None
    | S fuel =>
      let k := fst (argmin e l) in let x := snd (argmin e l) in
      let st := fold_left relax (oupdates g maxlen ins (fst (fst k)) (snd (fst k)) (snd k) x) (dremove okey_eqb k (e :: l), out) in
      orun g maxlen ins fuel (fst st) (snd st)
    end
  end.
Lemma irun_loop : forall g maxlen fuel ag ins res, irun g maxlen fuel ag ins = Some res -> exists c, inside_loop g maxlen c ag ins res.
Proof.
  intros g maxlen. induction fuel as [|fuel IH]; intros ag ins res; destruct ag as [|e l]; cbn [irun];
    try discriminate; try (intros E; injection E as <-; exists 0%nat; constructor).
  intros E. apply IH in E. destruct E as [c E]. exists (S c). econstructor; [apply argmin_pops|exact E].
Qed.
Lemma orun_loop : forall g maxlen ins fuel ag out res, orun g maxlen ins fuel ag out = Some res -> exists c, outside_loop g maxlen ins c ag out res.
Proof.
  intros g maxlen ins. induction fuel as [|fuel IH]; intros ag out res; destruct ag as [|e l]; cbn [orun];
    try discriminate; try (intros E; injection E as <-; exists 0%nat; constructor).
  intros E. apply IH in E. destruct E as [c E]. exists (S c). econstructor; [apply argmin_pops|exact E].
Qed.
Definition estimates_run (g : egrammar) (maxlen goal fuel : nat) : option otable :=
  match irun g maxlen fuel (inside_init g) [] with
  | None => None
  | Some ins => orun g maxlen ins fuel [((goal, 0%nat, 0%nat), 0)] [((goal, 0%nat, 0%nat), 0)]
  end.
Lemma estimates_run_ok : forall g maxlen goal fuel out, estimates_run g maxlen goal fuel = Some out -> getpcfgestimates g maxlen goal out.
Proof.
  intros g maxlen goal fuel out. unfold estimates_run. destruct (irun _ _ _ _ _) as [ins|] eqn:E; [|discriminate].
  intros H. exists ins. split; [exact (irun_loop _ _ _ _ _ _ E)|exact (orun_loop _ _ _ _ _ _ _ H)].
Qed.

(** *** [fewrules] is needed: "for i in range(grammar.nonterminals)" skips rules.
    Labels 1 = S, 2 = A; the last rule is the fourth with left daughter A and
    the fourth with right daughter A, and there are 3 nonterminals (with Epsilon). *)
Definition big : egrammar := EGrammar 3
  [ERule 2 2 1 5; ERule 1 2 1 1; ERule 2 2 2 10; ERule 2 1 2 5; ERule 1 1 2 5; ERule 1 2 2 1] [(2%nat, 0)].
Definition sAA : ptree := PBin (ERule 1 2 2 1) (PLex 2 0) (PLex 2 0).
Definition bigtree : ptree := PBin (ERule 1 2 1 1) (PLex 2 0) sAA.
Theorem C67_skipped_rules_refuted : ~ forall g maxlen goal out,
  (1 <= maxlen)%nat -> getpcfgestimates g maxlen goal out ->
  forall T s m n v, derivation g T -> plabel T = goal -> (psize T <= maxlen)%nat -> occurs T s m n ->
  dget okey_eqb (plabel s, m, n) out = Some v -> pcost s + v <= pcost T.
Proof.
  intros H.
  assert (E : exists out, estimates_run big 3 1 100 = Some out
     /\ match dget okey_eqb (2%nat, 0%nat, 2%nat) out with Some v => 2 < v | None => False end).
  { eexists. split; [vm_compute; reflexivity|]. vm_compute. reflexivity. }
  destruct E as (out & E & G). apply estimates_run_ok in E.
  destruct (dget okey_eqb (2%nat, 0%nat, 2%nat) out) as [v|] eqn:Gv; [|contradiction].
  assert (D : derivation big bigtree) by (cbn; repeat split; auto 10).
  assert (O : occurs bigtree (PLex 2 0) 0 2) by (exact (oc_left (ERule 1 2 1 1) _ sAA _ 0 0 (oc_here _))).
  specialize (H big 3%nat 1%nat out ltac:(lia) E bigtree (PLex 2 0) 0%nat 2%nat v D eq_refl ltac:(cbn; lia) O Gv).
  cbn [pcost bigtree sAA e_prob] in H. lia.
Qed.

(** *** non-vacuity *)
Definition small : egrammar := EGrammar 4
  [ERule 1 2 3 1; ERule 2 2 3 2; ERule 2 3 0 1; ERule 1 1 3 4] [(2%nat, 3); (3%nat, 1)].
Lemma filter_len : forall A (f : A -> bool) l, (length (filter f l) <= length l)%nat.
Proof. induction l as [|x l IH]; cbn; [lia|]. destruct (f x); cbn; lia. Qed.
Example small_few : fewrules small.
Proof.
  intros l. unfold unaryrules, lbinaryrules, rbinaryrules. repeat split; (etransitivity; [apply filter_len|]); cbn; lia.
Qed.
Example small_estimates : exists out, getpcfgestimates small 4 1 out
  /\ match dget okey_eqb (2%nat, 0%nat, 2%nat) out with Some v => v = 5 | None => False end.
Proof.
  assert (E : exists out, estimates_run small 4 1 100 = Some out
    /\ match dget okey_eqb (2%nat, 0%nat, 2%nat) out with Some v => v = 5 | None => False end).
  { eexists. split; [vm_compute; reflexivity|]. vm_compute. reflexivity. }
  destruct E as (out & E & G). exists out. split; [|exact G]. exact (estimates_run_ok _ _ _ _ _ E).
Qed.
