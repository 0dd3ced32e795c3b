(** C95: the weights in use are those of the selected model, in all arrays and
    after any history of switches. *)
From Coq Require Import String.
From Coq Require Import List Bool Arith NArith Lia.
From Coq Require Import QArith Qcanon.
From Verif Require Import PyStr SwitchModel.
Import ListNotations.
Open Scope nat_scope.

(** ** What the weights should be *)
(** the weight of rule [n] with left-hand side [A] (of the [n]-th lexical rule) in a model: relative
    frequency, or the alternative weight at its position *)
Inductive Weight (g : gram) (name : pystr) : nat -> nat -> Qc -> Prop :=
| w_default : forall n A, name = str "default"%string ->
    Weight g name n A (qat (counts g) n / qat (mass g) A)%Qc
| w_model : forall n A ws, name <> str "default"%string -> getmodel (models g) name = Some ws ->
    Weight g name n A (qat ws n).
Inductive LexWeight (g : gram) (name : pystr) : nat -> nat -> Qc -> Prop :=
| lw_default : forall n A, name = str "default"%string ->
    LexWeight g name n A (qat (lexcounts g) n / qat (mass g) A)%Qc
| lw_model : forall n A ws, name <> str "default"%string -> getmodel (models g) name = Some ws ->
    LexWeight g name n A (qat ws (numrules g + n)).
(** every copy of every rule has the weight of model [name], as a logarithm iff [lp] *)
Definition inuse (g : gram) (name : pystr) (lp : bool) : Prop :=
  (forall r, In r (rbylhs g) \/ In r (runary g) \/ In r (rlbin g) \/ In r (rrbin g) ->
     exists q, Weight g name (rno r) (rlhs r) q /\ rw r = (lp, q))
  /\ (forall n A w, nth_error (rlex g) n = Some (A, w) -> exists q, LexWeight g name n A q /\ w = (lp, q)).
Definition coherent (g : gram) : Prop := inuse g (model g) (logprob g).

(** the arrays hold the same rules, and revrulemap finds a rule by its number *)
Definition indexed (g : gram) : Prop :=
  forall r, In r (runary g) \/ In r (rlbin g) \/ In r (rrbin g) ->
  exists r', nth_error (rbylhs g) (nth (rno r) (revmap g) 0) = Some r' /\ rno r' = rno r /\ rlhs r' = rlhs r.
(** all that a switch may not change *)
Definition skel (r : prule) := (rno r, rlhs r).
Definition samegrammar (g g' : gram) : Prop :=
  numrules g' = numrules g /\ counts g' = counts g /\ lexcounts g' = lexcounts g /\ mass g' = mass g
  /\ revmap g' = revmap g /\ models g' = models g
  /\ map skel (rbylhs g') = map skel (rbylhs g) /\ map skel (runary g') = map skel (runary g)
  /\ map skel (rlbin g') = map skel (rlbin g) /\ map skel (rrbin g') = map skel (rrbin g)
  /\ map fst (rlex g') = map fst (rlex g).

Lemma default_str : DEFAULT = str "default"%string.
Proof. reflexivity. Qed.
Lemma enum_nth : forall A B (f : nat -> A -> B) l k n,
  nth_error (enum f k l) n = match nth_error l n with Some x => Some (f (k + n) x) | None => None end.
Proof.
  induction l as [|x l IH]; intros k n; [now destruct n|]. destruct n as [|n]; cbn.
  - now rewrite Nat.add_0_r.
  - rewrite IH. destruct (nth_error l n); [|reflexivity]. do 2 f_equal. lia.
Qed.
Lemma enum_fst : forall A B (f : nat -> (A * B) -> (A * B)) l k, (forall n x, fst (f n x) = fst x) -> map fst (enum f k l) = map fst l.
Proof. induction l as [|x l IH]; intros k H; [reflexivity|]. cbn. now rewrite H, IH. Qed.
Lemma skel_map : forall f l, (forall r, skel (f r) = skel r) -> map skel (map f l) = map skel l.
Proof. intros f l H. rewrite map_map. now apply map_ext. Qed.

(** Selecting a model puts its weights into use, in every array, and changes nothing
    else. *)
Theorem C95_switch : forall g name lp g', indexed g -> coherent g -> switch name lp g = Some g' ->
  coherent g' /\ model g' = name /\ logprob g' = lp /\ samegrammar g g' /\ indexed g'.
Proof.
  intros g name lp g' IX CO H. unfold switch in H.
  assert (REFL : samegrammar g g) by (repeat split).
  destruct (eqs (model g) name && Bool.eqb (logprob g) lp) eqn:E.
  { injection H as <-. apply andb_true_iff in E. destruct E as [E1 E2]. apply eqs_eq in E1. apply eqb_prop in E2. auto. }
  clear E. destruct (eqs name DEFAULT) eqn:D.
  - apply eqs_eq in D. rewrite default_str in D. injection H as <-.
    set (f := fun r => setw r (lp, (qat (counts g) (rno r) / qat (mass g) (rlhs r))%Qc)).
    set (copy := fun r => setw r (match nth_error (map f (rbylhs g)) (nth (rno r) (revmap g) 0) with Some b => rw b | None => rw r end)).
    assert (CP : forall r, In r (runary g) \/ In r (rlbin g) \/ In r (rrbin g) ->
      copy r = f r).
    { intros r I. destruct (IX r I) as (r' & N & E1 & E2). unfold copy. rewrite (map_nth_error f _ _ N).
      unfold f, setw. cbn [rw]. now rewrite E1, E2. }
    assert (SK : samegrammar g (selected (defaults g lp) name lp)).
    { unfold samegrammar, selected, defaults. cbn. repeat split; try reflexivity; try (apply skel_map; reflexivity).
      apply enum_fst. reflexivity. }
    split; [|split; [reflexivity|split; [reflexivity|split; [exact SK|]]]].
    + split.
      * cbn. fold f. fold copy. intros r I.
        assert (X : exists r0, r = f r0).
        { destruct I as [I|[I|[I|I]]]; apply in_map_iff in I; destruct I as (r0 & <- & I); [now exists r0| | |];
            (exists r0; apply CP; auto). }
        destruct X as (r0 & ->). eexists. split; [now constructor|]. reflexivity.
      * cbn. intros n A w N. rewrite enum_nth in N. destruct (nth_error (rlex g) n) as [[B w0]|]; [|discriminate].
        injection N as <- <-. eexists. split; [now constructor|]. reflexivity.
    + intros r I. cbn in I. fold f copy in I.
      assert (X : exists r0, r = copy r0 /\ (In r0 (runary g) \/ In r0 (rlbin g) \/ In r0 (rrbin g))).
      { destruct I as [I|[I|I]]; apply in_map_iff in I; destruct I as (r0 & <- & I); exists r0; auto. }
      destruct X as (r0 & -> & I0). destruct (IX r0 I0) as (r' & N & E1 & E2). cbn.
      exists (f r'). split; [exact (map_nth_error f _ _ N)|]. split; assumption.
  - assert (ND : name <> str "default"%string) by (intros ->; rewrite <- default_str in D; assert (Q := proj2 (eqs_eq DEFAULT DEFAULT) eq_refl); congruence).
    destruct (getmodel (models g) name) as [ws|] eqn:M; [|discriminate].
    destruct (length ws =? numrules g + length (rlex g)); [|discriminate]. injection H as <-.
    set (f := fun r => setw r (lp, qat ws (rno r))).
    split; [|split; [reflexivity|split; [reflexivity|split]]].
    + split.
      * cbn. fold f. intros r I.
        assert (X : exists r0, r = f r0).
        { destruct I as [I|[I|[I|I]]]; apply in_map_iff in I; destruct I as (r0 & <- & I); now exists r0. }
        destruct X as (r0 & ->). eexists. split; [refine (w_model _ name _ _ ws ND _); exact M|]. reflexivity.
      * cbn. intros n A w N. rewrite enum_nth in N. destruct (nth_error (rlex g) n) as [[B w0]|]; [|discriminate].
        injection N as <- <-. eexists. split; [refine (lw_model _ name _ _ ws ND _); exact M|]. reflexivity.
    + unfold samegrammar, selected, alternative. cbn. repeat split; try reflexivity; try (apply skel_map; reflexivity).
      apply enum_fst. reflexivity.
    + intros r I. cbn in I. fold f in I.
      assert (X : exists r0, r = f r0 /\ (In r0 (runary g) \/ In r0 (rlbin g) \/ In r0 (rrbin g))).
      { destruct I as [I|[I|I]]; apply in_map_iff in I; destruct I as (r0 & <- & I); exists r0; auto. }
      destruct X as (r0 & -> & I0). destruct (IX r0 I0) as (r' & N & E1 & E2). cbn.
      exists (f r'). split; [exact (map_nth_error f _ _ N)|]. split; assumption.
Qed.

(** The same holds without [coherent] if the switch is not to what is already selected. *)
Theorem C95_reselect : forall g name lp g', indexed g -> (name, lp) <> (model g, logprob g) ->
  switch name lp g = Some g' -> coherent g' /\ model g' = name /\ logprob g' = lp /\ samegrammar g g'.
Proof.
  intros g name lp g' IX N H.
  (* neither branch that computes weights reads the old ones *)
  unfold switch in H. destruct (eqs (model g) name && Bool.eqb (logprob g) lp) eqn:Q.
  { apply andb_true_iff in Q. destruct Q as [Q1 Q2]. apply eqs_eq in Q1. apply eqb_prop in Q2. congruence. }
  clear Q. destruct (eqs name DEFAULT) eqn:D.
  - apply eqs_eq in D. rewrite default_str in D. injection H as <-.
    set (f := fun r => setw r (lp, (qat (counts g) (rno r) / qat (mass g) (rlhs r))%Qc)).
    set (copy := fun r => setw r (match nth_error (map f (rbylhs g)) (nth (rno r) (revmap g) 0) with Some b => rw b | None => rw r end)).
    assert (CP : forall r, In r (runary g) \/ In r (rlbin g) \/ In r (rrbin g) -> copy r = f r).
    { intros r I. destruct (IX r I) as (r' & N' & E1 & E2). unfold copy. rewrite (map_nth_error f _ _ N').
      unfold f, setw. cbn [rw]. now rewrite E1, E2. }
    split; [|split; [reflexivity|split; [reflexivity|]]].
    + split.
      * cbn. fold f. fold copy. intros r I.
        assert (X : exists r0, r = f r0).
        { destruct I as [I|[I|[I|I]]]; apply in_map_iff in I; destruct I as (r0 & <- & I); [now exists r0| | |];
            (exists r0; apply CP; auto). }
        destruct X as (r0 & ->). eexists. split; [now constructor|]. reflexivity.
      * cbn. intros n A w K. rewrite enum_nth in K. destruct (nth_error (rlex g) n) as [[B w0]|]; [|discriminate].
        injection K as <- <-. eexists. split; [now constructor|]. reflexivity.
    + unfold samegrammar, selected, defaults. cbn. repeat split; try reflexivity; try (apply skel_map; reflexivity).
      apply enum_fst. reflexivity.
  - assert (ND : name <> str "default"%string) by (intros ->; rewrite <- default_str in D; assert (Q := proj2 (eqs_eq DEFAULT DEFAULT) eq_refl); congruence).
    destruct (getmodel (models g) name) as [ws|] eqn:M; [|discriminate].
    destruct (length ws =? numrules g + length (rlex g)); [|discriminate]. injection H as <-.
    set (f := fun r => setw r (lp, qat ws (rno r))).
    split; [|split; [reflexivity|split; [reflexivity|]]].
    + split.
      * cbn. fold f. intros r I.
        assert (X : exists r0, r = f r0).
        { destruct I as [I|[I|[I|I]]]; apply in_map_iff in I; destruct I as (r0 & <- & I); now exists r0. }
        destruct X as (r0 & ->). eexists. split; [refine (w_model _ name _ _ ws ND _); exact M|]. reflexivity.
      * cbn. intros n A w K. rewrite enum_nth in K. destruct (nth_error (rlex g) n) as [[B w0]|]; [|discriminate].
        injection K as <- <-. eexists. split; [refine (lw_model _ name _ _ ws ND _); exact M|]. reflexivity.
    + unfold samegrammar, selected, alternative. cbn. repeat split; try reflexivity; try (apply skel_map; reflexivity).
      apply enum_fst. reflexivity.
Qed.

(** Selecting fails exactly for an unknown model or one of the wrong length. *)
Theorem C95_defined : forall g name lp, (name, lp) <> (model g, logprob g) ->
  ((exists g', switch name lp g = Some g') <->
   name = str "default"%string
   \/ exists ws, getmodel (models g) name = Some ws /\ length ws = numrules g + length (rlex g)).
Proof.
  intros g name lp N. unfold switch. destruct (eqs (model g) name && Bool.eqb (logprob g) lp) eqn:Q.
  { apply andb_true_iff in Q. destruct Q as [Q1 Q2]. apply eqs_eq in Q1. apply eqb_prop in Q2. congruence. }
  destruct (eqs name DEFAULT) eqn:D.
  - apply eqs_eq in D. rewrite default_str in D. split; [now left|eauto].
  - destruct (getmodel (models g) name) as [ws|] eqn:M.
    + destruct (Nat.eqb_spec (length ws) (numrules g + length (rlex g))) as [E|E].
      * split; [|eauto]. intros _. right. eauto.
      * split; [intros (? & ?); discriminate|]. intros [H|(ws' & H & E')]; [|congruence].
        subst name. discriminate.
    + split; [intros (? & ?); discriminate|]. intros [H|(ws' & H & E')]; [|congruence].
      subst name. discriminate.
Qed.

(** *** Histories *)
Fixpoint switches (h : list (pystr * bool)) (g : gram) : option gram :=
  match h with [] => Some g | (name, lp) :: h' => match switch name lp g with Some g' => switches h' g' | None => None end end.
Lemma samegrammar_trans : forall a b c, samegrammar a b -> samegrammar b c -> samegrammar a c.
Proof. unfold samegrammar. intros a b c H K. intuition congruence. Qed.
Lemma switches_ok : forall h g g', indexed g -> coherent g -> switches h g = Some g' ->
  coherent g' /\ samegrammar g g' /\ indexed g'.
Proof.
  induction h as [|[name lp] h IH]; intros g g' IX CO H; cbn in H.
  - injection H as <-. repeat split; auto; apply CO.
  - destruct (switch name lp g) as [g1|] eqn:E; [|discriminate].
    destruct (C95_switch _ _ _ _ IX CO E) as (C1 & _ & _ & S1 & I1).
    destruct (IH g1 g' I1 C1 H) as (C2 & S2 & I2). split; [exact C2|]. split; [|exact I2].
    eapply samegrammar_trans; eassumption.
Qed.
Lemma weight_fun : forall g g' name n A q q', samegrammar g g' -> Weight g name n A q -> Weight g' name n A q' -> q = q'.
Proof.
  intros g g' name n A q q' S H H'. destruct S as (S1 & S2 & S3 & S4 & S5 & S6 & _).
  destruct H, H'; try contradiction; try congruence.
Qed.
Lemma lweight_fun : forall g g' name n A q q', samegrammar g g' -> LexWeight g name n A q -> LexWeight g' name n A q' -> q = q'.
Proof.
  intros g g' name n A q q' S H H'. destruct S as (S1 & S2 & S3 & S4 & S5 & S6 & _).
  destruct H, H'; try contradiction; try congruence.
Qed.
Lemma same_rules : forall (P : prule -> prule -> Prop) l l', map skel l = map skel l' ->
  (forall r r', In r l -> In r' l' -> skel r = skel r' -> rw r = rw r') -> l = l'.
Proof.
  intros P. induction l as [|[n A w] l IH]; intros [|[n' A' w'] l'] E H; try discriminate; [reflexivity|].
  cbn in E. injection E as -> -> E. f_equal.
  - f_equal. apply (H (PRule n' A' w) (PRule n' A' w')); [now left|now left|reflexivity].
  - apply IH; [exact E|]. intros r r' I I'. apply H; now right.
Qed.
Lemma same_lex : forall (l l' : list (nat * weight)), map fst l = map fst l' ->
  (forall n A w w', nth_error l n = Some (A, w) -> nth_error l' n = Some (A, w') -> w = w') -> l = l'.
Proof.
  induction l as [|[A w] l IH]; intros [|[A' w'] l'] E H; try discriminate; [reflexivity|].
  cbn in E. injection E as -> E. f_equal; [f_equal; apply (H 0 A'); reflexivity|].
  apply IH; [exact E|]. intros n B v v' N N'. exact (H (S n) B v v' N N').
Qed.
(** After any two histories of selections that end with the same one, the grammars
    are the same. *)
Theorem C95_history : forall g h1 h2 name lp g1 g2, indexed g -> coherent g ->
  switches (h1 ++ [(name, lp)]) g = Some g1 -> switches (h2 ++ [(name, lp)]) g = Some g2 -> g1 = g2.
Proof.
  assert (LAST : forall h g name lp g', indexed g -> coherent g -> switches (h ++ [(name, lp)]) g = Some g' ->
    coherent g' /\ samegrammar g g' /\ model g' = name /\ logprob g' = lp).
  { induction h as [|[n1 l1] h IH]; intros g name lp g' IX CO H; cbn in H.
    - destruct (switch name lp g) as [g1|] eqn:E; [|discriminate]. injection H as <-.
      destruct (C95_switch _ _ _ _ IX CO E) as (C1 & M1 & L1 & S1 & I1). auto.
    - destruct (switch n1 l1 g) as [g1|] eqn:E; [|discriminate].
      destruct (C95_switch _ _ _ _ IX CO E) as (C1 & _ & _ & S1 & I1).
      destruct (IH _ _ _ _ I1 C1 H) as (C2 & S2 & M2 & L2). split; [exact C2|]. split; [|auto].
      eapply samegrammar_trans; eassumption. }
  intros g h1 h2 name lp g1 g2 IX CO H1 H2.
  destruct (LAST _ _ _ _ _ IX CO H1) as ((R1 & X1) & S1 & M1 & L1).
  destruct (LAST _ _ _ _ _ IX CO H2) as ((R2 & X2) & S2 & M2 & L2).
  assert (S : samegrammar g1 g2) by (unfold samegrammar in *; intuition congruence).
  assert (W : forall r r', (In r (rbylhs g1) \/ In r (runary g1) \/ In r (rlbin g1) \/ In r (rrbin g1)) ->
     (In r' (rbylhs g2) \/ In r' (runary g2) \/ In r' (rlbin g2) \/ In r' (rrbin g2)) -> skel r = skel r' -> rw r = rw r').
  { intros r r' I I' E. destruct (R1 r I) as (q & Wq & ->). destruct (R2 r' I') as (q' & Wq' & ->).
    unfold skel in E. injection E as E1 E2. rewrite M1, E1, E2 in Wq. rewrite M2 in Wq'. rewrite L1, L2. f_equal.
    eapply weight_fun; eassumption. }
  assert (WL : forall n A w w', nth_error (rlex g1) n = Some (A, w) -> nth_error (rlex g2) n = Some (A, w') -> w = w').
  { intros n A w w' N N'. destruct (X1 _ _ _ N) as (q & Wq & ->). destruct (X2 _ _ _ N') as (q' & Wq' & ->).
    rewrite M1 in Wq. rewrite M2 in Wq'. rewrite L1, L2. f_equal. eapply lweight_fun; eassumption. }
  destruct S as (A1 & A2 & A3 & A4 & A5 & A6 & A7 & A8 & A9 & A10 & A11).
  assert (B1 : rbylhs g1 = rbylhs g2) by (apply (same_rules (fun _ _ => True)); [congruence|intros; apply W; auto]).
  assert (B2 : runary g1 = runary g2) by (apply (same_rules (fun _ _ => True)); [congruence|intros; apply W; auto]).
  assert (B3 : rlbin g1 = rlbin g2) by (apply (same_rules (fun _ _ => True)); [congruence|intros; apply W; auto]).
  assert (B4 : rrbin g1 = rrbin g2) by (apply (same_rules (fun _ _ => True)); [congruence|intros; apply W; auto]).
  assert (B5 : rlex g1 = rlex g2) by (apply same_lex; [congruence|exact WL]).
  destruct g1, g2. cbn in *. subst. reflexivity.
Qed.

(** ** New counts *)
(** "need to re-normalize after this": counts that are added are used after selecting
    another model or representation (by C95_reselect) ... *)
Lemma addat_nth : forall l n x m, n < length l -> qat (addat l n x) m = (qat l m + (if m =? n then x else 0))%Qc.
Proof.
  unfold qat. induction l as [|y l IH]; intros n x m L; [cbn in L; lia|]. destruct n as [|n]; cbn [addat].
  - destruct m; cbn; [reflexivity|now rewrite Qcplus_0_r].
  - destruct m as [|m]; cbn; [now rewrite Qcplus_0_r|]. apply IH. cbn in L. lia.
Qed.
Theorem C95_increment : forall g no freq r, no < length (counts g) -> rlhs r < length (mass g) ->
  nth_error (rbylhs g) (nth no (revmap g) 0) = Some r ->
  let g' := increment no freq g in
  (forall n, qat (counts g') n = (qat (counts g) n + (if n =? no then freq else 0))%Qc)
  /\ (forall A, qat (mass g') A = (qat (mass g) A + (if A =? rlhs r then freq else 0))%Qc)
  /\ rbylhs g' = rbylhs g /\ model g' = model g /\ logprob g' = logprob g /\ (indexed g -> indexed g').
Proof.
  intros g no freq r L1 L2 E g'. unfold g', increment. rewrite E. cbn.
  split; [intros; now apply addat_nth|]. split; [intros; now apply addat_nth|].
  repeat split; auto.
Qed.
(** ... but selecting the model that is in use, the obvious way to do that, has no
    effect, although the weights are out of date: *)
Definition exg : gram :=
  Gram 1 [PRule 0 1 (true, 1%Qc)] [PRule 0 1 (true, 1%Qc)] [] [] [] [1%Qc] [] [0%Qc; 1%Qc] [0]
    [(str "x"%string, [Q2Qc (1 # 2)])] (str "default"%string) true.
Theorem C95_renormalize_refuted : exists g no freq, indexed g /\ coherent g
  /\ let g1 := increment no freq g in
     switch (model g1) (logprob g1) g1 = Some g1
  /\ forall g2, coherent g2 -> samegrammar g1 g2 -> model g2 = model g1 -> g2 <> g1.
Proof.
  set (h := Gram 2 [PRule 0 1 (true, Q2Qc (1#2)); PRule 1 1 (true, Q2Qc (1#2))] [] [] [] [] [1%Qc; 1%Qc] [] [0%Qc; Q2Qc 2] [0; 1] []
    (str "default"%string) true).
  exists h, 0, 1%Qc. split; [intros r [[]|[[]|[]]]|]. split.
  - split; [|intros [|n] ? ? N; discriminate].
    intros r [[<-|[<-|[]]]|[[]|[[]|[]]]]; (eexists; split; [now constructor|]); refine (f_equal (pair true) _); apply Qc_is_canon; vm_compute; reflexivity.
  - cbv zeta. split; [reflexivity|]. intros g2 [CO _] _ _ ->.
    destruct (CO (PRule 0 1 (true, Q2Qc (1#2)))) as (q & W & E); [left; now left|].
    cbn in E. injection E as E. inversion W as [n A D X1 X2 X3|n A ws D]; [|apply D; reflexivity].
    rewrite <- X3 in E. apply (f_equal this) in E. vm_compute in E. discriminate.
Qed.

(** A concrete case: a grammar with an alternative model; both kinds of switch. *)
Example C95_example : indexed exg /\ coherent exg
  /\ option_map (fun g => map rw (rbylhs g ++ runary g)) (switch (str "x"%string) true exg)
     = Some [(true, Q2Qc (1 # 2)); (true, Q2Qc (1 # 2))]
  /\ exists g', switches [(str "x"%string, false); (str "default"%string, true)] exg = Some g' /\ g' = exg.
Proof.
  assert (IX : indexed exg) by (intros r [[<-|[]]|[[]|[]]]; eexists; repeat split; reflexivity).
  assert (CO : coherent exg).
  { split; [|intros [|n] ? ? N; discriminate].
    intros r [[<-|[]]|[[<-|[]]|[[]|[]]]]; (eexists; split; [now constructor|]); refine (f_equal (pair true) _); apply Qc_is_canon; vm_compute; reflexivity. }
  split; [exact IX|]. split; [exact CO|]. split; [reflexivity|].
  eexists. split; [reflexivity|]. symmetry.
  apply (C95_history exg [] [(str "x"%string, false)] (str "default"%string) true); [exact IX|exact CO|reflexivity|reflexivity].
Qed.
