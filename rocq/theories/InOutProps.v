(** C59: inside and outside probabilities, posterior pruning.
    C60: pruning with k = 0 keeps exactly the items of complete derivations. *)
From Coq Require Import QArith Qcanon List Bool Lia Permutation.
From Verif Require Import InOutModel InOutSpec InOutProofs InOutProofs2.
Import ListNotations.
Open Scope Qc_scope.

(** probability of a derivation when the chart stores plain probabilities: the
    product of the probabilities of its rules *)
Lemma weight_product : forall expneg ch d item, logprob ch = false -> isderiv ch item d ->
  weight (lexvalue expneg ch) d = product (map ruleprob (rules d)).
Proof.
  intros expneg ch d item L. revert item. assert (PA : forall l1 l2, product (l1 ++ l2) = product l1 * product l2).
  { clear. induction l1 as [|x l1 IH]; intros l2; cbn [app product fold_right]; [change (product l2 = 1 * product l2); ring|].
    change (x * product (l1 ++ l2) = x * product l1 * product l2). rewrite IH. ring. }
  induction d as [e|e d IH|e d1 IH1 d2 IH2]; intros item D; cbn [weight rules map].
  - destruct e; cbn in D; try contradiction; cbn [lexvalue ruleprob]; rewrite L.
    + change (p = p * 1). ring.
    + change (v = v * 1). ring.
  - destruct e as [p|v|p l|p l r]; cbn [isderiv] in D; try contradiction. rewrite (IH l (proj2 D)). reflexivity.
  - destruct e as [p|v|p l|p l r]; cbn [isderiv] in D; try contradiction. destruct D as (_ & D1 & D2).
    rewrite map_app. cbn [ruleprob]. change (product (p :: map ruleprob (rules d1) ++ map ruleprob (rules d2))) with (p * product (map ruleprob (rules d1) ++ map ruleprob (rules d2))).
    rewrite PA, (IH1 l D1), (IH2 r D2). ring.
Qed.

(** There are finitely many derivations. *)
Theorem C59_finite : forall ch item, bottomup ch -> exists l, enumerates ch item l.
Proof. intros ch item BU. exists (T ch item). exact (T_enum (fun x => x) ch BU item). Qed.

(** inside = the sum of the probabilities of all derivations of the item *)
Theorem C59_inside : forall expneg ch item l, bottomup ch -> logprob ch = false -> enumerates ch item l ->
  getinside expneg ch item = sum (map (fun d => product (map ruleprob (rules d))) l).
Proof.
  intros expneg ch item l BU L E. rewrite (inside_ok expneg ch BU item l E). apply sum_ext. intros d Hd.
  apply (weight_product expneg ch d item L). now apply (proj2 E).
Qed.
(** the same whatever the probability of lexical edges is taken to be *)
Theorem C59_inside_any : forall expneg ch item l, bottomup ch -> enumerates ch item l ->
  getinside expneg ch item = sum (map (weight (lexvalue expneg ch)) l).
Proof. intros. now apply inside_ok. Qed.

Definition total (l : list deriv) : Qc := sum (map (fun d => product (map ruleprob (rules d))) l).
(** the share of the derivations in which the item occurs *)
Definition with_item (x rt : nat) (l : list deriv) : Qc := total (filter (contains x rt) l).

Lemma sum_filter : forall A (f : A -> Qc) (g : A -> bool) l, sum (map f (filter g l)) = sum (map (fun a => if g a then f a else 0) l).
Proof. induction l as [|a l IH]; auto. cbn [filter map]. rewrite sum_cons, <- IH. destruct (g a); cbn [map]; rewrite ?sum_cons; [reflexivity|ring]. Qed.

(** inside * outside = the sum of the probabilities of the derivations of the
    whole sentence that contain the item *)
Theorem C59_posterior : forall expneg ch cover x l, bottomup ch -> spanned ch cover -> logprob ch = false -> In x (order ch) ->
  enumerates ch (root ch) l ->
  getinside expneg ch x * getoutside expneg ch x = with_item x (root ch) l.
Proof.
  intros expneg ch cover x l BU SP L Hx E. rewrite (inside_outside expneg ch BU x Hx). unfold W.
  rewrite <- (enum_sum expneg ch BU _ _ _ E). unfold with_item, total. rewrite sum_filter. apply sum_ext. intros d Hd. apply (proj2 E) in Hd.
  rewrite (weight_product expneg ch d _ L Hd). rewrite contains_occ.
  pose proof (occ_once ch cover BU SP d (root ch) x Hd) as O1. destruct (occ x (root ch) d) as [|[|n]]; [| |lia].
  - cbn [Nat.eqb negb]. change (ofnat 0) with (0 : Qc). ring.
  - cbn [Nat.eqb negb]. change (ofnat 1) with (1 : Qc). ring.
Qed.
(** without conditions on spans: every occurrence counts *)
Theorem C59_expected : forall expneg ch x l, bottomup ch -> In x (order ch) -> enumerates ch (root ch) l ->
  getinside expneg ch x * getoutside expneg ch x = sum (map (fun d => weight (lexvalue expneg ch) d * ofnat (occ x (root ch) d)) l).
Proof.
  intros expneg ch x l BU Hx E. rewrite (inside_outside expneg ch BU x Hx). unfold W. symmetry. exact (enum_sum expneg ch BU _ _ _ E).
Qed.

Lemma ltb_lt : forall x y, ltb x y = true <-> x < y.
Proof.
  intros x y. unfold ltb. rewrite negb_true_iff. split.
  - intros H. unfold Qclt. apply Qnot_le_lt. intros Q. apply Qle_bool_iff in Q. congruence.
  - intros H. destruct (Qle_bool (this y) (this x)) eqn:E; auto. apply Qle_bool_iff in E. exfalso. apply (Qlt_not_le _ _ H E).
Qed.

(** posteriorthreshold raises exactly when the threshold is not strictly
    between 0 and 1 or the sentence has probability zero; else it returns
    exactly the items whose derivations have more than that share *)
Theorem C59_threshold : forall expneg ch cover k l, bottomup ch -> spanned ch cover -> logprob ch = false -> enumerates ch (root ch) l ->
  match posteriorthreshold expneg ch k with
  | None => ~ (0 < k /\ k < 1) \/ total l = 0
  | Some kept => (0 < k /\ k < 1) /\ total l <> 0 /\
      forall x, In x kept <-> In x (order ch) /\ k * total l < with_item x (root ch) l
  end.
Proof.
  intros expneg ch cover k l BU SP L E. unfold posteriorthreshold.
  assert (ES : getinside expneg ch (root ch) = total l) by now apply C59_inside.
  destruct (ltb 0 k && ltb k 1) eqn:EK; cbn [negb].
  2:{ left. intros [A B]. apply ltb_lt in A, B. rewrite A, B in EK. discriminate. }
  apply andb_prop in EK. destruct EK as [K1 K2]. apply ltb_lt in K1, K2.
  rewrite ES. destruct (Qc_eq_bool (total l) 0) eqn:EZ; [right; now apply Qc_eq_bool_correct|].
  split; [auto|]. split.
  - intros Z. unfold Qc_eq_bool in EZ. rewrite Z in EZ. vm_compute in EZ. discriminate.
  - intros x. rewrite filter_In, ltb_lt. split; intros [Hx H]; split; auto.
    + rewrite <- (C59_posterior expneg ch cover x l); auto.
    + rewrite (C59_posterior expneg ch cover x l); auto.
Qed.

(** Consequently no item of a derivation that has more than the share k of the
    probability of the sentence is pruned. *)
Theorem C59_keeps_probable : forall expneg ch cover k kept l d x, bottomup ch -> spanned ch cover -> logprob ch = false ->
  enumerates ch (root ch) l -> (forall y e, In e (forest ch y) -> 0 <= ruleprob e) ->
  posteriorthreshold expneg ch k = Some kept ->
  isderiv ch (root ch) d -> k * total l < product (map ruleprob (rules d)) ->
  contains x (root ch) d = true -> In x kept.
Proof.
  intros expneg ch cover k kept l d x BU SP L E NN PT D LT C.
  pose proof (C59_threshold expneg ch cover k l BU SP L E) as H. rewrite PT in H. destruct H as (_ & _ & H). apply H. clear H.
  split.
  - apply (reach_order ch BU (root ch) x); [now apply (contains_reach ch x d)|apply BU].
  - eapply Qclt_le_trans; [exact LT|]. unfold with_item, total.
    assert (PN : forall d' y, isderiv ch y d' -> 0 <= product (map ruleprob (rules d'))).
    { clear - NN L. intros d' y D. rewrite <- (weight_product (fun x => x) ch d' y L D). revert y D.
      induction d' as [e|e d IH|e d1 IH1 d2 IH2]; intros y D; destruct e as [p|v|p l|p l r]; cbn [isderiv] in D; try contradiction; cbn [weight lexvalue]; rewrite ?L.
      - exact (NN y _ D).
      - exact (NN y _ D).
      - destruct D as [He D]. replace 0 with (0 * weight (lexvalue (fun x => x) ch) d) by ring. apply Qcmult_le_compat_r; [exact (NN y _ He)|exact (IH l D)].
      - destruct D as (He & D1 & D2). replace 0 with (0 * weight (lexvalue (fun x => x) ch) d2) by ring. apply Qcmult_le_compat_r; [|exact (IH2 r D2)].
        replace 0 with (0 * weight (lexvalue (fun x => x) ch) d1) by ring. apply Qcmult_le_compat_r; [exact (NN y _ He)|exact (IH1 l D1)]. }
    assert (In d (filter (contains x (root ch)) l)) as Hd by (apply filter_In; split; [now apply (proj2 E)|exact C]).
    assert (FN : forall d', In d' (filter (contains x (root ch)) l) -> 0 <= product (map ruleprob (rules d'))).
    { intros d' H'. apply filter_In in H'. apply (PN d' (root ch)). now apply (proj2 E). }
    revert Hd FN. generalize (filter (contains x (root ch)) l). clear. intros ds Hd FN.
    assert (SN : forall ds, (forall d', In d' ds -> 0 <= product (map ruleprob (rules d'))) -> 0 <= sum (map (fun d0 => product (map ruleprob (rules d0))) ds)).
    { clear. induction ds as [|d ds IH]; intros FN; [apply Qcle_refl|]. cbn [map]. rewrite sum_cons. replace (0 : Qc) with (0 + 0) by ring.
      apply Qcplus_le_compat; [apply FN; now left|apply IH; intros; apply FN; now right]. }
    induction ds as [|d' ds IH]; [destruct Hd|]. cbn [map]. rewrite sum_cons. destruct Hd as [->|Hd].
    + rewrite <- (Qcplus_0_r (product (map ruleprob (rules d)))) at 1. apply Qcplus_le_compat; [apply Qcle_refl|]. apply SN. intros; apply FN; now right.
    + rewrite <- (Qcplus_0_l (product (map ruleprob (rules d)))). apply Qcplus_le_compat; [apply FN; now left|]. apply IH; auto. intros; apply FN; now right.
Qed.

(** As called by prunechart the chart still says logprob = True while the
    grammar was switched to plain probabilities: lexprob then returns exp(-p)
    for a lexical rule with probability p.  The inside value of a one-word
    chart is the probability of the rule only if exp(-p) = p. *)
Theorem C59_lexprob_refuted : forall (expneg : Qc -> Qc) p, expneg p <> p ->
  exists ch l, bottomup ch /\ spanned ch (fun _ => [0%nat]) /\ enumerates ch (root ch) l /\
    total l = p /\ getinside expneg ch (root ch) <> total l.
Proof.
  intros expneg p NE. exists {| forest := fun i => if Nat.eqb i 1 then [ELex p] else []; order := [1%nat]; root := 1%nat; logprob := true |}, [DLex (ELex p)].
  split; [|split; [|split; [|split]]].
  - split; [|split; [|split; [|split]]].
    + constructor; [intros []|constructor].
    + now left.
    + intros l1 x l2 e c E He Hc. cbn in He. destruct (Nat.eqb x 1); [|destruct He]. destruct He as [<-|[]]. destruct Hc.
    + intros x. cbn. destruct (Nat.eqb x 1); [constructor; [intros []|constructor]|constructor].
    + intros x Hx. cbn. destruct (Nat.eqb_spec x 1) as [->|]; auto. destruct Hx. now left.
  - intros x e He. cbn in He. destruct (Nat.eqb x 1); [|destruct He]. destruct He as [<-|[]]. split; [intros c []|exact Logic.I].
  - split; [constructor; [intros []|constructor]|]. intros d. split.
    + intros [<-|[]]. cbn. now left.
    + intros H. destruct d as [e|e d|e d1 d2]; destruct e as [q|v|q l|q l r]; cbn in H; try contradiction; try (destruct H as [H|[]]; [left; congruence]); try (destruct H as [H|[]]; discriminate); destruct H as [[H|[]] _]; discriminate.
  - unfold total. cbn [map rules ruleprob]. change (p * 1 + 0 = p). ring.
  - unfold total. cbn [map rules ruleprob]. change (0 + expneg p <> p * 1 + 0). intros H. apply NE. ring_simplify in H. exact H.
Qed.

(** The items must be listed bottom up.  A chart lists items in the order in
    which they were first derived; when A -> B is found before B -> C (B was
    derived before by another rule), a later B edge is still before A, but an
    item listed after its parent loses its probability. *)
Theorem C59_order_refuted : forall expneg, exists ch l, NoDup (order ch) /\ enumerates ch (root ch) l /\ logprob ch = false /\
  (forall x e c, In e (forest ch x) -> In c (children e) -> In c (order ch) /\ c <> x) /\
  total l <> 0 /\ getinside expneg ch (root ch) = 0.
Proof.
  intros expneg. exists {| forest := fun i => if Nat.eqb i 1 then [EUn 1 2] else if Nat.eqb i 2 then [ELex 1] else []; order := [1%nat; 2%nat]; root := 1%nat; logprob := false |},
    [DUn (EUn 1 2) (DLex (ELex 1))].
  split; [|split; [|split; [|split; [|split]]]].
  - repeat constructor; cbn; intuition discriminate.
  - split; [constructor; [intros []|constructor]|]. intros d. split.
    + intros [<-|[]]. cbn. split; now left.
    + intros H. left. destruct d as [e|e d|e d1 d2]; destruct e as [p|v|p l|p l r]; cbn in H; try contradiction; try (destruct H as [H|[]]; discriminate).
      * destruct H as [[H|[]] D]. injection H as <- <-. destruct d as [e|e d|e d1 d2]; destruct e as [p|v|p l|p l r]; cbn in D; try contradiction; try (destruct D as [[D|[]] _]; discriminate); destruct D as [D|[]]; [now injection D as <-|discriminate].
      * destruct H as [[H|[]] _]; discriminate.
  - reflexivity.
  - intros x e c He Hc. cbn in He. destruct (Nat.eqb_spec x 1) as [->|].
    + destruct He as [<-|[]]. destruct Hc as [<-|[]]. split; [right; now left|discriminate].
    + destruct (Nat.eqb x 2); [|destruct He]. destruct He as [<-|[]]. destruct Hc.
  - intros H. vm_compute in H. discriminate H.
  - vm_compute. reflexivity.
Qed.

(** * C60 *)
(** k = 0: an item is kept exactly when it is part of a complete derivation *)
Theorem C60_filter : forall ch x, bottomup ch -> productive ch ->
  (In x (keptitems ch) <-> exists d, isderiv ch (root ch) d /\ contains x (root ch) d = true).
Proof.
  intros ch x BU PR. rewrite (keptitems_ok ch BU). pose proof BU as (_ & HR & _). split.
  - intros [R _]. now apply reach_contains.
  - intros (d & D & C). assert (R : reach ch (root ch) x) by now apply (contains_reach ch x d). split; auto.
    destruct (PR x (reach_order ch BU _ _ R HR)) as (dx & Dx). intros F.
    destruct dx as [e|e dx|e d1 d2]; destruct e; cbn in Dx; try contradiction; rewrite F in Dx; cbn in Dx; tauto.
Qed.
(** ... and the derivations of the sentence are all still there. *)
Theorem C60_derivations : forall ch d, bottomup ch -> (isderiv (chartfilter ch) (root ch) d <-> isderiv ch (root ch) d).
Proof.
  intros ch d BU. assert (SUB : forall x e, In e (forest (chartfilter ch) x) -> In e (forest ch x)).
  { intros x e. cbn [forest chartfilter]. unfold filteredforest. destruct (_ && _); [intros []|auto]. }
  assert (KEEP : forall x, reach ch (root ch) x -> forest (chartfilter ch) x = forest ch x).
  { intros x R. now apply filter_keep. }
  split.
  - generalize (root ch). induction d as [e|e d IH|e d1 IH1 d2 IH2]; intros y D; destruct e as [p|v|p l|p l r]; cbn [isderiv] in D |- *; try contradiction; auto.
    + destruct D. split; auto.
    + destruct D as (? & ? & ?). split; auto.
  - intros D. assert (R : reach ch (root ch) (root ch)) by constructor. revert D R. generalize (root ch) at 1 3 4. clear SUB.
    induction d as [e|e d IH|e d1 IH1 d2 IH2]; intros y D R; destruct e as [p|v|p l|p l r]; cbn [isderiv] in D |- *; try contradiction; try (rewrite (KEEP y R)).
    + exact D.
    + exact D.
    + destruct D as [He D]. split; auto. apply IH; auto. clear - R He. induction R; [eapply reach_edge; [exact He|now left|constructor]|eapply reach_edge; eauto].
    + destruct D as (He & D1 & D2). split; [auto|split].
      * apply IH1; auto. clear - R He. induction R; [eapply reach_edge; [exact He|now left|constructor]|eapply reach_edge; eauto].
      * apply IH2; auto. clear - R He. induction R; [eapply reach_edge; [exact He|right; now left|constructor]|eapply reach_edge; eauto].
Qed.

(** * Examples *)
(** two words; item 1 = A over word 0, 2 = B over word 1, 4 = C over word 0
    (from A), 5 = D over word 1 that leads nowhere, 3 = the root *)
Definition half : Qc := Q2Qc (1 # 2).
Definition quarter : Qc := Q2Qc (1 # 4).
Definition ex_forest (i : nat) : list edge :=
  match i with
  | 1%nat => [ELex half] | 2%nat => [ELex 1] | 4%nat => [EUn half 1] | 5%nat => [EUn 1 2]
  | 3%nat => [EBin half 1 2; EBin half 4 2] | _ => [] end.
Definition ex_chart : chart := {| forest := ex_forest; order := [1; 2; 4; 5; 3]%nat; root := 3%nat; logprob := false |}.
Definition ex_cover (i : nat) : list nat := match i with 1%nat => [0%nat] | 2%nat => [1%nat] | 4%nat => [0%nat] | 5%nat => [1%nat] | _ => [0; 1]%nat end.
Example C59_ex_bottomup : bottomup ex_chart /\ spanned ex_chart ex_cover /\ productive ex_chart.
Proof.
  assert (PR : productive ex_chart).
  { intros x [<-|[<-|[<-|[<-|[<-|[]]]]]].
    - exists (DLex (ELex half)). now left.
    - exists (DLex (ELex 1)). now left.
    - exists (DUn (EUn half 1) (DLex (ELex half))). split; now left.
    - exists (DUn (EUn 1 2) (DLex (ELex 1))). split; now left.
    - exists (DBin (EBin half 1 2) (DLex (ELex half)) (DLex (ELex 1))). split; [now left|split; now left]. }
  split; [split; [|split; [|split; [|split]]]|split; [|exact PR]].
  - repeat constructor; cbn; intuition discriminate.
  - cbn. tauto.
  - intros l1 x l2 e c E He Hc. cbn [order ex_chart] in E.
    destruct l1 as [|a [|a1 [|a2 [|a3 [|a4 [|a5 l1]]]]]]; cbn [app] in E; injection E; intros; subst; try discriminate; cbn in He; repeat (destruct He as [<-|He]); try contradiction; cbn in Hc; repeat (destruct Hc as [<-|Hc]); try contradiction; cbn; auto; try (destruct l1; discriminate).
  - intros x. destruct x as [|[|[|[|[|[|x]]]]]]; cbn; repeat constructor; cbn; intuition discriminate.
  - intros x Hx. destruct x as [|[|[|[|[|[|x]]]]]]; try reflexivity; exfalso; apply Hx; cbn; tauto.
  - intros x e He. destruct x as [|[|[|[|[|[|x]]]]]]; cbn in He; repeat (destruct He as [<-|He]); try contradiction; (split; [intros c Hc; cbn in Hc; repeat (destruct Hc as [<-|Hc]); try contradiction; (split; [discriminate|]); intros i Hi; cbn in *; tauto|try exact Logic.I]).
    + intros i [<-|[]] [H|[]]. discriminate.
    + intros i [<-|[]] [H|[]]. discriminate.
Qed.
(** inside of the root 3/8; item 4 has posterior 1/3, item 1 has 1 *)
Example C59_ex : getinside (fun x => x) ex_chart 3 = Q2Qc (3 # 8) /\
  getinside (fun x => x) ex_chart 4 * getoutside (fun x => x) ex_chart 4 = Q2Qc (1 # 8) /\
  posteriorthreshold (fun x => x) ex_chart half = Some [1; 2; 3]%nat /\
  posteriorthreshold (fun x => x) ex_chart quarter = Some [1; 2; 4; 3]%nat /\
  posteriorthreshold (fun x => x) ex_chart 1 = None /\ keptitems ex_chart = [1; 2; 4; 3]%nat.
Proof. split; [apply Qc_is_canon; vm_compute; reflexivity|]. split; [apply Qc_is_canon; vm_compute; reflexivity|]. vm_compute. auto. Qed.
