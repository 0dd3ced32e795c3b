(** The correctness of Goodman's reduction for an abstract list of annotated
    nodes: label, label with address, word or yield function, children. *)
From Coq Require Import String.
From Coq Require Import List Bool Arith NArith ZArith QArith Qcanon Permutation Lia.
From Verif Require Import PyStr TreeModel BracketModel LcfrsModel TreebankModel DopModel DopSpec DopProofs.
Import ListNotations.
Open Scope list_scope.
Open Scope nat_scope.

Lemma Forall2_impl' : forall X Y (R S : X -> Y -> Prop), (forall x y, R x y -> S x y) -> forall a b, Forall2 R a b -> Forall2 S a b.
Proof. intros X Y R S' H a b F. induction F; constructor; auto. Qed.
Lemma forall2_map_r : forall X Y Z (R : X -> Z -> Prop) (h : Y -> Z) a b, Forall2 R a (map h b) <-> Forall2 (fun x y => R x (h y)) a b.
Proof.
  intros X Y Z R h a b. split; revert a; induction b as [|y b IH]; intros a H; inversion H; subst; constructor; auto.
Qed.
Definition tree_dec {L A} (ldec : forall a b : L, {a = b} + {a <> b}) (adec : forall a b : A, {a = b} + {a <> b}) : forall a b : tree L A, {a = b} + {a <> b}.
Proof.
  fix IH 1. intros [x|l ts] [y|m us].
  - destruct (adec x y); [left; congruence|right; congruence].
  - right; discriminate.
  - right; discriminate.
  - destruct (ldec l m); [|right; congruence].
    assert (H : {ts = us} + {ts <> us}).
    { revert us. induction ts as [|t ts IHts]; intros [|u us]; [now left|right; discriminate|right; discriminate|].
      destruct (IH t u); [|right; congruence]. destruct (IHts us); [left; congruence|right; congruence]. }
    destruct H; [left; congruence|right; congruence].
Defined.
Definition pvar_dec (a b : pvar) : {a = b} + {a <> b}.
Proof. destruct (pvar_eqb a b) eqn:E; [left; now apply pvar_eqb_eq|right; intros F; apply pvar_eqb_eq in F; congruence]. Defined.
Definition node_dec (a b : pystr * pvar) : {a = b} + {a <> b}.
Proof. destruct a as [l v], b as [m w]. destruct (eqs_dec l m), (pvar_dec v w); [left|right|right|right]; congruence. Defined.
Definition fragment_dec : forall a b : fragment, {a = b} + {a <> b} := tree_dec node_dec eqs_dec.

Definition atree := tree (pystr * pystr * pvar) Empty_set.
Definition apl (v : atree) : pystr := match v with Node (p, _, _) _ => p | Leaf e => match e with end end.
Definition adec (v : atree) : pystr := match v with Node (_, d, _) _ => d | Leaf e => match e with end end.
Definition ainf (v : atree) : pvar := match v with Node (_, _, i) _ => i | Leaf e => match e with end end.
Definition akids (v : atree) : list atree := match v with Node _ ks => ks | Leaf _ => [] end.
Fixpoint nf (v : atree) : N := match v with Leaf _ => 0%N | Node _ ks => nprod (map (fun k => (nf k + 1)%N) ks) end.
Fixpoint afrags (v : atree) : list fragment :=
  match v with
  | Leaf _ => []
  | Node (p, _, i) ks => map (Node (p, i)) (cart (map (fun k => Leaf (apl k) :: afrags k) ks))
  end.
Definition kidfrag (f : fragment) (k : atree) : Prop := f = Leaf (apl k) \/ In f (afrags k).

Lemma afrags_eta : forall v, afrags v = map (Node (apl v, ainf v)) (cart (map (fun k => Leaf (apl k) :: afrags k) (akids v))).
Proof. intros [[]|[[p d] i] ks]. reflexivity. Qed.
Lemma nf_eta : forall v, nf v = nprod (map (fun k => (nf k + 1)%N) (akids v)).
Proof. intros [[]|[[p d] i] ks]. reflexivity. Qed.
Lemma afrags_in : forall v f, In f (afrags v) <-> exists fs, f = Node (apl v, ainf v) fs /\ Forall2 kidfrag fs (akids v).
Proof.
  intros v f. rewrite afrags_eta, in_map_iff. split; intros (fs & A & B); exists fs.
  - split; auto. apply cart_in in B. apply (proj1 (forall2_map_r _ _ _ _ _ _ _)) in B. eapply Forall2_impl'; [|exact B]. intros f' k [H|H]; [left; auto|right; auto].
  - split; auto. apply cart_in, (proj2 (forall2_map_r _ _ _ _ _ _ _)). eapply Forall2_impl'; [|exact B]. intros f' k [H|H]; [left; auto|right; auto].
Qed.
Lemma afrags_node : forall v f, In f (afrags v) -> exists x fs, f = Node x fs.
Proof. intros v f H. apply afrags_in in H. destruct H as (fs & -> & _). eauto. Qed.
Lemma afrags_nodup : forall v, NoDup (afrags v).
Proof.
  induction v as [[]|[[p d] i] ks IH] using tree_ind'. rewrite afrags_eta. apply FinFun.Injective_map_NoDup; [intros a b E; now injection E|].
  apply cart_nodup. cbn [akids]. rewrite Forall_map. eapply Forall_impl; [|exact IH]. intros k Hk. constructor; auto. intros F. apply afrags_node in F. destruct F as (x & fs & F). discriminate.
Qed.
Lemma afrags_length : forall v, N.of_nat (length (afrags v)) = nf v.
Proof.
  induction v as [[]|[[p d] i] ks IH] using tree_ind'. rewrite afrags_eta, map_length, cart_length, map_map. cbn [akids nf]. f_equal. apply map_ext_in. intros k Hk.
  rewrite Forall_forall in IH. cbn [length]. rewrite <- (IH k Hk), Nat2N.inj_succ. symmetry. apply N.add_1_r.
Qed.
Lemma nprod_pos : forall l, Forall (fun x => x <> 0%N) l -> nprod l <> 0%N.
Proof. induction 1 as [|x l H F IH]; [discriminate|]. rewrite nprod_cons. intros E. apply N.eq_mul_0 in E. tauto. Qed.
Lemma nf_pos : forall v, nf v <> 0%N.
Proof. intros v. rewrite nf_eta. apply nprod_pos. apply Forall_map. apply Forall_forall. intros k _. lia. Qed.
Lemma nsum_filter : forall X (p : X -> bool) (f : X -> N) l, nsum (map f (filter p l)) = nsum (map (fun x => if p x then f x else 0%N) l).
Proof. induction l; cbn [filter map]; [reflexivity|]. rewrite nsum_cons, <- IHl. destruct (p a); cbn [map]; rewrite ?nsum_cons; lia. Qed.

Lemma strip_plain : forall s, addressed s = false -> strip s = s.
Proof.
  unfold addressed. induction s as [|c s IH]; intros A; auto. cbn [existsb] in A. apply orb_false_iff in A. destruct A as [A B]. cbn [strip]. rewrite N.eqb_sym, A. now rewrite IH.
Qed.
Lemma weight_map : forall (G : list (rule * N)) (h : rule * N -> N) r n, NoDup (map fst G) -> In (r, n) G -> weight (map (fun rf => (fst rf, h rf)) G) r = h (r, n).
Proof.
  intros G h r n ND H. unfold weight. change (fold_right N.add 0%N) with nsum. induction G as [|[q m] G' IH]; [destruct H|]. cbn [map fst] in ND. inversion ND as [|? ? N1 N2]; subst.
  cbn [map filter fst]. destruct H as [H|H].
  - injection H as -> ->. rewrite (proj2 (rule_eqb_eq r r) eq_refl). cbn [map snd]. rewrite nsum_cons. assert (Z : filter (fun rw : rule * N => rule_eqb (fst rw) r) (map (fun rf : rule * N => (fst rf, h rf)) G') = []).
    { clear - N1. induction G' as [|[q k] G' IH]; auto. cbn [map filter fst]. cbn [map fst] in N1. destruct (rule_eqb q r) eqn:E; [apply rule_eqb_eq in E; subst; exfalso; apply N1; now left|]. apply IH. intros F. apply N1. now right. }
    rewrite Z. cbn [map nsum fold_right]. apply N.add_0_r.
  - destruct (rule_eqb q r) eqn:E; [|now apply IH]. apply rule_eqb_eq in E. subst. exfalso. apply N1. apply in_map_iff. exists (r, n). auto.
Qed.
Definition eps : pystr := str "Epsilon".
Section Goodman.
Variable vs : list atree.
Variable fd : dict.
Hypothesis closed : forall v k, In v vs -> In k (akids v) -> In k vs.
Hypothesis kid_addr : forall v k, In v vs -> In k (akids v) -> addressed (adec k) = true.
Hypothesis plainok : forall v, In v vs -> addressed (apl v) = false.
Hypothesis decok : forall v, In v vs -> adec v = apl v \/ (addressed (adec v) = true /\ strip (adec v) = apl v).
Hypothesis shared : forall u v, In u vs -> In v vs -> adec u = adec v -> addressed (adec u) = true -> u = v.
Hypothesis wordok : forall v w, In v vs -> ainf v = PWord w -> akids v = [].
Hypothesis fd_dec : forall v, In v vs -> addressed (adec v) = true -> fd (adec v) = nf v.

Definition opt (v : atree) : list pystr := options (apl v) (adec v).
Definition kidsyms (v : atree) : list (list pystr) := match ainf v with PWord _ => [[eps]] | PYf _ => map opt (akids v) end.
Definition rulesv (v : atree) : list rule := map (fun c => (c, ainf v)) (cart (opt v :: kidsyms v)).
Definition RS : list rule := flat_map rulesv vs.
Variable G : list (rule * N).
Hypothesis tally : tallies G RS.
Definition g : list (rule * N) := map (fun rf => (fst rf, rfe_of fd rf)) G.

Definition w1 (z : pystr) : N := if addressed z then fd z else 1%N.
Lemma w1_filter : forall c, nprod (map fd (filter addressed c)) = nprod (map w1 c).
Proof. induction c; cbn [filter map]; [reflexivity|]. unfold w1 at 1. destruct (addressed a); cbn [map]; rewrite !nprod_cons, IHc; [reflexivity|]. now rewrite N.mul_1_l. Qed.
Lemma rfe_eq : forall x c i n, rfe_of fd ((x :: c, i), n) = ((if addressed x then 1 else n) * nprod (map w1 c))%N.
Proof. intros. unfold rfe_of, lhs. cbn [fst hd tl]. now rewrite fold_mul, w1_filter. Qed.
Lemma opt_in : forall v x, In v vs -> (In x (opt v) <-> x = apl v \/ x = adec v).
Proof.
  intros v x Hv. unfold opt, options. destruct (eqs (apl v) (adec v)) eqn:E; cbn; [apply eqs_eq in E; rewrite <- E|]; split; intuition.
Qed.
Lemma opt_kid : forall k, In k vs -> addressed (adec k) = true -> opt k = [apl k; adec k].
Proof. intros k Hk A. unfold opt, options. destruct (eqs (apl k) (adec k)) eqn:E; auto. apply eqs_eq in E. rewrite <- E, plainok in A by auto. discriminate. Qed.
Lemma opt_nodup : forall v, NoDup (opt v).
Proof. intros v. unfold opt, options. destruct (eqs (apl v) (adec v)) eqn:E; repeat constructor; auto. intros [F|[]]. apply eqs_neq in E. congruence. Qed.
Lemma opt_strip : forall v x, In v vs -> In x (opt v) -> strip x = apl v.
Proof.
  intros v x Hv H. assert (S0 : strip (apl v) = apl v) by (apply strip_plain, plainok; auto).
  apply opt_in in H; auto. destruct H as [->| ->]; auto. destruct (decok v Hv) as [E|[_ E]]; auto. now rewrite E.
Qed.
Lemma kidsyms_nodup : forall v, Forall (@NoDup _) (kidsyms v).
Proof. intros v. unfold kidsyms. destruct (ainf v); [repeat constructor; intros []|]. apply Forall_map, Forall_forall. intros k _. apply opt_nodup. Qed.
Lemma rulesv_nodup : forall v, NoDup (rulesv v).
Proof. intros v. unfold rulesv. apply FinFun.Injective_map_NoDup; [intros a b E; now injection E|]. apply cart_nodup. constructor; [apply opt_nodup|apply kidsyms_nodup]. Qed.
Lemma rulesv_in : forall v r, In r (rulesv v) <-> exists x c, r = (x :: c, ainf v) /\ In x (opt v) /\ In c (cart (kidsyms v)).
Proof.
  intros v r. unfold rulesv. rewrite in_map_iff. split.
  - intros (c & <- & H). apply cart_in in H. inversion H as [|x o c' os Hx Hc]; subst. exists x, c'. repeat split; auto. now apply cart_in.
  - intros (x & c & -> & Hx & Hc). exists (x :: c). split; auto. apply cart_in. constructor; auto. now apply cart_in.
Qed.
Lemma kidsyms_sum : forall v, In v vs -> nsum (map (fun c => nprod (map w1 c)) (cart (kidsyms v))) = nf v.
Proof.
  intros v Hv. rewrite cart_sum, nf_eta. unfold kidsyms. destruct (ainf v) as [w|yf] eqn:E.
  - rewrite (wordok v w Hv E). reflexivity.
  - rewrite map_map. f_equal. apply map_ext_in. intros k Hk. rewrite opt_kid by eauto. cbn [map]. rewrite !nsum_cons. unfold w1 at 1 2. rewrite (plainok k) by eauto. rewrite (kid_addr v k), fd_dec by eauto. cbn [nsum fold_right]. lia.
Qed.
Lemma in_g : forall r, In r (map fst g) <-> In r RS.
Proof. intros r. unfold g. rewrite map_map. cbn [fst]. rewrite (map_ext _ fst) by auto. apply tally. Qed.
Lemma in_RS : forall r, In r RS <-> exists v x c, In v vs /\ r = (x :: c, ainf v) /\ In x (opt v) /\ In c (cart (kidsyms v)).
Proof.
  intros r. unfold RS. rewrite in_flat_map. split.
  - intros (v & Hv & H). apply rulesv_in in H. destruct H as (x & c & H). exists v, x, c. tauto.
  - intros (v & x & c & Hv & H). exists v. split; auto. apply rulesv_in. eauto.
Qed.
Lemma mass_eq : forall X, mass g X = nsum (map (fun rf => if eqs (lhs (fst rf)) X then rfe_of fd rf else 0%N) G).
Proof. intros X. unfold mass, g. fold nsum. change (fold_right N.add 0%N) with nsum. rewrite nsum_filter, map_map. reflexivity. Qed.
Lemma opt_addr : forall v x, In v vs -> In x (opt v) -> addressed x = true -> x = adec v.
Proof. intros v x Hv H A. apply opt_in in H; auto. destruct H as [->|]; auto. rewrite plainok in A; auto. discriminate. Qed.
Lemma opt_plain : forall v x, In v vs -> In x (opt v) -> addressed x = false -> x = apl v.
Proof. intros v x Hv H A. apply opt_in in H; auto. destruct H as [| ->]; auto. destruct (decok v Hv) as [|[E _]]; auto. congruence. Qed.

Lemma mass_addr : forall v, In v vs -> addressed (adec v) = true -> mass g (adec v) = nf v.
Proof.
  intros v Hv A. rewrite mass_eq. destruct tally as (ND & IN & CNT).
  transitivity (nsum (map (fun r => if eqs (lhs r) (adec v) then nprod (map w1 (tl (fst r))) else 0%N) (map fst G))).
  - rewrite map_map. apply nsum_ext. intros [r n] H. cbn [fst]. destruct (eqs (lhs r) (adec v)) eqn:E; auto. apply eqs_eq in E.
    assert (Hr : In r RS) by (apply IN; apply in_map_iff; exists (r, n); auto). apply in_RS in Hr. destruct Hr as (u & x & c & Hu & -> & Hx & Hc). cbn in E. subst x.
    rewrite rfe_eq, A. cbn [fst tl]. apply N.mul_1_l.
  - rewrite <- nsum_filter. rewrite (nsum_perm _ (map (fun r => nprod (map w1 (tl (fst r)))) (map (fun c => (adec v :: c, ainf v)) (cart (kidsyms v))))).
    + rewrite map_map. cbn [fst tl]. now apply kidsyms_sum.
    + apply Permutation_map. apply NoDup_Permutation.
      * now apply NoDup_filter.
      * apply FinFun.Injective_map_NoDup; [intros a b E; now injection E|apply cart_nodup, kidsyms_nodup].
      * intros r. rewrite filter_In, IN, in_RS, in_map_iff. split.
        -- intros [(u & x & c & Hu & -> & Hx & Hc) E]. apply eqs_eq in E. cbn in E. subst x. apply opt_addr in Hx; auto. assert (u = v) by (apply shared; auto; congruence). subst u. exists c. auto.
        -- intros (c & <- & Hc). split; [|apply eqs_refl]. exists v, (adec v), c. repeat split; auto. apply opt_in; auto.
Qed.
Lemma mass_plain : forall A, addressed A = false -> mass g A = nsum (map nf (filter (fun v => eqs (apl v) A) vs)).
Proof.
  intros A HA. rewrite mass_eq. destruct tally as (ND & IN & CNT).
  set (W := fun r : rule => if eqs (lhs r) A then nprod (map w1 (tl (fst r))) else 0%N).
  transitivity (nsum (map (fun r => (N.of_nat (count_occ rule_dec RS r) * W r)%N) (map fst G))).
  - rewrite map_map. apply nsum_ext. intros [r n] H. cbn [fst]. unfold W. destruct (eqs (lhs r) A) eqn:E; [|now rewrite N.mul_0_r]. apply eqs_eq in E.
    assert (Hr : In r RS) by (apply IN; apply in_map_iff; exists (r, n); auto). rewrite <- (CNT r n H). apply in_RS in Hr. destruct Hr as (u & x & c & Hu & -> & Hx & Hc). cbn in E. subst x.
    rewrite rfe_eq, HA. reflexivity.
  - rewrite nsum_count; auto; [|intros r Hr; now apply IN]. unfold RS. rewrite nsum_flat_map, nsum_filter. apply nsum_ext. intros v Hv.
    unfold rulesv. cbn [cart]. rewrite map_map, nsum_flat_map.
    assert (X : forall x, nsum (map (fun c => W (c, ainf v)) (map (cons x) (cart (kidsyms v)))) = if eqs x A then nf v else 0%N).
    { intros x. rewrite map_map. unfold W, lhs. cbn [fst hd tl]. destruct (eqs x A); [now apply kidsyms_sum|]. induction (cart (kidsyms v)); cbn [map]; [reflexivity|]. now rewrite nsum_cons, IHl. }
    rewrite (nsum_ext _ _ (fun x => if eqs x A then nf v else 0%N)) by (intros; apply X). unfold opt, options. destruct (eqs (apl v) (adec v)) eqn:E; cbn [map].
    + rewrite !nsum_cons. cbn [nsum fold_right]. lia.
    + rewrite !nsum_cons. cbn [nsum fold_right]. assert (eqs (adec v) A = false) as ->; [|lia]. apply eqs_neq. intros F. destruct (decok v Hv) as [D|[D _]]; [apply eqs_neq in E; congruence|congruence].
Qed.
Lemma weight_eq : forall r n, In (r, n) G -> weight g r = rfe_of fd (r, n).
Proof. intros r n H. apply (weight_map G (rfe_of fd)); auto. apply tally. Qed.

Definition kidrel (z : pystr) (d : deriv) : Prop := addressed z = true /\ derivation g z d \/ addressed z = false /\ d = Leaf z.
Lemma derivation_inv : forall X d, derivation g X d -> exists v c ds, In v vs /\ In X (opt v) /\ In c (cart (kidsyms v)) /\ d = Node (X :: c, ainf v) ds /\ Forall2 kidrel (symbols (X :: c, ainf v)) ds.
Proof.
  intros X d H. inversion H as [r ds Hr F]; subst. apply in_g in Hr. apply in_RS in Hr. destruct Hr as (v & x & c & Hv & -> & Hx & Hc). exists v, c, ds. repeat split; auto.
Qed.
(** the choices at the children of a node *)
Lemma choices : forall v c X ds, In v vs -> In c (cart (kidsyms v)) -> Forall2 kidrel (symbols (X :: c, ainf v)) ds ->
  (exists w, ainf v = PWord w /\ c = [eps] /\ ds = [] /\ akids v = []) \/ (exists yf, ainf v = PYf yf /\ Forall2 (fun z k => In z (opt k)) c (akids v) /\ Forall2 kidrel c ds).
Proof.
  intros v c X ds Hv Hc F. unfold symbols in F. cbn [snd fst tl] in F. unfold kidsyms in Hc. apply cart_in in Hc. destruct (ainf v) as [w|yf] eqn:E.
  - left. exists w. inversion F; subst. inversion Hc as [|z o c' os Hz Hc']; subst. inversion Hc'; subst. destruct Hz as [<-|[]]. rewrite (wordok v w) by auto. auto.
  - right. exists yf. split; auto. split; auto. now apply (proj1 (forall2_map_r _ _ _ _ _ _ _)) in Hc.
Qed.
Lemma sound : forall d X, derivation g X d -> exists v c ds, In v vs /\ In X (opt v) /\ In c (cart (kidsyms v)) /\ d = Node (X :: c, ainf v) ds /\ In (erase d) (afrags v) /\
  (fold_right Qcmult 1 (map (prob g) ds) * Nq (nprod (map w1 c)) = 1)%Qc /\ (addressed X = true -> prob g d * Nq (nf v) = 1)%Qc.
Proof.
  induction d as [z|r ds IH] using tree_ind'; intros X H; [inversion H|]. destruct (derivation_inv _ _ H) as (v & c & ds' & Hv & HX & Hc & E & F). injection E as -> <-.
  assert (M : Forall2 kidfrag (map erase ds) (akids v) /\ (fold_right Qcmult 1 (map (prob g) ds) * Nq (nprod (map w1 c)) = 1)%Qc).
  { destruct (choices _ _ _ _ Hv Hc F) as [(w & Ei & -> & -> & Ek)|(yf & Ei & Fc & Fd)].
    - rewrite Ek. split; [constructor|]. reflexivity.
    - assert (KV : forall k, In k (akids v) -> In k vs /\ addressed (adec k) = true) by (intros k Hk; split; eauto). clear - IH Fc Fd KV decok plainok shared fd_dec. revert ds IH Fd. induction Fc as [|z k c ks Hz Fc IHc]; intros ds IH Fd; inversion Fd as [|? d ? ds' Hd Fd']; subst; [split; [constructor|reflexivity]|].
      inversion IH as [|? ? I1 I2]; subst. destruct (IHc (fun k' Hk' => KV k' (or_intror Hk')) ds' I2 Fd') as [R1 R2]. destruct (KV k (or_introl eq_refl)) as [Hk Ak]. cbn [map fold_right]. rewrite nprod_cons, Nq_mul. destruct Hd as [[A D]|[A ->]].
      + pose proof (opt_addr k z Hk Hz A) as ->. destruct (I1 _ D) as (u & c' & ds2 & Hu & HX & _ & _ & Er & _ & P). pose proof (opt_addr u _ Hu HX A) as E. assert (k = u) by (apply shared; auto). subst u.
        specialize (P A). split; [constructor; auto; now right|]. unfold w1 at 1. rewrite A, fd_dec by auto. transitivity ((prob g d * Nq (nf k)) * (fold_right Qcmult 1 (map (prob g) ds') * Nq (nprod (map w1 c))))%Qc; [ring|]. rewrite P, R2. ring.
      + pose proof (opt_plain k z Hk Hz A) as ->. split; [constructor; auto; now left|]. cbn [prob]. unfold w1 at 1. rewrite A. change (Nq 1) with 1%Qc. transitivity (fold_right Qcmult 1 (map (prob g) ds') * Nq (nprod (map w1 c)))%Qc; [ring|exact R2]. }
  destruct M as [M1 M2]. exists v, c, ds. repeat split; auto.
  - cbn [erase]. apply afrags_in. exists (map erase ds). split; auto. cbn [lhs fst hd snd]. now rewrite (opt_strip v X).
  - intros A. pose proof (opt_addr v X Hv HX A) as ->. cbn [prob]. unfold ruleprob. cbn [lhs fst hd]. rewrite mass_addr by auto.
    assert (R : In (adec v :: c, ainf v) RS) by (apply in_RS; exists v, (adec v), c; auto). destruct tally as (ND & IN & CNT). apply IN in R. apply in_map_iff in R. destruct R as ([r n] & E & R). cbn in E. subst r.
    rewrite (weight_eq _ _ R), rfe_eq, A, N.mul_1_l. pose proof (Nq_neq0 _ (nf_pos v)) as NZ. unfold Qcdiv.
    transitivity ((fold_right Qcmult 1 (map (prob g) ds) * Nq (nprod (map w1 c))) * (Nq (nf v) * / Nq (nf v)))%Qc; [ring|]. rewrite M2, Qcmult_inv_r by auto. ring.
Qed.
(** same choice at the root (tree node and left-hand side) and same fragment: same derivation *)
Lemma unique : forall d d' v X c c' ds ds', In v vs -> In c (cart (kidsyms v)) -> In c' (cart (kidsyms v)) ->
  d = Node (X :: c, ainf v) ds -> d' = Node (X :: c', ainf v) ds' -> derivation g X d -> derivation g X d' -> erase d = erase d' -> d = d'.
Proof.
  induction d as [z|r ds0 IH] using tree_ind'; intros d' v X c c' ds ds' Hv Hc Hc' E E' D D' Er; [discriminate|]. injection E as -> ->. subst d'.
  assert (F1 : Forall2 kidrel (symbols (X :: c, ainf v)) ds) by (inversion D; auto). assert (F2 : Forall2 kidrel (symbols (X :: c', ainf v)) ds') by (inversion D'; auto). cbn [erase] in Er. injection Er as Er.
  destruct (choices _ _ _ _ Hv Hc F1) as [(w & Ei & Ec & Ed & Ek)|(yf & Ei & Fc & Fd)].
  - destruct (choices _ _ _ _ Hv Hc' F2) as [(w' & _ & Ec' & Ed' & _)|(yf & F & _)]; [|congruence]. subst. reflexivity.
  - destruct (choices _ _ _ _ Hv Hc' F2) as [(w' & F & _)|(yf' & _ & Fc' & Fd')]; [congruence|].
    assert (KV : forall k, In k (akids v) -> In k vs /\ addressed (adec k) = true) by (intros k Hk; split; eauto).
    assert (M : c = c' /\ ds = ds'); [|destruct M; subst; reflexivity]. clear - IH Fc Fc' Fd Fd' KV Er decok plainok shared wordok tally.
    revert c' ds ds' IH Fc' Fd Fd' Er. induction Fc as [|z k c ks Hz Fc IHc]; intros c' ds ds' IH Fc' Fd Fd' Er; inversion Fc' as [|z' ? c2 ? Hz' Fc2]; subst; inversion Fd as [|? d ? ds1 Hd Fd1]; subst; inversion Fd' as [|? d' ? ds2 Hd' Fd2]; subst; auto.
    cbn [map] in Er. injection Er as Ed Er. inversion IH as [|? ? I1 I2]; subst. destruct (IHc (fun k' Hk' => KV k' (or_intror Hk')) c2 ds1 ds2 I2 Fc2 Fd1 Fd2 Er) as [-> ->].
    destruct (KV k (or_introl eq_refl)) as [Hk Ak]. destruct Hd as [[A D]|[A ->]], Hd' as [[A' D']|[A' ->]].
    + pose proof (opt_addr k z Hk Hz A) as ->. pose proof (opt_addr k z' Hk Hz' A') as ->. split; auto. f_equal.
      destruct (derivation_inv _ _ D) as (u & b & es & Hu & HX & Hb & -> & _). destruct (derivation_inv _ _ D') as (u' & b' & es' & Hu' & HX' & Hb' & -> & _).
      assert (u = k) by (apply shared; auto; rewrite <- (opt_addr u _ Hu HX A); auto). assert (u' = k) by (apply shared; auto; rewrite <- (opt_addr u' _ Hu' HX' A); auto). subst u u'.
      eapply (I1 _ k); eauto.
    + exfalso. inversion D; subst. cbn in Ed. discriminate.
    + exfalso. inversion D'; subst. cbn in Ed. discriminate.
    + pose proof (opt_plain k z Hk Hz A) as ->. pose proof (opt_plain k z' Hk Hz' A') as ->. auto.
Qed.
Lemma complete : forall v f X, In v vs -> In f (afrags v) -> In X (opt v) -> exists c ds, In c (cart (kidsyms v)) /\ derivation g X (Node (X :: c, ainf v) ds) /\ erase (Node (X :: c, ainf v) ds) = f.
Proof.
  induction v as [[]|[[p d] i] ks IH] using tree_ind'; intros f X Hv Hf HX. set (v := Node (p, d, i) ks) in *. apply afrags_in in Hf. destruct Hf as (fs & -> & F).
  assert (KV : forall k, In k ks -> In k vs /\ addressed (adec k) = true) by (intros k Hk; split; eauto). change (akids v) with ks in F.
  assert (M : exists c ds, Forall2 (fun z k => In z (opt k)) c ks /\ Forall2 kidrel c ds /\ map erase ds = fs).
  { clear - F IH KV tally closed kid_addr plainok decok shared wordok fd_dec. induction F as [|f k fs ks Hf F IHF]; [exists [], []; repeat split; constructor|]. inversion IH as [|? ? I1 I2]; subst.
    destruct (IHF I2 (fun k' Hk' => KV k' (or_intror Hk'))) as (c & ds & A & B & C). destruct (KV k (or_introl eq_refl)) as [Hk Ak]. destruct Hf as [->|Hf].
    - exists (apl k :: c), (Leaf (apl k) :: ds). repeat split; [constructor; auto; apply opt_in; auto|constructor; auto; right; split; auto|cbn [map erase]; congruence].
    - destruct (I1 f (adec k) Hk Hf) as (b & es & _ & D & E); [apply opt_in; auto|]. exists (adec k :: c), (Node (adec k :: b, ainf k) es :: ds).
      repeat split; [constructor; auto; apply opt_in; auto|constructor; auto; left; split; auto|cbn [map]; now rewrite E, C]. }
  destruct M as (c & ds & A & B & C).
  assert (KS : exists c0, In c0 (cart (kidsyms v)) /\ symbols (X :: c0, ainf v) = c).
  { unfold kidsyms, symbols. cbn [snd fst tl]. destruct (ainf v) as [w|yf] eqn:E.
    - pose proof (wordok v w Hv E) as Ek. cbn in Ek. subst ks. inversion A; subst. exists [eps]. split; [cbn; auto|reflexivity].
    - exists c. split; auto. apply cart_in, (proj2 (forall2_map_r _ _ _ _ _ _ _)). exact A. }
  destruct KS as (c0 & H0 & S0). exists c0, ds. split; auto. split.
  - change X with (lhs (X :: c0, ainf v)) at 1. constructor.
    + apply in_g, in_RS. exists v, X, c0. auto.
    + rewrite S0. exact B.
  - cbn [erase]. cbn [lhs fst hd snd]. rewrite (opt_strip v X Hv HX). now rewrite C.
Qed.

Definition root (d : deriv) : rule := match d with Node r _ => r | Leaf _ => ([], PYf []) end.
Lemma nsum_zero : forall X (h : X -> N) l, (forall x, In x l -> h x = 0%N) -> nsum (map h l) = 0%N.
Proof. induction l; intros H; cbn [map]; [reflexivity|]. rewrite nsum_cons, H by now left. rewrite IHl; auto. intros; apply H; now right. Qed.
Lemma nsum_one : forall X (h : X -> N) l x0, NoDup l -> In x0 l -> h x0 = 1%N -> (forall x, In x l -> x <> x0 -> h x = 0%N) -> nsum (map h l) = 1%N.
Proof.
  induction l as [|x l IH]; intros x0 ND H0 H1 H; [destruct H0|]. inversion ND; subst. cbn [map]. rewrite nsum_cons. destruct H0 as [->|H0].
  - rewrite H1, nsum_zero; [reflexivity|]. intros y Hy. apply H; [now right|]. intros ->. contradiction.
  - rewrite (H x); [|now left|intros ->; contradiction]. rewrite (IH x0); auto. intros y Hy. apply H. now right.
Qed.
Lemma nsum_plus : forall X (f h : X -> N) l, nsum (map (fun x => (f x + h x)%N) l) = (nsum (map f l) + nsum (map h l))%N.
Proof. induction l; cbn [map]; [reflexivity|]. rewrite !nsum_cons, IHl. lia. Qed.
Lemma count_nodup : forall X (dec : forall a b : X, {a = b} + {a <> b}) l x, NoDup l -> count_occ dec l x = if in_dec dec x l then 1 else 0.
Proof.
  intros X dec l x ND. destruct (in_dec dec x l) as [H|H]; [|now apply count_occ_not_In]. apply (proj1 (NoDup_count_occ' dec l)); auto.
Qed.

Theorem goodman : forall A f ds, addressed A = false -> NoDup ds -> (forall d, In d ds <-> derivation g A d /\ erase d = f) ->
  qsum (map (prob g) ds) = (Nq (N.of_nat (count_occ fragment_dec (flat_map afrags (filter (fun v => eqs (apl v) A) vs)) f))
                            / Nq (N.of_nat (length (flat_map afrags (filter (fun v => eqs (apl v) A) vs)))))%Qc.
Proof.
  intros A f ds HA ND DS. destruct tally as (NDG & IN & CNT).
  assert (MA : mass g A = N.of_nat (length (flat_map afrags (filter (fun v => eqs (apl v) A) vs)))).
  { rewrite mass_plain by auto. rewrite length_nsum, nsum_flat_map. apply nsum_ext. intros v _. now rewrite <- length_nsum, afrags_length. }
  rewrite <- MA. rewrite (qsum_ext _ (prob g) (fun d => (Nq (N.of_nat (count_occ rule_dec RS (root d))) / Nq (mass g A))%Qc)).
  - rewrite qsum_div. f_equal. rewrite <- map_map, <- (map_map (fun d => N.of_nat (count_occ rule_dec RS (root d))) Nq) || idtac.
    transitivity (Nq (nsum (map (fun d => N.of_nat (count_occ rule_dec RS (root d))) ds))); [rewrite Nq_nsum, map_map; reflexivity|]. f_equal. unfold RS.
    assert (L : forall l, incl l vs -> nsum (map (fun d => N.of_nat (count_occ rule_dec (flat_map rulesv l) (root d))) ds) = N.of_nat (count_occ fragment_dec (flat_map afrags (filter (fun v => eqs (apl v) A) l)) f)).
    { induction l as [|v l IHl]; intros HI; [cbn; rewrite nsum_zero; auto|]. cbn [flat_map]. rewrite (nsum_ext _ _ (fun d => (N.of_nat (count_occ rule_dec (rulesv v) (root d)) + N.of_nat (count_occ rule_dec (flat_map rulesv l) (root d)))%N)) by (intros; rewrite count_occ_app; lia).
      rewrite nsum_plus, IHl by (intros x Hx; apply HI; now right). assert (Hv := HI v (or_introl eq_refl)).
      assert (V : nsum (map (fun d => N.of_nat (count_occ rule_dec (rulesv v) (root d))) ds) = N.of_nat (if eqs (apl v) A then count_occ fragment_dec (afrags v) f else 0)).
      { assert (SND : forall d, In d ds -> In (root d) (rulesv v) -> apl v = A /\ In f (afrags v) /\ exists c es, In c (cart (kidsyms v)) /\ d = Node (A :: c, ainf v) es).
        { intros d Hd Hr. apply DS in Hd. destruct Hd as [D E]. destruct (derivation_inv _ _ D) as (u & c & es & Hu & HX & Hc & -> & F). cbn [root] in Hr. apply rulesv_in in Hr. destruct Hr as (x & c' & K & Hx & Hc'). injection K as <- <- Ki.
          pose proof (opt_plain v A Hv Hx HA) as E2. repeat split; auto.
          - subst f. assert (MM : derivation g A (Node (A :: c, ainf v) es)) by (rewrite <- Ki; auto). rewrite Ki in *. cbn [erase]. apply afrags_in. exists (map erase es). cbn [lhs fst hd snd]. rewrite (opt_strip v A Hv Hx). split; auto.
            destruct (choices _ _ _ _ Hv Hc' F) as [(w & Ei & -> & -> & Ek)|(yf & Ei & Fc & Fd)]; [rewrite Ek; constructor|].
            assert (KV : forall k, In k (akids v) -> In k vs /\ addressed (adec k) = true) by (intros k Hk; split; eauto). clear - Fc Fd KV tally decok plainok shared wordok fd_dec closed kid_addr. revert es Fd. induction Fc as [|z k c ks Hz Fc IHc]; intros es Fd; inversion Fd as [|? e ? es' He Fe]; subst; [constructor|]. cbn [map]. constructor; [|apply IHc; auto; intros; apply KV; now right].
            destruct (KV k (or_introl eq_refl)) as [Hk Ak]. destruct He as [[B D]|[B ->]].
            + pose proof (opt_addr k z Hk Hz B) as ->. destruct (sound _ _ D) as (u & _ & _ & Hu & HX & _ & _ & Er & _). assert (u = k) by (apply shared; auto; rewrite <- (opt_addr u _ Hu HX B); auto). subst u. now right.
            + pose proof (opt_plain k z Hk Hz B) as ->. now left.
          - exists c, es. rewrite Ki. auto. }
        destruct (eqs (apl v) A) eqn:EA; [apply eqs_eq in EA|].
        - rewrite (count_nodup _ _ _ _ (afrags_nodup v)). destruct (in_dec fragment_dec f (afrags v)) as [Hf|Hf].
          + destruct (complete v f A Hv Hf) as (c & es & Hc & D & E); [apply opt_in; auto|]. apply (nsum_one _ _ _ (Node (A :: c, ainf v) es)); auto.
            * apply DS. auto.
            * cbn [root]. rewrite count_nodup by apply rulesv_nodup. destruct (in_dec rule_dec (A :: c, ainf v) (rulesv v)) as [|N0]; auto. exfalso. apply N0. apply rulesv_in. exists A, c. repeat split; auto. apply opt_in; auto.
            * intros d Hd NE. rewrite count_nodup by apply rulesv_nodup. destruct (in_dec rule_dec (root d) (rulesv v)) as [Hr|]; auto. exfalso. apply NE. destruct (SND d Hd Hr) as (_ & _ & c' & es' & Hc' & ->). apply DS in Hd. destruct Hd as [D' E'].
              apply (unique _ _ v A c' c es' es); auto. now rewrite E, E'.
          + apply nsum_zero. intros d Hd. rewrite (proj1 (count_occ_not_In _ _ _)); auto. intros Hr. destruct (SND d Hd Hr) as (_ & F & _). contradiction.
        - apply nsum_zero. intros d Hd. rewrite (proj1 (count_occ_not_In _ _ _)); auto. intros Hr. destruct (SND d Hd Hr) as (F & _). apply eqs_neq in EA. contradiction. }
      rewrite V. cbn [filter]. destruct (eqs (apl v) A); cbn [flat_map]; rewrite ?count_occ_app; lia. }
    apply L. apply incl_refl.
  - intros d Hd. apply DS in Hd. destruct Hd as [D _]. destruct (sound _ _ D) as (v & c & es & Hv & HX & Hc & -> & _ & P & _). cbn [prob root]. unfold ruleprob. cbn [lhs fst hd].
    assert (R : In (A :: c, ainf v) RS) by (apply in_RS; exists v, A, c; auto). apply IN in R. apply in_map_iff in R. destruct R as ([r n] & E & R). cbn in E. subst r.
    rewrite (weight_eq _ _ R), rfe_eq, HA, <- (CNT _ _ R), Nq_mul. unfold Qcdiv. transitivity (Nq n * / Nq (mass g A) * (fold_right Qcmult 1 (map (prob g) es) * Nq (nprod (map w1 c))))%Qc; [ring|]. rewrite P. ring.
Qed.
End Goodman.
