(** C86: the stages of the parser (Parser.parse). *)
From Coq Require Import String.
From Coq Require Import List Bool Arith Lia Permutation QArith.
From Verif Require Import PyStr TreeModel PartitionModel PartitionProps ParseModel.
Import ListNotations.
Open Scope nat_scope.

(** ** Specification *)
(** every word is the only child of its part-of-speech node *)
Fixpoint pre_ok (t : tree pystr nat) : bool :=
  match t with
  | Leaf _ => false
  | Node _ [Leaf _] => true
  | Node _ ts => forallb pre_ok ts
  end.
(** a tree over a sentence of n words: each word occurs once *)
Definition Good (n : nat) (t : tree pystr nat) : Prop := Permutation (leaves t) (seq 0 n) /\ pre_ok t = true.
(** tags, when given, are given for each word *)
Definition tags_ok {W} (sent : list W) (tags : option (list pystr)) : Prop :=
  match tags with Some (x :: r) => length (x :: r) = length sent | _ => True end.
(** the raw tree of the latest result that was not a fallback *)
Definition goodraw (rs : list res) : option (tree pystr nat) :=
  match find (fun r => negb (resnoparse r)) (rev rs) with
  | Some r => option_map fst (argmax (restrees r))
  | None => None
  end.

(** ** Lemmas *)
Lemma bind_val : forall {A B} (x : out A) (f : A -> out B) b, bind x f = Val b -> exists a, x = Val a /\ f a = Val b.
Proof. intros A B [a| |] f b E; try discriminate. now exists a. Qed.
Lemma lift_val : forall {A} (x : option A) a, lift x = Val a -> x = Some a.
Proof. intros A [x|] a E; [injection E as <-; reflexivity|discriminate]. Qed.
Lemma lift_fuel : forall {A} (x : option A), lift x <> Fuel.
Proof. intros A [x|]; discriminate. Qed.
Lemma bind_fuel : forall {A B} (x : out A) (f : A -> out B), bind x f = Fuel -> x = Fuel \/ exists a, x = Val a /\ f a = Fuel.
Proof. intros A B [a| |] f E; [right; now exists a|discriminate|now left]. Qed.
Ltac inv E := apply bind_val in E; let a := fresh "v" in let H := fresh "V" in destruct E as (a & H & E).

Lemma some_inj : forall {A} (a b : A), Some a = Some b -> a = b.
Proof. intros A a b E. now injection E. Qed.
Lemma argmax_in : forall l x, argmax l = Some x -> In x l.
Proof.
  intros [|y r] x E; [discriminate|]. cbn [argmax] in E. injection E as <-.
  assert (G : forall (r : list (tree pystr nat * prob)) m, In (fold_left (fun m y => if probltb (snd m) (snd y) then y else m) r m) (m :: r)).
  { clear. intro r. induction r as [|z r IH]; intro m; [left; reflexivity|]. cbn [fold_left]. destruct (IH (if probltb (snd m) (snd z) then z else m)) as [X|X].
    - rewrite <- X. destruct (probltb (snd m) (snd z)); [right; now left|now left].
    - right. now right. }
  apply G.
Qed.
Lemma argmax_none : forall l, argmax l = None <-> l = [].
Proof. intros [|y r]; cbn [argmax]; split; intro E; congruence. Qed.

Lemma pre_ok_node : forall l ts, pre_ok (Node l ts) = true -> (exists i, ts = [Leaf i]) \/ forallb pre_ok ts = true.
Proof.
  intros l [|[i|l' ts'] r] H; [right; reflexivity| |right; exact H].
  destruct r as [|y r]; [left; now exists i|]. cbn in H. discriminate.
Qed.
Lemma pre_ok_intro : forall l ts, forallb pre_ok ts = true -> pre_ok (Node l ts) = true.
Proof. intros l [|[i|l' ts'] r] H; try exact H. discriminate. Qed.
Lemma shift_node : forall a l ts, forallb pre_ok ts = true -> shift a (Node l ts) = Node l (map (shift a) ts).
Proof. intros a l [|[i|l' ts'] r] H; try reflexivity. discriminate. Qed.
Lemma shift_spec : forall a t, pre_ok t = true -> leaves (shift a t) = map (fun i => i + a) (leaves t) /\ pre_ok (shift a t) = true.
Proof.
  intros a t. induction t as [i|l ts IH] using tree_ind'; intro H; [discriminate|].
  destruct (pre_ok_node _ _ H) as [[i E]|E]; [subst ts; split; reflexivity|].
  rewrite (shift_node _ _ _ E). assert (X : flat_map leaves (map (shift a) ts) = map (fun i => i + a) (flat_map leaves ts) /\ forallb pre_ok (map (shift a) ts) = true).
  { clear H. induction ts as [|t r IHr]; [split; reflexivity|]. cbn [forallb] in E. apply andb_true_iff in E. destruct E as [E1 E2]. inversion IH as [|? ? I1 I2]; subst.
    destruct (I1 E1) as [A1 A2]. destruct (IHr I2 E2) as [B1 B2]. cbn [map flat_map forallb]. rewrite A1, A2, B1, B2, map_app. split; reflexivity. }
  destruct X as [X1 X2]. split; [exact X1|now apply pre_ok_intro].
Qed.
Lemma map_shift : forall a n, map (fun i => i + a) (seq 0 n) = seq a n.
Proof.
  intros a n. assert (G : forall b, map (fun i => i + a) (seq b n) = seq (b + a) n).
  { induction n as [|n IH]; intro b; [reflexivity|]. cbn [seq map]. now rewrite IH. }
  apply G.
Qed.
Lemma slice_length : forall {A} (l : list A) a b, a <= b -> b <= length l -> length (slice l a b) = b - a.
Proof. intros. unfold slice. rewrite firstn_length, skipn_length. lia. Qed.
Lemma leads_le : forall {L} (l : list (option L * nat * nat)) a e, leads a l e -> a <= e.
Proof. intros L l. induction l as [|[[x c] d] r IH]; intros a e H; cbn [leads] in H; [lia|]. destruct H as (-> & H & H2). apply IH in H2. lia. Qed.
Lemma last_in : forall {A} (l : list A) x, last (map Some l) None = Some x -> In x l.
Proof.
  intros A l x. induction l as [|y r IH]; [discriminate|]. destruct r as [|z r]; [cbn; intro E; injection E as ->; now left|].
  intro E. right. apply IH. exact E.
Qed.

Lemma combine_tags : forall (l : list pystr) a,
  flat_map leaves (map (fun p => Node (fst p) [Leaf (snd p)]) (combine l (seq a (length l)))) = seq a (length l)
  /\ forallb pre_ok (map (fun p => Node (fst p) [Leaf (snd p)]) (combine l (seq a (length l)))) = true.
Proof.
  intro l. induction l as [|x r IH]; intro a; [split; reflexivity|]. cbn [length seq combine map flat_map forallb]. destruct (IH (S a)) as [A B].
  rewrite A, B. split; reflexivity.
Qed.
Lemma tagsof_length : forall {W} (sent : list W) tags, tags_ok sent tags -> length (tagsof sent tags) = length sent.
Proof. intros W sent [[|x r]|] H; cbn [tagsof]; try (now rewrite map_length). exact H. Qed.
Lemma default_good : forall {W} sg (sent : list W) tags, tags_ok sent tags -> Good (length sent) (defaulttree sg sent tags).
Proof.
  intros W sg sent tags H. unfold defaulttree. destruct (combine_tags (tagsof sent tags) 0) as [A B]. split.
  - cbn [leaves flat_map]. rewrite app_nil_r, A. rewrite tagsof_length by exact H. apply Permutation_refl.
  - apply pre_ok_intro. cbn [forallb]. rewrite andb_true_r. now apply pre_ok_intro.
Qed.
Lemma tags_ok_slice : forall {W} (sent : list W) tags a b, a <= b -> b <= length sent -> tags_ok sent tags ->
  tags_ok (slice sent a b) (match tags with Some (x :: y) => Some (slice (x :: y) a b) | _ => None end).
Proof.
  intros W sent [[|x r]|] a b L H T; cbn [tags_ok] in *; auto. destruct (slice (x :: r) a b) eqn:E; auto.
  rewrite <- E, !slice_length; lia.
Qed.

Section Props.
Context {W Chart : Type}.
Variable ok : Chart -> bool.
Variable best : Chart -> nat -> nat -> option pystr.
Variable parsechart : nat -> list W -> option (list pystr) -> option pystr -> option Chart -> option Chart.
Variable marg : nat -> Chart -> list W -> option (list (tree pystr nat * prob)).
Variable rerank : nat -> list (tree pystr nat * prob) -> list W -> option (list (tree pystr nat * prob)).
Variable post : nat -> tree pystr nat -> list W -> option (tree pystr nat).
Variable binar : tree pystr nat -> list W -> option (tree pystr nat).
Variable rr : bool.
Variable stages : list stage.

Notation parse := (parse ok best parsechart marg rerank post binar rr stages).
Notation loop := (loop ok best parsechart marg rerank post binar rr).
Notation step := (step ok best parsechart marg rerank post binar rr).
Notation forest := (forest ok best marg binar rr).
Notation report := (report post).
Notation valid := (valid post).

(** a chart of this sentence *)
Definition chart_of (c : Chart) (s : list W) : Prop := exists k tg rt pr, parsechart k s tg rt pr = Some c.
(** the assumptions about the parts that are modelled elsewhere: derivations
    cover the words of the sentence; a re-ranker selects trees; binarization
    keeps the words; postprocessing does not invent or repeat words *)
Record assumptions : Prop := {
  marg_good : forall k c s l, chart_of c s -> marg k c s = Some l -> Forall (fun x => Good (length s) (fst x)) l;
  rerank_sub : forall k l s l', rerank k l s = Some l' -> incl l' l;
  binar_good : forall t s t' n, binar t s = Some t' -> Good n t -> Good n t';
  post_keeps : forall k t s t', post k t s = Some t' -> NoDup (leaves t) -> NoDup (leaves t') /\ incl (leaves t') (leaves t) }.

Definition all_good n (l : list (tree pystr nat * prob)) := Forall (fun x => Good n (fst x)) l.
Definition inv (sent : list W) (st : state) : Prop :=
  (forall c, chart st = Some c -> chart_of c sent)
  /\ Forall (fun x => (forall c, fst x = Some c -> chart_of c sent) /\ all_good (length sent) (snd x)) (charts st)
  /\ (forall t, lastgood st = Some t -> Good (length sent) t).

(** ** The reports *)
Lemma report_spec : forall n sg last trees sent tags r last', report n sg last trees sent tags = Val (r, last') ->
  (resnoparse r = false /\ restrees r = trees /\ exists raw, argmax trees = Some (raw, resprob r) /\ valid n raw sent = Some (restree r) /\ last' = Some raw)
  \/ (resnoparse r = true /\ last' = last /\ resprob r = Plain 1 /\ noparse post n sg sent tags last = Some (restree r)
      /\ ((trees = [] /\ restrees r = [(match last with Some t => t | None => restree r end, Plain 1)])
          \/ (restrees r = trees /\ exists raw p, argmax trees = Some (raw, p) /\ valid n raw sent = None))).
Proof.
  intros n sg last trees sent tags r last' E. unfold ParseModel.report in E. destruct (argmax trees) as [[raw p]|] eqn:A.
  - destruct (valid n raw sent) as [u|] eqn:V.
    + assert (E' := f_equal (fun x => match x with Val y => Some y | _ => None end) E). cbv beta iota in E'. injection E' as <- <-. left. cbn. repeat split; auto. now exists raw.
    + inv E. apply lift_val in V0. injection E as <- <-. right. cbn. repeat split; auto. right. split; [reflexivity|]. now exists raw, p.
  - inv E. apply lift_val in V. injection E as <- <-. right. cbn. repeat split; auto. left. split; [now apply argmax_none|reflexivity].
Qed.

Lemma step_spec : forall rec sent tags root n sg st r st', step rec sent tags root n sg st = Val (r, st') ->
  exists go c pre f, runs ok sent sg st = Val go /\ newchart parsechart n sg st go sent tags root = Val c /\ reranked rerank n sg st go sent = Val pre
  /\ forest rec n sg st c pre sent tags = Val f /\ report n sg (lastgood st) (fst f) sent tags = Val (r, lastgood st')
  /\ charts st' = charts st ++ [(c, fst f)] /\ chart st' = c /\ partialparse st' = partialparse st || snd f.
Proof.
  intros rec sent tags root n sg st r st' E. unfold ParseModel.step in E. inv E. inv E. inv E. inv E. inv E. destruct v3 as [r0 l0].
  injection E as <- <-. exists v, v0, v1, v2. cbn. repeat split; auto.
Qed.

(** ** One result for each stage *)
Lemma loop_length : forall rec sent tags root l n st rs, loop rec sent tags root n l st = Val rs -> length rs = length l.
Proof.
  intros rec sent tags root l. induction l as [|sg r IH]; intros n st rs E; cbn [ParseModel.loop] in E; [injection E as <-; reflexivity|].
  inv E. inv E. injection E as <-. cbn [length]. f_equal. eapply IH. exact V0.
Qed.
Theorem C86_stages : forall fuel sent tags root rs, parse fuel sent tags root = Val rs -> length rs = length stages.
Proof. intros [|f] sent tags root rs E; [discriminate|]. eapply loop_length. exact E. Qed.

(** ** What is reported *)
(** a result that is not a fallback is the postprocessed best tree of the stage *)
Theorem C86_best : forall fuel sent tags root before r after, parse fuel sent tags root = Val (before ++ r :: after) -> resnoparse r = false ->
  exists raw, argmax (restrees r) = Some (raw, resprob r) /\ post (length before) raw sent = Some (restree r)
  /\ noempty (restree r) = true /\ length (leaves (restree r)) = length sent.
Proof.
  intros [|f] sent tags root before r after E N; [discriminate|]. cbn [ParseModel.parse] in E.
  assert (G : forall l n st rs, loop (parse f) sent tags root n l st = Val rs -> forall before r after, rs = before ++ r :: after -> resnoparse r = false ->
    exists raw, argmax (restrees r) = Some (raw, resprob r) /\ valid (n + length before) raw sent = Some (restree r)).
  { clear. intro l. induction l as [|sg l IH]; intros n st rs E before r after -> N; cbn [ParseModel.loop] in E; [destruct before; discriminate|].
    inv E. inv E. destruct before as [|b before].
    - injection E as E1 E2. destruct v as [r0 st']. cbn [fst] in E1. subst r0. apply step_spec in V. destruct V as (go & c & pre & f0 & _ & _ & _ & _ & R & _).
      apply report_spec in R. destruct R as [(_ & R1 & raw & R2 & R3 & _)|(R & _)]; [|congruence]. exists raw. rewrite R1. cbn [length]. rewrite Nat.add_0_r. now split.
    - injection E as E1 E2. destruct (IH (S n) _ _ V0 before r after E2 N) as (raw & A & B). exists raw. split; [exact A|]. cbn [length]. now replace (n + S (length before)) with (S n + length before) by lia. }
  destruct (G _ _ _ _ E _ _ _ eq_refl N) as (raw & A & B). cbn [Nat.add] in B. exists raw. split; [exact A|]. unfold ParseModel.valid in B.
  destruct (post (length before) raw sent) as [u|]; [|discriminate]. destruct (noempty u && (length (leaves u) =? length sent)) eqn:X; [|discriminate].
  apply some_inj in B. subst u. apply andb_true_iff in X. destruct X as [X1 X2]. apply Nat.eqb_eq in X2. repeat split; auto.
Qed.

Lemma goodraw_snoc : forall rs r, goodraw (rs ++ [r]) = if resnoparse r then goodraw rs else option_map fst (argmax (restrees r)).
Proof. intros rs r. unfold goodraw. rewrite rev_app_distr. cbn [rev app find]. destruct (resnoparse r); reflexivity. Qed.

(** a fallback is the tree of the latest stage with a valid parse,
    postprocessed for *this* stage, or a flat tree when there is no such stage;
    there is a fallback only when the stage has no tree, or its best tree is not
    valid after postprocessing *)
Theorem C86_fallback : forall fuel sent tags root before r after, parse fuel sent tags root = Val (before ++ r :: after) -> resnoparse r = true ->
  resprob r = Plain 1
  /\ (match goodraw before with
      | Some raw => post (length before) raw sent = Some (restree r)
      | None => exists sg, nth_error stages (length before) = Some sg /\ restree r = defaulttree sg sent tags
      end)
  /\ (restrees r = [(match goodraw before with Some raw => raw | None => restree r end, Plain 1)]
      \/ exists raw p, argmax (restrees r) = Some (raw, p) /\ valid (length before) raw sent = None).
Proof.
  intros [|f] sent tags root before r after E N; [discriminate|]. cbn [ParseModel.parse] in E.
  assert (G : forall l n st rs done, loop (parse f) sent tags root n l st = Val rs -> length done = n -> goodraw done = lastgood st ->
    forall before r after, rs = before ++ r :: after -> resnoparse r = true ->
    resprob r = Plain 1
    /\ (match goodraw (done ++ before) with
        | Some raw => post (n + length before) raw sent = Some (restree r)
        | None => exists sg, nth_error l (length before) = Some sg /\ restree r = defaulttree sg sent tags
        end)
    /\ (restrees r = [(match goodraw (done ++ before) with Some raw => raw | None => restree r end, Plain 1)]
        \/ exists raw p, argmax (restrees r) = Some (raw, p) /\ valid (n + length before) raw sent = None)).
  { clear. intro l. induction l as [|sg l IH]; intros n st rs done E LD G before r after -> N; cbn [ParseModel.loop] in E; [destruct before; discriminate|].
    inv E. inv E. destruct v as [r0 st']. apply step_spec in V. destruct V as (go & c & pre & f0 & _ & _ & _ & _ & R & _). destruct before as [|b before].
    - injection E as E1 E2. subst r0. apply report_spec in R. destruct R as [(R & _)|(_ & _ & R1 & R2 & R3)]; [congruence|].
      rewrite app_nil_r. cbn [length nth_error]. rewrite Nat.add_0_r. split; [exact R1|]. rewrite <- G in R2. unfold ParseModel.noparse in R2. split.
      + destruct (goodraw done) as [raw|] eqn:X; [exact R2|]. exists sg. split; [reflexivity|]. apply some_inj in R2. now symmetry.
      + destruct R3 as [[_ R3]|[R3 (raw & p & R4 & R5)]].
        * left. rewrite <- G in R3. exact R3.
        * right. exists raw, p. now rewrite R3.
    - injection E as E1 E2. subst r0. cbn [length nth_error]. replace (n + S (length before)) with (S n + length before) by lia.
      change (b :: before) with ([b] ++ before). rewrite app_assoc. apply (IH (S n) st' v0 (done ++ [b]) V0) with (after := after); auto.
      + rewrite app_length. cbn. lia.
      + rewrite goodraw_snoc. apply report_spec in R. destruct R as [(R & R1 & raw & R2 & _ & R3)|(R & R3 & _)]; rewrite R, R3; auto.
        rewrite R1, R2. reflexivity. }
  apply (G _ _ _ _ [] E eq_refl eq_refl _ _ _ eq_refl N).
Qed.

(** ** The words *)
Hypothesis AS : assumptions.

Lemma pieces_good : forall (rec : list W -> option (list pystr) -> option pystr -> out (list res)) (sent : list W) tags,
  (forall s tg rt rs, tags_ok s tg -> rec s tg rt = Val rs -> forall r, In r rs -> all_good (length s) (restrees r)) -> tags_ok sent tags ->
  forall (l : list (option pystr * nat * nat)) p x a e, leads a l e -> e <= length sent -> Forall (fun s => match s with (None, c, d) => d = S c | _ => True end) l -> pieces rec sent tags l p = Val x ->
  Permutation (flat_map leaves (fst x)) (seq a (e - a)) /\ forallb pre_ok (fst x) = true.
Proof.
  intros rec sent tags R T l. induction l as [|[[[lb|] c] d] r IH]; intros p x a e L H F E; cbn [pieces] in E; cbn [leads] in L.
  - injection E as <-. cbn. replace (e - a) with 0 by lia. split; [constructor|reflexivity].
  - destruct L as (-> & L1 & L2). assert (L3 := leads_le _ _ _ L2). inversion F as [|? ? _ F2]; subst. inv E. inv E. inv E. inv E. injection E as <-. apply lift_val in V0, V1.
    apply last_in in V0. destruct v1 as [t q]. apply argmax_in in V1. assert (G := R _ _ _ _ (tags_ok_slice sent tags a d ltac:(lia) ltac:(lia) T) V _ V0).
    unfold all_good in G. rewrite Forall_forall in G. specialize (G _ V1). cbn [fst] in G. rewrite slice_length in G by lia. destruct G as [G1 G2].
    destruct (IH _ _ _ _ L2 H F2 V2) as [I1 I2]. cbn [fst flat_map forallb]. destruct (shift_spec a t G2) as [S1 S2]. rewrite S1, S2, I2. split; [|reflexivity].
    replace (e - a) with ((d - a) + (e - d)) by lia. rewrite seq_app. replace (a + (d - a)) with d by lia. apply Permutation_app; [|exact I1].
    rewrite <- (map_shift a (d - a)). now apply Permutation_map.
  - destruct L as (-> & L1 & L2). assert (L3 := leads_le _ _ _ L2). inversion F as [|? ? F1 F2]; subst. inv E. injection E as <-. destruct (IH _ _ _ _ L2 H F2 V) as [I1 I2].
    cbn [fst flat_map forallb leaves pre_ok app]. rewrite I2. split; [|reflexivity].
    replace (e - a) with (S (e - S a)) by lia. cbn [seq]. now constructor.
Qed.

Lemma partial_good : forall rec c sent tags l, sent <> [] ->
  (forall s tg rt rs, tags_ok s tg -> rec s tg rt = Val rs -> forall r, In r rs -> all_good (length s) (restrees r)) -> tags_ok sent tags ->
  partial best binar rec c sent tags = Val l -> all_good (length sent) l /\ l <> [].
Proof.
  intros rec c sent tags l N R T E. unfold partial in E. inv E. inv E. inv E. injection E as <-. apply lift_val in V, V1.
  assert (0 < length sent) as P by (destruct sent; [congruence|cbn; lia]). destruct (C42_partition _ _ _ P _ _ V) as [L F].
  assert (F' : Forall (fun s : option pystr * nat * nat => match s with (None, c, d) => d = S c | _ => True end) v).
  { rewrite Forall_forall in F |- *. intros [[[lb|] x] y] I; auto. specialize (F _ I). destruct F as [F _]. lia. }
  destruct (pieces_good rec sent tags R T v (Plain 1) v0 0 (length sent) L ltac:(lia) F' V0) as [A B].
  split; [|discriminate]. constructor; [|constructor]. cbn [fst]. apply (binar_good AS) with (1 := V1). split.
  - cbn [leaves]. now rewrite Nat.sub_0_r in A.
  - now apply pre_ok_intro.
Qed.

Lemma inv_nth : forall sent st j c l, inv sent st -> nth_error (charts st) j = Some (c, l) -> (forall x, c = Some x -> chart_of x sent) /\ all_good (length sent) l.
Proof. intros sent st j c l (_ & F & _) E. rewrite Forall_forall in F. apply nth_error_In in E. apply (F _ E). Qed.

Lemma forest_good : forall rec n sg st c pre sent tags f,
  (forall s tg rt rs, tags_ok s tg -> rec s tg rt = Val rs -> forall r, In r rs -> all_good (length s) (restrees r)) -> tags_ok sent tags ->
  (forall x, c = Some x -> chart_of x sent) -> all_good (length sent) pre ->
  forest rec n sg st c pre sent tags = Val f -> all_good (length sent) (fst f).
Proof.
  intros rec n sg st c pre sent tags f R T C P E. unfold ParseModel.forest in E. destruct sent as [|w sent]; [injection E as <-; exact P|].
  destruct (negb (reranker sg) && negb (rr && split sg)); [|injection E as <-; exact P].
  destruct c as [x|]; [|destruct (partialparse st); [injection E as <-; exact P|discriminate]].
  destruct (ok x).
  - inv E. injection E as <-. apply lift_val in V. apply (marg_good AS _ _ _ _ (C _ eq_refl) V).
  - destruct (partialparse st); [injection E as <-; exact P|]. inv E. injection E as <-. cbn [fst]. destruct (partial_good _ _ _ _ _ (fun Z : w :: sent = [] => nil_cons (eq_sym Z)) R T V) as [A _]. exact A.
Qed.

Definition keeps : Prop := forall k t s t', post k t s = Some t' -> Permutation (leaves t') (leaves t).
(** what is true of each result *)
Definition result_ok (sent : list W) (r : res) : Prop :=
  all_good (length sent) (restrees r) /\ restrees r <> [] /\ ((resnoparse r = false \/ keeps) -> Permutation (leaves (restree r)) (seq 0 (length sent))).

Lemma perm_of_subset : forall (l : list nat) n, NoDup l -> incl l (seq 0 n) -> length l = n -> Permutation l (seq 0 n).
Proof. intros l n N I L. apply NoDup_Permutation_bis; auto. rewrite seq_length. lia. Qed.

Lemma step_good : forall rec sent tags root n sg st r st',
  (forall s tg rt rs, tags_ok s tg -> rec s tg rt = Val rs -> forall r, In r rs -> all_good (length s) (restrees r)) -> tags_ok sent tags ->
  inv sent st -> step rec sent tags root n sg st = Val (r, st') -> inv sent st' /\ result_ok sent r.
Proof.
  intros rec sent tags root n sg st r st' R T I E. apply step_spec in E. destruct E as (go & c & pre & f & E1 & E2 & E3 & E4 & E5 & E6 & E7 & E8).
  assert (I' := I). destruct I' as (I1 & I2 & I3).
  assert (C : forall x, c = Some x -> chart_of x sent).
  { unfold newchart in E2. destruct (go && negb (reranker sg)); [|injection E2 as <-; exact I1]. inv E2. injection E2 as <-. apply lift_val in V.
    intros x X. injection X as <-. red. eauto. }
  assert (P : all_good (length sent) pre).
  { unfold reranked in E3. destruct (go && reranker sg); [|injection E3 as <-; constructor]. destruct (prune sg) as [j|]; [|discriminate]. inv E3. apply lift_val in V.
    destruct v as [c0 l0]. destruct (inv_nth _ _ _ _ _ I V) as [_ G]. cbn [snd] in E3. destruct l0 as [|y l0]; [injection E3 as <-; constructor|]. apply lift_val in E3.
    apply (rerank_sub AS) in E3. unfold all_good in *. rewrite Forall_forall in *. intros x X. apply G. now apply E3. }
  assert (F := forest_good _ _ _ _ _ _ _ _ _ R T C P E4).
  assert (D : noparse post n sg sent tags (lastgood st) = Some (restree r) -> (keeps -> Permutation (leaves (restree r)) (seq 0 (length sent)))).
  { intros X K. unfold ParseModel.noparse in X. destruct (lastgood st) as [t|] eqn:L.
    - eapply Permutation_trans; [eapply K; exact X|]. apply I3. reflexivity.
    - apply some_inj in X. rewrite <- X. now apply default_good. }
  apply report_spec in E5. destruct E5 as [(N & S & raw & A & V & L)|(N & L & _ & X & S)].
  - assert (G : Good (length sent) raw). { unfold all_good in F. rewrite Forall_forall in F. apply argmax_in in A. apply (F _ A). }
    split.
    + split; [rewrite E7; exact C|]. split; [rewrite E6; apply Forall_app; split; [exact I2|]; constructor; [|constructor]; split; [exact C|exact F]|].
      rewrite L. intros t Y. apply some_inj in Y. now subst t.
    + split; [rewrite S; exact F|]. split; [rewrite S; intro Z; rewrite Z in A; discriminate|]. intros _.
      unfold ParseModel.valid in V. destruct (post n raw sent) as [u|] eqn:Q; [|discriminate]. destruct (noempty u && (length (leaves u) =? length sent)) eqn:Z; [|discriminate].
      apply some_inj in V. subst u. apply andb_true_iff in Z. destruct Z as [_ Z]. apply Nat.eqb_eq in Z. destruct G as [G _].
      destruct (post_keeps AS _ _ _ _ Q) as [P1 P2]. { eapply Permutation_NoDup; [apply Permutation_sym; exact G|]. apply seq_NoDup. }
      apply perm_of_subset; auto. intros y Y. apply P2 in Y. eapply Permutation_in; [exact G|exact Y].
  - split.
    + split; [rewrite E7; exact C|]. split; [rewrite E6; apply Forall_app; split; [exact I2|]; constructor; [|constructor]; split; [exact C|exact F]|].
      rewrite L. exact I3.
    + split; [|split].
      * destruct S as [[S1 S2]|[S1 _]]; [|rewrite S1; exact F]. rewrite S2. constructor; [|constructor]. cbn [fst]. destruct (lastgood st) as [t|] eqn:Y; [now apply I3|].
        cbn [ParseModel.noparse] in X. apply some_inj in X. rewrite <- X. now apply default_good.
      * destruct S as [[S1 S2]|[S1 (raw & p & S2 & _)]]; [rewrite S2; discriminate|]. rewrite S1. intro Z. rewrite Z in S2. discriminate.
      * intros [Z|Z]; [congruence|now apply D].
Qed.

Lemma parse_good : forall fuel sent tags root rs, tags_ok sent tags -> parse fuel sent tags root = Val rs -> Forall (result_ok sent) rs.
Proof.
  intro fuel. induction fuel as [|f IHf]; intros sent tags root rs T E; [discriminate|]. cbn [ParseModel.parse] in E.
  assert (R : forall s tg rt rs, tags_ok s tg -> parse f s tg rt = Val rs -> forall r, In r rs -> all_good (length s) (restrees r)).
  { intros s tg rt rs0 T0 E0 r I. assert (X := IHf _ _ _ _ T0 E0). rewrite Forall_forall in X. apply (X _ I). }
  assert (G : forall l n st rs, inv sent st -> loop (parse f) sent tags root n l st = Val rs -> Forall (result_ok sent) rs).
  { clear E rs. intro l. induction l as [|sg l IH]; intros n st rs I E; cbn [ParseModel.loop] in E; [injection E as <-; constructor|].
    inv E. inv E. injection E as <-. destruct v as [r st']. destruct (step_good _ _ _ _ _ _ _ _ _ R T I V) as [I' O]. constructor; [exact O|]. eapply IH; [exact I'|exact V0]. }
  apply (G _ _ _ _) with (2 := E). split; [discriminate|]. split; [constructor|discriminate].
Qed.

(** the tree of each stage has exactly the words of the sentence: always when it
    is not a fallback, and also for fallbacks when postprocessing keeps words *)
Theorem C86_words : forall fuel sent tags root rs r, tags_ok sent tags -> parse fuel sent tags root = Val rs -> In r rs ->
  resnoparse r = false \/ keeps -> Permutation (leaves (restree r)) (seq 0 (length sent)).
Proof. intros fuel sent tags root rs r T E I H. apply parse_good in E; auto. rewrite Forall_forall in E. now apply (E _ I). Qed.
(** there is always a tree among the parse trees, and each has exactly the words *)
Theorem C86_raw_trees : forall fuel sent tags root rs r, tags_ok sent tags -> parse fuel sent tags root = Val rs -> In r rs ->
  restrees r <> [] /\ forall t p, In (t, p) (restrees r) -> Permutation (leaves t) (seq 0 (length sent)).
Proof.
  intros fuel sent tags root rs r T E I. apply parse_good in E; auto. rewrite Forall_forall in E. destruct (E _ I) as (A & B & _). split; [exact B|].
  intros t p X. unfold all_good in A. rewrite Forall_forall in A. apply (A _ X).
Qed.

(** ** A stage with a successful parse *)
(** the chart of a stage is that of its parser, given the chart of the stage it
    is pruned with; if it has a parse and the best tree is valid, that tree is
    reported, whatever happened in earlier stages *)
Theorem C86_success : forall rec sent tags root n sg st r st' c l raw p u,
  step rec sent tags root n sg st = Val (r, st') -> sent <> [] -> reranker sg = false -> (rr && split sg)%bool = false ->
  match prune sg with
  | None => parsechart n sent tags root None = Some c
  | Some j => exists cj, nth_error (map fst (charts st)) j = Some (Some cj) /\ ok cj = true /\ parsechart n sent tags root (Some cj) = Some c
  end ->
  ok c = true -> marg n c sent = Some l -> argmax l = Some (raw, p) -> valid n raw sent = Some u ->
  r = {| restree := u; resprob := p; restrees := l; resnoparse := false |} /\ nth_error (map fst (charts st')) (length (charts st)) = Some (Some c).
Proof.
  clear AS. intros rec sent tags root n sg st r st' c l raw p u E N RK SP PC OK M A V. apply step_spec in E. destruct E as (go & c' & pre & f & E1 & E2 & E3 & E4 & E5 & E6 & _ & _).
  assert (X : go = true /\ c' = Some c).
  { unfold runs, newchart in *. rewrite RK in E2. destruct sent as [|w sent]; [congruence|]. destruct (prune sg) as [j|].
    - destruct PC as (cj & P1 & P2 & P3). rewrite nth_error_map in P1. inv E1. apply lift_val in V0. rewrite V0 in P1. cbn [option_map] in P1. apply some_inj in P1. destruct v as [c1 l1]. cbn [fst] in P1, E1. subst c1.
      cbn [okc] in E1. rewrite P2 in E1. injection E1 as <-. split; [reflexivity|]. cbn [andb negb] in E2. rewrite V0 in E2. rewrite P3 in E2. cbn [lift bind] in E2. now injection E2 as <-.
    - injection E1 as <-. split; [reflexivity|]. cbn [andb negb] in E2. rewrite PC in E2. cbn [lift bind] in E2. now injection E2 as <-. }
  destruct X as [-> ->]. unfold ParseModel.forest in E4. destruct sent as [|w sent]; [congruence|]. rewrite RK, SP, OK, M in E4. cbn [negb andb lift bind] in E4. injection E4 as <-.
  cbn [fst] in *. unfold ParseModel.report in E5. rewrite A, V in E5. injection E5 as <- _. split; [reflexivity|]. rewrite E6, map_app, nth_error_app2; rewrite map_length; [|lia]. rewrite Nat.sub_diag. reflexivity.
Qed.
(** in particular for the first stage *)
Corollary C86_first : forall fuel sent tags root sg rest rs c l raw p u, stages = sg :: rest -> parse fuel sent tags root = Val rs ->
  sent <> [] -> reranker sg = false -> (rr && split sg)%bool = false -> prune sg = None ->
  parsechart 0 sent tags root None = Some c -> ok c = true -> marg 0 c sent = Some l -> argmax l = Some (raw, p) -> valid 0 raw sent = Some u ->
  exists rs', rs = {| restree := u; resprob := p; restrees := l; resnoparse := false |} :: rs'.
Proof.
  clear AS. intros [|f] sent tags root sg rest rs c l raw p u S E N RK SP PR PC OK M A V; [discriminate|]. cbn [ParseModel.parse] in E. rewrite S in E. cbn [ParseModel.loop] in E. inv E. inv E. injection E as <-.
  destruct v as [r st']. destruct (C86_success _ _ _ _ _ _ _ _ _ c l raw p u V0 N RK SP) as [-> _]; auto; [now rewrite PR|]. now exists v0.
Qed.

(** ** Termination *)
(** when a parse fails although there is an item over all words, the sentence
    can be parsed with the label of that item as root *)
Definition reparses : Prop := forall k s tg rt pr c lb, parsechart k s tg rt pr = Some c -> ok c = false -> best c 0 (length s) = Some lb ->
  forall k' tg' pr' c', parsechart k' s tg' (Some lb) pr' = Some c' -> ok c' = true.

Lemma pieces_fuel : forall (rec : list W -> option (list pystr) -> option pystr -> out (list res)) sent tags l p,
  (forall lb a b tg, In (Some lb, a, b) l -> rec (slice sent a b) tg (Some lb) <> Fuel) -> pieces rec sent tags l p <> Fuel.
Proof.
  clear AS. intros rec sent tags l. induction l as [|[[[lb|] a] b] r IH]; intros p H E; cbn [pieces] in E; [discriminate| |].
  - apply bind_fuel in E. destruct E as [E|(v & _ & E)]; [apply (H lb a b _ (or_introl eq_refl) E)|]. apply bind_fuel in E. destruct E as [E|(v1 & _ & E)]; [apply (lift_fuel _ E)|].
    apply bind_fuel in E. destruct E as [E|(v2 & _ & E)]; [apply (lift_fuel _ E)|]. apply bind_fuel in E. destruct E as [E|(v3 & _ & E)]; [|discriminate].
    apply (IH (probmult p (snd v2))); [intros lb' a' b' tg I; apply (H _ _ _ tg (or_intror I))|exact E].
  - apply bind_fuel in E. destruct E as [E|(v & _ & E)]; [|discriminate]. apply (IH p); [intros lb' a' b' tg I; apply (H _ _ _ tg (or_intror I))|exact E].
Qed.
Lemma partial_fuel : forall rec c sent tags, sent <> [] ->
  (forall lb a b tg, a < b -> b <= length sent -> best c a b = Some lb -> rec (slice sent a b) tg (Some lb) <> Fuel) -> partial best binar rec c sent tags <> Fuel.
Proof.
  clear AS. intros rec c sent tags N H E. unfold partial in E. apply bind_fuel in E. destruct E as [E|(v & V & E)]; [apply (lift_fuel _ E)|]. apply lift_val in V.
  apply bind_fuel in E. destruct E as [E|(v1 & _ & E)].
  - assert (P : 0 < length sent) by (destruct sent; [congruence|cbn; lia]). destruct (C42_partition _ _ _ P _ _ V) as [L F]. revert E. apply pieces_fuel. intros lb a b tg I.
    assert (S := F). rewrite Forall_forall in S. specialize (S _ I). cbn [segment_ok] in S. apply H; auto.
    + clear - L I. revert L I. generalize 0. induction v as [|[[x c] d] r IH]; intros s L I; [destruct I|]. cbn [leads] in L. destruct L as (-> & L1 & L2). destruct I as [I|I]; [injection I as -> -> ->; lia|]. apply (IH _ L2 I).
    + clear - L I. revert L I. generalize 0. induction v as [|[[x c] d] r IH]; intros s L I; [destruct I|]. cbn [leads] in L. destruct L as (-> & L1 & L2). destruct I as [I|I]; [injection I as -> -> ->; now apply leads_le in L2|]. apply (IH _ L2 I).
  - apply bind_fuel in E. destruct E as [E|(v2 & _ & E)]; [apply (lift_fuel _ E)|discriminate].
Qed.
Lemma report_fuel : forall n sg last trees sent tags, report n sg last trees sent tags <> Fuel.
Proof.
  clear AS. intros n sg last trees sent tags E. unfold ParseModel.report in E. destruct (argmax trees) as [[raw p]|].
  - destruct (valid n raw sent); [discriminate|]. apply bind_fuel in E. destruct E as [E|(v & _ & E)]; [apply (lift_fuel _ E)|discriminate].
  - apply bind_fuel in E. destruct E as [E|(v & _ & E)]; [apply (lift_fuel _ E)|discriminate].
Qed.
(** [Q] holds of the charts that occur; for a chart without a parse the partial parse ends *)
Lemma loop_fuel : forall (Q : Chart -> Prop) rec sent tags root,
  (forall k pr c, parsechart k sent tags root pr = Some c -> Q c) ->
  (forall c, sent <> [] -> Q c -> ok c = false -> partial best binar rec c sent tags <> Fuel) ->
  forall l n st, (forall c, chart st = Some c -> Q c) -> loop rec sent tags root n l st <> Fuel.
Proof.
  clear AS. intros Q rec sent tags root HQ HP l. induction l as [|sg l IH]; intros n st I E; cbn [ParseModel.loop] in E; [discriminate|].
  apply bind_fuel in E. destruct E as [E|([r st'] & V & E)].
  - unfold ParseModel.step in E. apply bind_fuel in E. destruct E as [E|(go & V1 & E)].
    { unfold runs in E. destruct sent; [discriminate|]. destruct (prune sg); [|discriminate]. apply bind_fuel in E. destruct E as [E|(v & _ & E)]; [apply (lift_fuel _ E)|discriminate]. }
    apply bind_fuel in E. destruct E as [E|(c & V2 & E)].
    { unfold newchart in E. destruct (go && negb (reranker sg)); [|discriminate]. apply bind_fuel in E. destruct E as [E|(v & _ & E)]; [apply (lift_fuel _ E)|discriminate]. }
    assert (C : forall x, c = Some x -> Q x).
    { unfold newchart in V2. destruct (go && negb (reranker sg)); [|injection V2 as <-; exact I]. inv V2. injection V2 as <-. apply lift_val in V. intros x X. apply some_inj in X. subst x. eapply HQ. exact V. }
    apply bind_fuel in E. destruct E as [E|(pre & V3 & E)].
    { unfold reranked in E. destruct (go && reranker sg); [|discriminate]. destruct (prune sg); [|discriminate]. apply bind_fuel in E. destruct E as [E|(v & _ & E)]; [apply (lift_fuel _ E)|]. destruct (snd v); [discriminate|]. apply (lift_fuel _ E). }
    apply bind_fuel in E. destruct E as [E|(f & V4 & E)].
    { unfold ParseModel.forest in E. destruct sent as [|w sent]; [discriminate|]. destruct (negb (reranker sg) && negb (rr && split sg)); [|discriminate].
      destruct c as [x|]; [|destruct (partialparse st); discriminate]. destruct (ok x) eqn:O; [apply bind_fuel in E; destruct E as [E|(v & _ & E)]; [apply (lift_fuel _ E)|discriminate]|].
      destruct (partialparse st); [discriminate|]. apply bind_fuel in E. destruct E as [E|(v & _ & E)]; [|discriminate]. revert E. apply HP; auto. discriminate. }
    apply bind_fuel in E. destruct E as [E|(v & _ & E)]; [apply (report_fuel _ _ _ _ _ _ E)|discriminate].
  - apply bind_fuel in E. destruct E as [E|(v & _ & E)]; [|discriminate]. revert E. apply IH. cbn [snd]. apply step_spec in V. destruct V as (go & c & pre & f & _ & V2 & _ & _ & _ & _ & E7 & _). rewrite E7.
    unfold newchart in V2. destruct (go && negb (reranker sg)); [|injection V2 as <-; exact I]. inv V2. injection V2 as <-. apply lift_val in V. intros x X. apply some_inj in X. subst x. eapply HQ. exact V.
Qed.
Lemma slice_all : forall {A} (l : list A), slice l 0 (length l) = l.
Proof. intros A l. unfold slice. cbn [skipn]. rewrite Nat.sub_0_r. apply firstn_all. Qed.
(** parsing a sentence ends: the parts of a partial parse are shorter than the
    sentence, or are parsed without partial parses *)
Theorem C86_terminates : reparses -> forall fuel sent tags root, length sent + 2 <= fuel -> parse fuel sent tags root <> Fuel.
Proof.
  clear AS. intro R. assert (G : forall n sent tags root fuel, length sent <= n -> n + 2 <= fuel -> parse fuel sent tags root <> Fuel).
  { intro n. induction n as [|n IH]; intros sent tags root fuel L F; (destruct fuel as [|f]; [lia|]); cbn [ParseModel.parse].
    - destruct sent; [|cbn in L; lia]. apply (loop_fuel (fun c => True)); [auto|intros c N; congruence|auto].
    - apply (loop_fuel (fun c => exists k pr, parsechart k sent tags root pr = Some c)); [eauto| |discriminate].
      intros c N (k & pr & PC) O. apply partial_fuel; [exact N|]. intros lb a b tg H1 H2 B. destruct (Nat.eq_dec (b - a) (length sent)) as [W0|W0].
      + assert (a = 0) by lia. assert (b = length sent) by lia. subst a b. rewrite slice_all. destruct f as [|f]; [lia|]. cbn [ParseModel.parse].
        apply (loop_fuel (fun c => ok c = true)); [|congruence|discriminate]. intros k' pr' c' PC'. eapply R; [exact PC|exact O|exact B|exact PC'].
      + apply IH; [rewrite slice_length by lia; lia|lia]. }
  intros fuel sent tags root H. apply (G (length sent)); lia.
Qed.
End Props.

(** ** Probabilities of partial parses *)
Theorem C86_probmult : forall x y, exists z, probmult (Plain x) (Plain y) = Plain z /\ (z == x * y)%Q.
Proof.
  intros x y. cbn [probmult]. destruct (Qeq_bool x 1) eqn:E.
  - apply Qeq_bool_iff in E. exists y. split; [reflexivity|]. rewrite E. ring.
  - exists (x * y)%Q. split; reflexivity.
Qed.
(** the objective "shortest": the number of subtrees of a later part is not
    added; its probability is *)
Theorem C86_subtrees_refuted : ~ (forall k x l y, exists z, probmult (Pair k x) (Pair l y) = Pair (k + l) z).
Proof. intro H. destruct (H (-(3#1))%Q (1#2)%Q (-(2#1))%Q (1#4)%Q) as (z & E). vm_compute in E. discriminate. Qed.

(** ** Examples *)
Definition plainstage := {| prune := None; split := false; reranker := false; start := str "TOP" |}.
Definition prunedby n := {| prune := Some n; split := false; reranker := false; start := str "TOP" |}.

(** without the assumption of C86_terminates, parse need not end: the sentence
    cannot be parsed, neither with the label of its best item as root *)
Theorem C86_loops_refuted : forall fuel,
  parse (fun _ : unit => false) (fun _ _ _ => Some (str "S")) (fun _ (_ : list nat) _ _ _ => Some tt) (fun _ _ _ => Some []) (fun _ l _ => Some l)
    (fun _ t _ => Some t) (fun t _ => Some t) false [plainstage] fuel [7; 8] None None = Fuel.
Proof.
  assert (G : forall fuel root, parse (fun _ : unit => false) (fun _ _ _ => Some (str "S")) (fun _ (_ : list nat) _ _ _ => Some tt) (fun _ _ _ => Some []) (fun _ l _ => Some l)
    (fun _ t _ => Some t) (fun t _ => Some t) false [plainstage] fuel [7; 8] None root = Fuel).
  { intro fuel. induction fuel as [|f IH]; intro root; [reflexivity|]. cbn [parse loop]. unfold step.
    change (runs (fun _ : unit => false) [7; 8] plainstage initial) with (Val true). cbn [bind].
    change (newchart (fun _ (_ : list nat) (_ : option (list pystr)) (_ : option pystr) (_ : option unit) => Some tt) 0 plainstage initial true [7; 8] None root) with (Val (Some tt)). cbn [bind].
    change (reranked (Chart := unit) (fun _ l (_ : list nat) => Some l) 0 plainstage initial true [7; 8]) with (Val (@nil (tree pystr nat * prob))). cbn [bind].
    unfold forest. cbn [reranker plainstage negb andb initial partialparse]. unfold partial.
    change (partition (fun _ _ => Some (str "S")) (length [7; 8]) 0 (length [7; 8])) with (Some [(Some (str "S"), 0, 2)]). cbn [lift bind pieces].
    change (slice [7; 8] 0 2) with [7; 8]. rewrite IH. reflexivity. }
  intro fuel. apply G.
Qed.

(** a parser which can only parse single words unless a root is given *)
Definition ex_Chart := option (tree pystr nat).
Definition ex_ok (c : ex_Chart) : bool := match c with Some _ => true | None => false end.
Definition ex_best (_ : ex_Chart) (a b : nat) : option pystr := if b =? a + 1 then (if a =? 1 then None else Some (str "X")) else None.
Definition ex_pc (k : nat) (s : list nat) (tg : option (list pystr)) (rt : option pystr) (pr : option ex_Chart) : option ex_Chart :=
  match rt, s with
  | Some l, _ :: _ => Some (Some (Node l (map (fun i => Node (str "w") [Leaf i]) (seq 0 (length s)))))
  | _, _ => Some None
  end.
Definition ex_marg (k : nat) (c : ex_Chart) (s : list nat) : option (list (tree pystr nat * prob)) :=
  match c with Some t => Some [(t, Plain (1#2))] | None => None end.
Definition ex_post (k : nat) (t : tree pystr nat) (s : list nat) := Some t.
Definition ex_binar (t : tree pystr nat) (s : list nat) := Some t.
Definition ex_rerank (k : nat) (l : list (tree pystr nat * prob)) (s : list nat) := Some l.

Lemma ex_assumptions : assumptions ex_pc ex_marg ex_rerank ex_post ex_binar.
Proof.
  constructor.
  - intros k c s l (k0 & tg & rt & pr & E) M. unfold ex_pc in E. destruct rt as [r|]; [|injection E as <-; discriminate]. destruct s as [|w s]; [injection E as <-; discriminate|].
    assert (E' := some_inj _ _ E). subst c. assert (M' := some_inj _ _ M). subst l. constructor; [|constructor]. cbn [fst].
    assert (X : flat_map leaves (map (fun i => Node (L := pystr) (str "w") [Leaf i]) (seq 0 (length (w :: s)))) = seq 0 (length (w :: s)) /\ forallb pre_ok (map (fun i => Node (str "w") [Leaf i]) (seq 0 (length (w :: s)))) = true).
    { generalize 0 (length (w :: s)). clear. intros a n. revert a. induction n as [|n IH]; intro a; [split; reflexivity|]. cbn [seq map flat_map forallb]. destruct (IH (S a)) as [A B]. rewrite A, B. split; reflexivity. }
    destruct X as [X1 X2]. split; [|now apply pre_ok_intro]. cbn [leaves]. rewrite X1. apply Permutation_refl.
  - intros k l s l' E. apply some_inj in E. subst l'. apply incl_refl.
  - intros t s t' n E G. apply some_inj in E. now subst t'.
  - intros k t s t' E N. apply some_inj in E. subst t'. split; [exact N|apply incl_refl].
Qed.
Lemma ex_reparses : reparses ex_ok ex_best ex_pc.
Proof.
  intros k s tg rt pr c lb E O B k' tg' pr' c' E'. unfold ex_pc in E, E'. destruct s as [|w s]; [destruct rt; discriminate|]. apply some_inj in E'. now subst c'.
Qed.
(** words 0 and 2 are parsed as parts with root X, word 1 has no item.  The
    partial parse has the probability 1/2 * 1/2 and is not reported as a
    fallback by the first stage; the second stage, which needs the chart of the
    first, gives the same tree as a fallback. *)
Definition ex_tree : tree pystr nat := Node (str "ROOT") [Node (str "X") [Node (str "w") [Leaf 0]]; Node (str "NN") [Leaf 1]; Node (str "X") [Node (str "w") [Leaf 2]]].
Example parse_partial : exists q, (q == 1#4)%Q /\
  parse ex_ok ex_best ex_pc ex_marg ex_rerank ex_post ex_binar false [plainstage; prunedby 0] 5 [7; 8; 9] None None
  = Val [{| restree := ex_tree; resprob := Plain q; restrees := [(ex_tree, Plain q)]; resnoparse := false |};
         {| restree := ex_tree; resprob := Plain 1; restrees := [(ex_tree, Plain 1)]; resnoparse := true |}].
Proof. eexists. split; [|vm_compute; reflexivity]. reflexivity. Qed.
(** the empty sentence gets the flat tree *)
Example parse_empty : parse ex_ok ex_best ex_pc ex_marg ex_rerank ex_post ex_binar false [plainstage] 2 [] None None
  = Val [{| restree := Node (str "TOP") [Node (str "NOPARSE") []]; resprob := Plain 1; restrees := [(Node (str "TOP") [Node (str "NOPARSE") []], Plain 1)]; resnoparse := true |}].
Proof. reflexivity. Qed.

(** a stage that is not performed (because the stage it is pruned with has no
    parse) reports the trees of the chart of yet another stage: here stage 3
    needs stage 1, which fails; it gives the tree of stage 2 *)
Theorem C86_stale_refuted :
  let t c : tree pystr nat := Node (str "TOP") [Node [c] [Leaf 0]] in
  exists rs r, parse (fun c => negb (c =? 1)) (fun _ _ _ => None) (fun k (_ : list nat) _ _ _ => Some k) (fun _ c _ => Some [(t (N.of_nat (48 + c)), Plain 1)])
    (fun _ l _ => Some l) (fun _ t _ => Some t) (fun t _ => Some t) false [plainstage; plainstage; prunedby 0; prunedby 1] 3 [7] None None = Val rs
  /\ nth_error rs 3 = Some r /\ resnoparse r = false /\ restree r = t (N.of_nat (48 + 2)).
Proof. cbv zeta. eexists. eexists. split; [vm_compute; reflexivity|]. split; [reflexivity|]. split; reflexivity. Qed.
(** the fallback need not be the tree that the earlier stage reported *)
Theorem C86_fallback_refuted :
  let t (l : pystr) : tree pystr nat := Node (str "TOP") [Node l [Leaf 0]] in
  exists r0 r1, parse (fun _ => true) (fun _ _ _ => None) (fun k (_ : list nat) _ _ _ => Some k) (fun k c _ => Some (if k =? 0 then [(t (str "VP*0"), Plain 1)] else []))
    (fun _ l _ => Some l) (fun k u _ => Some (if k =? 0 then t (str "VP") else u)) (fun t _ => Some t) false [plainstage; prunedby 0] 3 [7] None None = Val [r0; r1]
  /\ resnoparse r0 = false /\ restree r0 = t (str "VP") /\ resnoparse r1 = true /\ restree r1 = t (str "VP*0").
Proof. cbv zeta. eexists. eexists. split; [vm_compute; reflexivity|]. repeat split. Qed.
Print Assumptions C86_words. Print Assumptions C86_terminates. Print Assumptions C86_fallback.
