(** C50: edit distance and leaf-ancestor score. *)
From Coq Require Import String.
From Coq Require Import List Bool Arith NArith ZArith QArith Qcanon Lia Permutation.
From Verif Require Import PyStr TreeModel TreeProps BitsModel BinarizeModel TransformModel SortProofs EvalModel EvalProps.
Import ListNotations.
Open Scope list_scope.
Open Scope nat_scope.

(** ** Specification *)
(** one insertion, deletion or substitution, at any place *)
Inductive edit1 {X} : list X -> list X -> Prop :=
| e_insert : forall p x s, edit1 (p ++ s) (p ++ x :: s)
| e_delete : forall p x s, edit1 (p ++ x :: s) (p ++ s)
| e_replace : forall p x y s, edit1 (p ++ x :: s) (p ++ y :: s).
(** n edits one after the other *)
Inductive edits {X} : nat -> list X -> list X -> Prop :=
| edits_0 : forall a, edits 0 a a
| edits_S : forall n a b c, edits n a b -> edit1 b c -> edits (S n) a c.

(** ** Alignments *)
Section Lev.
Context {X : Type}.
Variable eqb : X -> X -> bool.
Hypothesis eqb_eq : forall a b, eqb a b = true <-> a = b.
Inductive al : nat -> list X -> list X -> Prop :=
| al_nil : al 0 [] []
| al_del : forall n x a b, al n a b -> al (S n) (x :: a) b
| al_ins : forall n a y b, al n a b -> al (S n) a (y :: b)
| al_eq : forall n x a b, al n a b -> al n (x :: a) (x :: b)
| al_sub : forall n x y a b, al n a b -> al (S n) (x :: a) (y :: b).
Lemma al_refl : forall a, al 0 a a.
Proof. induction a; now constructor. Qed.
Lemma al_delhead : forall n a xb, al n a xb -> forall x b, xb = x :: b -> exists m, m <= S n /\ al m a b.
Proof.
  induction 1 as [|n z a b' H IH|n a z b' H IH|n z a b' H IH|n z w a b' H IH]; intros x b E; try discriminate.
  - destruct (IH x b E) as (m & L & A). exists (S m). split; [lia|now constructor].
  - injection E as -> ->. exists n. split; [lia|assumption].
  - injection E as -> ->. exists (S n). split; [lia|now constructor].
  - injection E as -> ->. exists (S n). split; [lia|now constructor].
Qed.
Lemma al_subhead : forall n a xb, al n a xb -> forall x b y, xb = x :: b -> exists m, m <= S n /\ al m a (y :: b).
Proof.
  induction 1 as [|n z a b' H IH|n a z b' H IH|n z a b' H IH|n z w a b' H IH]; intros x b y E; try discriminate.
  - destruct (IH x b y E) as (m & L & A). exists (S m). split; [lia|now constructor].
  - injection E as -> ->. exists (S n). split; [lia|now constructor].
  - injection E as -> ->. exists (S n). split; [lia|now constructor].
  - injection E as -> ->. exists (S n). split; [lia|now constructor].
Qed.
Lemma al_conshead : forall b c, (forall n a, al n a b -> exists m, m <= S n /\ al m a c) -> forall n a xb, al n a xb -> forall x, xb = x :: b -> exists m, m <= S n /\ al m a (x :: c).
Proof.
  intros b c K n a xb H. induction H as [|n z a b' H IH|n a z b' H IH|n z a b' H IH|n z w a b' H IH]; intros x E; try discriminate.
  - destruct (IH x E) as (m & L & A). exists (S m). split; [lia|now constructor].
  - injection E as -> ->. destruct (K _ _ H) as (m & L & A). exists (S m). split; [lia|now constructor].
  - injection E as -> ->. destruct (K _ _ H) as (m & L & A). exists m. split; [lia|now constructor].
  - injection E as -> ->. destruct (K _ _ H) as (m & L & A). exists (S m). split; [lia|now constructor].
Qed.
Lemma al_prefix : forall p b c, (forall n a, al n a b -> exists m, m <= S n /\ al m a c) -> forall n a, al n a (p ++ b) -> exists m, m <= S n /\ al m a (p ++ c).
Proof. induction p as [|x p IH]; intros b c K n a H; [now apply K|]. cbn in *. eapply al_conshead; [|exact H|reflexivity]. intros n' a' H'. exact (IH b c K n' a' H'). Qed.
Lemma al_edit : forall n a b c, al n a b -> edit1 b c -> exists m, m <= S n /\ al m a c.
Proof.
  intros n a b c H E. destruct E as [p x s|p x s|p x y s]; (eapply al_prefix; [|exact H]); intros n' a' H'.
  - exists (S n'). split; [lia|now constructor].
  - eapply al_delhead; eauto.
  - eapply al_subhead; eauto.
Qed.
Lemma edits_al : forall n a b, edits n a b -> exists m, m <= n /\ al m a b.
Proof.
  induction 1 as [a|n a b c H IH E]; [exists 0; split; [lia|apply al_refl]|]. destruct IH as (m & L & A). destruct (al_edit m a b c A E) as (k & L2 & B). exists k. split; [lia|assumption].
Qed.
Lemma edit1_cons : forall (x : X) a b, edit1 a b -> edit1 (x :: a) (x :: b).
Proof. intros x a b []; [apply (e_insert (x :: p))|apply (e_delete (x :: p))|apply (e_replace (x :: p))]. Qed.
Lemma edits_cons : forall (x : X) n a b, edits n a b -> edits n (x :: a) (x :: b).
Proof. induction 1 as [|n a b c H IH E]; [constructor|]. econstructor; [exact IH|now apply edit1_cons]. Qed.
Lemma al_edits : forall n a b, al n a b -> edits n a b.
Proof.
  induction 1 as [|n x a b H IH|n a y b H IH|n x a b H IH|n x y a b H IH].
  - constructor.
  - econstructor; [apply edits_cons; exact IH|]. apply (e_delete []).
  - econstructor; [exact IH|]. apply (e_insert []).
  - now apply edits_cons.
  - econstructor; [apply edits_cons; exact IH|]. apply (e_replace []).
Qed.
(** the least *)
Definition isd (d : nat) (a b : list X) : Prop := al d a b /\ forall n, al n a b -> d <= n.
Lemma isd_nil_l : forall b, isd (length b) [] b.
Proof.
  induction b as [|y b [A M]]; (split; [now constructor|]).
  - intros; cbn; lia.
  - intros n H. inversion H; subst. match goal with K : al _ _ _ |- _ => apply M in K; cbn; lia end.
Qed.
Lemma isd_nil_r : forall a, isd (length a) a [].
Proof.
  induction a as [|y a [A M]]; (split; [now constructor|]).
  - intros; cbn; lia.
  - intros n H. inversion H; subst. match goal with K : al _ _ _ |- _ => apply M in K; cbn; lia end.
Qed.
Lemma isd_step : forall x y a b u d l, isd u a (y :: b) -> isd d a b -> isd l (x :: a) b ->
  isd (min (min (u + 1) (d + (if eqb x y then 0 else 1))) (l + 1)) (x :: a) (y :: b).
Proof.
  intros x y a b u d l [U MU] [D MD] [W MW].
  assert (E : (eqb x y = true /\ x = y) \/ (eqb x y = false /\ x <> y)).
  { destruct (eqb x y) eqn:E; [left; split; [reflexivity|now apply eqb_eq]|right; split; [reflexivity|]]. intros ->. rewrite (proj2 (eqb_eq y y) eq_refl) in E. discriminate. }
  split.
  - destruct (Nat.min_spec (min (u + 1) (d + (if eqb x y then 0 else 1))) (l + 1)) as [[_ ->]|[_ ->]]; [|rewrite Nat.add_1_r; now constructor].
    destruct (Nat.min_spec (u + 1) (d + (if eqb x y then 0 else 1))) as [[_ ->]|[_ ->]]; [rewrite Nat.add_1_r; now constructor|].
    destruct E as [[-> ->]|[-> _]]; [rewrite Nat.add_0_r|rewrite Nat.add_1_r]; now constructor.
  - intros n H. inversion H as [|n' ? ? ? H'|n' ? ? ? H'|n' ? ? ? H'|n' ? ? ? ? H']; subst.
    + apply MU in H'. lia.
    + apply MW in H'. lia.
    + apply MD in H'. rewrite (proj2 (eqb_eq y y) eq_refl). lia.
    + apply MD in H'. destruct (eqb x y); lia.
Qed.
Fixpoint rowok (ra rp s2 : list X) (row : list nat) : Prop :=
  match s2, row with
  | [], [] => True
  | y :: s2', u :: row' => isd u ra (y :: rp) /\ rowok ra (y :: rp) s2' row'
  | _, _ => False
  end.
Lemma nextrow_ok : forall x s2 ra rp d up l, isd d ra rp -> isd l (x :: ra) rp -> rowok ra rp s2 up ->
  rowok (x :: ra) rp s2 (nextrow eqb x s2 d up l).
Proof.
  intros x. induction s2 as [|y s2 IH]; intros ra rp d [|u up] l D W R; cbn in R; try contradiction; [exact Logic.I|]. destruct R as [U R]. cbn [nextrow rowok].
  pose proof (isd_step x y ra rp u d l U D W) as N. split; [exact N|]. now apply IH.
Qed.
Lemma levrows_ok : forall s1 s2 ra row, isd (hd 0 row) ra [] -> rowok ra [] s2 (tl row) -> row <> [] ->
  let r := levrows eqb (length ra) s1 s2 row in isd (hd 0 r) (rev s1 ++ ra) [] /\ rowok (rev s1 ++ ra) [] s2 (tl r) /\ r <> [].
Proof.
  induction s1 as [|x s1 IH]; intros s2 ra row D R N; [cbn; auto|]. cbn [levrows rev]. rewrite <- app_assoc. cbn [app].
  apply (IH s2 (x :: ra)); cbn [hd tl].
  - apply (isd_nil_r (x :: ra)).
  - apply nextrow_ok; auto. apply (isd_nil_r (x :: ra)).
  - discriminate.
Qed.
Lemma row_last : forall s2 ra rp row d, isd d ra rp -> rowok ra rp s2 row -> isd (last (d :: row) 0) ra (rev s2 ++ rp).
Proof.
  induction s2 as [|y s2 IH]; intros ra rp [|u row] d D R; cbn in R; try contradiction; [exact D|]. destruct R as [U R]. cbn [rev]. rewrite <- app_assoc. cbn [app].
  change (last (d :: u :: row) 0) with (last (u :: row) 0). now apply IH.
Qed.
Lemma firstrow_ok : forall s2 rp, rowok [] rp s2 (seq (S (length rp)) (length s2)).
Proof. induction s2 as [|y s2 IH]; intros rp; [exact Logic.I|]. cbn [length seq rowok]. split; [apply (isd_nil_l (y :: rp))|apply (IH (y :: rp))]. Qed.
Lemma editdistance_isd : forall a b, isd (editdistance eqb a b) (rev a) (rev b).
Proof.
  intros a b. unfold editdistance. pose proof (levrows_ok a b [] (seq 0 (S (length b)))) as H. cbn [length app seq hd tl] in H. specialize (H (isd_nil_l []) (firstrow_ok b [])). cbn [seq] in *. specialize (H ltac:(discriminate)). rewrite app_nil_r in H.
  destruct (levrows eqb 0 a b (0 :: seq 1 (length b))) as [|d row]; destruct H as (D & R & N); [congruence|]. cbn [hd tl] in *. rewrite <- (app_nil_r (rev b)). now apply row_last.
Qed.
Lemma edit1_rev : forall a b : list X, edit1 a b -> edit1 (rev a) (rev b).
Proof. intros a b []; rewrite !rev_app_distr; cbn [rev]; rewrite <- ?app_assoc; cbn [app]; constructor. Qed.
Lemma edits_rev : forall n (a b : list X), edits n a b -> edits n (rev a) (rev b).
Proof. induction 1 as [|n a b c H IH E]; [constructor|]. econstructor; [exact IH|now apply edit1_rev]. Qed.
(** The result is the least number of edits. *)
Theorem C50_editdistance : forall a b, edits (editdistance eqb a b) a b /\ forall n, edits n a b -> editdistance eqb a b <= n.
Proof.
  intros a b. destruct (editdistance_isd a b) as [A M]. split.
  - apply al_edits, edits_rev in A. now rewrite !rev_involutive in A.
  - intros n H. apply edits_rev, edits_al in H. destruct H as (m & L & H). apply M in H. lia.
Qed.
Lemma edit1_sym : forall a b : list X, edit1 a b -> edit1 b a.
Proof. intros a b []; constructor. Qed.
Lemma edits_trans : forall n m (a b c : list X), edits n a b -> edits m b c -> edits (m + n) a c.
Proof. intros n m a b c H K. revert n a H. induction K as [b|m b b' c K IH E]; intros n a H; [exact H|]. cbn. econstructor; [now apply IH|exact E]. Qed.
Lemma edits_one : forall a b : list X, edit1 a b -> edits 1 a b.
Proof. intros. econstructor; [constructor|assumption]. Qed.
Lemma edits_sym : forall n (a b : list X), edits n a b -> edits n b a.
Proof. induction 1 as [|n a b c H IH E]; [constructor|]. apply edit1_sym, edits_one in E. pose proof (edits_trans _ _ _ _ _ E IH) as T. now rewrite Nat.add_1_r in T. Qed.
(** a metric *)
Theorem C50_zero : forall a b, editdistance eqb a b = 0 <-> a = b.
Proof.
  intros a b. destruct (C50_editdistance a b) as [A M]. split.
  - intros E. rewrite E in A. now inversion A.
  - intros ->. specialize (M 0 (edits_0 b)). lia.
Qed.
Theorem C50_symmetric : forall a b, editdistance eqb a b = editdistance eqb b a.
Proof.
  intros a b. destruct (C50_editdistance a b) as [A M]. destruct (C50_editdistance b a) as [B N]. apply Nat.le_antisymm; [apply M|apply N]; now apply edits_sym.
Qed.
Theorem C50_triangle : forall a b c, editdistance eqb a c <= editdistance eqb a b + editdistance eqb b c.
Proof. intros a b c. apply C50_editdistance. rewrite Nat.add_comm. eapply edits_trans; apply C50_editdistance. Qed.
Lemma edits_replace : forall a b : list X, length a = length b -> edits (length a) a b.
Proof.
  induction a as [|x a IH]; intros [|y b] L; try discriminate; [constructor|]. cbn in L. injection L as L. cbn [length]. eapply (edits_S _ _ (x :: b)); [apply edits_cons; now apply IH|]. apply (e_replace []).
Qed.
Lemma edits_append : forall a b : list X, edits (length b) a (a ++ b).
Proof.
  intros a b. revert a. induction b as [|y b IH]; intros a; [rewrite app_nil_r; constructor|]. cbn [length]. replace (a ++ y :: b) with ((a ++ [y]) ++ b) by (now rewrite <- app_assoc).
  replace (S (length b)) with (length b + 1) by lia. eapply edits_trans; [|apply IH]. apply edits_one. replace a with (a ++ []) at 1 by apply app_nil_r. constructor.
Qed.
(** at most the length of the longer sequence, at least the difference in length *)
Theorem C50_bounds : forall a b, editdistance eqb a b <= max (length a) (length b) /\ length a <= length b + editdistance eqb a b /\ length b <= length a + editdistance eqb a b.
Proof.
  assert (G : forall a b : list X, length a <= length b -> editdistance eqb a b <= length b).
  { intros a b L. apply C50_editdistance. rewrite <- (firstn_skipn (length a) b) at 2. replace (length b) with (length (skipn (length a) b) + length a) by (rewrite skipn_length; lia).
    eapply edits_trans; [|apply edits_append]. apply edits_replace. rewrite firstn_length. lia. }
  intros a b. split.
  - destruct (Nat.le_ge_cases (length a) (length b)) as [L|L]; [specialize (G a b L); lia|]. rewrite C50_symmetric. specialize (G b a L). lia.
  - destruct (C50_editdistance a b) as [A _]. revert A. generalize (editdistance eqb a b). clear. intros n A. induction A as [|n a b c H IH E]; [lia|]. destruct E; rewrite !app_length in *; cbn [length] in *; lia.
Qed.
End Lev.
Example C50_ex : editdistance eqs [str "r"; str "a"; str "i"; str "n"] [str "s"; str "h"; str "i"; str "n"; str "e"] = 3.
Proof. reflexivity. Qed.

(** ** Path scores *)
Definition pathdenom (gold cand : list pystr) : nat := max (length gold + length cand) 1.
Theorem C50_pathscore : forall gold cand, (0 <= pathscore gold cand <= 1)%Qc /\ (pathscore gold cand = 1%Qc <-> gold = cand) /\ pathscore gold cand = pathscore cand gold.
Proof.
  intros gold cand. unfold pathscore. rewrite app_length. pose proof (C50_bounds eqs eqs_eq cand gold) as (B & _). set (d := editdistance eqs cand gold) in *. set (m := max (length gold + length cand) 1).
  assert (P : 0 < m) by (unfold m; lia). assert (L : d <= m) by (unfold m; lia). destruct (ratio_range d m L P) as [R1 R2]. split; [|split].
  - split.
    + apply Qcle_minus_iff in R2. exact R2.
    + apply Qcle_minus_iff. replace (1 + - (1 - nq d / nq m))%Qc with (nq d / nq m)%Qc by ring. exact R1.
  - split.
    + intros E. assert (Z : (nq d / nq m = 0)%Qc). { replace (nq d / nq m)%Qc with (1 - (1 - nq d / nq m))%Qc by ring. rewrite E. ring. } apply ratio_zero in Z; [|assumption]. symmetry. now apply (C50_zero eqs eqs_eq).
    + intros ->. assert (Z : d = 0) by (now apply (C50_zero eqs eqs_eq)). rewrite (proj2 (ratio_zero d m P) Z). ring.
  - unfold m. rewrite app_length, (Nat.add_comm (length cand)). do 2 f_equal. unfold d. now rewrite (C50_symmetric eqs eqs_eq).
Qed.
Lemma mean_some : forall xs : list Qc, xs <> [] -> mean (map Some xs) = Some (fold_left Qcplus xs 0 / nq (length xs))%Qc.
Proof.
  intros xs N. unfold mean. rewrite map_length. destruct xs as [|x xs]; [congruence|]. cbn [map]. change (Some x :: map Some xs) with (map Some (x :: xs)).
  assert (G : forall l a, fold_left (fun acc y => match acc, y with Some u, Some b => Some (u + b)%Qc | _, _ => None end) (map Some l) (Some a) = Some (fold_left Qcplus l a)).
  { induction l as [|y l IH]; intros a; [reflexivity|]. cbn. apply IH. }
  rewrite G. reflexivity.
Qed.

(** ** Leaf-ancestor paths *)
(** the nodes above terminal [b], from the root down *)
Fixpoint chain (b : nat) (t : tree pystr nat) : list (tree pystr nat) :=
  match t with
  | Leaf _ => []
  | Node l ts => if memn b (leaves t) then t :: flat_map (chain b) ts else []
  end.
(** the ones that count: constituents with a label that is not ignored *)
Definition above (dellabel : list pystr) (b : nat) (t n : tree pystr nat) : Prop :=
  In n (chain b t) /\ (exists l l' us ts, n = Node l (Node l' us :: ts) /\ ~ In l dellabel).
Definition markers : list pystr := [str "("; str ")"; str "["; str "]"].
Definition ok (dellabel : list pystr) (n : tree pystr nat) : bool := phrasal n && nonempty (leaves n) && negb (mems (tlabel n) dellabel).
Definition step (dellabel : list pystr) (b : nat) (p : list pystr) (n : tree pystr nat) : list pystr :=
  if ok dellabel n then extendpath (tlabel n) (leaves n) b p else p.
Lemma mems_in : forall x l, mems x l = true <-> In x l.
Proof. intros. unfold mems. rewrite existsb_exists. split; [intros (y & A & B); apply eqs_eq in B; now subst|intros H; exists x; split; [assumption|apply eqs_refl]]. Qed.
Lemma mems_false : forall x l, mems x l = false <-> ~ In x l.
Proof. intros. rewrite <- mems_in. destruct (mems x l); split; congruence || tauto. Qed.
Lemma memn_false : forall x l, memn x l = false <-> ~ In x l.
Proof. intros. rewrite <- memn_in. destruct (memn x l); split; congruence || tauto. Qed.
Lemma chain_notin : forall b t, ~ In b (leaves t) -> chain b t = [].
Proof. intros b [a|l ts] H; [reflexivity|]. cbn [chain]. now rewrite (proj2 (memn_false _ _) H). Qed.
Lemma chain_level_notin : forall b ts, ~ In b (flat_map leaves ts) -> flat_map (chain b) ts = [].
Proof. induction ts as [|t ts IH]; intros H; [reflexivity|]. cbn in *. rewrite chain_notin, IH; auto; intros X; apply H; apply in_or_app; auto. Qed.
Lemma flat_leaves_incl : forall (ts : list (tree pystr nat)) b, In b (flat_map leaves ts) -> exists t, In t ts /\ In b (leaves t).
Proof. intros ts b H. apply in_flat_map in H. exact H. Qed.
(** one level: the path of b is extended by the node of the level that has b *)
Definition heads (b : nat) (level : list (tree pystr nat)) : list (tree pystr nat) := filter (fun n => memn b (leaves n)) level.
Lemma visit_keys : forall d ps n, map fst (visit d ps n) = map fst ps.
Proof. intros d ps n. unfold visit. destruct (_ && _); [|reflexivity]. rewrite map_map. apply map_ext. intros p. now destruct (memn (fst p) (leaves n)). Qed.
Lemma nlookup_map : forall {V} (f : nat * V -> nat * V) l k, (forall p, fst (f p) = fst p) -> nlookup k (map f l) = option_map (fun v => snd (f (k, v))) (nlookup k l).
Proof. intros V f l k F. induction l as [|[k' v] l IH]; [reflexivity|]. cbn. destruct (f (k', v)) as [k2 v2] eqn:E. pose proof (F (k', v)) as E2. rewrite E in E2. cbn in E2. subst. destruct (k =? k') eqn:E3; [|apply IH]. apply Nat.eqb_eq in E3. subst. cbn. now rewrite E. Qed.
Lemma visit_lookup : forall d n ps b, nlookup b (visit d ps n) = option_map (fun p => if memn b (leaves n) then step d b p n else p) (nlookup b ps).
Proof.
  intros d n ps b. unfold visit, step. fold (ok d n). destruct (ok d n).
  - rewrite nlookup_map by (intros p; now destruct (memn (fst p) (leaves n))). destruct (nlookup b ps); [|reflexivity]. cbn. now destruct (memn b (leaves n)).
  - destruct (nlookup b ps); [|reflexivity]. cbn. now destruct (memn b (leaves n)).
Qed.
Lemma visits_lookup : forall d level ps b, nlookup b (fold_left (visit d) level ps) = option_map (fun p => fold_left (step d b) (heads b level) p) (nlookup b ps).
Proof.
  intros d. induction level as [|n level IH]; intros ps b; cbn [fold_left heads filter]; [now destruct (nlookup b ps)|]. rewrite IH, visit_lookup. destruct (nlookup b ps); [|reflexivity]. cbn. now destruct (memn b (leaves n)).
Qed.
Definition expand (n : tree pystr nat) : list (tree pystr nat) :=
  match n with Node _ ts => if phrasal n && nonempty (leaves n) then ts else [] | Leaf _ => [] end.
Lemma expand_leaves : forall n x, In x (flat_map leaves (expand n)) -> In x (leaves n).
Proof. intros [a|l ts] x H; [contradiction|]. cbn [expand] in H. destruct (_ && _); [exact H|contradiction]. Qed.
Lemma expand_NoDup : forall level, NoDup (flat_map leaves level) -> NoDup (flat_map leaves (flat_map expand level)).
Proof.
  induction level as [|n level IH]; intros H; [constructor|]. cbn [flat_map] in *. rewrite flat_map_app.
  assert (D : forall x, In x (leaves n) -> ~ In x (flat_map leaves level)). { intros x Hx Hy. apply in_split in Hx. destruct Hx as (p & q & E). rewrite E in H. rewrite <- app_assoc in H. cbn [app] in H. apply NoDup_remove_2 in H. apply H. apply in_or_app. right. apply in_or_app. now right. }
  assert (NoDup (leaves n) /\ NoDup (flat_map leaves level)) as [N1 N2].
  { clear IH D. induction (leaves n) as [|x xs IH]; [split; [constructor|assumption]|]. cbn in H. inversion H as [|? ? A B]; subst. destruct (IH B). split; [constructor; [intros X; apply A; apply in_or_app; now left|assumption]|assumption]. }
  assert (G : forall a b : list nat, NoDup a -> NoDup b -> (forall x, In x a -> ~ In x b) -> NoDup (a ++ b)).
  { clear. induction a as [|x a IH]; intros b A B D; [assumption|]. cbn. inversion A; subst. constructor; [intros X; apply in_app_or in X; destruct X; [contradiction|apply (D x); [now left|assumption]]|]. apply IH; auto. intros y Hy. apply D. now right. }
  apply G; [|now apply IH|].
  - destruct n as [a|l ts]; [constructor|]. cbn [expand]. destruct (_ && _); [exact N1|constructor].
  - intros x Hx Hy. apply expand_leaves in Hx. apply (D x Hx). apply in_flat_map in Hy. destruct Hy as (m & Hm & Hy). apply in_flat_map in Hm. destruct Hm as (k & Hk & Hm). apply in_flat_map. exists k. split; [assumption|]. apply expand_leaves. apply in_flat_map. eauto.
Qed.
(** what is skipped adds nothing *)
Lemma fold_step_skip : forall d b ns p, (forall n, In n ns -> ok d n = false) -> fold_left (step d b) ns p = p.
Proof. induction ns as [|n ns IH]; intros p H; [reflexivity|]. cbn [fold_left]. unfold step at 2. rewrite (H n) by (now left). apply IH. intros; apply H; now right. Qed.
(** no constituents below nodes that are not expanded; phrasal nodes have no
    terminal before the first node only: below a preterminal there are none *)
Definition proper (t : tree pystr nat) : Prop := forall l ts, In (Node l ts) (pre t) -> (forall c, In c ts -> exists l' us, c = Node l' us) \/ (forall c, In c ts -> exists a, c = Leaf a).
Lemma pre_sub : forall (t s u : tree pystr nat), In s (pre t) -> In u (pre s) -> In u (pre t).
Proof.
  induction t as [a|l ts IH] using tree_ind'; intros s u H K; [contradiction|]. cbn [pre] in H. destruct H as [<-|H]; [assumption|]. cbn [pre]. right. apply in_flat_map in H. destruct H as (c & Hc & H). apply in_flat_map. exists c. split; [assumption|]. rewrite Forall_forall in IH. eapply IH; eauto.
Qed.
Lemma proper_child : forall l ts c, proper (Node l ts) -> In c ts -> proper c.
Proof. intros l ts c P Hc l' us H. apply (P l' us). cbn [pre]. right. apply in_flat_map. eauto. Qed.
Lemma chain_step_expand : forall d b n p, proper n -> In b (leaves n) ->
  fold_left (step d b) (chain b n) p = fold_left (step d b) (flat_map (chain b) (expand n)) (step d b p n).
Proof.
  intros d b [a|l ts] p P H; [cbn; unfold step, ok; reflexivity|]. cbn [chain]. rewrite (proj2 (memn_in _ _) H). cbn [fold_left]. cbn [expand].
  assert (NE : nonempty (leaves (Node l ts)) = true) by (destruct (leaves (Node l ts)); [contradiction|reflexivity]). rewrite NE, andb_true_r.
  destruct (phrasal (Node l ts)) eqn:E; [reflexivity|]. cbn [flat_map fold_left].
  replace (flat_map (chain b) ts) with (@nil (tree pystr nat)); [reflexivity|].
  destruct (P l ts (or_introl eq_refl)) as [Q|Q].
  - destruct ts as [|c ts]; [reflexivity|]. destruct (Q c (or_introl eq_refl)) as (l' & us & ->). discriminate.
  - clear - Q. symmetry. induction ts as [|c ts IH]; [reflexivity|]. cbn. destruct (Q c (or_introl eq_refl)) as (a & ->). cbn. apply IH. intros; apply Q; now right.
Qed.
Lemma fm_size : forall level, level <> [] -> list_sum (map size (flat_map expand level)) < list_sum (map size level).
Proof.
  assert (E : forall n, list_sum (map size (expand n)) < size n) by (intros [a|l ts]; cbn [expand size]; [cbn; lia|destruct (_ && _); cbn; lia]).
  assert (G : forall level, list_sum (map size (flat_map expand level)) <= list_sum (map size level)).
  { induction level as [|n level IH]; [reflexivity|]. cbn [flat_map map list_sum fold_right]. rewrite map_app, list_sum_app. specialize (E n). cbn. unfold list_sum in *. lia. }
  intros [|n level] N; [congruence|]. cbn [flat_map map]. rewrite map_app, list_sum_app. specialize (E n). specialize (G level). cbn. unfold list_sum in *. lia.
Qed.
Lemma nodup_app_r : forall a b : list nat, NoDup (a ++ b) -> NoDup b.
Proof. induction a as [|x a IH]; intros b H; [assumption|]. inversion H; auto. Qed.
Lemma level_chain : forall d b level p, (forall n, In n level -> proper n) -> NoDup (flat_map leaves level) ->
  fold_left (step d b) (flat_map (chain b) level) p = fold_left (step d b) (flat_map (chain b) (flat_map expand level)) (fold_left (step d b) (heads b level) p).
Proof.
  intros d b. induction level as [|n level IH]; intros p P N; [reflexivity|]. cbn [flat_map heads filter]. rewrite flat_map_app.
  assert (N2 : NoDup (flat_map leaves level)) by (cbn in N; exact (nodup_app_r _ _ N)).
  destruct (memn b (leaves n)) eqn:M.
  - apply memn_in in M. assert (NI : ~ In b (flat_map leaves level)). { intros Hy. apply in_split in M. destruct M as (u & q & E). cbn in N. rewrite E in N. rewrite <- app_assoc in N. cbn [app] in N. apply NoDup_remove_2 in N. apply N. apply in_or_app. right. apply in_or_app. now right. }
    rewrite (chain_level_notin b level NI), app_nil_r. fold (heads b level).
    replace (heads b level) with (@nil (tree pystr nat)); [cbn [fold_left]|].
    + rewrite (chain_level_notin b (flat_map expand level)), app_nil_r; [now apply chain_step_expand; [apply P; now left|]|].
      intros X. apply NI. apply in_flat_map in X. destruct X as (m & Hm & Hy). apply in_flat_map in Hm. destruct Hm as (k & Hk & Hm). apply in_flat_map. exists k. split; [assumption|]. apply expand_leaves. apply in_flat_map. eauto.
    + symmetry. unfold heads. clear - NI. induction level as [|m level IH]; [reflexivity|]. cbn in *. replace (memn b (leaves m)) with false; [apply IH; intros X; apply NI, in_or_app; now right|]. symmetry. apply memn_false. intros X. apply NI, in_or_app. now left.
  - apply memn_false in M. rewrite (chain_notin b n M). cbn [app].
    rewrite (chain_level_notin b (expand n)) by (intros X; apply M; now apply expand_leaves). cbn [app]. apply IH; [intros; apply P; now right|assumption].
Qed.
Lemma expand_proper : forall level, (forall n, In n level -> proper n) -> forall n, In n (flat_map expand level) -> proper n.
Proof. intros level P n H. apply in_flat_map in H. destruct H as ([a|l ts] & Hk & H); [contradiction|]. cbn [expand] in H. destruct (_ && _); [|contradiction]. eapply proper_child; [apply (P _ Hk)|exact H]. Qed.
Lemma la_levels_lookup : forall d b fuel level ps, list_sum (map size level) < fuel -> (forall n, In n level -> proper n) -> NoDup (flat_map leaves level) ->
  nlookup b (la_levels fuel d level ps) = option_map (fun p => fold_left (step d b) (flat_map (chain b) level) p) (nlookup b ps).
Proof.
  intros d b. induction fuel as [|f IH]; intros level ps L P N; [lia|]. destruct level as [|n level]; [cbn; now destruct (nlookup b ps)|].
  cbn [la_levels]. change (fun n0 : tree pystr nat => match n0 with Leaf _ => [] | Node _ ts => if phrasal n0 && nonempty (leaves n0) then ts else [] end) with expand. rewrite IH.
  - rewrite visits_lookup. destruct (nlookup b ps) as [p|]; [|reflexivity]. cbn [option_map]. f_equal. symmetry. now apply level_chain.
  - pose proof (fm_size (n :: level) ltac:(discriminate)). lia.
  - now apply expand_proper.
  - now apply expand_NoDup.
Qed.

Lemma chain_in : forall b t n, In n (chain b t) -> In n (pre t) /\ In b (leaves n).
Proof.
  intros b. induction t as [a|l ts IH] using tree_ind'; intros n H; [contradiction|]. cbn [chain] in H. destruct (memn b (leaves (Node l ts))) eqn:M; [|contradiction]. destruct H as [<-|H].
  - split; [now left|now apply memn_in].
  - apply in_flat_map in H. destruct H as (c & Hc & H). rewrite Forall_forall in IH. destruct (IH c Hc n H) as [A B]. split; [|assumption]. cbn [pre]. right. apply in_flat_map. eauto.
Qed.
Lemma sort_perm_nat : forall l, Permutation (sort Nat.leb l) l.
Proof. intros. apply Permutation_sym, sort_perm. Qed.
Lemma nlookup_init : forall l b, In b l -> nlookup b (map (fun a => (a, [] : list pystr)) l) = Some [].
Proof. induction l as [|x l IH]; intros b H; [contradiction|]. cbn. destruct (b =? x) eqn:E; [reflexivity|]. apply IH. destruct H as [->|H]; [rewrite Nat.eqb_refl in E; discriminate|assumption]. Qed.
Lemma path_fold : forall d t b, NoDup (leaves t) -> proper t -> In b (leaves t) ->
  nlookup b (leafancestorpaths d t) = Some (fold_left (step d b) (chain b t) []).
Proof.
  intros d t b N P H. unfold leafancestorpaths. rewrite la_levels_lookup.
  - rewrite nlookup_init; [cbn; now rewrite app_nil_r|]. eapply Permutation_in; [apply Permutation_sym, sort_perm_nat|assumption].
  - cbn. lia.
  - intros n [<-|[]]. assumption.
  - cbn. now rewrite app_nil_r.
Qed.
(** first and last terminal *)
Definition leftmost (b : nat) (n : tree pystr nat) : Prop := In b (leaves n) /\ forall x, In x (leaves n) -> b <= x.
Definition rightmost (b : nat) (n : tree pystr nat) : Prop := In b (leaves n) /\ forall x, In x (leaves n) -> x <= b.
(** first and last of a contiguous part that is not the first/last one *)
Definition partstart (b : nat) (n : tree pystr nat) : Prop := In b (leaves n) /\ (forall x, S x = b -> ~ In x (leaves n)) /\ ~ leftmost b n.
Definition partend (b : nat) (n : tree pystr nat) : Prop := In b (leaves n) /\ ~ In (S b) (leaves n) /\ ~ rightmost b n.
Lemma fmin : forall ls d, (forall x, In x ls -> fold_right min d ls <= x) /\ (fold_right min d ls = d \/ In (fold_right min d ls) ls).
Proof.
  induction ls as [|y ls IH]; intros d; cbn; [split; [tauto|now left]|]. destruct (IH d) as [A B]. split.
  - intros x [->|H]; [lia|]. specialize (A x H). lia.
  - destruct (Nat.min_spec y (fold_right min d ls)) as [[_ ->]|[_ ->]]; tauto.
Qed.
Lemma fmax : forall ls d, (forall x, In x ls -> x <= fold_right max d ls) /\ (fold_right max d ls = d \/ In (fold_right max d ls) ls).
Proof.
  induction ls as [|y ls IH]; intros d; cbn; [split; [tauto|now left]|]. destruct (IH d) as [A B]. split.
  - intros x [->|H]; [lia|]. specialize (A x H). lia.
  - destruct (Nat.max_spec y (fold_right max d ls)) as [[_ ->]|[_ ->]]; tauto.
Qed.
Lemma first_eq : forall ls b, In b ls -> (b =? fold_right min (hd 0 ls) ls) = true <-> forall x, In x ls -> b <= x.
Proof.
  intros ls b H. rewrite Nat.eqb_eq. destruct (fmin ls (hd 0 ls)) as [A B]. assert (I : In (fold_right min (hd 0 ls) ls) ls). { destruct B as [->|B]; [|assumption]. destruct ls; [contradiction|now left]. } split.
  - intros ->. exact A.
  - intros K. apply Nat.le_antisymm; auto.
Qed.
Lemma last_eq : forall ls b, In b ls -> (b =? fold_right max 0 ls) = true <-> forall x, In x ls -> x <= b.
Proof.
  intros ls b H. rewrite Nat.eqb_eq. destruct (fmax ls 0) as [A B]. split.
  - intros ->. exact A.
  - intros K. apply Nat.le_antisymm; [auto|]. destruct B as [->|B]; [lia|auto].
Qed.
Definition nomark (x : pystr) : bool := negb (mems x markers).
Definition occ (m : pystr) (p : list pystr) : nat := length (filter (eqs m) p).
Lemma occ_app : forall m p q, occ m (p ++ q) = occ m p + occ m q.
Proof. intros. unfold occ. now rewrite filter_app, app_length. Qed.
Lemma occ_in : forall m p, 0 < occ m p <-> In m p.
Proof.
  induction p as [|x p IH]; unfold occ; cbn; [split; [lia|tauto]|]. destruct (eqs m x) eqn:E; cbn.
  - apply eqs_eq in E. subst. split; [auto|lia].
  - fold (occ m p). rewrite IH. apply eqs_neq in E. split; [auto|intros [X|X]; [congruence|assumption]].
Qed.
Definition b2n (b : bool) : nat := if b then 1 else 0.
(** which marks are added *)
Lemma extend_marks : forall label ls b p, ~ In label markers -> In b ls ->
  let q := extendpath label ls b p in
  let first := (b =? fold_right min (hd 0 ls) ls) in let lst := (b =? fold_right max 0 ls) in
  filter nomark q = filter nomark p ++ [label] /\
  occ (str "(") q = occ (str "(") p + b2n (first && negb (mems (str "(") p)) /\
  occ (str ")") q = occ (str ")") p + b2n (lst && negb (mems (str ")") p)) /\
  occ (str "[") q = occ (str "[") p + b2n (negb first && ((b =? 0) || negb (memn (b - 1) ls)) && negb (mems (str "[") p)) /\
  occ (str "]") q = occ (str "]") p + b2n (negb lst && negb (memn (b + 1) ls) && negb (mems (str "]") p)).
Proof.
  intros label ls b p NL Hb q first lst.
  assert (NM : nomark label = true) by (unfold nomark; rewrite (proj2 (mems_false _ _) NL); reflexivity).
  assert (F1 : first = true -> (b =? 0) || negb (memn (b - 1) ls) = true).
  { intros E0. pose proof (proj1 (first_eq ls b Hb) E0) as E. destruct (b =? 0) eqn:Z; [reflexivity|]. cbn. apply negb_true_iff, memn_false. intros X. apply E in X. apply Nat.eqb_neq in Z. lia. }
  assert (L1 : lst = true -> memn (b + 1) ls = false) by (intros E0; pose proof (proj1 (last_eq ls b Hb) E0) as E; apply memn_false; intros X; apply E in X; lia).
  assert (OL : forall m, In m markers -> eqs m label = false) by (intros m Hm; apply eqs_neq; intros ->; contradiction).
  assert (MA : forall m a c, mems m (a ++ c) = mems m a || mems m c) by (intros; unfold mems; apply existsb_app).
  assert (M1 : forall m, In m markers -> mems m [label] = false) by (intros m Hm; cbn; now rewrite (OL m Hm)).
  unfold q, extendpath. fold first lst.
  set (op := str "(") in *. set (cl := str ")") in *. set (ob := str "[") in *. set (cb := str "]") in *.
  assert (Iop : In op markers) by (cbn; auto). assert (Icl : In cl markers) by (cbn; auto). assert (Iob : In ob markers) by (cbn; auto). assert (Icb : In cb markers) by (cbn; auto).
  assert (T1 : forall m n, In m markers -> In n markers -> eqs m n = true -> m = n) by (intros m n _ _ E; now apply eqs_eq).
  assert (S1 : nomark op = false /\ nomark cl = false /\ nomark ob = false /\ nomark cb = false) by (repeat split; reflexivity). destruct S1 as (S1 & S2 & S3 & S4).
  assert (O1 : forall m, In m markers -> occ m [label] = 0) by (intros m Hm; unfold occ; cbn; now rewrite (OL m Hm)).
  assert (EQ : occ op [op] = 1 /\ occ op [cl] = 0 /\ occ op [ob] = 0 /\ occ op [cb] = 0 /\ occ cl [op] = 0 /\ occ cl [cl] = 1 /\ occ cl [ob] = 0 /\ occ cl [cb] = 0 /\
    occ ob [op] = 0 /\ occ ob [cl] = 0 /\ occ ob [ob] = 1 /\ occ ob [cb] = 0 /\ occ cb [op] = 0 /\ occ cb [cl] = 0 /\ occ cb [ob] = 0 /\ occ cb [cb] = 1) by (repeat split; reflexivity).
  assert (MQ : mems op [cl] = false /\ mems op [cb] = false /\ mems ob [cl] = false /\ mems ob [cb] = false) by (repeat split; reflexivity).
  clearbody op cl ob cb. clear T1 q.
  destruct EQ as (e1 & e2 & e3 & e4 & e5 & e6 & e7 & e8 & e9 & e10 & e11 & e12 & e13 & e14 & e15 & e16). destruct MQ as (q1 & q2 & q3 & q4).
  set (P1 := if negb (memn (b + 1) ls) then if lst && negb (mems cl p) then p ++ [cl] else if negb lst && negb (mems cb p) then p ++ [cb] else p else p).
  assert (H1 : filter nomark P1 = filter nomark p /\ occ op P1 = occ op p /\ occ ob P1 = occ ob p /\ mems op P1 = mems op p /\ mems ob P1 = mems ob p /\
    occ cl P1 = occ cl p + b2n (lst && negb (mems cl p)) /\ occ cb P1 = occ cb p + b2n (negb lst && negb (memn (b + 1) ls) && negb (mems cb p))).
  { unfold P1. clear - L1 MA S2 S4 e2 e4 e6 e8 e10 e12 e14 e16 q1 q2 q3 q4. clearbody lst. destruct lst.
    - rewrite (L1 eq_refl). cbn [negb andb]. destruct (mems cl p); cbn [negb b2n]; rewrite ?filter_app, ?occ_app, ?MA; cbn [filter]; rewrite ?S2, ?app_nil_r, ?q1, ?q3, ?orb_false_r, ?e2, ?e6, ?e10, ?e14, ?Nat.add_0_r; repeat split.
    - cbn [negb andb]. destruct (memn (b + 1) ls); cbn [negb andb b2n]; [rewrite !Nat.add_0_r; repeat split|]. destruct (mems cb p); cbn [negb b2n]; rewrite ?filter_app, ?occ_app, ?MA; cbn [filter]; rewrite ?S4, ?app_nil_r, ?q2, ?q4, ?orb_false_r, ?e4, ?e8, ?e12, ?e16, ?Nat.add_0_r; repeat split. }
  clearbody P1. destruct H1 as (h1 & h2 & h3 & h4 & h5 & h6 & h7).
  set (P2 := P1 ++ [label]).
  assert (H2 : filter nomark P2 = filter nomark p ++ [label] /\ occ op P2 = occ op p /\ occ ob P2 = occ ob p /\ mems op P2 = mems op p /\ mems ob P2 = mems ob p /\ occ cl P2 = occ cl P1 /\ occ cb P2 = occ cb P1).
  { unfold P2. rewrite filter_app, !occ_app, !MA, !(O1 _ Iop), !(O1 _ Iob), !(O1 _ Icl), !(O1 _ Icb), !(M1 _ Iop), !(M1 _ Iob), !orb_false_r, !Nat.add_0_r. cbn [filter]. rewrite NM, h1. repeat split; assumption. }
  clearbody P2. destruct H2 as (k1 & k2 & k3 & k4 & k5 & k6 & k7). rewrite k4, k5, <- h6, <- h7, <- k6, <- k7, <- k1, <- k2, <- k3.
  clear - F1 S1 S3 e1 e5 e9 e13 e3 e7 e11 e15. clearbody first.
  destruct first.
  - rewrite (F1 eq_refl). cbn [negb andb]. destruct (mems op p); cbn [negb b2n]; rewrite ?filter_app, ?occ_app; cbn [filter]; rewrite ?S1, ?app_nil_r, ?e1, ?e5, ?e9, ?e13, ?Nat.add_0_r; repeat split.
  - cbn [negb andb]. destruct ((b =? 0) || negb (memn (b - 1) ls)); cbn [andb b2n]; [|rewrite !Nat.add_0_r; repeat split]. destruct (mems ob p); cbn [negb b2n]; rewrite ?filter_app, ?occ_app; cbn [filter]; rewrite ?S3, ?app_nil_r, ?e3, ?e7, ?e11, ?e15, ?Nat.add_0_r; repeat split.
Qed.
Lemma one_mark : forall m p q (c : bool), occ m p <= 1 -> occ m q = occ m p + b2n (c && negb (mems m p)) -> occ m q <= 1 /\ (In m q <-> In m p \/ c = true).
Proof.
  intros m p q c L E. rewrite <- !occ_in. destruct (mems m p) eqn:M.
  - apply mems_in, occ_in in M. rewrite andb_false_r in E. cbn in E. split; [lia|]. split; [intros; left; lia|intros; lia].
  - apply mems_false in M. rewrite <- occ_in in M. cbn [negb] in E. rewrite andb_true_r in E. destruct c; cbn [b2n] in E; (split; [lia|]).
    + split; [now right|intros; lia].
    + split; [intros; lia|]. intros [H|H]; [lia|discriminate].
Qed.
Definition marks1 (p : list pystr) : Prop := forall m, In m markers -> occ m p <= 1.
Lemma step_marks : forall d b n p, In b (leaves n) -> ~ In (tlabel n) markers -> marks1 p -> ok d n = true ->
  let q := step d b p n in filter nomark q = filter nomark p ++ [tlabel n] /\ marks1 q /\
  (In (str "(") q <-> In (str "(") p \/ leftmost b n) /\ (In (str ")") q <-> In (str ")") p \/ rightmost b n) /\
  (In (str "[") q <-> In (str "[") p \/ partstart b n) /\ (In (str "]") q <-> In (str "]") p \/ partend b n).
Proof.
  intros d b n p Hb NL M K q. unfold q, step. rewrite K. clear q K.
  pose proof (extend_marks (tlabel n) (leaves n) b p NL Hb) as E. cbv zeta in E. set (q := extendpath (tlabel n) (leaves n) b p) in *. clearbody q. destruct E as (E0 & E1 & E2 & E3 & E4).
  pose proof (first_eq (leaves n) b Hb) as F. pose proof (last_eq (leaves n) b Hb) as L.
  set (first := b =? fold_right min (hd 0 (leaves n)) (leaves n)) in *. set (lst := b =? fold_right max 0 (leaves n)) in *. clearbody first lst.
  apply one_mark in E1; [|apply M; cbn; auto]. apply one_mark in E2; [|apply M; cbn; auto]. apply one_mark in E3; [|apply M; cbn; auto]. apply one_mark in E4; [|apply M; cbn; auto].
  destruct E1 as [A1 B1], E2 as [A2 B2], E3 as [A3 B3], E4 as [A4 B4]. split; [assumption|]. split; [|split; [|split; [|split]]].
  - intros m [<-|[<-|[<-|[<-|[]]]]]; assumption.
  - rewrite B1, F. unfold leftmost. tauto.
  - rewrite B2, L. unfold rightmost. tauto.
  - rewrite B3. unfold partstart, leftmost. rewrite andb_true_iff, negb_true_iff, <- not_true_iff_false, F, orb_true_iff, Nat.eqb_eq, negb_true_iff, memn_false.
    assert (Q : (b = 0 \/ ~ In (b - 1) (leaves n)) <-> forall x, S x = b -> ~ In x (leaves n)).
    { split; [intros [->|H] x Ex; [lia|]; now replace x with (b - 1) by lia|]. intros H. destruct b as [|x]; [now left|right]. replace (S x - 1) with x by lia. now apply H. } rewrite Q. tauto.
  - rewrite B4. unfold partend, rightmost. rewrite andb_true_iff, !negb_true_iff, <- not_true_iff_false, L, memn_false, Nat.add_1_r. tauto.
Qed.
Lemma fold_marks : forall d b ns p, (forall n, In n ns -> In b (leaves n) /\ ~ In (tlabel n) markers) -> marks1 p ->
  let q := fold_left (step d b) ns p in filter nomark q = filter nomark p ++ map tlabel (filter (ok d) ns) /\ marks1 q /\
  (In (str "(") q <-> In (str "(") p \/ exists n, In n (filter (ok d) ns) /\ leftmost b n) /\ (In (str ")") q <-> In (str ")") p \/ exists n, In n (filter (ok d) ns) /\ rightmost b n) /\
  (In (str "[") q <-> In (str "[") p \/ exists n, In n (filter (ok d) ns) /\ partstart b n) /\ (In (str "]") q <-> In (str "]") p \/ exists n, In n (filter (ok d) ns) /\ partend b n).
Proof.
  intros d b. induction ns as [|n ns IH]; intros p H M; cbn [fold_left filter map].
  - rewrite app_nil_r. split; [reflexivity|]. split; [assumption|]. repeat split; try tauto; intros [X|(n & [] & _)]; assumption.
  - destruct (H n (or_introl eq_refl)) as [Hb NL]. destruct (ok d n) eqn:K.
    + pose proof (step_marks d b n p Hb NL M K) as S. cbv zeta in S. set (p' := step d b p n) in *. clearbody p'. destruct S as (S0 & S1 & S2 & S3 & S4 & S5).
      specialize (IH p' (fun m Hm => H m (or_intror Hm)) S1). cbv zeta in IH. set (q := fold_left (step d b) ns p') in *. clearbody q. destruct IH as (I0 & I1 & I2 & I3 & I4 & I5).
      assert (G : forall (A B C : Prop) (P : tree pystr nat -> Prop), (A <-> B \/ P n) -> (C <-> A \/ exists m, In m (filter (ok d) ns) /\ P m) -> (C <-> B \/ exists m, In m (n :: filter (ok d) ns) /\ P m)).
      { clear. intros A B C P E1 E2. rewrite E2, E1. split.
        - intros [[X|X]|(m & Hm & X)]; [now left|right; exists n; split; [now left|assumption]|right; exists m; split; [now right|assumption]].
        - intros [X|(m & [<-|Hm] & X)]; [tauto|tauto|right; eauto]. }
      split; [rewrite I0, S0, <- app_assoc; reflexivity|]. split; [assumption|]. split; [exact (G _ _ _ _ S2 I2)|]. split; [exact (G _ _ _ _ S3 I3)|]. split; [exact (G _ _ _ _ S4 I4)|exact (G _ _ _ _ S5 I5)].
    + replace (step d b p n) with p by (unfold step; now rewrite K). apply IH; [intros; apply H; now right|assumption].
Qed.
(** The path of a terminal lists the labels of the constituents above it from the
    root down; a mark "(" or ")" tells that it is the first or last terminal of one of
    them, and "[" or "]" that it starts or ends a part of a discontinuous one; each
    mark occurs once. *)
Theorem C50_paths : forall dellabel t b path, NoDup (leaves t) -> proper t -> In b (leaves t) ->
  (forall l ts, In (Node l ts) (pre t) -> ~ In l markers) ->
  nlookup b (leafancestorpaths dellabel t) = Some path ->
  (exists keep, (forall n, In n (filter keep (chain b t)) <-> above dellabel b t n) /\
     filter nomark path = map tlabel (filter keep (chain b t))) /\
  (forall m, In m markers -> occ m path <= 1) /\
  (In (str "(") path <-> exists n, above dellabel b t n /\ leftmost b n) /\
  (In (str ")") path <-> exists n, above dellabel b t n /\ rightmost b n) /\
  (In (str "[") path <-> exists n, above dellabel b t n /\ partstart b n) /\
  (In (str "]") path <-> exists n, above dellabel b t n /\ partend b n).
Proof.
  intros d t b path N P Hb NM H. rewrite path_fold in H by assumption. injection H as <-.
  pose proof (fold_marks d b (chain b t) []) as F.
  assert (C : forall n, In n (chain b t) -> In b (leaves n) /\ ~ In (tlabel n) markers).
  { intros n Hn. apply chain_in in Hn. destruct Hn as [A B]. split; [assumption|]. destruct n as [a|l ts]; [|exact (NM l ts A)]. cbn. intros [X|[X|[X|[X|[]]]]]; discriminate X. }
  specialize (F C). assert (M0 : marks1 []) by (intros m _; cbn; lia). specialize (F M0). cbv zeta in F. cbn [filter app In] in F. destruct F as (F0 & F1 & F2 & F3 & F4 & F5).
  assert (AB : forall n, In n (filter (ok d) (chain b t)) <-> above d b t n).
  { intros n. rewrite filter_In. unfold above. split; intros [A B]; (split; [assumption|]).
    - unfold ok in B. rewrite !andb_true_iff, negb_true_iff, mems_false in B. destruct B as [[B1 _] B3]. destruct n as [a|l [|[a|l' us] ts]]; try discriminate. exists l, l', us, ts. auto.
    - destruct B as (l & l' & us & ts & -> & B). unfold ok. rewrite !andb_true_iff, negb_true_iff, mems_false. split; [split; [reflexivity|]|exact B]. apply C in A. destruct A as [A _]. destruct (leaves (Node l (Node l' us :: ts))); [contradiction|reflexivity]. }
  assert (G : forall (A : Prop) (Q : tree pystr nat -> Prop), (A <-> False \/ exists n, In n (filter (ok d) (chain b t)) /\ Q n) -> (A <-> exists n, above d b t n /\ Q n)).
  { intros A Q E. rewrite E. split; [intros [[]|(n & Hn & X)]; exists n; split; [now apply AB|assumption]|intros (n & Hn & X); right; exists n; split; [now apply AB|assumption]]. }
  split; [exists (ok d); split; [exact AB|exact F0]|]. split; [exact F1|]. split; [exact (G _ _ F2)|]. split; [exact (G _ _ F3)|]. split; [exact (G _ _ F4)|exact (G _ _ F5)].
Qed.
(** the keys of the paths are the terminals, in order *)
Lemma levels_keys : forall d fuel level ps, map fst (la_levels fuel d level ps) = map fst ps.
Proof.
  intros d. induction fuel as [|f IH]; intros [|n level] ps; try reflexivity. cbn [la_levels]. rewrite IH.
  generalize (n :: level). intros lv. revert ps. induction lv as [|m lv IHl]; intros ps; [reflexivity|]. cbn [fold_left]. rewrite IHl. apply visit_keys.
Qed.
Theorem C50_path_keys : forall d t, map fst (leafancestorpaths d t) = sort Nat.leb (leaves t).
Proof. intros. unfold leafancestorpaths. rewrite levels_keys, map_map. cbn. apply map_id. Qed.
Lemma nlookup_keys : forall {V} (l : list (nat * V)) k, In k (map fst l) <-> exists v, nlookup k l = Some v.
Proof.
  intros V. induction l as [|[k' v] l IH]; intros k; cbn; [split; [tauto|intros (v & X); discriminate]|]. destruct (k =? k') eqn:E; [apply Nat.eqb_eq in E; subst; split; [eauto|auto]|]. rewrite <- IH. apply Nat.eqb_neq in E. intuition congruence.
Qed.
Lemma nlookup_nodup : forall {V} (l : list (nat * V)) k v, NoDup (map fst l) -> In (k, v) l <-> nlookup k l = Some v.
Proof.
  intros V. induction l as [|[k' v'] l IH]; intros k v N; cbn; [split; [tauto|discriminate]|]. inversion N as [|? ? A B]; subst. destruct (k =? k') eqn:E.
  - apply Nat.eqb_eq in E. subst. split; [intros [X|X]; [injection X as ->; reflexivity|exfalso; apply A; apply (in_map fst) in X; exact X]|intros X; injection X as ->; now left].
  - rewrite <- IH by assumption. apply Nat.eqb_neq in E. split; [intros [X|X]; [congruence|assumption]|now right].
Qed.
Lemma allsome_spec : forall {Y} (l : list (option Y)) xs, allsome l = Some xs <-> l = map Some xs.
Proof.
  intros Y. induction l as [|[y|] l IH]; intros xs; cbn; [split; [intros E; injection E as <-; reflexivity|destruct xs; [reflexivity|discriminate]]| |split; [discriminate|destruct xs; discriminate]].
  destruct (allsome l) as [ys|] eqn:E; cbn.
  - split; [intros X; injection X as <-; cbn; f_equal; now apply IH|]. destruct xs as [|x xs]; [discriminate|]. cbn. intros X. injection X as -> X. apply IH in X. congruence.
  - split; [discriminate|]. destruct xs as [|x xs]; [discriminate|]. cbn. intros X. injection X as -> X. apply IH in X. congruence.
Qed.
Lemma sum_range : forall xs a, (forall x, In x xs -> 0 <= x <= 1)%Qc -> (a <= fold_left Qcplus xs a)%Qc /\ (fold_left Qcplus xs a <= a + nq (length xs))%Qc /\ ((fold_left Qcplus xs a = a + nq (length xs))%Qc <-> forall x, In x xs -> x = 1%Qc).
Proof.
  induction xs as [|x xs IH]; intros a H; cbn [fold_left length].
  - change (nq 0) with 0%Qc. rewrite Qcplus_0_r. split; [apply Qcle_refl|]. split; [apply Qcle_refl|]. split; [intros _ y []|reflexivity].
  - destruct (IH (a + x)%Qc (fun y Hy => H y (or_intror Hy))) as (A & B & C). destruct (H x (or_introl eq_refl)) as [X0 X1].
    change (S (length xs)) with (1 + length xs). rewrite nq_add. change (nq 1) with 1%Qc.
    assert (U : (a + x + nq (length xs) <= a + (1 + nq (length xs)))%Qc). { rewrite (Qcplus_assoc a 1). apply Qcplus_le_compat; [|apply Qcle_refl]. apply Qcplus_le_compat; [apply Qcle_refl|assumption]. }
    split; [eapply Qcle_trans; [|exact A]; rewrite <- (Qcplus_0_r a) at 1; apply Qcplus_le_compat; [apply Qcle_refl|assumption]|]. split; [eapply Qcle_trans; [exact B|exact U]|]. split.
    + intros E. assert (E2 : (fold_left Qcplus xs (a + x) = a + x + nq (length xs))%Qc) by (apply Qcle_antisym; [exact B|rewrite E; exact U]).
      assert (x = 1)%Qc. { rewrite E2 in E. replace x with ((a + x + nq (length xs)) - a - nq (length xs))%Qc by ring. rewrite E. ring. }
      intros y [<-|Hy]; [assumption|]. now apply C.
    + intros K. rewrite (proj2 C) by (intros; apply K; now right). rewrite (K x) by (now left). rewrite !Qcplus_assoc. reflexivity.
Qed.
(** The score is the mean over the terminals of the gold tree, between 0 and 1, and 1
    exactly when every terminal has the same path in both trees. *)
Theorem C50_leafancestor : forall gold cand d x, NoDup (leaves gold) ->
  leafancestor gold cand d = Some (Some x) ->
  (0 <= x <= 1)%Qc /\
  (x = 1%Qc <-> forall b, In b (leaves gold) -> nlookup b (leafancestorpaths d gold) = nlookup b (leafancestorpaths d cand)) /\
  (forall b, In b (leaves gold) -> In b (leaves cand)) /\ leaves gold <> [].
Proof.
  intros gold cand d x N H. unfold leafancestor in H. set (g := leafancestorpaths d gold) in *. set (c := leafancestorpaths d cand) in *.
  destruct (allsome _) as [xs|] eqn:E; [|discriminate]. apply allsome_spec in E. cbn [option_map] in H. apply some_inj in H.
  assert (KG : map fst g = sort Nat.leb (leaves gold)) by apply C50_path_keys. assert (KC : map fst c = sort Nat.leb (leaves cand)) by apply C50_path_keys.
  assert (NG : NoDup (map fst g)) by (rewrite KG; eapply Permutation_NoDup; [apply sort_perm|assumption]).
  assert (IG : forall b, In b (leaves gold) <-> exists v, In (b, v) g).
  { intros b. assert (Q : In b (leaves gold) <-> In b (map fst g)). { rewrite KG. split; apply Permutation_in; [apply sort_perm|apply sort_perm_nat]. } rewrite Q, in_map_iff. split; [intros ([k v] & <- & X); now exists v|intros (v & X); exists (b, v); auto]. }
  assert (SC : forall b v, In (b, v) g -> exists w, nlookup b c = Some w /\ In (pathscore v w) xs).
  { intros b v Hv. assert (Q : In (option_map (pathscore v) (nlookup b c)) (map Some xs)) by (rewrite <- E; apply in_map_iff; exists (b, v); auto). apply in_map_iff in Q. destruct Q as (y & E2 & Hy). destruct (nlookup b c) as [w|] eqn:L; [|discriminate]. cbn [option_map] in E2. apply some_inj in E2. exists w. split; [reflexivity|]. now rewrite <- E2. }
  assert (XS : forall y, In y xs -> exists b v w, In (b, v) g /\ nlookup b c = Some w /\ y = pathscore v w).
  { intros y Hy. assert (Q : In (Some y) (map Some xs)) by (now apply in_map). rewrite <- E in Q. apply in_map_iff in Q. destruct Q as ([b v] & E2 & Hv). cbn [fst snd] in E2. destruct (nlookup b c) as [w|] eqn:L; [|discriminate]. cbn [option_map] in E2. apply some_inj in E2. exists b, v, w. auto. }
  assert (NX : xs <> []) by (intros ->; discriminate H).
  assert (NP : 0 < length xs) by (destruct xs; [congruence|cbn; lia]).
  rewrite mean_some in H by assumption. apply some_inj in H.
  destruct (sum_range xs 0%Qc) as (S0 & S1 & S2). { intros y Hy. destruct (XS y Hy) as (b & v & w & _ & _ & ->). apply C50_pathscore. }
  rewrite Qcplus_0_l in S1, S2. set (s := fold_left Qcplus xs 0%Qc) in *.
  pose proof (nq_nz _ NP) as NZ. assert (D : (x * nq (length xs) = s)%Qc). { rewrite <- H. unfold Qcdiv. rewrite <- Qcmult_assoc, (Qcmult_comm (/ _)), (Qcmult_inv_r _ NZ). ring. }
  assert (PP : (0 < nq (length xs))%Qc) by (now apply nq_pos).
  split; [|split; [|split]].
  - split; apply Qcmult_lt_0_le_reg_r with (z := nq (length xs)); auto; rewrite D; [rewrite Qcmult_0_l|rewrite Qcmult_1_l]; assumption.
  - assert (X1 : x = 1%Qc <-> s = nq (length xs)). { split; [intros ->; rewrite <- D; apply Qcmult_1_l|]. intros Es. rewrite <- H, Es. now apply Qcmult_inv_r. }
    rewrite X1, S2. split.
    + intros A b Hb. apply IG in Hb. destruct Hb as (v & Hv). destruct (SC b v Hv) as (w & L & Iw). rewrite L. apply A, C50_pathscore in Iw. subst w. now apply nlookup_nodup.
    + intros A y Hy. destruct (XS y Hy) as (b & v & w & Hv & L & ->). apply C50_pathscore. assert (Hb : In b (leaves gold)) by (apply IG; eauto). specialize (A b Hb). rewrite L in A. apply nlookup_nodup in Hv; [|assumption]. congruence.
  - intros b Hb. apply IG in Hb. destruct Hb as (v & Hv). destruct (SC b v Hv) as (w & L & _). assert (Q : In b (map fst c)) by (apply nlookup_keys; eauto). rewrite KC in Q. eapply Permutation_in; [apply sort_perm_nat|exact Q].
  - intros Z. destruct xs as [|y xs]; [congruence|]. destruct (XS y (or_introl eq_refl)) as (b & v & _ & Hv & _). assert (In b (leaves gold)) by (apply IG; eauto). rewrite Z in H0. contradiction.
Qed.
(** The score of a tree with itself is 1. *)
Theorem C50_leafancestor_self : forall t d, NoDup (leaves t) -> leaves t <> [] -> leafancestor t t d = Some (Some 1%Qc).
Proof.
  intros t d N NE. unfold leafancestor. set (g := leafancestorpaths d t). assert (KG : map fst g = sort Nat.leb (leaves t)) by apply C50_path_keys.
  assert (NG : NoDup (map fst g)) by (rewrite KG; eapply Permutation_NoDup; [apply sort_perm|assumption]).
  assert (E : map (fun p => option_map (pathscore (snd p)) (nlookup (fst p) g)) g = map Some (map (fun _ => 1%Qc) g)).
  { rewrite map_map. apply map_ext_in. intros [k v] H. cbn [fst snd]. rewrite (proj1 (nlookup_nodup g k v NG) H). cbn. f_equal. now apply C50_pathscore. }
  rewrite E, (proj2 (allsome_spec _ _) eq_refl). cbn [option_map]. f_equal.
  assert (LG : 0 < length g). { rewrite <- (map_length fst), KG. rewrite <- (Permutation_length (sort_perm Nat.leb (leaves t))). destruct (leaves t); [congruence|cbn; lia]. }
  rewrite mean_some by (intros X; apply (f_equal (@length Qc)) in X; rewrite map_length in X; cbn [length] in X; lia). f_equal. rewrite map_length.
  assert (S : forall (l : list (nat * list pystr)) a, (fold_left Qcplus (map (fun _ => 1%Qc) l) a = a + nq (length l))%Qc).
  { induction l as [|p l IH]; intros a; cbn [map fold_left length]; [change (nq 0) with 0%Qc; ring|]. rewrite IH. change (Datatypes.S (length l)) with (1 + length l). rewrite nq_add. change (nq 1) with 1%Qc. now rewrite Qcplus_assoc. }
  rewrite S, Qcplus_0_l. now apply Qcmult_inv_r, nq_nz.
Qed.
(** REFUTED: "score 1 implies the same bracketings", asserted by TreePairResult.
    Two discontinuous constituents with the same label swap their right halves. *)
Definition pt (l : string) (n : nat) : tree pystr nat := Node (str l) [Leaf n].
Definition lagold : tree pystr nat := Node (str "S") [pt "A" 0; Node (str "X") [Node (str "Y") [pt "B" 1; pt "B" 5]; Node (str "Y") [pt "B" 3; pt "B" 7]]; pt "A" 2; pt "A" 4; pt "A" 6].
Definition lacand : tree pystr nat := Node (str "S") [pt "A" 0; Node (str "X") [Node (str "Y") [pt "B" 1; pt "B" 7]; Node (str "Y") [pt "B" 3; pt "B" 5]]; pt "A" 2; pt "A" 4; pt "A" 6].
Theorem C50_score_one_not_exact : leafancestor lagold lacand [] = Some (Some 1%Qc) /\
  ceqb beqb (bracketings true [] false lagold) (bracketings true [] false lacand) = false /\ NoDup (leaves lagold) /\ Permutation (leaves lagold) (leaves lacand).
Proof.
  split; [|split; [vm_compute; reflexivity|split]].
  - assert (N : NoDup (leaves lagold)) by (cbn; repeat constructor; cbn; intuition lia).
    rewrite <- (C50_leafancestor_self lagold [] N) by discriminate. unfold leafancestor. replace (leafancestorpaths [] lacand) with (leafancestorpaths [] lagold) by (vm_compute; reflexivity). reflexivity.
  - cbn; repeat constructor; cbn; intuition lia.
  - cbn. apply NoDup_Permutation; [repeat constructor; cbn; intuition lia|repeat constructor; cbn; intuition lia|]. cbn. intuition.
Qed.
(** the hypotheses of C50_paths are met *)
Example C50_ex_paths : proper lagold /\ nlookup 5 (leafancestorpaths [] lagold) = Some [str "S"; str "]"; str "X"; str "["; str ")"; str "Y"].
Proof.
  split; [|vm_compute; reflexivity]. intros l ts H. cbn in H.
  repeat match goal with H : _ \/ _ |- _ => destruct H as [H|H] | H : False |- _ => destruct H end; injection H as <- <-;
    first [left; intros c Hc; cbn in Hc; repeat match goal with H : _ \/ _ |- _ => destruct H as [H|H] | H : False |- _ => destruct H end; subst; solve [repeat eexists]
          |right; intros c Hc; cbn in Hc; repeat match goal with H : _ \/ _ |- _ => destruct H as [H|H] | H : False |- _ => destruct H end; subst; solve [repeat eexists]].
Qed.

Print Assumptions C50_editdistance.
Print Assumptions C50_zero.
Print Assumptions C50_symmetric.
Print Assumptions C50_triangle.
Print Assumptions C50_bounds.
Print Assumptions C50_pathscore.
Print Assumptions C50_paths.
Print Assumptions C50_path_keys.
Print Assumptions C50_leafancestor.
Print Assumptions C50_leafancestor_self.
Print Assumptions C50_score_one_not_exact.
