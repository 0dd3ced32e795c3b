(** C91: collapselabels. *)
From Coq Require Import String.
From Coq Require Import List Bool Arith NArith Lia.
From Verif Require Import PyStr TreeModel BinarizeModel FuncModel FuncProps CollapseModel.
Import ListNotations.
Open Scope list_scope.

(** ** What becomes of a label *)
Definition plainname (s : pystr) : Prop := forall c, In c s -> separator c = false.
(** every name in the label is replaced, separators stay, but not hyphens *)
Inductive names (coarse : pystr -> pystr) : pystr -> pystr -> Prop :=
  | n_end : names coarse [] []
  | n_name : forall s, s <> [] -> plainname s -> names coarse s (filter (fun c => negb (N.eqb c HYPHEN)) (coarse s))
  | n_hyphen : forall s x b y, plainname s -> names coarse s x -> names coarse b y -> names coarse (s ++ HYPHEN :: b) (x ++ y)
  | n_sep : forall s x c b y, plainname s -> separator c = true -> c <> HYPHEN -> names coarse s x -> names coarse b y -> names coarse (s ++ c :: b) (x ++ c :: y).
Lemma labelsub_plain : forall f s run, plainname s -> labelsub f run s = replaced f (run ++ s).
Proof.
  intros f. induction s as [|c s IH]; intros run P; cbn [labelsub]; [now rewrite app_nil_r|]. rewrite (P c (or_introl eq_refl)). rewrite IH by (intros d Hd; apply P; now right). now rewrite <- app_assoc.
Qed.
Lemma labelsub_sep : forall f s run c b, plainname s -> separator c = true -> labelsub f run (s ++ c :: b) = replaced f (run ++ s) ++ c :: labelsub f [] b.
Proof.
  intros f. induction s as [|d s IH]; intros run c b P H; cbn [app labelsub].
  - now rewrite H, app_nil_r.
  - rewrite (P d (or_introl eq_refl)). rewrite IH; [now rewrite <- app_assoc|intros e He; apply P; now right|exact H].
Qed.
Definition nohyphen (s : pystr) : pystr := filter (fun c => negb (N.eqb c HYPHEN)) s.
Lemma names_sub : forall f l x, names f l x -> nohyphen (labelsub f [] l) = x.
Proof.
  intros f l x H. induction H as [|s NE P|s x b y P Hs IHs Hb IHb|s x c b y P SC NC Hs IHs Hb IHb].
  - reflexivity.
  - rewrite labelsub_plain by exact P. destruct s; [congruence|reflexivity].
  - rewrite labelsub_sep by (auto; reflexivity). unfold nohyphen in *. rewrite filter_app. cbn [filter]. rewrite N.eqb_refl. cbn [negb]. rewrite IHb. f_equal. rewrite <- IHs. now rewrite labelsub_plain.
  - rewrite labelsub_sep by auto. unfold nohyphen in *. rewrite filter_app. cbn [filter]. rewrite (proj2 (N.eqb_neq _ _) NC). cbn [negb]. rewrite IHb. f_equal. rewrite <- IHs. now rewrite labelsub_plain.
Qed.
Lemma names_total : forall f l, exists x, names f l x.
Proof.
  intros f. assert (X : forall n l, length l <= n -> exists x, names f l x).
  { induction n as [|n IH]; intros l L.
    - destruct l; [exists []; constructor|cbn in L; lia].
    - assert (C : plainname l \/ exists s c b, l = s ++ c :: b /\ plainname s /\ separator c = true).
      { clear. induction l as [|c l IH]; [left; intros d []|]. destruct (separator c) eqn:S; [right; exists [], c, l; split; [reflexivity|]; split; [intros d []|exact S]|].
        destruct IH as [P|(s & d & b & E & P & Q)].
        - left. intros d [<-|Hd]; auto.
        - right. exists (c :: s), d, b. split; [now rewrite E|]. split; [|exact Q]. intros e [<-|He]; auto. }
      destruct C as [P|(s & c & b & E & P & Q)].
      + destruct l as [|c l]; [exists []; constructor|]. eexists. apply n_name; [discriminate|exact P].
      + destruct (IH b) as (y & Hy). { rewrite E, app_length in L. cbn [length] in L. lia. }
        assert (Hs : exists x, names f s x) by (destruct s as [|d s]; [exists []; constructor|eexists; apply n_name; [discriminate|exact P]]). destruct Hs as (x & Hx).
        subst l. destruct (N.eq_dec c HYPHEN) as [->|NC]; eexists; [apply n_hyphen; eassumption|apply n_sep; eassumption]. }
  intros l. now apply (X (length l)).
Qed.
(** str.rstrip('^') *)
Definition stripped (x y : pystr) : Prop := exists n, x = y ++ repeat 94%N n /\ forall g c, y = g ++ [c] -> c <> 94%N.
Lemma rstripw_stripped : forall x, stripped x (rstripw (N.eqb 94) x).
Proof.
  intros x. unfold stripped, rstripw. assert (X : forall r, exists n, r = repeat 94%N n ++ lstripw (N.eqb 94) r /\ forall c g, lstripw (N.eqb 94) r = c :: g -> c <> 94%N).
  { induction r as [|c r IH]; [exists 0; split; [reflexivity|discriminate]|]. cbn [lstripw]. destruct (N.eqb_spec 94 c) as [<-|NC].
    - destruct IH as (n & E & H). exists (S n). split; [cbn [repeat app]; now rewrite <- E|exact H].
    - exists 0. split; [reflexivity|]. intros d g E. injection E as <- <-. congruence. }
  destruct (X (rev x)) as (n & E & H). exists n. split.
  - apply (f_equal (@rev N)) in E. rewrite rev_involutive, rev_app_distr in E. rewrite E at 1. f_equal. clear. induction n as [|n IH]; [reflexivity|]. cbn [repeat rev]. rewrite IH. clear. induction n as [|n IH]; [reflexivity|]. cbn [repeat app]. now rewrite IH.
  - intros g c E2. apply (f_equal (@rev N)) in E2. rewrite rev_involutive, rev_app_distr in E2. eapply H. exact E2.
Qed.
(** The new label is the old one with every name replaced and with no caret at the end. *)
Theorem C91_label : forall coarse l, exists x, names coarse l x /\ stripped x (collapsed coarse l).
Proof.
  intros coarse l. destruct (names_total coarse l) as (x & Hx). exists x. split; [exact Hx|]. unfold collapsed. rewrite (names_sub _ _ _ Hx : filter _ _ = _). apply rstripw_stripped.
Qed.
(** there is only one such label *)
Theorem C91_label_unique : forall coarse l x y, names coarse l x -> stripped x y -> collapsed coarse l = y.
Proof.
  intros coarse l x y Hx (n & E & H). unfold collapsed. rewrite (names_sub _ _ _ Hx : filter _ _ = _). destruct (rstripw_stripped x) as (m & E2 & H2). revert E2 H2. generalize (rstripw (N.eqb 94) x). intros z E2 H2.
  rewrite E in E2. clear - E2 H H2. revert n m E2. assert (X : forall a b n m, (forall g c, a = g ++ [c] -> c <> 94%N) -> (forall g c, b = g ++ [c] -> c <> 94%N) -> a ++ repeat 94%N n = b ++ repeat 94%N m -> b = a); [|intros; eapply X; eauto].
  assert (R : forall n, rev (repeat 94%N n) = repeat 94%N n).
  { induction n as [|n IH]; [reflexivity|]. cbn [repeat rev]. rewrite IH. clear. induction n as [|n IH]; [reflexivity|]. cbn [repeat app]. now rewrite IH. }
  intros a b n m A B E. apply (f_equal (@rev N)) in E. rewrite !rev_app_distr, !R in E.
  assert (A' : forall c r, rev a = c :: r -> c <> 94%N) by (intros c r Q; apply (f_equal (@rev N)) in Q; rewrite rev_involutive in Q; eapply A; exact Q).
  assert (B' : forall c r, rev b = c :: r -> c <> 94%N) by (intros c r Q; apply (f_equal (@rev N)) in Q; rewrite rev_involutive in Q; eapply B; exact Q).
  assert (Q : rev b = rev a); [|apply (f_equal (@rev N)) in Q; now rewrite !rev_involutive in Q]. revert A' B' E. generalize (rev a) (rev b). clear. intros a b A B. revert m. induction n as [|n IH]; intros [|m] E; cbn in E.
  - congruence.
  - subst a. exfalso. now apply (A 94%N _ eq_refl).
  - subst b. exfalso. now apply (B 94%N _ eq_refl).
  - injection E as E. now apply (IH m).
Qed.
(** a name: a part-of-speech tag stays; a fine label becomes the coarse label it belongs
    to (the last one); all others are dropped *)
Theorem C91_name : forall tb pos l, (In l pos -> revmapping tb pos l = l) /\
  (~ In l pos -> (exists a c fines b, tb = a ++ (c, fines) :: b /\ In l fines /\ (forall d, In d b -> ~ In l (snd d)) /\ revmapping tb pos l = c) \/
    (forall d, In d tb -> ~ In l (snd d)) /\ revmapping tb pos l = []).
Proof.
  assert (MI : forall l ls, mems l ls = true <-> In l ls).
  { intros l ls. unfold mems. rewrite existsb_exists. split; [intros (x & Hx & E); apply eqs_eq in E; now subst|intros H; exists l; split; [exact H|apply eqs_refl]]. }
  intros tb pos l. unfold revmapping. split.
  - intros H. now rewrite (proj2 (MI l pos) H).
  - intros H. destruct (mems l pos) eqn:M; [apply MI in M; contradiction|]. clear H M. induction tb as [|[c fines] tb IH] using rev_ind; [right; split; [intros d []|reflexivity]|].
    rewrite fold_left_app. cbn [fold_left fst snd]. destruct (mems l fines) eqn:M.
    + apply MI in M. left. exists tb, c, fines, []. split; [reflexivity|]. split; [exact M|]. split; [intros d []|reflexivity].
    + assert (N : ~ In l fines) by (intros I; apply MI in I; congruence). destruct IH as [(a & c' & f' & b & E & I & L & R)|[L R]].
      * left. exists a, c', f', (b ++ [(c, fines)]). split; [now rewrite E, <- app_assoc|]. split; [exact I|]. split; [|exact R]. intros d Hd. apply in_app_or in Hd. destruct Hd as [Hd|[<-|[]]]; auto.
      * right. split; [|exact R]. intros d Hd. apply in_app_or in Hd. destruct Hd as [Hd|[<-|[]]]; auto.
Qed.

(** ** Trees *)
Inductive changed (F : pystr -> pystr) : bool -> ltree -> ltree -> Prop :=
  | ch_leaf : forall root a, changed F root (Leaf a) (Leaf a)
  | ch_keep : forall (root : bool) l ts us, root = true \/ isphrase ts = false -> Forall2 (changed F false) ts us -> changed F root (Node l ts) (Node l us)
  | ch_phrase : forall l ts us, isphrase ts = true -> Forall2 (changed F false) ts us -> changed F false (Node l ts) (Node (F l) us).
(** all labels are mapped as the dictionary says *)
Inductive mapped (d : list (pystr * pystr)) : ltree -> ltree -> Prop :=
  | m_leaf : forall a, mapped d (Leaf a) (Leaf a)
  | m_node : forall l l' ts us, lookup d l = Some l' -> Forall2 (mapped d) ts us -> mapped d (Node l ts) (Node l' us).
Section Trees.
Variable alpha : N -> bool.
Lemma all_some : forall (f : ltree -> option ltree) ts us, all (map f ts) = Some us -> Forall2 (fun t u => f t = Some u) ts us.
Proof.
  intros f. induction ts as [|t ts IH]; intros us H; cbn [map all] in H; [injection H as <-; constructor|]. destruct (f t) as [u|] eqn:E; [|discriminate]. destruct (all (map f ts)) as [r|] eqn:R; [|discriminate]. injection H as <-. constructor; auto.
Qed.
Lemma all_of : forall (f : ltree -> option ltree) ts us, Forall2 (fun t u => f t = Some u) ts us -> all (map f ts) = Some us.
Proof. intros f ts us H. induction H as [|t u ts us E F IH]; [reflexivity|]. cbn [map all]. now rewrite E, IH. Qed.
Lemma collapse_changed : forall rev t u, collapse alpha rev t = Some u -> changed (collapsed rev) false t u /\ forall l, In l (phraselabels t) -> acceptable alpha (collapsed rev l) = true.
Proof.
  intros rev. induction t as [a|l ts IH] using tree_ind'; intros u H; cbn [collapse] in H; [injection H as <-; split; [constructor|intros l []]|].
  destruct (all (map (collapse alpha rev) ts)) as [us|] eqn:E; [|discriminate]. apply all_some in E.
  assert (F : Forall2 (changed (collapsed rev) false) ts us /\ forall l, In l (flat_map phraselabels ts) -> acceptable alpha (collapsed rev l) = true).
  { clear H. induction E as [|t v ts us Q F IHF]; [split; [constructor|intros l' []]|]. inversion IH as [|? ? I1 I2]; subst. destruct (I1 v Q) as [A B]. destruct (IHF I2) as [C D]. split; [constructor; auto|].
    intros l' Hl. cbn [flat_map] in Hl. apply in_app_or in Hl. destruct Hl; auto. }
  destruct F as [F1 F2]. destruct (isphrase ts) eqn:P.
  - destruct (acceptable alpha (collapsed rev l)) eqn:A; [|discriminate]. injection H as <-. split; [now apply ch_phrase|]. intros m Hm. cbn [phraselabels] in Hm. rewrite P in Hm. destruct Hm as [<-|Hm]; [exact A|now apply F2].
  - injection H as <-. split; [apply ch_keep; auto|]. intros m Hm. cbn [phraselabels] in Hm. rewrite P in Hm. now apply F2.
Qed.
Lemma collapsetree_changed : forall rev t u, collapsetree alpha rev t = Some u -> changed (collapsed rev) true t u /\ forall l, In l (innerlabels t) -> acceptable alpha (collapsed rev l) = true.
Proof.
  intros rev [a|l ts] u H; cbn [collapsetree] in H; [injection H as <-; split; [constructor|intros l []]|]. destruct (all (map (collapse alpha rev) ts)) as [us|] eqn:E; [|discriminate]. injection H as <-. apply all_some in E.
  assert (F : Forall2 (changed (collapsed rev) false) ts us /\ forall l, In l (flat_map phraselabels ts) -> acceptable alpha (collapsed rev l) = true); [|destruct F; split; [apply ch_keep; auto|assumption]].
  induction E as [|t u ts us Q F IHF]; [split; [constructor|intros l' []]|]. destruct (collapse_changed _ _ _ Q) as [A B]. destruct IHF as [C D]. split; [constructor; auto|].
  intros l' Hl. cbn [flat_map] in Hl. apply in_app_or in Hl. destruct Hl; auto.
Qed.
(** Words, shape, the root and part-of-speech tags stay; the label of a phrase becomes a
    function of it, which starts with a letter. *)
Theorem C91_trees : forall tb trees trees' mapping, collapselabels alpha tb trees = Some (trees', mapping) ->
  let F := collapsed (revmapping tb (flat_map poslabels trees)) in
  Forall2 (changed F true) trees trees' /\ forall l, In l (flat_map innerlabels trees) -> exists c r, F l = c :: r /\ alpha c = true.
Proof.
  intros tb trees trees' mapping H F. unfold collapselabels in H. destruct trees as [|t0 trees]; [discriminate|]. destruct (existsb anyempty _); [discriminate|].
  destruct (all _) as [us|] eqn:E in H; [|discriminate]. injection H as <- _. apply all_some in E. fold F in E.
  assert (X : forall ts us, Forall2 (fun t u => collapsetree alpha (revmapping tb (flat_map poslabels (t0 :: trees))) t = Some u) ts us -> Forall2 (changed F true) ts us /\ forall l, In l (flat_map innerlabels ts) -> acceptable alpha (F l) = true).
  { clear E. intros ts vs E. induction E as [|t u ts vs Q FA IH]; [split; [constructor|intros l []]|]. destruct (collapsetree_changed _ _ _ Q) as [A B]. destruct IH as [C D]. split; [constructor; auto|].
    intros l Hl. cbn [flat_map] in Hl. apply in_app_or in Hl. destruct Hl; [now apply B|auto]. }
  destruct (X _ _ E) as [A B]. split; [exact A|]. intros l Hl. specialize (B l Hl). unfold acceptable in B. destruct (F l) as [|c r]; [discriminate|eauto].
Qed.
(** It fails exactly for no trees, a node without children, or the label of a phrase that
    does not start with a letter when collapsed. *)
Lemma collapse_defined : forall rev t, (forall l, In l (phraselabels t) -> acceptable alpha (collapsed rev l) = true) -> exists u, collapse alpha rev t = Some u.
Proof.
  intros rev. induction t as [a|l ts IH] using tree_ind'; intros H; [eexists; reflexivity|]. cbn [collapse phraselabels] in *.
  assert (X : exists us, all (map (collapse alpha rev) ts) = Some us).
  { assert (H' : forall l, In l (flat_map phraselabels ts) -> acceptable alpha (collapsed rev l) = true) by (intros; apply H; apply in_or_app; now right). clear H. induction IH as [|t ts I F IHF]; [eexists; reflexivity|].
    destruct I as (u & Hu). { intros; apply H'. cbn [flat_map]. apply in_or_app. now left. } destruct IHF as (us & Hus). { intros; apply H'. cbn [flat_map]. apply in_or_app. now right. }
    cbn [map all]. rewrite Hu, Hus. eauto. }
  destruct X as (us & ->). destruct (isphrase ts); [|eauto]. rewrite H by now left. eauto.
Qed.
Lemma defined_bool : forall tb trees, (exists r, collapselabels alpha tb trees = Some r) <->
  trees <> [] /\ (forall t, In t trees -> anyempty t = false) /\
  forall l, In l (flat_map innerlabels trees) -> exists c r, collapsed (revmapping tb (flat_map poslabels trees)) l = c :: r /\ alpha c = true.
Proof.
  intros tb trees. split.
  - intros ([trees' m] & H). pose proof (proj2 (C91_trees _ _ _ _ H)) as A. unfold collapselabels in H. destruct trees as [|t0 trees]; [discriminate|]. split; [discriminate|]. split; [|exact A].
    destruct (existsb anyempty (t0 :: trees)) eqn:E; [discriminate|]. intros t Ht. destruct (anyempty t) eqn:Q; [|reflexivity]. rewrite (proj2 (existsb_exists _ _)) in E by eauto. discriminate.
  - intros (NE & NM & A). unfold collapselabels. destruct trees as [|t0 trees]; [congruence|]. replace (existsb anyempty (t0 :: trees)) with false.
    2:{ symmetry. apply not_true_iff_false. intros H. apply existsb_exists in H. destruct H as (t & Ht & Q). rewrite (NM t Ht) in Q. discriminate. }
    revert A. generalize (revmapping tb (flat_map poslabels (t0 :: trees))). generalize (t0 :: trees) at 1 2. intros ts rev A.
    assert (X : exists us, all (map (collapsetree alpha rev) ts) = Some us); [|destruct X as (us & ->); eauto].
    induction ts as [|t ts IH]; [eexists; reflexivity|]. destruct IH as (us & Hus). { intros; apply A. cbn [flat_map]. apply in_or_app. now right. }
    assert (X : exists u, collapsetree alpha rev t = Some u).
    { destruct t as [a|l cs]; [eexists; reflexivity|]. cbn [collapsetree]. assert (Y : exists vs, all (map (collapse alpha rev) cs) = Some vs); [|destruct Y as (vs & ->); eauto].
      assert (A' : forall l, In l (flat_map phraselabels cs) -> acceptable alpha (collapsed rev l) = true).
      { intros m Hm. destruct (A m) as (c & r & E & Q); [cbn [flat_map innerlabels]; apply in_or_app; now left|]. rewrite E. exact Q. }
      clear - A'. induction cs as [|c cs IH]; [eexists; reflexivity|]. destruct (collapse_defined rev c) as (u & Hu). { intros; apply A'. cbn [flat_map]. apply in_or_app. now left. }
      destruct IH as (vs & Hvs). { intros; apply A'. cbn [flat_map]. apply in_or_app. now right. } cbn [map all]. rewrite Hu, Hvs. eauto. }
    destruct X as (u & Hu). cbn [map all]. rewrite Hu, Hus. eauto.
Qed.

(** Every node has children: *)
Inductive Full : ltree -> Prop :=
| full_leaf : forall a, Full (Leaf a)
| full_node : forall l ts, ts <> [] -> Forall Full ts -> Full (Node l ts).
Lemma anyempty_full : forall t, anyempty t = false <-> Full t.
Proof.
  induction t as [a|l ts IH] using tree_ind'; [split; [constructor|reflexivity]|]. cbn [anyempty]. rewrite orb_false_iff.
  assert (X : existsb anyempty ts = false <-> Forall Full ts).
  { induction IH as [|t ts I F IHF]; [split; [constructor|reflexivity]|]. cbn [existsb]. rewrite orb_false_iff, I, IHF. split.
    - intros [A B]. now constructor.
    - intros A. inversion A; subst. now split. }
  rewrite X. split.
  - intros [A B]. constructor; [|exact B]. intros ->. discriminate.
  - intros A. inversion A; subst. split; [|assumption]. now destruct ts.
Qed.
Theorem C91_defined : forall tb trees, (exists r, collapselabels alpha tb trees = Some r) <->
  trees <> [] /\ (forall t, In t trees -> Full t) /\
  forall l, In l (flat_map innerlabels trees) -> exists c r, collapsed (revmapping tb (flat_map poslabels trees)) l = c :: r /\ alpha c = true.
Proof.
  intros tb trees. rewrite defined_bool. split; intros (A & B & C); (split; [exact A|split; [|exact C]]); intros t Ht; apply anyempty_full; auto.
Qed.

(** ** The mapping *)
Lemma lookup_app : forall a b l, lookup (a ++ b) l = match lookup b l with Some v => Some v | None => lookup a l end.
Proof.
  intros a b l. unfold lookup. rewrite fold_left_app. generalize (fold_left (fun r kv => if eqs l (fst kv) then Some (snd kv) else r) a None). intros o.
  revert o. induction b as [|[k v] b IH] using rev_ind; intros o; [reflexivity|]. rewrite !fold_left_app. cbn [fold_left fst snd]. destruct (eqs l k); [reflexivity|apply IH].
Qed.
Lemma lookup_map : forall (g : pystr -> pystr) ls l, (In l ls -> lookup (map (fun l => (l, g l)) ls) l = Some (g l)) /\ (~ In l ls -> lookup (map (fun l => (l, g l)) ls) l = None).
Proof.
  intros g ls l. induction ls as [|k ls IH] using rev_ind; [split; [intros []|reflexivity]|]. rewrite map_app, lookup_app. cbn. destruct (eqs l k) eqn:E.
  - apply eqs_eq in E. subst k. split; [reflexivity|]. intros N. exfalso. apply N. apply in_or_app. right. now left.
  - apply eqs_neq in E. destruct IH as [A B]. split.
    + intros I. apply in_app_or in I. destruct I as [I|[I|[]]]; [now apply A|congruence].
    + intros N. apply B. intros I. apply N. apply in_or_app. now left.
Qed.
Lemma plain_pos : forall tb pos l, In l pos -> plainname l -> collapsed (revmapping tb pos) l = l.
Proof.
  intros tb pos l I P. assert (H1 : forall c, In c l -> c <> HYPHEN) by (intros c Hc ->; specialize (P _ Hc); discriminate). assert (H2 : forall c, In c l -> c <> 94%N) by (intros c Hc ->; specialize (P _ Hc); discriminate).
  destruct l as [|c l]; [reflexivity|]. eapply C91_label_unique.
  - apply n_name; [discriminate|exact P].
  - rewrite (proj1 (C91_name tb pos _) I). exists 0. cbn [repeat]. rewrite app_nil_r. split.
    + clear - H1. induction (c :: l) as [|d s IH]; [reflexivity|]. cbn [filter]. rewrite (proj2 (N.eqb_neq d HYPHEN)) by (apply H1; now left). cbn [negb]. f_equal. apply IH. intros; apply H1; now right.
    + intros g d E. apply H2. rewrite E. apply in_or_app. right. now left.
Qed.
(** The mapping that is returned gives the new label of every node, when all trees have
    the same root label, which no other phrase has, and no label with separators is both
    that of a phrase and that of a word. *)
Theorem C91_mapping : forall tb trees trees' mapping r, collapselabels alpha tb trees = Some (trees', mapping) ->
  (forall t, In t trees -> rootlabel t = r) -> ~ In r (flat_map innerlabels trees) ->
  (forall l, In l (flat_map poslabels trees) -> In l (flat_map innerlabels trees) -> plainname l) ->
  Forall2 (mapped mapping) trees trees'.
Proof.
  intros tb trees trees' mapping r H R NR PL. pose proof (proj1 (C91_trees _ _ _ _ H)) as C. cbn beta zeta in C. set (F := collapsed (revmapping tb (flat_map poslabels trees))) in *.
  assert (EM : trees <> [] -> mapping = [(str "Epsilon", str "Epsilon"); (r, r)] ++ map (fun l => (l, l)) (flat_map poslabels trees) ++ map (fun l => (l, F l)) (flat_map innerlabels trees)).
  { intros NE. unfold collapselabels in H. destruct trees as [|t0 trees]; [congruence|]. destruct (existsb anyempty _); [discriminate|]. destruct (all _) in H; [|discriminate]. injection H as _ <-. rewrite (R t0 (or_introl eq_refl)). reflexivity. }
  assert (NE : trees <> []) by (intros ->; discriminate H). specialize (EM NE). clear H NE.
  assert (LI : forall l, In l (flat_map innerlabels trees) -> lookup mapping l = Some (F l)).
  { intros l Hl. rewrite EM, lookup_app, lookup_app. now rewrite (proj1 (lookup_map F _ _) Hl). }
  assert (LP : forall l, In l (flat_map poslabels trees) -> lookup mapping l = Some l).
  { intros l Hl. destruct (in_dec eqs_dec l (flat_map innerlabels trees)) as [I|I].
    - rewrite (LI l I). f_equal. apply plain_pos; auto.
    - rewrite EM, lookup_app, lookup_app. rewrite (proj2 (lookup_map F _ _) I). now rewrite (proj1 (lookup_map (fun l => l) _ _) Hl). }
  assert (LR : lookup mapping r = Some r).
  { destruct (in_dec eqs_dec r (flat_map poslabels trees)) as [I|I]; [now apply LP|]. rewrite EM, lookup_app, lookup_app. rewrite (proj2 (lookup_map F _ _) NR), (proj2 (lookup_map (fun l => l) _ _) I).
    unfold lookup. cbn [fold_left fst snd]. now rewrite eqs_refl. }
  assert (B : forall t u, (forall l, In l (phraselabels t) -> In l (flat_map innerlabels trees)) -> (forall l, In l (poslabels t) -> In l (flat_map poslabels trees)) -> changed F false t u -> mapped mapping t u).
  { induction t as [a|l ts IH] using tree_ind'; intros u HI HP CH; [inversion CH; constructor|]. cbn [phraselabels poslabels] in HI, HP.
    assert (G : forall us, Forall2 (changed F false) ts us -> Forall2 (mapped mapping) ts us).
    { assert (HI' : forall l, In l (flat_map phraselabels ts) -> In l (flat_map innerlabels trees)) by (intros; apply HI; apply in_or_app; now right).
      assert (HP' : forall l, In l (flat_map poslabels ts) -> In l (flat_map poslabels trees)) by (intros; apply HP; apply in_or_app; now right). clear - IH HI' HP'.
      intros us FA. induction FA as [|t u ts us Q FA IHF]; [constructor|]. inversion IH as [|? ? I1 I2]; subst. constructor.
      - apply I1; auto; intros; [apply HI'|apply HP']; cbn [flat_map]; apply in_or_app; now left.
      - apply IHF; auto; intros; [apply HI'|apply HP']; cbn [flat_map]; apply in_or_app; now right. }
    inversion CH as [|? ? ? us D FA|? ? us D FA]; subst.
    - destruct D as [D|D]; [discriminate|]. rewrite D in HP. constructor; [apply LP, HP; now left|auto].
    - rewrite D in HI. constructor; [apply LI, HI; now left|auto]. }
  assert (RT : forall t u, In t trees -> changed F true t u -> mapped mapping t u).
  { intros [a|l ts] u Ht CH; [inversion CH; constructor|]. inversion CH as [|? ? ? us D FA|]; subst. constructor; [pose proof (R _ Ht) as Q; cbn in Q; now subst l|].
    assert (HI' : forall l, In l (flat_map phraselabels ts) -> In l (flat_map innerlabels trees)) by (intros m Hm; apply in_flat_map; exists (Node l ts); auto).
    assert (HP' : forall l, In l (flat_map poslabels ts) -> In l (flat_map poslabels trees)) by (intros m Hm; apply in_flat_map; exists (Node l ts); split; [exact Ht|]; cbn [poslabels]; apply in_or_app; now right).
    clear - B FA HI' HP'. induction FA as [|t u ts us Q FA IHF]; [constructor|]. constructor.
    - apply B; auto; intros; [apply HI'|apply HP']; cbn [flat_map]; apply in_or_app; now left.
    - apply IHF; intros; [apply HI'|apply HP']; cbn [flat_map]; apply in_or_app; now right. }
  clearbody F. clear - C RT. induction C as [|t u ts us Q FA IH]; [constructor|]. constructor; [apply RT; [now left|exact Q]|]. apply IH. intros; apply RT; [now right|assumption].
Qed.
(** REFUTED: labels that differ in their fan-out stay different. *)
Theorem C91_fanout_refuted : forall coarse l d, l <> [] -> plainname l -> d <> [] -> plainname d -> coarse d = [] ->
  collapsed coarse (l ++ str "_" ++ d) = nohyphen (coarse l) ++ str "_".
Proof.
  intros coarse l d NL PL ND PD E. apply (C91_label_unique coarse _ (nohyphen (coarse l) ++ 95%N :: nohyphen (coarse d))).
  - change (str "_" ++ d) with (95%N :: d). apply n_sep; [exact PL|reflexivity|discriminate|now apply n_name|now apply n_name].
  - rewrite E. exists 0. cbn [repeat]. rewrite app_nil_r. split; [reflexivity|]. intros g c Q. assert (Z : 95%N = c) by (apply (f_equal (@rev N)) in Q; rewrite !rev_app_distr in Q; injection Q as Q _; exact Q). subst c. discriminate.
Qed.
(** REFUTED: the labels of parts of discontinuous phrases can be collapsed: a label without
    separators that is not in the mapping is an error. *)
Theorem C91_split_refuted : forall tb trees l, In l (flat_map innerlabels trees) -> plainname l -> (forall d, In d tb -> ~ In l (snd d)) -> ~ In l (flat_map poslabels trees) ->
  collapselabels alpha tb trees = None.
Proof.
  intros tb trees l I P T NP. destruct (collapselabels alpha tb trees) as [r|] eqn:E; [|reflexivity]. exfalso. destruct (proj1 (C91_defined tb trees) (ex_intro _ r E)) as (_ & _ & A).
  destruct (A l I) as (c & s & Q & _). assert (Z : collapsed (revmapping tb (flat_map poslabels trees)) l = []); [|congruence].
  destruct (proj2 (C91_name tb (flat_map poslabels trees) l) NP) as [(a & c' & f & b & ET & If & _)|[_ R]]; [exfalso; apply (T (c', f)); [rewrite ET; apply in_or_app; right; now left|exact If]|].
  destruct l as [|x l].
  - eapply C91_label_unique; [apply n_end|]. exists 0. split; [reflexivity|]. intros [|? ?] ? Z; discriminate.
  - eapply C91_label_unique; [apply n_name; [discriminate|exact P]|]. rewrite R. exists 0. split; [reflexivity|]. intros [|? ?] ? Z; discriminate.
Qed.
End Trees.

(** ** Examples *)
Definition capital (c : N) : bool := (65 <=? c)%N && (c <=? 90)%N.
Definition coarse_ex : list (pystr * list pystr) := [(str "HP", [str "NP"; str "S"]); (str "MP", [str "PP"])].
Definition collapse_ex : list ltree :=
  [Node (str "ROOT") [Node (str "S") [Node (str "NP-SBJ") [Node (str "DT") [Leaf 0]; Node (str "NP|<NN,PP>^<S>") [Node (str "NN") [Leaf 1]; Node (str "PP^NP") [Node (str "IN") [Leaf 2]]]]; Node (str "VB") [Leaf 3]]]].
Definition collapsed_ex : list ltree :=
  [Node (str "ROOT") [Node (str "HP") [Node (str "HP") [Node (str "DT") [Leaf 0]; Node (str "HP|<NN,MP>^<HP>") [Node (str "NN") [Leaf 1]; Node (str "MP^HP") [Node (str "IN") [Leaf 2]]]]; Node (str "VB") [Leaf 3]]]].
Example C91_example : option_map fst (collapselabels capital coarse_ex collapse_ex) = Some collapsed_ex /\
  (forall t, In t collapse_ex -> rootlabel t = str "ROOT") /\ ~ In (str "ROOT") (flat_map innerlabels collapse_ex) /\
  (forall l, In l (flat_map poslabels collapse_ex) -> In l (flat_map innerlabels collapse_ex) -> plainname l) /\
  collapsed (revmapping coarse_ex []) (str "NP_2") = collapsed (revmapping coarse_ex []) (str "NP_3").
Proof.
  split; [vm_compute; reflexivity|]. split; [intros t [<-|[]]; reflexivity|]. split; [intros I; vm_compute in I; intuition discriminate|]. split; [|vm_compute; reflexivity].
  intros l H1 H2. vm_compute in H1, H2. exfalso. repeat (destruct H1 as [<-|H1]; [intuition discriminate|]). contradiction.
Qed.
(** the label of the root occurs below the root: the mapping is wrong for the root, and the
    part of a discontinuous phrase has no coarse label *)
Example C91_root_refuted : option_map (fun r => (map rootlabel (fst r), lookup (snd r) (str "S"))) (collapselabels capital coarse_ex [Node (str "S") [Node (str "S") [Node (str "VB") [Leaf 0]]]]) = Some ([str "S"], Some (str "HP")).
Proof. vm_compute; reflexivity. Qed.
Example C91_example_split : collapselabels capital coarse_ex [Node (str "ROOT") [Node (str "NP*") [Node (str "NN") [Leaf 0]]]] = None.
Proof. vm_compute; reflexivity. Qed.
