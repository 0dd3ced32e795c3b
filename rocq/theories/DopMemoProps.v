(** C35, C32 with memoization (packed graph encoding). *)
From Coq Require Import String.
From Coq Require Import List Bool Arith NArith ZArith QArith Qcanon Permutation Lia.
From Verif Require Import PyStr TreeModel TreeProps BracketModel BinarizeModel TransformModel SortProofs TransformProps LcfrsModel LcfrsProps TreebankModel DopModel DopSpec DopProofs GoodmanProofs DopLink DopProps DiscTreeProps.
Import ListNotations.
Open Scope list_scope.
Open Scope nat_scope.

Definition keys_ok (pg : packed) : Prop := forall k s v, In ((k, s), v) pg -> ptree k.
Lemma plookup_some : forall s t pg v, plookup s t pg = Some v -> exists k s', In ((k, s'), v) pg /\ disc_eq s' s k t = true.
Proof.
  intros s t pg v. induction pg as [|[[k s'] w] pg IH]; cbn; [discriminate|]. destruct (disc_eq s' s k t) eqn:E.
  - intros H. injection H as <-. exists k, s'. auto.
  - intros H. destruct (IH H) as (k' & s'' & A & B). exists k', s''. auto.
Qed.
Lemma plookup_none : forall s t pg, plookup s t pg = None <-> forall k s' v, In ((k, s'), v) pg -> disc_eq s' s k t = false.
Proof.
  intros s t pg. induction pg as [|[[k s'] w] pg IH]; cbn; [split; [intros _ k s' v []|auto]|]. destruct (disc_eq s' s k t) eqn:E.
  - split; [discriminate|]. intros H. specialize (H k s' w (or_introl eq_refl)). congruence.
  - rewrite IH. split; intros H; [intros k' s'' v [X|X]; [injection X as <- <- <-; auto|eauto]|intros; apply (H k0 s'0 v); auto].
Qed.
Lemma plookup_wtree : forall pg s s' t t', keys_ok pg -> ptree t -> ptree t' -> wtree s t = wtree s' t' -> plookup s t pg = plookup s' t' pg.
Proof.
  induction pg as [|[[k sk] w] pg IH]; intros s s' t t' K P P' E; [reflexivity|]. cbn. assert (Pk := K k sk w (or_introl eq_refl)).
  assert (X : disc_eq sk s k t = disc_eq sk s' k t').
  { destruct (disc_eq sk s k t) eqn:A, (disc_eq sk s' k t') eqn:B; auto.
    - apply C38_equal_words in A; auto. rewrite E in A. apply C38_equal_words in A; auto. congruence.
    - apply C38_equal_words in B; auto. rewrite <- E in B. apply C38_equal_words in B; auto. congruence. }
  rewrite X, (IH s s' t t'); auto. intros k' s'' v H. eapply K. right. eauto.
Qed.
(** [dt] has at each node the label that is stored for the subtree *)
Inductive marked (pg : packed) (s : sentence) : tree pystr nat -> tree pystr nat -> Prop :=
| marked_leaf : forall a, marked pg s (Leaf a) (Leaf a)
| marked_node : forall l ts dl dts, (exists v, plookup s (Node l ts) pg = Some v /\ label v = dl) -> Forall2 (marked pg s) ts dts -> marked pg s (Node l ts) (Node dl dts).
Definition extends (pg pg' : packed) : Prop := forall s t v, ptree t -> plookup s t pg = Some v -> plookup s t pg' = Some v.
Lemma extends_trans : forall a b c, extends a b -> extends b c -> extends a c.
Proof. intros a b c A B s t v P H. auto. Qed.
Lemma ptree_or_leaf : forall l (ts : list (tree pystr nat)) c, ptree (Node l ts) -> In c ts -> ptree c \/ exists a, c = Leaf a.
Proof. intros l ts c H Hc. inversion H; subst; [destruct Hc as [<-|[]]; eauto|auto]. Qed.
Lemma marked_mono : forall pg pg' s t dt, extends pg pg' -> ptree t \/ (exists a, t = Leaf a) -> marked pg s t dt -> marked pg' s t dt.
Proof.
  intros pg pg' s t dt X. revert dt. induction t as [a|l ts IH] using tree_ind'; intros dt P M; inversion M as [|? ? dl dts (v & E1 & E2) F]; subst; [constructor|]. destruct P as [P|[a P]]; [|discriminate]. constructor; [exists v; split; auto|].
  assert (PC := fun c => ptree_or_leaf l ts c P). clear - IH F PC. induction F; constructor; inversion IH; subst; auto; [apply H2; auto; apply PC; now left|apply IHF; auto; intros; apply PC; now right].
Qed.
Lemma marked_mono_list : forall pg pg' s ts dts, extends pg pg' -> (forall c, In c ts -> ptree c \/ exists a, c = Leaf a) -> Forall2 (marked pg s) ts dts -> Forall2 (marked pg' s) ts dts.
Proof.
  intros pg pg' s ts dts X PC F. induction F; constructor; [eapply marked_mono; eauto; apply PC; now left|apply IHF; intros; apply PC; now right].
Qed.
Definition entry_in (n lo hi : nat) (e : (tree pystr nat * sentence) * tree pystr nat) : Prop :=
  exists m, lo < m <= hi /\ label (snd e) = address (label (fst (fst e))) n m.
Record pgok (n ids : nat) (pg : packed) : Prop := mkPgok {
  pg_keys : forall k s v, In ((k, s), v) pg -> ptree k /\ plain k /\ decorated k v;
  pg_addr : forall e, In e pg -> exists n', n' < n /\ (exists m, label (snd e) = address (label (fst (fst e))) n' m) \/ n' = n /\ entry_in n 0 ids e;
  pg_uniq : forall k s v k' s' v', In ((k, s), v) pg -> In ((k', s'), v') pg -> label v = label v' -> wtree s k = wtree s' k';
  pg_marked : forall k s v, In ((k, s), v) pg -> marked pg s k v }.
Lemma pgok_keys : forall n ids pg, pgok n ids pg -> keys_ok pg.
Proof. intros n ids pg P k s v H. apply (pg_keys _ _ _ P k s v H). Qed.
Lemma pgok_weaken : forall n ids ids' pg, ids <= ids' -> pgok n ids pg -> pgok n ids' pg.
Proof.
  intros n ids ids' pg L P. split; try apply P. intros e He. destruct (pg_addr _ _ _ P e He) as (n' & [H|[H (m & R & E)]]); [exists n'; auto|]. exists n'. right. split; auto. exists m. split; auto. lia.
Qed.
Lemma pgok_next : forall n ids pg, pgok n ids pg -> pgok (S n) 0 pg.
Proof.
  intros n ids pg P. split; try apply P. intros e He. destruct (pg_addr _ _ _ P e He) as (n' & [[H K]|[H (m & R & E)]]); [exists n'; left; split; [lia|auto]|]. exists n. left. split; [lia|]. exists m. auto.
Qed.

(** copyexceptindices: labels of the stored tree, indices of the new one *)
Lemma copy_node : forall l1 l2 ts1 ts2 ids, copyexceptindices (Node l1 ts1) (Node l2 ts2) ids =
  let '(ts', i') := (fix go (as_ bs : list (tree pystr nat)) (ids : nat) {struct as_} :=
       match as_, bs with
       | a :: as', b :: bs' => let '(c, i1) := copyexceptindices a b ids in let '(r, i2) := go as' bs' i1 in (c :: r, i2)
       | _, _ => ([], ids)
       end) ts1 ts2 (S ids) in (Node l2 ts', i').
Proof. reflexivity. Qed.
Definition copylist : list (tree pystr nat) -> list (tree pystr nat) -> nat -> list (tree pystr nat) * nat :=
  fix go (as_ bs : list (tree pystr nat)) (ids : nat) {struct as_} :=
    match as_, bs with
    | a :: as', b :: bs' => let '(c, i1) := copyexceptindices a b ids in let '(r, i2) := go as' bs' i1 in (c :: r, i2)
    | _, _ => ([], ids)
    end.
Lemma wtree_label : forall s s' l m ts us, wtree s (Node l ts) = wtree s' (Node m us) -> l = m /\ map (wtree s) ts = map (wtree s') us.
Proof. intros. cbn [wtree] in H. injection H as -> E. auto. Qed.
Lemma copy_ok : forall pg s s' k v t ids c i, keys_ok pg -> ptree k \/ (exists a, k = Leaf a) -> ptree t \/ (exists a, t = Leaf a) -> wtree s k = wtree s' t -> decorated k v -> marked pg s k v ->
  copyexceptindices t v ids = (c, i) -> decorated t c /\ marked pg s' t c /\ ids <= i.
Proof.
  intros pg s s' k v t. revert k v. induction t as [a|l ts IH] using tree_ind'; intros k v ids c i K Pk Pt E D M C.
  - cbn in C. injection C as <- <-. repeat constructor.
  - destruct Pt as [Pt|[a X]]; [|discriminate]. destruct k as [b|m us]; [cbn in E; discriminate|]. destruct Pk as [Pk|[a X]]; [|discriminate]. destruct v as [b|dl dus]; [inversion D|].
    assert (DD : addressed dl = true /\ strip dl = m /\ Forall2 decorated us dus) by (inversion D; auto). destruct DD as (A & S0 & F). assert (MM : (exists w, plookup s (Node m us) pg = Some w /\ label w = dl) /\ Forall2 (marked pg s) us dus) by (inversion M; auto). destruct MM as ((w & Ew & El) & FM).
    destruct (wtree_label _ _ _ _ _ _ E) as [El' Es]. rewrite copy_node in C. fold copylist in C. destruct (copylist ts dus (S ids)) as [ts' i'] eqn:EL. injection C as <- <-.
    assert (PC := fun c => ptree_or_leaf l ts c Pt). assert (PU := fun c => ptree_or_leaf _ us c Pk).
    assert (KK : Forall2 decorated ts ts' /\ Forall2 (marked pg s') ts ts' /\ S ids <= i').
    { clear - IH Es F FM EL K PC PU. revert EL. generalize (S ids) as j. intros j EL. revert us dus ts' i' j Es F FM EL PU. induction IH as [|t ts I1 I2 IHts]; intros us dus ts' i' j Es F FM EL PU.
      - cbn in EL. injection EL as <- <-. repeat split; auto; constructor.
      - destruct us as [|u us]; [discriminate|]. cbn [map] in Es. injection Es as E1 E2. inversion F as [|? du ? dus' D F']; subst. inversion FM as [|? ? ? ? M FM']; subst. cbn [copylist] in EL. fold copylist in EL.
        destruct (copyexceptindices t du j) as [c i1] eqn:C1. destruct (copylist ts dus' i1) as [r i2] eqn:C2. injection EL as <- <-.
        destruct (I1 u du j c i1) as (A1 & A2 & A3); auto; [apply PU; now left|apply PC; now left|]. destruct (IHts (fun c Hc => PC c (or_intror Hc)) us dus' r i2 i1 E2 F' FM' C2 (fun c Hc => PU c (or_intror Hc))) as (B1 & B2 & B3).
        repeat split; try constructor; auto. lia. }
    destruct KK as (K1 & K2 & K3). split; [constructor; auto; congruence|]. split; [|lia].
    constructor; [|exact K2]. exists w. split; [|exact El]. rewrite <- Ew. symmetry. apply plookup_wtree; auto.
Qed.
Lemma wtree_size : forall s s' t t', wtree s t = wtree s' t' -> size t = size t'.
Proof.
  intros s s' t. induction t as [a|l ts IH] using tree_ind'; intros [b|m us] E; try discriminate; [reflexivity|]. destruct (wtree_label _ _ _ _ _ _ E) as [_ Es]. cbn [size]. f_equal. f_equal. clear E. revert us Es. induction IH as [|t ts I1 I2 IHts]; intros [|u us] Es; try discriminate; [reflexivity|].
  cbn [map] in *. injection Es as E1 E2. f_equal; auto.
Qed.
Lemma rec_node : forall sent n l ts ids pg, recdecorate sent n (Node l ts) ids pg =
  match plookup sent (Node l ts) pg with
  | None => let '(ts', ids', pg') := reclist sent n ts (S ids) pg in
            let d := Node (address l n (S ids)) ts' in (d, ids', ((Node l ts, sent), d) :: pg')
  | Some v => let '(c, i) := copyexceptindices (Node l ts) v ids in (c, i, pg)
  end.
Proof. reflexivity. Qed.
(** entries that are added while decorating trees of at most the given size *)
Definition added (n sz ids ids' : nat) (pg pg' : packed) : Prop := forall e, In e pg' -> In e pg \/ (size (fst (fst e)) <= sz /\ entry_in n ids ids' e).
Lemma rec_ok : forall sent n t ids pg dt ids' pg', pgok n ids pg -> ptree t \/ (exists a, t = Leaf a) -> plain t -> recdecorate sent n t ids pg = (dt, ids', pg') ->
  pgok n ids' pg' /\ decorated t dt /\ marked pg' sent t dt /\ ids <= ids' /\ extends pg pg' /\ added n (size t) ids ids' pg pg'.
Proof.
  intros sent n t. induction t as [a|l ts IH] using tree_ind'; intros ids pg dt ids' pg' P Pt PL E.
  - cbn in E. injection E as <- <- <-. split; [exact P|]. split; [constructor|]. split; [constructor|]. split; [lia|]. split; [intros s t v _ H; exact H|intros e He; now left].
  - destruct Pt as [Pt|[a X]]; [|discriminate]. rewrite rec_node in E. destruct (plookup sent (Node l ts) pg) as [v|] eqn:EP.
    + destruct (copyexceptindices (Node l ts) v ids) as [c i] eqn:C. injection E as <- <- <-. destruct (plookup_some _ _ _ _ EP) as (k & s' & Hin & Q). destruct (pg_keys _ _ _ P k s' v Hin) as (Kp & _ & Kd). apply C38_equal_words in Q; auto.
      destruct (copy_ok pg s' sent k v (Node l ts) ids c i) as (A1 & A2 & A3); auto; [eapply pgok_keys; eauto|apply (pg_marked _ _ _ P); auto|].
      split; [now apply (pgok_weaken n ids)|]. split; auto. split; auto. split; auto. split; [intros s t w _ H; exact H|intros e He; now left].
    + destruct (reclist sent n ts (S ids) pg) as [[ts' i'] pg1] eqn:EL. injection E as <- <- <-.
      assert (PC := fun c => ptree_or_leaf l ts c Pt). assert (PLs : forall c, In c ts -> plain c) by (intros c Hc v Hv; apply PL; cbn [nodes]; right; apply in_flat_map; eauto).
      assert (K : pgok n i' pg1 /\ Forall2 decorated ts ts' /\ Forall2 (marked pg1 sent) ts ts' /\ S ids <= i' /\ extends pg pg1 /\ added n (list_sum (map size ts)) (S ids) i' pg pg1).
      { assert (P' := pgok_weaken n ids (S ids) pg ltac:(lia) P). clear - IH PC PLs EL P'. revert P' EL. generalize (S ids) as j. intros j. revert ts' i' pg1 j. generalize pg as pg0. clear pg ids. induction IH as [|t ts I1 I2 IHts]; intros pg ts' i' pg1 j P' EL; cbn [reclist] in EL.
        - injection EL as <- <- <-. split; [exact P'|]. split; [constructor|]. split; [constructor|]. split; [lia|]. split; [intros s t v _ H; exact H|intros e He; now left].
        - fold (reclist sent n) in EL. destruct (recdecorate sent n t j pg) as [[c' i1] p1] eqn:E1. destruct (reclist sent n ts i1 p1) as [[r' i2] p2] eqn:E2. injection EL as <- <- <-.
          destruct (I1 j pg c' i1 p1 P' (PC t (or_introl eq_refl)) (PLs t (or_introl eq_refl)) E1) as (A1 & A2 & A3 & A4 & A5 & A6).
          destruct (IHts (fun c Hc => PC c (or_intror Hc)) (fun c Hc => PLs c (or_intror Hc)) p1 r' i2 p2 i1 A1 E2) as (B1 & B2 & B3 & B4 & B5 & B6).
          split; auto. split; [constructor; auto|]. split; [constructor; auto; eapply marked_mono; eauto; apply PC; now left|]. split; [lia|]. split; [eapply extends_trans; eauto|].
          intros e He. cbn [map list_sum fold_right]. change (fold_right Nat.add 0 (map size ts)) with (list_sum (map size ts)). destruct (B6 e He) as [He'|[Hs (m & Hm & El)]].
          + destruct (A6 e He') as [|[Hs (m & Hm & El)]]; auto. right. split; [lia|]. exists m. split; auto. lia.
          + right. split; [lia|]. exists m. split; auto. lia. }
      destruct K as (K1 & K2 & K3 & K4 & K5 & K6). set (d := Node (address l n (S ids)) ts').
      assert (Ll : addressed l = false) by (apply (PL (Node l ts)); cbn; auto).
      assert (N1 : plookup sent (Node l ts) pg1 = None).
      { apply plookup_none. intros k s' v Hin. destruct (disc_eq s' sent k (Node l ts)) eqn:Q; auto. exfalso. destruct (pg_keys _ _ _ K1 k s' v Hin) as (Kp & _ & _). destruct (K6 _ Hin) as [Hin'|[Hs _]].
        - rewrite (proj1 (plookup_none _ _ _) EP k s' v Hin') in Q. discriminate.
        - apply C38_equal_words in Q; auto. apply wtree_size in Q. cbn [fst size] in Hs, Q. lia. }
      set (pg2 := ((Node l ts, sent), d) :: pg1).
      assert (X2 : extends pg1 pg2).
      { intros s t v Ptt Hl. unfold pg2. cbn [plookup]. destruct (disc_eq sent s (Node l ts) t) eqn:Q; auto. exfalso. apply C38_equal_words in Q; auto. rewrite <- (plookup_wtree pg1 sent s (Node l ts) t) in Hl; auto; [congruence|eapply pgok_keys; eauto]. }
      assert (D : decorated (Node l ts) d) by (constructor; auto; [apply address_addressed|now apply strip_address]).
      assert (M : marked pg2 sent (Node l ts) d).
      { constructor; [exists d; split; auto; unfold pg2; cbn [plookup]; assert (disc_eq sent sent (Node l ts) (Node l ts) = true) as -> by (apply C38_equal_words; auto); reflexivity|].
        exact (marked_mono_list pg1 pg2 sent ts ts' X2 PC K3). }
      split; [split|].
      * intros k s v [H|H]; [injection H as <- <- <-; auto|now apply (pg_keys _ _ _ K1 k s v)].
      * intros e [<-|He]; [|now apply (pg_addr _ _ _ K1)]. exists n. right. split; auto. exists (S ids). split; [lia|]. reflexivity.
      * assert (FR : forall k s v, In ((k, s), v) pg1 -> label v <> label d).
        { intros k s v Hin El. cbn [label d] in El. assert (Lk : addressed (label k) = false) by (destruct (pg_keys _ _ _ K1 k s v Hin) as (Kp & Kpl & _); apply Kpl; destruct k; [inversion Kp|cbn; auto]). destruct (K6 _ Hin) as [Hin'|[_ (m & Hm & Em)]].
          - destruct (pg_addr _ _ _ P _ Hin') as (n' & [[Hn (m & Em)]|[-> (m & Hm & Em)]]); cbn [fst snd] in Em; rewrite Em in El; apply address_inj in El; auto; lia.
          - cbn [fst snd] in Em. rewrite Em in El. apply address_inj in El; auto. lia. }
        intros k s v k' s' v' [H|H] [H'|H'] El.
        -- injection H as <- <- <-. injection H' as <- <- <-. reflexivity.
        -- exfalso. injection H as <- <- <-. apply (FR _ _ _ H'). auto.
        -- exfalso. injection H' as <- <- <-. apply (FR _ _ _ H). auto.
        -- eapply (pg_uniq _ _ _ K1); eauto.
      * intros k s v [H|H]; [injection H as <- <- <-; auto|]. eapply marked_mono; [exact X2| |now apply (pg_marked _ _ _ K1)]. left. apply (pg_keys _ _ _ K1 k s v H).
      * split; auto. split; auto. split; [lia|]. split; [eapply extends_trans; eauto|]. intros e [<-|He].
        -- right. cbn [fst snd size]. split; [lia|]. exists (S ids). split; [lia|]. reflexivity.
        -- destruct (K6 e He) as [|[Hs (m & Hm & Em)]]; auto. right. cbn [size]. split; [lia|]. exists m. split; auto. lia.
Qed.
Lemma reclist_ok : forall sent n ts ids pg ts' ids' pg', pgok n ids pg -> (forall c, In c ts -> ptree c \/ exists a, c = Leaf a) -> (forall c, In c ts -> plain c) -> reclist sent n ts ids pg = (ts', ids', pg') ->
  pgok n ids' pg' /\ Forall2 decorated ts ts' /\ Forall2 (marked pg' sent) ts ts' /\ extends pg pg'.
Proof.
  intros sent n. induction ts as [|t ts IHts]; intros j pg ts' i' pg1 P' PC PLs EL; cbn [reclist] in EL.
  - injection EL as <- <- <-. split; [exact P'|]. split; [constructor|]. split; [constructor|]. intros s t v _ H; exact H.
  - fold (reclist sent n) in EL. destruct (recdecorate sent n t j pg) as [[c' i1] p1] eqn:E1. destruct (reclist sent n ts i1 p1) as [[r' i2] p2] eqn:E2. injection EL as <- <- <-.
    destruct (rec_ok sent n t j pg c' i1 p1 P' (PC t (or_introl eq_refl)) (PLs t (or_introl eq_refl)) E1) as (A1 & A2 & A3 & A4 & A5 & A6).
    destruct (IHts i1 p1 r' i2 p2 A1 (fun c Hc => PC c (or_intror Hc)) (fun c Hc => PLs c (or_intror Hc)) E2) as (B1 & B2 & B3 & B4).
    split; auto. split; [constructor; auto|]. split; [constructor; auto; eapply marked_mono; eauto; apply PC; now left|]. eapply extends_trans; eauto.
Qed.
Definition memodec (d : decorator) : Prop := memoize d = true /\ pgok (dn d) 0 (packedgraphs d).
Definition kidsmarked (pg : packed) (s : sentence) (t dt : tree pystr nat) : Prop := exists l ts dts, t = Node l ts /\ dt = Node l dts /\ Forall2 (marked pg s) ts dts.
Lemma memo_full : forall d t sent dt d', memodec d -> wftree (t, sent) -> decorate d t sent = (dt, d') -> rootdec t dt /\ memodec d' /\ kidsmarked (packedgraphs d') sent t dt /\ extends (packedgraphs d) (packedgraphs d').
Proof.
  intros [mm n pg] t sent dt d' [I1 I2] (HP & _ & _ & HL) E. cbn in I1, I2, HP, HL. subst mm. destruct t as [a|l ts]; [inversion HP|]. cbn [decorate memoize dn packedgraphs] in E. destruct (reclist sent n ts 0 pg) as [[ts' i'] pg'] eqn:ER. injection E as <- <-.
  destruct (reclist_ok sent n ts 0 pg ts' i' pg' I2) as (A1 & A2 & A3 & A4); auto; [intros c; apply (ptree_or_leaf l ts c HP)|intros c Hc v Hv; apply HL; cbn [nodes]; right; apply in_flat_map; eauto|].
  split; [exists l, ts, ts'; auto|]. split; [split; [reflexivity|]; cbn; eapply pgok_next; eauto|]. split; auto. exists l, ts, ts'. auto.
Qed.
Lemma memo_step : forall d t sent dt d', memodec d -> wftree (t, sent) -> decorate d t sent = (dt, d') -> rootdec t dt /\ memodec d'.
Proof. intros d t sent dt d' I0 W E. destruct (memo_full d t sent dt d' I0 W E) as (A & B & _). auto. Qed.
Lemma memo_init : memodec (newdecorator true).
Proof. split; [reflexivity|]. cbn. split; try (intros; contradiction). Qed.
(** all decorated trees are marked according to the final table *)
Lemma memo_all : forall tb d, memodec d -> Forall wftree tb -> exists pg n, pgok n 0 pg /\ extends (packedgraphs d) pg /\ Forall2 (fun ts dt => kidsmarked pg (snd ts) (fst ts) dt /\ rootdec (fst ts) dt) tb (decorateall d tb).
Proof.
  induction tb as [|[t sent] tb IH]; intros d I0 W; cbn [decorateall].
  - exists (packedgraphs d), (dn d). split; [apply I0|]. split; [intros s t v _ H; exact H|constructor].
  - inversion W as [|? ? W1 W2]; subst. destruct (decorate d t sent) as [dt d'] eqn:E. destruct (memo_full d t sent dt d' I0 W1 E) as (R & I1 & (l & ts & dts & -> & -> & M) & X). destruct (IH d' I1 W2) as (pg & n & P & X2 & F).
    exists pg, n. split; auto. split; [eapply extends_trans; eauto|]. constructor; auto. cbn [fst snd]. split; auto. exists l, ts, dts. repeat split; auto. destruct W1 as (HP & _ & _ & _). cbn in HP. assert (PC := fun c => ptree_or_leaf l ts c HP).
    eapply marked_mono_list; eauto.
Qed.
Lemma marked_at : forall pg s t dt p v dv, marked pg s t dt -> at_node t dt p v dv -> (exists l us, v = Node l us) -> marked pg s v dv.
Proof.
  intros pg s t. induction t as [a|l ts IH] using tree_ind'; intros dt p v dv M [A1 A2] (m & us & Ev).
  - destruct p; [|discriminate]. cbn in A1. congruence.
  - destruct p as [|i p]; [cbn in A1, A2; injection A1 as <-; injection A2 as <-; auto|]. inversion M as [|? ? dl dts _ F]; subst. cbn in A1, A2. destruct (nth_error ts i) as [c|] eqn:E1; [|discriminate]. destruct (nth_error dts i) as [dc|] eqn:E2; [|discriminate].
    rewrite Forall_forall in IH. apply (IH c (nth_error_In _ _ E1) dc p); eauto; [|split; auto]. clear - F E1 E2. revert i E1 E2. induction F; intros [|i] E1 E2; cbn in *; try discriminate; [congruence|eauto].
Qed.
Lemma ptree_at : forall (t : tree pystr nat) p v, ptree t -> getpos t p = Some v -> (exists l us, v = Node l us) -> ptree v.
Proof.
  induction t as [a|l ts IH] using tree_ind'; intros p v HP E (m & us & Ev); [inversion HP|]. destruct p as [|i p]; [cbn in E; congruence|]. cbn in E. destruct (nth_error ts i) as [c|] eqn:E1; [|discriminate]. rewrite Forall_forall in IH. assert (Ic := nth_error_In _ _ E1). destruct (ptree_or_leaf l ts c HP Ic) as [Pc|[a ->]].
  - apply (IH c Ic p); eauto.
  - destruct p; [cbn in E; congruence|discriminate].
Qed.
(** with memoization, two nodes (not roots) get the same address exactly when their
    subtrees have the same labels, structure and words *)
Theorem C35_memo_addresses : forall tb, Forall wftree tb -> let dts := decorateall (newdecorator true) tb in
  forall i t s dt p v dv i' t' s' dt' p' v' dv',
    nth_error tb i = Some (t, s) -> nth_error dts i = Some dt -> at_node t dt p v dv -> p <> [] -> (exists l us, v = Node l us) ->
    nth_error tb i' = Some (t', s') -> nth_error dts i' = Some dt' -> at_node t' dt' p' v' dv' -> p' <> [] -> (exists l us, v' = Node l us) ->
    (label dv = label dv' <-> wtree s v = wtree s' v').
Proof.
  intros tb W dts i t s dt p v dv i' t' s' dt' p' v' dv' E1 E2 A NE Hv E1' E2' A' NE' Hv'. destruct (memo_all tb (newdecorator true) memo_init W) as (pg & n & P & _ & F). fold dts in F.
  assert (G : forall i t s dt p v dv, nth_error tb i = Some (t, s) -> nth_error dts i = Some dt -> at_node t dt p v dv -> p <> [] -> (exists l us, v = Node l us) -> ptree v /\ exists w, plookup s v pg = Some w /\ label w = label dv).
  { clear - F W. intros i t s dt p v dv E1 E2 A NE Hv. assert (W1 : wftree (t, s)) by (rewrite Forall_forall in W; apply W; eapply nth_error_In; eauto). destruct W1 as (HP & _ & _ & _). cbn in HP.
    assert (K : kidsmarked pg s t dt) by (clear - F E1 E2; revert i E1 E2; induction F as [|[t0 s0] dt0 tb dts [K _] F IH]; intros [|i] E1 E2; cbn in *; try discriminate; [congruence|eauto]).
    split; [eapply ptree_at; eauto; apply A|]. destruct K as (l & ts & ds & -> & -> & M). destruct p as [|j p]; [congruence|]. destruct A as [A1 A2]. cbn in A1, A2. destruct (nth_error ts j) as [c|] eqn:F1; [|discriminate]. destruct (nth_error ds j) as [dc|] eqn:F2; [|discriminate].
    assert (Mc : marked pg s c dc) by (clear - M F1 F2; revert j F1 F2; induction M; intros [|j] F1 F2; cbn in *; try discriminate; [congruence|eauto]). assert (Mv := marked_at pg s c dc p v dv Mc (conj A1 A2) Hv). destruct Hv as (m & us & ->). inversion Mv as [|? ? ? ? (w & B1 & B2) _]; subst. exists w. auto. }
  destruct (G _ _ _ _ _ _ _ E1 E2 A NE Hv) as (Pv & w & L1 & L2). destruct (G _ _ _ _ _ _ _ E1' E2' A' NE' Hv') as (Pv' & w' & L1' & L2'). split.
  - intros E. destruct (plookup_some _ _ _ _ L1) as (k & sk & Hk & Q). destruct (plookup_some _ _ _ _ L1') as (k' & sk' & Hk' & Q'). apply C38_equal_words in Q; auto; [|apply (pg_keys _ _ _ P _ _ _ Hk)]. apply C38_equal_words in Q'; auto; [|apply (pg_keys _ _ _ P _ _ _ Hk')].
    rewrite <- Q, <- Q'. apply (pg_uniq _ _ _ P _ _ _ _ _ _ Hk Hk'). congruence.
  - intros E. rewrite (plookup_wtree pg s s' v v' (pgok_keys _ _ _ P) Pv Pv' E) in L1. congruence.
Qed.
Theorem C35_memo_unchanged : forall tb, Forall wftree tb -> let dts := decorateall (newdecorator true) tb in
  map unaddress dts = map fst tb /\ map label dts = map (fun ts => label (fst ts)) tb /\ Forall (fun s => addressed s = true) (flat_map addresses dts).
Proof.
  intros tb W. cbn zeta. destruct (memo_all tb (newdecorator true) memo_init W) as (pg & n & P & _ & F). clear P. revert W F. generalize (decorateall (newdecorator true) tb) as dts. intros dts W F. induction F as [|[t s] dt tb dts [_ (l & us & dus & Et & -> & D)] F IH]; [repeat split; constructor|]. cbn [fst] in Et. subst t.
  inversion W as [|? ? W1 W2]; subst. destruct (IH W2) as (A & B & C). cbn [map flat_map fst label]. destruct W1 as (_ & _ & _ & HL). cbn in HL. repeat split.
  - rewrite A. f_equal. cbn [unaddress]. f_equal; [apply strip_plain; apply (HL (Node l us)); cbn; auto|]. clear - D. induction D; cbn; f_equal; auto. now apply unaddress_decorated.
  - now rewrite B.
  - apply Forall_app. split; auto. unfold addresses. cbn [nodes tl]. clear - D. induction D; [constructor|]. cbn [flat_map]. rewrite map_app. apply Forall_app. split; auto. eapply decorated_addressed; eauto.
Qed.

(** ---- C32 with the packed graph encoding ---- *)
(** the labels with words and yield functions of a subtree *)
Fixpoint skel (s : sentence) (t : tree pystr nat) : tree (pystr * pvar) unit :=
  match t with Leaf _ => Leaf tt | Node l ts => Node (l, inf s ts) (map (skel s) ts) end.
(** subtrees with the same labels and words have the same yield functions *)
Definition consistent (tb : list (tree pystr nat * sentence)) : Prop :=
  forall t s t' s' v v', In (t, s) tb -> In (t', s') tb -> In v (nodes t) -> In v' (nodes t') -> wtree s v = wtree s' v' -> skel s v = skel s' v'.
Lemma annot_skel : forall pg s s' v v' dv dv', keys_ok pg -> ptree v -> ptree v' -> marked pg s v dv -> marked pg s' v' dv' -> wtree s v = wtree s' v' -> skel s v = skel s' v' -> annot s v dv = annot s' v' dv'.
Proof.
  intros pg s s' v. induction v as [a|l ts IH] using tree_ind'; intros v' dv dv' K P P' M M' E S0; [inversion P|]. destruct v' as [b|m us]; [inversion P'|]. inversion M as [|? ? dl dts (w & L1 & L2) F]; subst. inversion M' as [|? ? dl' dus (w' & L1' & L2') F']; subst.
  rewrite !annot_node. rewrite (plookup_wtree pg s s' _ _ K P P' E), L1' in L1. injection L1 as ->. cbn [skel] in S0. injection S0 as -> Ei Es. rewrite Ei. f_equal. destruct (wtree_label _ _ _ _ _ _ E) as [_ Ew].
  assert (IL : isleaves ts = isleaves us).
  { clear - Es. destruct us as [|[b'|] [|]], ts as [|[a'|] [|]]; cbn in Es |- *; try discriminate Es; auto. }
  rewrite <- IL. destruct (isleaves ts) eqn:E0; [reflexivity|]. destruct (ptree_isleaves m ts P E0) as [_ HC]. destruct (ptree_isleaves m us P' (eq_sym IL)) as [_ HC']. clear - IH K HC HC' F F' Ew Es. revert us dus F' HC' Ew Es. induction F as [|t dt ts dts Mt F IHF]; intros us dus F' HC' Ew Es; destruct us as [|u us]; try discriminate; [reflexivity|].
  inversion F' as [|? du ? dus' Mu F'']; subst. inversion IH as [|? ? I1 I2]; subst. cbn [map] in Ew, Es. injection Ew as E1 E2. injection Es as S1 S2. cbn [annots]. fold (annots s) (annots s'). f_equal.
  - apply I1; auto; [apply HC|apply HC']; now left.
  - apply IHF; auto; [intros; apply HC|intros; apply HC']; now right.
Qed.
Lemma anodes_at : forall s t dt x, ptree t -> relab t dt -> In x (anodes (annot s t dt)) -> exists p v dv, at_node t dt p v dv /\ (exists l us, v = Node l us) /\ x = annot s v dv /\ In v (nodes t) /\ (p = [] -> x = annot s t dt).
Proof.
  intros s t. induction t as [a|l ts IH] using tree_ind'; intros dt x HP R Hx; [inversion HP|]. assert (R' := R). inversion R' as [|? dl ? dts F]; subst. rewrite annot_node in Hx. cbn [anodes] in Hx. destruct Hx as [Hx|Hx].
  - exists [], (Node l ts), (Node dl dts). split; [split; reflexivity|]. split; [eauto|]. rewrite annot_node. split; auto. split; [cbn; auto|]. auto.
  - destruct (isleaves ts) eqn:E; [destruct Hx|]. destruct (ptree_isleaves l ts HP E) as [_ HC]. assert (K : exists i c dc, nth_error ts i = Some c /\ nth_error dts i = Some dc /\ relab c dc /\ In x (anodes (annot s c dc))).
    { clear - F Hx. induction F as [|t dt ts dts R F IH]; [destruct Hx|]. cbn [annots flat_map] in Hx. fold (annots s) in Hx. apply in_app_or in Hx. destruct Hx as [Hx|Hx]; [exists 0, t, dt; auto|]. destruct (IH Hx) as (i & c & dc & A & B & C). exists (S i), c, dc. auto. }
    destruct K as (i & c & dc & E1 & E2 & Rc & Hc). rewrite Forall_forall in IH. assert (Ic := nth_error_In _ _ E1). destruct (IH c Ic dc x (HC c Ic) Rc Hc) as (p & v & dv & [A1 A2] & Hv & Ex & Hn & _). exists (i :: p), v, dv. split; [split; cbn; [rewrite E1|rewrite E2]; auto|]. split; auto. split; auto. split; [cbn [nodes]; right; apply in_flat_map; eauto|discriminate].
Qed.
Lemma in_annotall : forall (Inv : decorator -> Prop), (forall d t sent dt d', Inv d -> wftree (t, sent) -> decorate d t sent = (dt, d') -> rootdec t dt /\ Inv d') ->
  forall tb d x, Inv d -> Forall wftree tb -> In x (annotall d tb) -> exists i t s dt, nth_error tb i = Some (t, s) /\ nth_error (decorateall d tb) i = Some dt /\ In x (anodes (annot s t dt)) /\ rootdec t dt.
Proof.
  intros Inv step. induction tb as [|[t0 s0] tb IH]; intros d x I0 W Hx; [destruct Hx|]. inversion W as [|? ? W1 W2]; subst. cbn [annotall decorateall] in *. destruct (decorate d t0 s0) as [dt0 d'] eqn:E. destruct (step _ _ _ _ _ I0 W1 E) as [R I1]. apply in_app_or in Hx. destruct Hx as [Hx|Hx].
  - exists 0, t0, s0, dt0. auto.
  - destruct (IH d' x I1 W2 Hx) as (i & t & s & dt & A). exists (S i), t, s, dt. exact A.
Qed.
Lemma memo_shares : forall tb, Forall wftree tb -> consistent tb -> shares (annotall (newdecorator true) tb).
Proof.
  intros tb W CON u u' Hu Hu' E A. destruct (memo_all tb (newdecorator true) memo_init W) as (pg & n & P & _ & F). set (dts := decorateall (newdecorator true) tb) in *.
  destruct (in_annotall memodec memo_step tb _ u memo_init W Hu) as (i & t & s & dt & E1 & E2 & Hin & R). destruct (in_annotall memodec memo_step tb _ u' memo_init W Hu') as (i' & t' & s' & dt' & E1' & E2' & Hin' & R'). fold dts in E2, E2'.
  assert (G : forall i t s dt u, nth_error tb i = Some (t, s) -> nth_error dts i = Some dt -> rootdec t dt -> In u (anodes (annot s t dt)) -> addressed (adec u) = true ->
    exists p v dv, at_node t dt p v dv /\ p <> [] /\ (exists l us, v = Node l us) /\ u = annot s v dv /\ In v (nodes t) /\ ptree v /\ marked pg s v dv /\ adec u = label dv /\ In (t, s) tb).
  { clear - F W. intros i t s dt u E1 E2 R Hin A. assert (It := nth_error_In _ _ E1). assert (W1 : wftree (t, s)) by (rewrite Forall_forall in W; auto). destruct W1 as (HP & _ & _ & HL). cbn in HP, HL. destruct (anodes_at s t dt u HP (rootdec_relab _ _ R) Hin) as (p & v & dv & B1 & B2 & B3 & B4 & B5).
    assert (NE : p <> []). { intros ->. rewrite (B5 eq_refl) in A. destruct R as (l & ts & ds & -> & -> & _). rewrite annot_node in A. cbn [adec] in A. assert (addressed l = false) by (apply (HL (Node l ts)); cbn; auto). congruence. }
    exists p, v, dv. split; auto. split; auto. split; auto. split; auto. split; auto. assert (Pv : ptree v) by (eapply ptree_at; eauto; apply B1). split; auto.
    assert (K : kidsmarked pg s t dt) by (clear - F E1 E2; revert i E1 E2; induction F as [|[t0 s0] dt0 tb dts [K _] F IH]; intros [|i] E1 E2; cbn in *; try discriminate; [congruence|eauto]).
    assert (Mv : marked pg s v dv).
    { destruct K as (l & ts & ds & -> & -> & M). destruct p as [|j p]; [congruence|]. destruct B1 as [A1 A2]. cbn in A1, A2. destruct (nth_error ts j) as [c|] eqn:F1; [|discriminate]. destruct (nth_error ds j) as [dc|] eqn:F2; [|discriminate].
      assert (Mc : marked pg s c dc) by (clear - M F1 F2; revert j F1 F2; induction M; intros [|j] F1 F2; cbn in *; try discriminate; [congruence|eauto]). apply (marked_at pg s c dc p v dv Mc (conj A1 A2) B2). }
    split; auto. split; auto. rewrite B3. destruct B2 as (m & us & ->). inversion Mv; subst. reflexivity. }
  destruct (G i t s dt u E1 E2 R Hin A) as (p & v & dv & B1 & B2 & B3 & B4 & B5 & B6 & B7 & B8 & B9). assert (A' : addressed (adec u') = true) by congruence. destruct (G i' t' s' dt' u' E1' E2' R' Hin' A') as (p' & v' & dv' & C1 & C2 & C3 & C4 & C5 & C6 & C7 & C8 & C9).
  assert (WT : wtree s v = wtree s' v') by (apply (C35_memo_addresses tb W i t s dt p v dv i' t' s' dt' p' v' dv'); auto; congruence).
  rewrite B4, C4. apply (annot_skel pg); auto; [eapply pgok_keys; eauto|]. eapply CON; eauto.
Qed.
Theorem C32_packed : forall tb, Forall wftree tb -> consistent tb -> tb <> [] -> exists gr, dopreduction tb true = Some gr /\
  (forall A, addressed A = false -> mass (dop_rules gr) A = N.of_nat (length (fragment_bag tb A))) /\
  (forall A f, addressed A = false -> exists ds, NoDup ds /\ (forall d, In d ds <-> derivation (dop_rules gr) A d /\ erase d = f) /\
     fold_right Qcplus 0%Qc (map (prob (dop_rules gr)) ds) = (Nq (N.of_nat (count_occ fragment_dec (fragment_bag tb A) f)) / Nq (N.of_nat (length (fragment_bag tb A))))%Qc).
Proof.
  intros tb W CON NE. destruct (reduction_ok memodec memo_step tb true memo_init W (memo_shares tb W CON) NE) as (gr & G & fd & nt & E & R). exists gr. split; auto. split; [apply (reduced_mass _ _ _ _ _ _ (memo_shares tb W CON) R)|].
  intros A f HA. destruct (derivations_list (annotall (newdecorator true) tb) fd G (memo_shares tb W CON) (red_facts _ _ _ _ _ _ R) (red_fd _ _ _ _ _ _ R) (red_tally _ _ _ _ _ _ R) A f) as (ds & ND & DS). rewrite <- (red_rules _ _ _ _ _ _ R) in DS.
  exists ds. split; auto. split; auto. apply (reduced_goodman _ _ _ _ _ _ (memo_shares tb W CON) R); auto.
Qed.

(** ---- concrete cases ---- *)
Ltac wf_tac := split; [cbn; repeat first [apply pt_pre | apply pt_node; [discriminate|intros ? Hin; cbn in Hin; repeat (destruct Hin as [<-|Hin]; [|]); try destruct Hin]]|split; [cbn; repeat constructor; cbn; intuition lia|split; [intros a Ha; cbn in Ha; repeat (destruct Ha as [<-|Ha]; [eexists; reflexivity|]); destruct Ha|intros v Hv; cbn in Hv; repeat (destruct Hv as [<-|Hv]; [reflexivity|]); destruct Hv]]].
Definition extb := [(doc2, sent2); (doc2, sent3)].
Example extb_wf : Forall wftree extb.
Proof. repeat (constructor; [wf_tac|]). constructor. Qed.
Definition consistentb (tb : list (tree pystr nat * sentence)) : Prop :=
  forall x y, In x (flat_map (fun ts => map (fun v => (v, snd ts)) (nodes (fst ts))) tb) -> In y (flat_map (fun ts => map (fun v => (v, snd ts)) (nodes (fst ts))) tb) ->
  wtree (snd x) (fst x) = wtree (snd y) (fst y) -> skel (snd x) (fst x) = skel (snd y) (fst y).
Lemma consistentb_ok : forall tb, consistentb tb -> consistent tb.
Proof. intros tb H t s t' s' v v' I1 I2 J1 J2 E. apply (H (v, s) (v', s')); auto; apply in_flat_map; [exists (t, s)|exists (t', s')]; split; auto; cbn [fst snd]; apply in_map_iff; eauto. Qed.
Example extb_consistent : consistent extb.
Proof.
  apply consistentb_ok. intros x y Hx Hy. cbn in Hx, Hy. repeat (destruct Hx as [<-|Hx]; [repeat (destruct Hy as [<-|Hy]; [cbn [fst snd]; intros E; first [reflexivity|exfalso; vm_compute in E; discriminate E]|]); destruct Hy|]). destruct Hx.
Qed.
(** the fragments of S in this treebank: 2 * (1 + 4) * (1 + 1) *)
Example extb_bag : length (fragment_bag extb (str "S")) = 20 /\
  match dopreduction extb true with Some gr => length (dop_rules gr) = 22 /\ mass (dop_rules gr) (str "S") = 20%N /\ mass (dop_rules gr) (str "NP@1-1") = 4%N | None => False end.
Proof. vm_compute. repeat split. Qed.

(** ---- the hypothesis [consistent] is needed: two occurrences of the same
    subtree (labels and words) can have different yield functions, even when
    labels have fan-out markers.  DiscTree equality ignores this, they get the
    same address, and the fragment below gets at least twice its share ---- *)
Definition dis1 := Node (str "S") [Node (str "X_2") [Node (str "A") [Leaf 0]; Node (str "B") [Leaf 1]; Node (str "C") [Leaf 3]]; Node (str "Y") [Leaf 2]].
Definition dis2 := Node (str "S") [Node (str "X_2") [Node (str "A") [Leaf 0]; Node (str "B") [Leaf 2]; Node (str "C") [Leaf 3]]; Node (str "Y") [Leaf 1]].
Definition sen1 : sentence := map Some [str "a"; str "b"; str "y"; str "c"].
Definition sen2 : sentence := map Some [str "a"; str "y"; str "b"; str "c"].
Definition badtb := [(dis1, sen1); (dis1, sen1); (dis1, sen1); (dis2, sen2)].
Definition badderiv : deriv := Node ([str "S"; str "X_2@1-1"; str "Y"], PYf [[0; 1; 0]]) [Node ([str "X_2@1-1"; str "A"; str "B"; str "C"], PYf [[0]; [1; 2]]) [Leaf (str "A"); Leaf (str "B"); Leaf (str "C")]; Leaf (str "Y")].
Lemma in_rules : forall g r, existsb (rule_eqb r) (map fst g) = true -> In r (map fst (g : list (rule * N))).
Proof. intros g r H. apply existsb_exists in H. destruct H as (x & Hx & E). apply rule_eqb_eq in E. now subst. Qed.
Definition badshape (f : fragment) : bool :=
  match f with Node _ [Node (_, PYf [[_]; [_; _]]) [Leaf _; Leaf _; Leaf _]; Leaf _] => true | _ => false end.
Lemma count_le : forall {X} (dec : forall a b : X, {a = b} + {a <> b}) p l x, p x = true -> count_occ dec l x <= length (filter p l).
Proof. intros X dec p l x H. induction l as [|y l IH]; cbn; auto. destruct (dec y x) as [->|]; [rewrite H; cbn; lia|destruct (p y); cbn; lia]. Qed.
Theorem C32_packed_inconsistent_refuted : exists tb gr d A, Forall wftree tb /\ dopreduction tb true = Some gr /\ derivation (dop_rules gr) A d /\ addressed A = false /\
  (prob (dop_rules gr) d > Nq (N.of_nat (count_occ fragment_dec (fragment_bag tb A) (erase d))) / Nq (N.of_nat (length (fragment_bag tb A))))%Qc.
Proof.
  assert (H : exists gr, dopreduction badtb true = Some gr) by (destruct (dopreduction badtb true) eqn:E; [eauto|vm_compute in E; discriminate]). destruct H as [gr E]. exists badtb, gr, badderiv, (str "S"). split; [repeat (constructor; [wf_tac|]); constructor|]. split; auto.
  assert (EG : gr = match dopreduction badtb true with Some g => g | None => gr end) by now rewrite E. 
  split; [|split; [reflexivity|]].
  - change (str "S") with (lhs ([str "S"; str "X_2@1-1"; str "Y"], PYf [[0; 1; 0]])) at 1. apply derivation_rule.
    + apply in_rules. rewrite EG. vm_compute. reflexivity.
    + constructor; [left; split; [reflexivity|]|repeat constructor; right; split; reflexivity]. change (str "X_2@1-1") with (lhs ([str "X_2@1-1"; str "A"; str "B"; str "C"], PYf [[0]; [1; 2]])) at 1. apply derivation_rule; [|repeat constructor; right; split; reflexivity].
      apply in_rules. rewrite EG. vm_compute. reflexivity.
  - assert (W1 : weight (dop_rules gr) ([str "S"; str "X_2@1-1"; str "Y"], PYf [[0; 1; 0]]) = 32%N) by (rewrite EG; vm_compute; reflexivity).
    assert (W2 : weight (dop_rules gr) ([str "X_2@1-1"; str "A"; str "B"; str "C"], PYf [[0]; [1; 2]]) = 1%N) by (rewrite EG; vm_compute; reflexivity).
    assert (M1 : mass (dop_rules gr) (str "S") = 72%N) by (rewrite EG; vm_compute; reflexivity).
    assert (M2 : mass (dop_rules gr) (str "X_2@1-1") = 16%N) by (rewrite EG; vm_compute; reflexivity).
    assert (L : length (fragment_bag badtb (str "S")) = 72) by (vm_compute; reflexivity).
    assert (O : count_occ fragment_dec (fragment_bag badtb (str "S")) (erase badderiv) <= 1) by (etransitivity; [apply (count_le fragment_dec badshape); reflexivity|apply Nat.leb_le; vm_compute; reflexivity]).
    rewrite L. assert (O' : count_occ fragment_dec (fragment_bag badtb (str "S")) (erase badderiv) = 0 \/ count_occ fragment_dec (fragment_bag badtb (str "S")) (erase badderiv) = 1) by lia. generalize dependent (count_occ fragment_dec (fragment_bag badtb (str "S")) (erase badderiv)). intros c _ O'. unfold badderiv. cbn [prob map fold_right]. unfold ruleprob. rewrite W1, W2. cbn [lhs fst hd]. rewrite M1, M2. clear - O'. destruct O' as [-> | ->]; reflexivity.
Qed.
Print Assumptions C35_memo_addresses.
Print Assumptions C35_memo_unchanged.
Print Assumptions C32_packed.
Print Assumptions C32_packed_inconsistent_refuted.
