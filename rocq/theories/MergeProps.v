(** C13: util.merge *)
From Coq Require Import List Bool Arith Lia Permutation ZifyBool ZifyNat Sorted.
From Verif Require Import HeapqModel HeapqProofs AgendaProps MergeModel.
Import ListNotations.

(** [out] interleaves the lists [its]: its items can be labelled with the index
    of a list such that those labelled [i] are, in order, the i-th list.  [tags]
    are the labels. *)
Definition labelled {X} (its : list (list X)) (out : list (nat * X)) : Prop :=
  Forall (fun p => fst p < length its) out /\
  forall i, i < length its -> map snd (filter (fun p => fst p =? i) out) = nth i its [].

Section Proofs.
Context {X V : Type}.
Variable key : X -> V.
Variable vlt veq : V -> V -> bool.
Hypothesis vlt_irrefl : forall a, vlt a a = false.
Hypothesis vlt_trans : forall a b c, vlt a b = true -> vlt b c = true -> vlt a c = true.
Hypothesis vge_trans : forall a b c, vlt a b = false -> vlt b c = false -> vlt a c = false.
Hypothesis veq_ok : forall a b, veq a b = true <-> (vlt a b = false /\ vlt b a = false).
Notation mentry := (@mentry X V).
Notation mlt := (@mlt X V vlt veq).

(** value order, then number of the iterable *)
Definition lexle (a : nat * X) (b : nat * X) : Prop :=
  vlt (key (snd a)) (key (snd b)) = true \/
  (vlt (key (snd b)) (key (snd a)) = false /\ fst a <= fst b).
Definition Rm (a b : mentry) : Prop :=
  vlt (mvalue a) (mvalue b) = true \/ (vlt (mvalue b) (mvalue a) = false /\ mcnt a <= mcnt b).

Lemma asym : forall a b, vlt a b = true -> vlt b a = false.
Proof. intros a b H. destruct (vlt b a) eqn:E; auto.
  pose proof (vlt_trans _ _ _ H E) as Y. rewrite vlt_irrefl in Y. discriminate. Qed.
Lemma lt_ge : forall x y z, vlt x y = true -> vlt z y = false -> vlt x z = true.
Proof. intros x y z A B. destruct (vlt x z) eqn:C; auto. rewrite (vge_trans _ _ _ C B) in A. discriminate. Qed.
Lemma ge_lt : forall x y z, vlt y x = false -> vlt y z = true -> vlt x z = true.
Proof. intros x y z A B. destruct (vlt x z) eqn:C; auto. rewrite (vge_trans _ _ _ A C) in B. discriminate. Qed.
Lemma Rm_trans : forall a b c, Rm a b -> Rm b c -> Rm a c.
Proof.
  unfold Rm. intros a b c [H1|[H1 H1']] [H2|[H2 H2']]; eauto using lt_ge, ge_lt.
  right. split; [eauto|lia].
Qed.
Lemma mlt_Rm : forall a b, mlt a b = true -> Rm a b.
Proof.
  unfold MergeModel.mlt, Rm. intros a b H. apply orb_prop in H. destruct H as [H|H]; auto.
  apply andb_prop in H. destruct H as [H1 H2]. apply veq_ok in H1. apply Nat.ltb_lt in H2. right. split; [tauto|lia].
Qed.
Lemma nmlt_Rm : forall a b, mlt a b = false -> Rm b a.
Proof.
  unfold MergeModel.mlt, Rm. intros a b H. apply orb_false_elim in H. destruct H as [H1 H2].
  destruct (vlt (mvalue b) (mvalue a)) eqn:E; auto. right. split; auto.
  rewrite (proj2 (veq_ok _ _)) in H2 by auto. cbn [andb] in H2. apply Nat.ltb_ge in H2. lia.
Qed.

Definition stream (e : mentry) : list X := mitem e :: mrest e.
Definition good (h : list mentry) : Prop :=
  NoDup (map mcnt h) /\ Forall (fun e => mvalue e = key (mitem e)) h.
Definition total (h : list mentry) : nat := length (concat (map stream h)).
Definition streams_ok (h : list mentry) (out : list (nat * X)) : Prop :=
  (forall e, In e h -> map snd (filter (fun p => fst p =? mcnt e) out) = stream e) /\
  (forall c x, In (c, x) out -> exists e, In e h /\ mcnt e = c /\ In x (stream e)).

Lemma total_perm : forall h h', Permutation h h' -> total h = total h'.
Proof.
  unfold total. induction 1; cbn; rewrite ?app_length in *; try lia. cbn. rewrite !app_length. lia.
Qed.
Lemma cnt_inj : forall (h : list mentry) a b, NoDup (map mcnt h) -> In a h -> In b h -> mcnt a = mcnt b -> a = b.
Proof.
  induction h as [|x h IH]; intros a b N Ha Hb E; [contradiction|]. cbn in N. inversion N; subst.
  destruct Ha as [->|Ha], Hb as [->|Hb]; auto.
  - exfalso. apply H1. rewrite E. now apply in_map.
  - exfalso. apply H1. rewrite <- E. now apply in_map.
Qed.
Lemma filter_pair : forall c l, filter (fun p : nat * X => fst p =? c) (map (pair c) l) = map (pair c) l.
Proof. intros c. induction l; cbn; auto. rewrite Nat.eqb_refl. now f_equal. Qed.

Lemma loop_streams : forall fuel h, total h <= fuel -> good h -> streams_ok h (merge_loop key vlt veq fuel h).
Proof.
  induction fuel; intros h Hf [ND HV].
  - destruct h as [|e h]; [split; intros; contradiction|]. unfold total in Hf. cbn in Hf. lia.
  - destruct h as [|e [|e2 h]].
    + split; intros; contradiction.
    + cbn [merge_loop]. split.
      * intros x [<-|[]]. cbn. rewrite Nat.eqb_refl. cbn. rewrite filter_pair, map_map. cbn. now rewrite map_id.
      * intros c x [H|H].
        -- inversion H; subst. exists e. cbn. auto.
        -- apply in_map_iff in H. destruct H as (y & E & H). inversion E; subst. exists e. cbn. auto.
    + set (H0 := e :: e2 :: h) in *.
      assert (NEXT : exists h', merge_loop key vlt veq (S fuel) H0 = (mcnt e, mitem e) :: merge_loop key vlt veq fuel h' /\
         ((mrest e = [] /\ Permutation H0 (e :: h')) \/
          exists x r, mrest e = x :: r /\ Permutation (M x r (key x) (mcnt e) :: e2 :: h) h')).
      { cbn [merge_loop]. unfold H0 at 1. destruct (mrest e) as [|x r] eqn:Er.
        - destruct (heappop mlt H0) as [[a h']|] eqn:P.
          + exists h'. split; auto. left. split; auto. pose proof (heappop_perm _ _ _ _ P) as PP.
            destruct (heappop_top _ _ _ _ P) as [t Et]. unfold H0 in Et. inversion Et; subst. exact PP.
          + apply heappop_nil in P. discriminate.
        - destruct (heapreplace mlt H0 (M x r (key x) (mcnt e))) as [[a h']|] eqn:P; [|discriminate].
          exists h'. split; auto. right. exists x, r. split; auto.
          pose proof (heapreplace_perm _ _ _ _ _ P) as PP. unfold H0 in P. inversion P; subst a.
          apply (Permutation_cons_inv (a := e)). eapply perm_trans; [apply perm_swap|]. rewrite H2. exact PP. }
      destruct NEXT as (h' & -> & HN).
      destruct HN as [[Er P]|(x & r & Er & P)].
      * assert (G : good h').
        { split.
          - apply (Permutation_map mcnt) in P. apply Permutation_NoDup in P; auto. cbn in P. now inversion P.
          - rewrite Forall_forall in *. intros y Hy. apply HV. eapply Permutation_in; [symmetry; exact P|now right]. }
        assert (Nc : forall y, In y h' -> mcnt y <> mcnt e).
        { intros y Hy E. apply (Permutation_map mcnt) in P. apply Permutation_NoDup in P; auto. cbn in P. inversion P; subst.
          apply H2. rewrite <- E. now apply in_map. }
        assert (T : total h' <= fuel).
        { rewrite (total_perm _ _ P) in Hf. unfold total in *. cbn in Hf. rewrite app_length in Hf. lia. }
        destruct (IHfuel h' T G) as [A B]. split.
        -- intros y Hy. cbn [filter fst]. eapply Permutation_in in Hy; [|exact P]. destruct Hy as [<-|Hy].
           ++ rewrite Nat.eqb_refl. cbn [map snd]. unfold stream. rewrite Er. f_equal.
              assert (F : filter (fun p => fst p =? mcnt e) (merge_loop key vlt veq fuel h') = []); [|now rewrite F].
              destruct (filter _ _) as [|[c z] t] eqn:Ef; auto. exfalso.
              assert (I : In (c, z) (filter (fun p => fst p =? mcnt e) (merge_loop key vlt veq fuel h'))) by (rewrite Ef; now left).
              apply filter_In in I. destruct I as [I1 I2]. cbn in I2. destruct (B _ _ I1) as (w & W1 & W2 & _).
              apply (Nc w W1). lia.
           ++ pose proof (Nc y Hy). replace (mcnt e =? mcnt y) with false by lia. auto.
        -- intros c z [H|H].
           ++ inversion H; subst. exists e. split; [now left|]. cbn. auto.
           ++ destruct (B _ _ H) as (w & W1 & W2 & W3). exists w. split; auto.
              eapply Permutation_in; [symmetry; exact P|now right].
      * set (e' := M x r (key x) (mcnt e)) in *.
        assert (G : good h').
        { split.
          - apply (Permutation_map mcnt) in P. apply Permutation_NoDup in P; auto.
          - rewrite Forall_forall in *. intros y Hy. eapply Permutation_in in Hy; [|symmetry; exact P].
            destruct Hy as [<-|Hy]; [reflexivity|]. apply HV. now right. }
        assert (T : total h' <= fuel).
        { rewrite <- (total_perm _ _ P). unfold total in *. cbn in *. rewrite Er in Hf. cbn in Hf. lia. }
        destruct (IHfuel h' T G) as [A B]. split.
        -- intros y [<-|Hy].
           ++ cbn [filter fst]. rewrite Nat.eqb_refl. cbn [map snd]. unfold stream. rewrite Er. f_equal.
              apply (A e'). eapply Permutation_in; [exact P|now left].
           ++ cbn [filter fst]. cbn in ND. inversion ND as [|? ? NI ND2].
              assert (mcnt y <> mcnt e). { intros E. apply NI. rewrite <- E. apply (in_map mcnt) in Hy. exact Hy. }
              replace (mcnt e =? mcnt y) with false by lia. apply A. eapply Permutation_in; [exact P|now right].
        -- intros c z [H|H].
           ++ inversion H; subst. exists e. split; [now left|]. cbn. auto.
           ++ destruct (B _ _ H) as (w & W1 & W2 & W3). eapply Permutation_in in W1; [|symmetry; exact P].
              destruct W1 as [<-|W1].
              ** exists e. split; [now left|]. split; auto. unfold stream. rewrite Er. right. exact W3.
              ** exists w. split; auto. now right.
Qed.

Definition sorted_by_key (l : list X) : Prop := StronglySorted (fun a b => vlt (key b) (key a) = false) l.

Lemma loop_sorted : forall fuel h, total h <= fuel -> good h -> is_heap Rm h ->
  Forall (fun e => sorted_by_key (stream e)) h ->
  StronglySorted lexle (merge_loop key vlt veq fuel h).
Proof.
  induction fuel; intros h Hf G HH HS; [constructor|].
  destruct h as [|e [|e2 h]]; [constructor| |].
  - cbn [merge_loop]. inversion HS; subst. unfold stream in H1. clear - H1.
    change ((mcnt e, mitem e) :: map (pair (mcnt e)) (mrest e)) with (map (pair (mcnt e)) (mitem e :: mrest e)).
    induction H1; cbn; constructor; auto. rewrite Forall_forall in *. intros p Hp. apply in_map_iff in Hp.
    destruct Hp as (y & <- & Hy). right. cbn. split; auto.
  - set (H0 := e :: e2 :: h) in *.
    pose proof (loop_streams (S fuel) H0 Hf G) as [_ OUT].
    assert (HEAD : exists t, merge_loop key vlt veq (S fuel) H0 = (mcnt e, mitem e) :: t /\ StronglySorted lexle t).
    { destruct G as [ND HV]. cbn [merge_loop]. unfold H0 at 1. eexists. split; [reflexivity|].
      destruct (mrest e) as [|x r] eqn:Er.
      - destruct (heappop mlt H0) as [[a h']|] eqn:P; [|constructor].
        pose proof (heappop_perm _ _ _ _ P) as PP. destruct (heappop_top _ _ _ _ P) as [t Et]. unfold H0 in Et. inversion Et; subst a t.
        apply IHfuel.
        + rewrite (total_perm _ _ PP) in Hf. unfold total in *. cbn in Hf. rewrite app_length in Hf. lia.
        + split.
          * apply (Permutation_map mcnt) in PP. apply Permutation_NoDup in PP; auto. cbn in PP. now inversion PP.
          * rewrite Forall_forall in *. intros y Hy. apply HV. eapply Permutation_in; [symmetry; exact PP|now right].
        + eapply heappop_heap; eauto using Rm_trans, mlt_Rm, nmlt_Rm.
        + rewrite Forall_forall in *. intros y Hy. apply HS. eapply Permutation_in; [symmetry; exact PP|now right].
      - destruct (heapreplace mlt H0 (M x r (key x) (mcnt e))) as [[a h']|] eqn:P; [|constructor].
        pose proof (heapreplace_perm _ _ _ _ _ P) as PP. assert (EA : a = e) by (unfold H0 in P; inversion P; reflexivity). subst a.
        assert (PQ : Permutation (M x r (key x) (mcnt e) :: e2 :: h) h').
        { apply (Permutation_cons_inv (a := e)). eapply perm_trans; [apply perm_swap|]. exact PP. }
        apply IHfuel.
        + rewrite <- (total_perm _ _ PQ). unfold total in *. cbn in *. rewrite Er in Hf. cbn in Hf. lia.
        + split.
          * apply (Permutation_map mcnt) in PQ. apply Permutation_NoDup in PQ; auto.
          * rewrite Forall_forall in *. intros y Hy. eapply Permutation_in in Hy; [|symmetry; exact PQ].
            destruct Hy as [<-|Hy]; [reflexivity|]. apply HV. now right.
        + eapply heapreplace_heap; eauto using Rm_trans, mlt_Rm, nmlt_Rm.
        + rewrite Forall_forall in *. intros y Hy. eapply Permutation_in in Hy; [|symmetry; exact PQ].
          destruct Hy as [<-|Hy]; [|apply HS; now right].
          pose proof (HS e (or_introl eq_refl)) as S. unfold sorted_by_key, stream in S. rewrite Er in S. now inversion S. }
    destruct HEAD as (t & E & S). rewrite E in *. constructor; auto.
    rewrite Forall_forall. intros [c y] Hy.
    destruct (OUT c y) as (w & W1 & W2 & W3); [now right|].
    destruct G as [ND HV]. rewrite Forall_forall in HV, HS.
    assert (KE : forall z, In z (stream w) -> vlt (key z) (key (mitem w)) = false).
    { intros z [<-|Hz]; [apply vlt_irrefl|]. pose proof (HS w W1) as Sw. inversion Sw; subst.
      rewrite Forall_forall in H3. auto. }
    assert (TOP : Rm e w).
    { destruct W1 as [<-|W1]; [right; split; auto|].
      pose proof (heap_top_min mlt Rm Rm_trans mlt_Rm nmlt_Rm _ _ HH) as T. rewrite Forall_forall in T. auto. }
    unfold Rm in TOP. rewrite (HV e), (HV w) in TOP; auto; [|now left].
    specialize (KE y W3). unfold lexle. cbn. destruct TOP as [T|[T1 T2]].
    + left. eapply lt_ge; eauto.
    + right. split; [eauto|lia].
Qed.

Lemma entries_cnt : forall its c e, In e (entries key c its) ->
  c <= mcnt e < c + length its /\ stream e = nth (mcnt e - c) its [] /\ mvalue e = key (mitem e).
Proof.
  induction its as [|l its IH]; intros c e H; [contradiction|]. cbn in H. destruct l as [|x r].
  - destruct (IH _ _ H) as (A & B & C). cbn [length]. split; [lia|]. split; auto. rewrite B.
    replace (mcnt e - c) with (S (mcnt e - S c)) by lia. reflexivity.
  - destruct H as [<-|H].
    + cbn. rewrite Nat.sub_diag. repeat split; auto; lia.
    + destruct (IH _ _ H) as (A & B & C). cbn [length]. split; [lia|]. split; auto. rewrite B.
      replace (mcnt e - c) with (S (mcnt e - S c)) by lia. reflexivity.
Qed.
Lemma entries_nodup : forall its c, NoDup (map mcnt (entries key c its)).
Proof.
  induction its as [|l its IH]; intros c; cbn; [constructor|]. destruct l as [|x r]; auto. cbn. constructor; auto.
  intros H. apply in_map_iff in H. destruct H as (e & E & H). apply entries_cnt in H. lia.
Qed.
Lemma entries_total : forall its c, total (entries key c its) = length (concat its).
Proof.
  induction its as [|l its IH]; intros c; [reflexivity|]. cbn [concat entries]. destruct l as [|x r]; [apply IH|].
  unfold total in *. cbn [map concat]. unfold stream at 1. cbn [mitem mrest]. rewrite !app_length. f_equal. now rewrite <- (IH (S c)).
Qed.
Lemma entries_in : forall its c i, i < length its -> nth i its [] <> [] ->
  exists e, In e (entries key c its) /\ mcnt e = c + i.
Proof.
  induction its as [|l its IH]; intros c i Hi Hn; cbn in *; [lia|]. destruct i.
  - destruct l as [|x r]; [congruence|]. eexists. split; [now left|]. cbn. lia.
  - destruct (IH (S c) i ltac:(lia) Hn) as (e & He & Ec). exists e. split; [|lia]. destruct l; auto. now right.
Qed.

Definition retag (t : list (nat * X)) : list (nat * X) := map (fun p => (fst p - 1, snd p)) t.
Lemma entries_good : forall its, good (heapify mlt (entries key 1 its)).
Proof.
  intros its. pose proof (heapify_perm mlt (entries key 1 its)) as P. split.
  - eapply Permutation_NoDup; [symmetry; apply Permutation_map; exact P|apply entries_nodup].
  - apply Forall_forall. intros e He. eapply Permutation_in in He; [|exact P]. now apply entries_cnt in He.
Qed.
Lemma merge_streams : forall its, streams_ok (entries key 1 its) (merge_tagged key vlt veq its).
Proof.
  intros its. pose proof (heapify_perm mlt (entries key 1 its)) as P.
  destruct (loop_streams (length (concat its)) (heapify mlt (entries key 1 its))) as [A B].
  - rewrite (total_perm _ _ P), entries_total. lia.
  - apply entries_good.
  - split.
    + intros e He. apply A. eapply Permutation_in; [symmetry; exact P|exact He].
    + intros c x H. destruct (B c x H) as (e & E1 & E2). exists e. split; auto. eapply Permutation_in; [exact P|exact E1].
Qed.
Lemma merge_labelled : forall its, labelled its (retag (merge_tagged key vlt veq its)).
Proof.
  intros its. destruct (merge_streams its) as [A B]. set (t := merge_tagged key vlt veq its) in *.
  assert (TG : forall p, In p t -> 1 <= fst p <= length its).
  { intros [c x] H. destruct (B c x H) as (e & E1 & E2 & _). apply entries_cnt in E1. cbn. lia. }
  split.
  - unfold retag. apply Forall_forall. intros p Hp. apply in_map_iff in Hp. destruct Hp as (q & <- & Hq).
    apply TG in Hq. cbn. lia.
  - intros i Hi.
    assert (F : map snd (filter (fun p => fst p =? i) (retag t)) = map snd (filter (fun p => fst p =? S i) t)).
    { unfold retag. clear A B. induction t as [|p t IH]; auto. cbn [map filter fst].
      pose proof (TG p (or_introl eq_refl)). replace (fst p - 1 =? i) with (fst p =? S i) by lia.
      specialize (IH ltac:(intros; apply TG; now right)). destruct (fst p =? S i); cbn [map]; [f_equal|]; exact IH. }
    rewrite F. destruct (nth i its []) as [|x r] eqn:En.
    + destruct (filter _ t) as [|[c y] u] eqn:Ef; auto. exfalso.
      assert (I : In (c, y) (filter (fun p => fst p =? S i) t)) by (rewrite Ef; now left).
      apply filter_In in I. destruct I as [I1 I2]. destruct (B _ _ I1) as (e & E1 & E2 & _).
      apply entries_cnt in E1. destruct E1 as (E3 & E4 & _). cbn in I2.
      replace (mcnt e - 1) with i in E4 by lia. rewrite En in E4. discriminate.
    + destruct (entries_in its 1 i Hi) as (e & E1 & E2); [congruence|].
      change (S i) with (1 + i). rewrite <- E2. rewrite A by auto. apply entries_cnt in E1.
      destruct E1 as (_ & E4 & _). rewrite E4. replace (mcnt e - 1) with i by lia. exact En.
Qed.
Lemma merge_sorted_lex : forall its, Forall sorted_by_key its ->
  StronglySorted lexle (retag (merge_tagged key vlt veq its)).
Proof.
  intros its HS. pose proof (heapify_perm mlt (entries key 1 its)) as P.
  assert (S : StronglySorted lexle (merge_tagged key vlt veq its)).
  { apply loop_sorted.
    - rewrite (total_perm _ _ P), entries_total. lia.
    - apply entries_good.
    - apply heapify_heap; eauto using Rm_trans, mlt_Rm, nmlt_Rm.
    - apply Forall_forall. intros e He. eapply Permutation_in in He; [|exact P]. apply entries_cnt in He.
      destruct He as (A & B & _). rewrite B. rewrite Forall_forall in HS. apply HS. apply nth_In. lia. }
  revert S. generalize (merge_tagged key vlt veq its). induction 1; cbn; constructor; auto.
  rewrite Forall_forall in *. intros p Hp. apply in_map_iff in Hp. destruct Hp as (q & <- & Hq).
  specialize (H q Hq). unfold lexle in *. cbn. destruct H as [H|[H1 H2]]; auto. right. split; auto. lia.
Qed.
Lemma retag_snd : forall t, map snd (retag t) = map snd t.
Proof. intros. unfold retag. rewrite map_map. reflexivity. Qed.
End Proofs.

Lemma filter_cons_perm : forall A (f g : A -> bool) (l : list A), (forall x, In x l -> g x = negb (f x)) ->
  Permutation l (filter f l ++ filter g l).
Proof.
  induction l as [|a l IH]; intros H; cbn; auto.
  rewrite (H a) by now left. specialize (IH ltac:(intros; apply H; now right)).
  destruct (f a); cbn; [now apply perm_skip|].
  eapply perm_trans; [apply perm_skip; exact IH|]. apply Permutation_middle.
Qed.
Lemma labelled_perm : forall X (its : list (list X)) out, labelled its out -> Permutation (map snd out) (concat its).
Proof.
  induction its as [|l its IH]; intros out [A B].
  - destruct out as [|p out]; auto. inversion A; subst. cbn in H1. lia.
  - cbn [concat]. set (rest := filter (fun p => negb (fst p =? 0)) out).
    assert (P : Permutation out (filter (fun p => fst p =? 0) out ++ rest)) by (apply filter_cons_perm; auto).
    apply (Permutation_map snd) in P. rewrite map_app in P.
    rewrite (B 0 ltac:(cbn; lia)) in P. cbn [nth] in P. eapply perm_trans; [exact P|]. apply Permutation_app_head.
    specialize (IH (map (fun p => (fst p - 1, snd p)) rest)). rewrite map_map in IH. cbn [snd] in IH. apply IH.
    rewrite Forall_forall in A. split.
    + apply Forall_forall. intros p Hp. apply in_map_iff in Hp. destruct Hp as (q & <- & Hq).
      unfold rest in Hq. apply filter_In in Hq. destruct Hq as [H1 H2]. apply A in H1. cbn in *. lia.
    + intros i Hi. specialize (B (S i) ltac:(cbn; lia)). cbn [nth] in B. rewrite <- B.
      unfold rest. clear. induction out as [|p out IH]; auto. cbn [filter].
      destruct (fst p =? 0) eqn:E0; cbn [negb].
      * replace (fst p =? S i) with false by lia. exact IH.
      * cbn [map filter fst]. replace (fst p - 1 =? i) with (fst p =? S i) by lia.
        destruct (fst p =? S i); cbn; rewrite IH; reflexivity.
Qed.

(** Every item of every iterable comes out once, and the items of each iterable
    in their own order, sorted or not. *)
Theorem C13_merge_interleaves : forall X V (key : X -> V) vlt veq, good_values vlt veq -> forall its,
  exists out, map snd out = merge key vlt veq its /\ labelled its out.
Proof.
  intros X V key vlt veq (G1 & G2 & G3 & G4) its. exists (retag (merge_tagged key vlt veq its)).
  split; [apply retag_snd|]. now apply merge_labelled.
Qed.
Theorem C13_merge_permutation : forall X V (key : X -> V) vlt veq, good_values vlt veq -> forall its,
  Permutation (merge key vlt veq its) (concat its).
Proof.
  intros X V key vlt veq G its. destruct (C13_merge_interleaves X V key vlt veq G its) as (out & <- & L).
  now apply labelled_perm.
Qed.
(** For sorted iterables the result is sorted, and among items with equal keys
    those of earlier iterables come first. *)
Theorem C13_merge_sorted_stable : forall X V (key : X -> V) vlt veq, good_values vlt veq -> forall its,
  Forall (StronglySorted (fun a b => vlt (key b) (key a) = false)) its ->
  exists out, map snd out = merge key vlt veq its /\ labelled its out /\
  StronglySorted (fun a b => vlt (key (snd a)) (key (snd b)) = true \/
     (vlt (key (snd b)) (key (snd a)) = false /\ fst a <= fst b)) out.
Proof.
  intros X V key vlt veq (G1 & G2 & G3 & G4) its HS. exists (retag (merge_tagged key vlt veq its)).
  split; [apply retag_snd|]. split; [now apply merge_labelled|]. now apply merge_sorted_lex.
Qed.
Corollary C13_merge_sorted : forall X V (key : X -> V) vlt veq, good_values vlt veq -> forall its,
  Forall (StronglySorted (fun a b => vlt (key b) (key a) = false)) its ->
  StronglySorted (fun a b => vlt (key b) (key a) = false) (merge key vlt veq its).
Proof.
  intros X V key vlt veq G its HS. destruct (C13_merge_sorted_stable X V key vlt veq G its HS) as (out & <- & _ & S).
  destruct G as (G1 & G2 & G3 & G4).
  clear HS. induction S; cbn; constructor; auto. rewrite Forall_forall in *. intros y Hy. apply in_map_iff in Hy.
  destruct Hy as (q & <- & Hq). destruct (H q Hq) as [A|[A _]]; auto. eapply asym; eauto.
Qed.
Example C13_ex : merge (fun x => x / 10) Nat.ltb Nat.eqb [[1; 11; 35]; []; [2; 12; 31; 41]; [3]]
  = [1; 2; 3; 11; 12; 35; 31; 41] /\
  Forall (StronglySorted (fun a b => Nat.ltb (b / 10) (a / 10) = false)) [[1; 11; 35]; []; [2; 12; 31; 41]; [3]].
Proof. split; [reflexivity|]. repeat constructor. Qed.
Print Assumptions C13_merge_interleaves.
Print Assumptions C13_merge_permutation.
Print Assumptions C13_merge_sorted_stable.
Print Assumptions C13_merge_sorted.
