(** C97: the mapping of labels and rules to those of a coarser grammar. *)
From Coq Require Import String.
From Coq Require Import List Bool Arith NArith QArith Qcanon Ascii Lia Permutation Sorted.
From Verif Require Import PyStr ConcatModel LcfrsModel GrammarModel GrammarProofs GrammarProps LookupModel LookupProps MappingModel.
Import ListNotations.
Open Scope list_scope.
Open Scope nat_scope.

(** ** Specification *)
Fixpoint allof {A} (l : list (option A)) : option (list A) :=
  match l with
  | [] => Some []
  | None :: _ => None
  | Some x :: l' => match allof l' with Some r => Some (x :: r) | None => None end
  end.
Section Spec.
  Variable tolabel : list pystr.
  Variable fanout : nat -> nat.
  Variable blocked : pystr -> bool.
  Variable strip : pystr -> pystr.
  Variable dict : pystr -> option pystr.
  Variable toid : pystr -> option nat.
  Variable digits : nat -> pystr.
  Variable splitprune markorigin : bool.
  (** discontinuous labels are marked with a star when splitprune is on, and with
      markorigin each component has a label of its own *)
  Definition coarsename (n : nat) : option pystr :=
    option_map (fun l => if splitprune && (2 <=? fanout n) then l ++ star else l) (dict (strip (nth n tolabel []))).
  Definition componentwise (n : nat) : bool := splitprune && markorigin && (2 <=? fanout n).
  (** the coarse labels of label n; [None]: there is none *)
  Definition coarselabels (n : nat) : option (list nat) :=
    if blocked (nth n tolabel []) then Some []
    else match coarsename n with
         | None => None
         | Some l => allof (if componentwise n then map (fun m => toid (l ++ digits m)) (seq 0 (fanout n)) else [toid l])
         end.
  (** the entry in the mapping: 0 for blocked labels, and a sentinel for those mapped by component *)
  Definition entry (n : nat) : nat :=
    match coarselabels n with
    | Some ids => if blocked (nth n tolabel []) then 0 else if componentwise n then length tolabel else hd 0 ids
    | None => 0
    end.
  Definition row (n : nat) (old : list nat) : list nat :=
    match coarselabels n with
    | Some ids => if blocked (nth n tolabel []) then old else if componentwise n then ids else old
    | None => old
    end.
  Definition occurrences (c n : nat) : list nat :=
    match coarselabels n with Some ids => map (fun _ => n) (filter (Nat.eqb c) ids) | None => [] end.
End Spec.

(** ** Lists *)
Lemma upd_upd : forall A (l : list A) n f g, upd (upd l n f) n g = upd l n (fun x => g (f x)).
Proof. induction l as [|x l IH]; intros [|n] f g; cbn; auto. now rewrite IH. Qed.
Lemma upd_ext : forall A (l : list A) n f g, (forall x, f x = g x) -> upd l n f = upd l n g.
Proof. induction l as [|x l IH]; intros [|n] f g H; cbn; auto; [now rewrite H|now rewrite (IH n f g)]. Qed.
Lemma upd_id : forall A (l : list A) n f, (forall x, f x = x) -> upd l n f = l.
Proof. induction l as [|x l IH]; intros [|n] f H; cbn; auto; [now rewrite H|now rewrite IH]. Qed.
Lemma upd_at : forall A (l : list A) n f i d, nth i (upd l n f) d = if (i =? n) && (n <? length l) then f (nth i l d) else nth i l d.
Proof.
  intros A l n f i d. destruct (Nat.ltb_spec n (length l)) as [L|L].
  - rewrite upd_nth by exact L. rewrite andb_true_r. reflexivity.
  - rewrite andb_false_r. assert (E : upd l n f = l); [|now rewrite E].
    revert n L. induction l as [|x l IH]; intros [|n] L; cbn in *; try lia; auto. now rewrite IH by lia.
Qed.
Lemma resize_length : forall A n (d : A) l, length (resize n d l) = n.
Proof. intros A n d l. unfold resize. rewrite app_length, firstn_length, repeat_length. lia. Qed.
Lemma resize_nth : forall A n (d : A) l i, i < n -> nth i (resize n d l) d = nth i l d.
Proof.
  intros A n d l i L. unfold resize. destruct (Nat.lt_ge_cases i (length l)) as [K|K].
  - rewrite app_nth1 by (rewrite firstn_length; lia). rewrite <- (firstn_skipn n l) at 2.
    rewrite app_nth1; [reflexivity|]. rewrite firstn_length. lia.
  - rewrite (nth_overflow l) by lia. rewrite app_nth2 by (rewrite firstn_length; lia). apply nth_repeat.
Qed.
Definition putall (ms ids : list nat) (r : list nat) : list nat :=
  fold_left (fun r '(m, c) => upd r m (fun _ => c)) (combine ms ids) r.
Lemma putall_length : forall ms ids r, length (putall ms ids r) = length r.
Proof.
  unfold putall. induction ms as [|m ms IH]; intros [|c ids] r; cbn; auto. rewrite IH. apply upd_length.
Qed.
Lemma putall_nth : forall ids s r i, s + length ids <= length r ->
  nth i (putall (seq s (length ids)) ids r) 0 = if (s <=? i) && (i <? s + length ids) then nth (i - s) ids 0 else nth i r 0.
Proof.
  unfold putall. induction ids as [|c ids IH]; intros s r i L; cbn [length seq combine fold_left] in *.
  - destruct (Nat.leb_spec s i), (Nat.ltb_spec i (s + 0)); cbn; try reflexivity; lia.
  - rewrite IH by (rewrite upd_length; lia). rewrite upd_nth by lia.
    destruct (Nat.leb_spec (S s) i), (Nat.ltb_spec i (S s + length ids)), (Nat.leb_spec s i), (Nat.ltb_spec i (s + S (length ids))),
      (Nat.eqb_spec i s); cbn; try lia; try reflexivity.
    + replace (i - s) with (S (i - S s)) by lia. reflexivity.
    + subst i. now rewrite Nat.sub_diag.
Qed.
Lemma putall_all : forall ids r, length r = length ids -> putall (seq 0 (length ids)) ids r = ids.
Proof.
  intros ids r L. apply (nth_ext _ _ 0 0); [now rewrite putall_length|]. intros i Hi. rewrite putall_length in Hi.
  rewrite putall_nth by lia. cbn [Nat.leb andb]. rewrite Nat.sub_0_r. destruct (Nat.ltb_spec i (0 + length ids)); [reflexivity|lia].
Qed.
Lemma allof_length : forall A (l : list (option A)) r, allof l = Some r -> length r = length l.
Proof.
  induction l as [|[x|] l IH]; intros r H; cbn in H; try discriminate.
  - now injection H as <-.
  - destruct (allof l) as [r'|]; [|discriminate]. injection H as <-. cbn. now rewrite (IH r').
Qed.

Section Proofs.
  Variable tolabel : list pystr.
  Variable fanout : nat -> nat.
  Variable blocked : pystr -> bool.
  Variable strip : pystr -> pystr.
  Variable dict : pystr -> option pystr.
  Variable toid : pystr -> option nat.
  Variable digits : nat -> pystr.
  Variable selfmap splitprune markorigin : bool.
  Notation step := (step tolabel fanout blocked strip dict toid digits selfmap splitprune markorigin) (only parsing).
  Notation loop := (loop tolabel fanout blocked strip dict toid digits selfmap splitprune markorigin) (only parsing).
  Notation getmapping := (getmapping tolabel fanout blocked strip dict toid digits selfmap splitprune markorigin) (only parsing).
  Notation coarselabels := (coarselabels tolabel fanout blocked strip dict toid digits splitprune markorigin) (only parsing).
  Notation componentwise := (componentwise fanout splitprune markorigin) (only parsing).
  Notation entry := (entry tolabel fanout blocked strip dict toid digits splitprune markorigin) (only parsing).
  Notation row := (row tolabel fanout blocked strip dict toid digits splitprune markorigin) (only parsing).
  Notation occurrences := (occurrences tolabel fanout blocked strip dict toid digits splitprune markorigin) (only parsing).

  Definition pushall (n : nat) (ids : list nat) (r : list (list nat)) : list (list nat) :=
    fold_left (fun r c => push selfmap c n r) ids r.
  Lemma parts_spec : forall lab n ms st,
    match allof (map (fun m => toid (lab ++ digits m)) ms) with
    | Some ids => exists sn, parts toid digits selfmap lab n ms st
        = (true, St (result st) (upd (split st) n (putall ms ids)) (pushall n ids (rev st)) sn)
    | None => fst (parts toid digits selfmap lab n ms st) = false
    end.
  Proof.
    intros lab n. induction ms as [|m ms IH]; intros st; cbn [map allof parts].
    - exists (seen st). destruct st as [a b c d]. cbn. rewrite upd_id by reflexivity. reflexivity.
    - destruct (toid (lab ++ digits m)) as [c|]; [|reflexivity].
      specialize (IH (St (result st) (upd (split st) n (fun l => upd l m (fun _ => c))) (push selfmap c n (rev st)) (c :: seen st))).
      destruct (allof (map (fun m0 => toid (lab ++ digits m0)) ms)) as [ids|]; [|exact IH].
      destruct IH as (sn & ->). exists sn. cbn [result split rev seen]. f_equal. f_equal.
      rewrite upd_upd. apply upd_ext. intros l. reflexivity.
  Qed.
  Lemma step_spec : forall n st, n < length (split st) \/ componentwise n = false ->
    match coarselabels n with
    | Some ids => exists sn, step n st
        = (true, St (upd (result st) n (fun _ => entry n)) (upd (split st) n (row n)) (pushall n ids (rev st)) sn)
    | None => fst (step n st) = false
    end.
  Proof.
    intros n st LS. unfold MappingProps.entry, MappingProps.row.
    destruct (coarselabels n) as [ids|] eqn:CL; unfold MappingProps.coarselabels in CL;
      unfold MappingModel.step; destruct (blocked (nth n tolabel [])) eqn:B; try discriminate.
    - injection CL as <-. exists (seen st). cbn. f_equal. f_equal. symmetry. now apply upd_id.
    - unfold coarsename in CL. destruct (dict (strip (nth n tolabel []))) as [l|]; [|discriminate]. cbn [option_map] in CL.
      change (1 <? fanout n) with (2 <=? fanout n). rewrite (andb_comm (2 <=? fanout n)).
      unfold MappingProps.componentwise in *. set (multi := splitprune && (2 <=? fanout n)) in *.
      set (lab := if multi then l ++ star else l) in *.
      replace (splitprune && markorigin && (2 <=? fanout n)) with (multi && markorigin) in *
        by (unfold multi; destruct splitprune, markorigin, (2 <=? fanout n); reflexivity).
      destruct (multi && markorigin) eqn:M.
      + match goal with |- context [parts _ _ _ _ _ _ ?s] => pose proof (parts_spec lab n (seq 0 (fanout n)) s) as P end.
        rewrite CL in P. destruct P as (sn & ->). exists sn. cbn [result split rev seen]. f_equal. f_equal.
        rewrite upd_upd. apply upd_ext. intros old.
        pose proof (allof_length _ _ _ CL) as LN. rewrite map_length, seq_length in LN. rewrite <- LN. apply putall_all. now rewrite resize_length.
      + cbn [allof] in CL. destruct (toid lab) as [c|]; [|discriminate]. injection CL as <-. exists (seen st). cbn. f_equal. f_equal.
        symmetry. now apply upd_id.
    - unfold coarsename in CL. destruct (dict (strip (nth n tolabel []))) as [l|]; [|reflexivity]. cbn [option_map] in CL.
      change (1 <? fanout n) with (2 <=? fanout n). rewrite (andb_comm (2 <=? fanout n)).
      unfold MappingProps.componentwise in *. set (multi := splitprune && (2 <=? fanout n)) in *.
      set (lab := if multi then l ++ star else l) in *.
      replace (splitprune && markorigin && (2 <=? fanout n)) with (multi && markorigin) in *
        by (unfold multi; destruct splitprune, markorigin, (2 <=? fanout n); reflexivity).
      destruct (multi && markorigin) eqn:M.
      + match goal with |- context [parts _ _ _ _ _ _ ?s] => pose proof (parts_spec lab n (seq 0 (fanout n)) s) as P end.
        now rewrite CL in P.
      + cbn [allof] in CL. destruct (toid lab) as [c|]; [discriminate|]. reflexivity.
  Qed.
  Lemma pushall_length : forall n ids r, length (pushall n ids r) = length r.
  Proof.
    intros n. unfold pushall. induction ids as [|c ids IH]; intros r; cbn; [reflexivity|]. rewrite IH. unfold push.
    destruct selfmap; [reflexivity|apply upd_length].
  Qed.
  Lemma pushall_nth : forall n ids r c, selfmap = false -> c < length r ->
    nth c (pushall n ids r) [] = nth c r [] ++ map (fun _ => n) (filter (Nat.eqb c) ids).
  Proof.
    intros n ids r c SM. unfold pushall. revert r. induction ids as [|x ids IH]; intros r L; cbn [fold_left filter].
    - cbn. now rewrite app_nil_r.
    - rewrite IH; unfold push; rewrite SM; [|now rewrite upd_length]. rewrite upd_at.
      destruct (Nat.eqb_spec c x) as [->|N]; cbn [andb map]; [|reflexivity].
      destruct (Nat.ltb_spec x (length r)); [|lia]. now rewrite <- app_assoc.
  Qed.
  Lemma pushall_self : forall n ids r, selfmap = true -> pushall n ids r = r.
  Proof. intros n ids r SM. unfold pushall. revert r. induction ids as [|x ids IH]; intros r; cbn [fold_left]; auto. rewrite IH. unfold push. now rewrite SM. Qed.

  Lemma loop_spec : forall ns st, NoDup ns -> (forall n, In n ns -> n < length (result st)) ->
    (splitprune && markorigin = true -> forall n, In n ns -> n < length (split st)) ->
    (fst (loop ns st) = true <-> forall n, In n ns -> coarselabels n <> None)
    /\ (fst (loop ns st) = true ->
       let st' := snd (loop ns st) in
       length (result st') = length (result st) /\ length (split st') = length (split st) /\ length (rev st') = length (rev st)
       /\ (forall i, nth i (result st') 0 = if existsb (Nat.eqb i) ns then entry i else nth i (result st) 0)
       /\ (forall i, i < length (split st) -> nth i (split st') [] = if existsb (Nat.eqb i) ns then row i (nth i (split st) []) else nth i (split st) [])
       /\ (selfmap = true -> rev st' = rev st)
       /\ (selfmap = false -> forall c, c < length (rev st) -> nth c (rev st') [] = nth c (rev st) [] ++ flat_map (occurrences c) ns)).
  Proof.
    induction ns as [|n ns IH]; intros st ND LR LS.
    - cbn. split; [split; [intros _ n []|reflexivity]|]. intros _. repeat split. intros _ c _. now rewrite app_nil_r.
    - cbn [MappingModel.loop]. inversion ND as [|? ? NI ND']; subst.
      assert (LSn : n < length (split st) \/ componentwise n = false).
      { destruct (splitprune && markorigin) eqn:SP; [left; apply LS; [reflexivity|now left]|right].
        unfold MappingProps.componentwise. now rewrite SP. }
      pose proof (step_spec n st LSn) as S. destruct (coarselabels n) as [ids|] eqn:CL.
      + destruct S as (sn & ->).
        set (st1 := St _ _ _ _).
        assert (H1 : forall m, In m ns -> m < length (result st1)) by (intros m Hm; cbn; rewrite upd_length; apply LR; now right).
        assert (H2 : splitprune && markorigin = true -> forall m, In m ns -> m < length (split st1))
          by (intros SP m Hm; cbn; rewrite upd_length; apply LS; [exact SP|now right]).
        destruct (IH st1 ND' H1 H2) as [A B]. split.
        * rewrite A. split; [intros K m [<-|Hm]; [congruence|auto]|intros K m Hm; apply K; now right].
        * intros F. specialize (B F). cbv zeta in *. destruct B as (B1 & B2 & B3 & B4 & B5 & B6 & B7).
          cbn [result split rev st1] in B1, B2, B3, B4, B5, B6, B7. rewrite upd_length in B1, B2, B5. rewrite pushall_length in B3, B7.
          split; [exact B1|]. split; [exact B2|]. split; [exact B3|].
          assert (NE : existsb (Nat.eqb n) ns = false).
          { apply not_true_is_false. intros E. apply existsb_exists in E. destruct E as (x & Ix & E). apply Nat.eqb_eq in E. now subst x. }
          split; [|split; [|split]].
          -- intros i. rewrite B4. cbn [existsb]. rewrite upd_at. destruct (Nat.eqb_spec i n) as [->|N]; [|reflexivity].
             rewrite NE. cbn [orb andb]. destruct (Nat.ltb_spec n (length (result st))) as [_|L]; [reflexivity|].
             exfalso. specialize (LR n (or_introl eq_refl)). lia.
          -- intros i Hi. rewrite (B5 i Hi). cbn [existsb]. rewrite upd_at. destruct (Nat.eqb_spec i n) as [->|N]; [|reflexivity].
             rewrite NE. cbn [orb andb]. destruct (Nat.ltb_spec n (length (split st))); [reflexivity|lia].
          -- intros SM. rewrite (B6 SM). now apply pushall_self.
          -- intros SM c Hc. rewrite (B7 SM c Hc), (pushall_nth _ _ _ _ SM Hc). cbn [flat_map]. unfold MappingProps.occurrences at 2.
             rewrite CL. now rewrite <- app_assoc.
      + destruct (step n st) as [ok st1]. cbn in S. subst ok. cbn. split; [|discriminate]. split; [discriminate|].
        intros K. exfalso. now apply (K n (or_introl eq_refl)).
  Qed.

  Lemma in_range : forall s N i, existsb (Nat.eqb i) (seq s (N - s)) = (s <=? i) && (i <? N).
  Proof.
    intros s N i. destruct ((s <=? i) && (i <? N)) eqn:E.
    - apply andb_true_iff in E. destruct E as [E1 E2]. apply Nat.leb_le in E1. apply Nat.ltb_lt in E2.
      apply existsb_exists. exists i. split; [apply in_seq; lia|apply Nat.eqb_refl].
    - apply not_true_is_false. intros X. apply existsb_exists in X. destruct X as (x & I & X). apply Nat.eqb_eq in X. subst x.
      apply in_seq in I. apply andb_false_iff in E. destruct E as [E|E]; [apply Nat.leb_gt in E|apply Nat.ltb_ge in E]; lia.
  Qed.

  (** getmapping succeeds iff every label from startidx has its coarse labels. *)
  Theorem C97_succeeds : forall ncoarse s m,
    fst (fst (getmapping ncoarse s m)) = true <-> forall n, s <= n < length tolabel -> coarselabels n <> None.
  Proof.
    intros ncoarse s m. unfold MappingModel.getmapping.
    match goal with |- context [MappingModel.loop _ _ _ _ _ _ _ _ _ _ ?ns ?st] => pose proof (loop_spec ns st (seq_NoDup _ _)) as L end.
    cbn [result split rev] in L. rewrite !resize_length in L.
    assert (X : forall n, In n (seq s (length tolabel - s)) <-> s <= n < length tolabel) by (intros n; rewrite in_seq; lia).
    destruct L as [A _]; [intros n Hn; apply X in Hn; lia|intros SP n Hn; rewrite SP, resize_length; apply X in Hn; lia|].
    destruct (loop _ _) as [ok st']. cbn [fst] in *. rewrite A. split; intros K n Hn; apply K; now apply X.
  Qed.
  (** Then the label mapping has the specified entries, those before startidx are
      the old ones; so do the mapping of components and the inverse mapping, to
      which the new labels are appended; the other label mapping is not touched. *)
  Theorem C97_mapping : forall ncoarse s m m' sn, getmapping ncoarse s m = (true, m', sn) ->
    let old := if selfmap then selfmapping m else mapping m in
    let new := if selfmap then selfmapping m' else mapping m' in
    length new = length tolabel
    /\ (forall n, n < length tolabel -> nth n new 0 = if s <=? n then entry n else nth n old 0)
    /\ (if selfmap then mapping m' = mapping m /\ revmap m' = revmap m else selfmapping m' = selfmapping m)
    /\ (splitprune && markorigin = true -> forall n, n < length tolabel ->
         nth n (splitmapping m') [] = if s <=? n then row n (nth n (splitmapping m) []) else nth n (splitmapping m) [])
    /\ (selfmap = false -> forall c, c < ncoarse ->
         nth c (revmap m') [] = nth c (revmap m) [] ++ flat_map (occurrences c) (seq s (length tolabel - s))).
  Proof.
    intros ncoarse s m m' sn E. cbv zeta. unfold MappingModel.getmapping in E.
    match type of E with context [MappingModel.loop _ _ _ _ _ _ _ _ _ _ ?ns ?st] => pose proof (loop_spec ns st (seq_NoDup _ _)) as L end.
    cbn [result split rev] in L. rewrite !resize_length in L.
    assert (X : forall n, In n (seq s (length tolabel - s)) <-> s <= n < length tolabel) by (intros n; rewrite in_seq; lia).
    destruct L as [_ B]; [intros n Hn; apply X in Hn; lia|intros SP n Hn; rewrite SP, resize_length; apply X in Hn; lia|].
    destruct (MappingModel.loop _ _ _ _ _ _ _ _ _ _ _ _) as [ok st']. cbn [fst snd] in B. injection E as -> <- _.
    specialize (B eq_refl). destruct B as (B1 & _ & B3 & B4 & B5 & B6 & B7).
    cbn [mapping selfmapping splitmapping revmap].
    assert (R : forall n, n < length tolabel -> nth n (result st') 0 = if s <=? n then entry n else nth n (if selfmap then selfmapping m else mapping m) 0).
    { intros n Hn. rewrite B4, in_range. destruct (Nat.ltb_spec n (length tolabel)); [|lia]. rewrite andb_true_r.
      destruct (s <=? n); [reflexivity|]. now apply resize_nth. }
    split; [destruct selfmap; exact B1|]. split; [intros n Hn; rewrite <- (R n Hn); now destruct selfmap|].
    split; [destruct selfmap; [split; [reflexivity|now apply B6]|reflexivity]|]. split.
    - intros SP n Hn. rewrite SP, resize_length in B5. rewrite (B5 n Hn), in_range. destruct (Nat.ltb_spec n (length tolabel)); [|lia].
      rewrite andb_true_r, resize_nth by exact Hn. reflexivity.
    - intros SM c Hc. rewrite SM in *. rewrite resize_length in B7. rewrite (B7 eq_refl c Hc), resize_nth by exact Hc. reflexivity.
  Qed.
End Proofs.

(** ** Adding labels *)
Lemma allof_mono : forall A B (f g : B -> option A) l r, (forall x y, f x = Some y -> g x = Some y) -> allof (map f l) = Some r -> allof (map g l) = Some r.
Proof.
  intros A B f g l r H. revert r. induction l as [|x l IH]; intros r E; cbn in *; [exact E|].
  destruct (f x) as [y|] eqn:F; [|discriminate]. rewrite (H _ _ F). destruct (allof (map f l)) as [r'|]; [|discriminate].
  now rewrite (IH r' eq_refl).
Qed.
Lemma coarselabels_mono : forall tolabel more fanout blocked strip dict toid toid' digits sp mo n ids,
  (forall l i, toid l = Some i -> toid' l = Some i) -> n < length tolabel ->
  coarselabels tolabel fanout blocked strip dict toid digits sp mo n = Some ids ->
  coarselabels (tolabel ++ more) fanout blocked strip dict toid' digits sp mo n = Some ids.
Proof.
  intros tolabel more fanout blocked strip dict toid toid' digits sp mo n ids H L. unfold coarselabels, coarsename.
  rewrite app_nth1 by exact L. destruct (blocked _); [auto|]. destruct (dict _) as [l|]; [|auto]. cbn [option_map].
  set (lab := if sp && (2 <=? fanout n) then l ++ star else l). destruct (componentwise fanout sp mo n).
  - apply allof_mono. intros x y. apply H.
  - intros E. exact (allof_mono _ _ toid toid' [lab] ids H E).
Qed.
(** After labels were added to both grammars, updating the mapping for the new
    labels only gives what a new mapping for all labels would be. *)
Theorem C97_incremental : forall tolabel more fanout blocked strip dict toid toid' digits selfmap splitprune markorigin nc nc' m0 m1 m2 mf s1 s2 sf,
  splitprune && markorigin = false -> (forall l i, toid l = Some i -> toid' l = Some i) -> nc <= nc' -> revmap m0 = [] ->
  getmapping tolabel fanout blocked strip dict toid digits selfmap splitprune markorigin nc 0 m0 = (true, m1, s1) ->
  getmapping (tolabel ++ more) fanout blocked strip dict toid' digits selfmap splitprune markorigin nc' (length tolabel) m1 = (true, m2, s2) ->
  getmapping (tolabel ++ more) fanout blocked strip dict toid' digits selfmap splitprune markorigin nc' 0 m0 = (true, mf, sf) ->
  (if selfmap then selfmapping m2 = selfmapping mf else mapping m2 = mapping mf)
  /\ (selfmap = false -> forall c, c < nc -> nth c (revmap m2) [] = nth c (revmap mf) []).
Proof.
  intros tolabel more fanout blocked strip dict toid toid' digits selfmap sp mo nc nc' m0 m1 m2 mf s1 s2 sf NS H LE R0 E1 E2 E3.
  pose proof (proj1 (C97_succeeds tolabel fanout blocked strip dict toid digits selfmap sp mo nc 0 m0)) as K.
  rewrite E1 in K. specialize (K eq_refl).
  assert (CL : forall n, n < length tolabel -> coarselabels (tolabel ++ more) fanout blocked strip dict toid' digits sp mo n
     = coarselabels tolabel fanout blocked strip dict toid digits sp mo n).
  { intros n L. destruct (coarselabels tolabel fanout blocked strip dict toid digits sp mo n) as [ids|] eqn:E.
    - now apply (coarselabels_mono tolabel more fanout blocked strip dict toid toid' digits sp mo n ids H L).
    - exfalso. apply (K n); [lia|exact E]. }
  apply C97_mapping in E1, E2, E3. cbv zeta in E1, E2, E3.
  destruct E1 as (A1 & A2 & _ & _ & A4). destruct E2 as (B1 & B2 & _ & _ & B4). destruct E3 as (F1 & F2 & _ & _ & F4).
  assert (EN : forall n, n < length tolabel -> entry (tolabel ++ more) fanout blocked strip dict toid' digits sp mo n
     = entry tolabel fanout blocked strip dict toid digits sp mo n).
  { intros n L. unfold entry. rewrite (CL n L), app_nth1 by exact L. unfold componentwise. rewrite NS. reflexivity. }
  split.
  - assert (X : (if selfmap then selfmapping m2 else mapping m2) = (if selfmap then selfmapping mf else mapping mf)); [|now destruct selfmap].
    apply (nth_ext _ _ 0 0); [now rewrite B1, F1|]. intros n Hn. rewrite B1 in Hn. rewrite (B2 n Hn), (F2 n Hn). cbn [Nat.leb].
    destruct (Nat.leb_spec (length tolabel) n); [reflexivity|]. rewrite (A2 n) by assumption. cbn [Nat.leb]. symmetry. now apply EN.
  - intros SM c Hc. rewrite (B4 SM c), (F4 SM c), (A4 SM c), R0 by lia. rewrite <- app_assoc. f_equal.
    rewrite !Nat.sub_0_r, app_length. replace (length tolabel + length more - length tolabel) with (length more) by lia.
    rewrite seq_app, flat_map_app. f_equal. rewrite !flat_map_concat_map. f_equal. apply map_ext_in. intros n I. apply in_seq in I.
    unfold occurrences. now rewrite CL by lia.
Qed.

(** ** Rules *)
Section Rules.
  Variable strip : pystr -> pystr.
  (** the coarse rule with the stripped labels and the same yield function *)
  Definition coarserule (coarse : gram) (r : frule) : option nat :=
    getruleno coarse [strip (flhs r); strip (frhs1 r); strip (frhs2 r)] (fyf r).
  Lemma ruleloop_spec : forall rs coarse rm, (forall r, In r rs -> coarserule coarse r <> None) ->
    exists rm', ruleloop strip rs (coarse, rm) = Some (coarse, rm') /\ length rm' = length rm
      /\ forall m, m < length rm -> nth m rm' [] = nth m rm [] ++ map fno (filter (fun r => match coarserule coarse r with Some k => k =? m | None => false end) rs).
  Proof.
    induction rs as [|r rs IH]; intros coarse rm K.
    - exists rm. repeat split. intros m _. cbn. now rewrite app_nil_r.
    - cbn [ruleloop]. unfold rulestep. pose proof (K r (or_introl eq_refl)) as Kr. unfold coarserule in Kr. cbn [getruleno] in Kr.
      assert (CR : coarserule coarse r = getruleno coarse [strip (flhs r); strip (frhs1 r); strip (frhs2 r)] (fyf r)) by reflexivity.
      cbn [getruleno] in CR.
      destruct (lookup eqs (strip (flhs r)) (toid coarse)) as [a|]; [|contradiction].
      destruct (lookup eqs (strip (frhs1 r)) (toid coarse)) as [b|]; [|contradiction].
      destruct (lookup eqs (strip (frhs2 r)) (toid coarse)) as [c|]; [|contradiction].
      destruct (lookup key_eqb (a, b, c, args (fyf r), lengths (fyf r)) (rulenos coarse)) as [k|] eqn:L; [|contradiction].
      rewrite (noof_known _ _ _ L). destruct (IH coarse (upd rm k (fun l => l ++ [fno r]))) as (rm' & E & LN & W); [intros; apply K; now right|].
      exists rm'. split; [exact E|]. rewrite upd_length in LN, W. split; [exact LN|]. intros m Hm. rewrite (W m Hm), upd_at.
      cbn [filter]. rewrite CR. rewrite (Nat.eqb_sym m k). destruct (Nat.eqb_spec k m) as [->|N]; cbn [andb map]; [|reflexivity].
      destruct (Nat.ltb_spec m (length rm)); [|lia]. now rewrite <- app_assoc.
  Qed.
  Lemma concat_upd : forall (rm : list (list nat)) m x, m < length rm -> Permutation (concat (upd rm m (fun l => l ++ [x]))) (x :: concat rm).
  Proof.
    induction rm as [|l rm IH]; intros [|m] x L; cbn in *; try lia.
    - rewrite <- app_assoc. cbn. symmetry. apply Permutation_middle.
    - rewrite (IH m x) by lia. symmetry. apply Permutation_middle.
  Qed.
  (** If every fine rule has a coarse rule, getrulemapping gives for every coarse
      rule exactly the fine rules it belongs to, in order, and does not change
      the coarse grammar. *)
  Theorem C97_rulemapping : forall rs coarse, (forall r, In r rs -> coarserule coarse r <> None) ->
    exists rm, getrulemapping strip rs coarse = Some (coarse, rm) /\ length rm = numrules coarse
      /\ forall m, m < numrules coarse ->
         nth m rm [] = map fno (filter (fun r => match coarserule coarse r with Some k => k =? m | None => false end) rs).
  Proof.
    intros rs coarse K. unfold getrulemapping. destruct (ruleloop_spec rs coarse (repeat [] (numrules coarse)) K) as (rm & E & L & W).
    rewrite repeat_length in L, W. exists rm. split; [exact E|]. split; [exact L|]. intros m Hm. rewrite (W m Hm), nth_repeat. reflexivity.
  Qed.
  Lemma ruleloop_perm : forall N, 0 < N -> forall rs g rm,
    (forall k n, lookup key_eqb k (rulenos g) = Some n -> n < N) -> length rm = N ->
    forall g' rm', ruleloop strip rs (g, rm) = Some (g', rm') -> Permutation (concat rm') (map fno rs ++ concat rm).
  Proof.
    intros N P. induction rs as [|r rs IH]; intros g rm R L g' rm' E; cbn [ruleloop] in E.
    - injection E as _ <-. reflexivity.
    - unfold rulestep in E.
      destruct (lookup eqs (strip (flhs r)) (toid g)) as [a|]; [|discriminate].
      destruct (lookup eqs (strip (frhs1 r)) (toid g)) as [b|]; [|discriminate].
      destruct (lookup eqs (strip (frhs2 r)) (toid g)) as [c|]; [|discriminate].
      set (k := (a, b, c, args (fyf r), lengths (fyf r))) in *. destruct (noof k g) as [m g1] eqn:Q.
      assert (Lm : m < N).
      { unfold noof in Q. destruct (lookup key_eqb k (rulenos g)) as [n|] eqn:K; injection Q as <- _; [eauto|exact P]. }
      assert (R1 : forall k' n, lookup key_eqb k' (rulenos g1) = Some n -> n < N).
      { pose proof (noof_extends k g) as X. rewrite Q in X. destruct X as (_ & _ & _ & _ & X).
        intros k' n H. apply X in H. destruct H as [H| ->]; eauto. }
      assert (L1 : length (upd rm m (fun l => l ++ [fno r])) = N) by now rewrite upd_length.
      pose proof (IH g1 _ R1 L1 _ _ E) as Q1. rewrite Q1.
      cbn [map app]. rewrite concat_upd by lia. symmetry. apply Permutation_middle.
  Qed.
  (** every fine rule is in exactly one list, even if its coarse rule does not exist *)
  Theorem C97_partition : forall rs coarse coarse' rm, 0 < numrules coarse ->
    (forall k n, lookup key_eqb k (rulenos coarse) = Some n -> n < numrules coarse) ->
    getrulemapping strip rs coarse = Some (coarse', rm) -> Permutation (concat rm) (map fno rs).
  Proof.
    intros rs coarse coarse' rm P R E. unfold getrulemapping in E.
    set (rm0 := repeat ([] : list nat) (numrules coarse)) in *. assert (L : length rm0 = numrules coarse) by apply repeat_length.
    assert (C : concat rm0 = []) by (unfold rm0; generalize (numrules coarse) as n; induction n; auto).
    rewrite (ruleloop_perm _ P rs coarse rm0 R L _ _ E), C, app_nil_r. reflexivity.
  Qed.
  (** a KeyError is raised exactly if a label is not in the coarse grammar *)
  Theorem C97_rulemapping_labels : forall rs coarse, getrulemapping strip rs coarse = None <->
    exists r l, In r rs /\ In l [strip (flhs r); strip (frhs1 r); strip (frhs2 r)] /\ lookup eqs l (toid coarse) = None.
  Proof.
    intros rs coarse. unfold getrulemapping. generalize (repeat ([] : list nat) (numrules coarse)) as rm. revert coarse.
    induction rs as [|r rs IH]; intros coarse rm; cbn [ruleloop].
    - split; [discriminate|]. intros (r & _ & [] & _).
    - unfold rulestep.
      destruct (lookup eqs (strip (flhs r)) (toid coarse)) as [a|] eqn:L1.
      2:{ split; [intros _; exists r, (strip (flhs r)); split; [now left|split; [cbn; tauto|assumption]]|reflexivity]. }
      destruct (lookup eqs (strip (frhs1 r)) (toid coarse)) as [b|] eqn:L2.
      2:{ split; [intros _; exists r, (strip (frhs1 r)); split; [now left|split; [cbn; tauto|assumption]]|reflexivity]. }
      destruct (lookup eqs (strip (frhs2 r)) (toid coarse)) as [c|] eqn:L3.
      2:{ split; [intros _; exists r, (strip (frhs2 r)); split; [now left|split; [cbn; tauto|assumption]]|reflexivity]. }
      destruct (noof (a, b, c, args (fyf r), lengths (fyf r)) coarse) as [m g1] eqn:N.
      assert (T : toid g1 = toid coarse).
      { unfold noof in N. destruct (lookup key_eqb _ (rulenos coarse)); injection N as _ <-; reflexivity. }
      rewrite IH, T. split.
      + intros (r' & l & I & Il & E). exists r', l. repeat split; auto. now right.
      + intros (r' & l & [<-|I] & Il & E); [|exists r', l; auto]. exfalso. cbn in Il. destruct Il as [<-|[<-|[<-|[]]]]; congruence.
  Qed.
End Rules.

(** ** Refuted *)
(** label up to the first @ *)
Fixpoint cut (s : pystr) : pystr := match s with [] => [] | c :: s' => if N.eqb c 64 then [] else c :: cut s' end.
Fixpoint index (l : pystr) (ls : list pystr) : option nat :=
  match ls with [] => None | x :: ls' => if eqs l x then Some 0 else option_map S (index l ls') end.
Definition ex_coarse : list pystr := [str "Epsilon"; str "S"; str "A"].
Definition ex_fine : list pystr := [str "Epsilon"; str "S"; str "A"; str "A@1"; str "S@2"].
Definition ex_get (fine : list pystr) := getmapping fine (fun _ => 1) (fun _ => false) cut Some (fun l => index l ex_coarse) (fun _ => []) false false false 3.
Definition nomaps := Maps [] [] [] [].
(** A second mapping for all labels appends every label to the inverse mapping again. *)
Theorem C97_again_refuted : exists m1 m2 s1 s2, ex_get ex_fine 0 nomaps = (true, m1, s1) /\ ex_get ex_fine 0 m1 = (true, m2, s2)
  /\ nth 2 (revmap m1) [] = [2; 3] /\ nth 2 (revmap m2) [] = [2; 3; 2; 3].
Proof. do 4 eexists. split; [vm_compute; reflexivity|]. split; [vm_compute; reflexivity|]. split; reflexivity. Qed.
(** After a KeyError the previous mapping is gone, and part of the inverse mapping is there twice. *)
Theorem C97_failure_refuted : exists m1 m2 s1 s2, ex_get ex_fine 0 nomaps = (true, m1, s1)
  /\ ex_get (ex_fine ++ [str "X"]) 0 m1 = (false, m2, s2)
  /\ mapping m1 = [0; 1; 2; 2; 1] /\ mapping m2 = [] /\ nth 1 (revmap m2) [] = [1; 4; 1; 4].
Proof. do 4 eexists. split; [vm_compute; reflexivity|]. split; [vm_compute; reflexivity|]. repeat split. Qed.
(** The debug message says that all coarse labels are covered only by components of
    discontinuous labels: without markorigin it reports all labels as missing. *)
Theorem C97_message_refuted : exists m s, ex_get ex_fine 0 nomaps = (true, m, s)
  /\ (forall c, c < 3 -> In c (mapping m)) /\ equalsets 3 s = false.
Proof.
  do 2 eexists. split; [vm_compute; reflexivity|]. split; [|reflexivity].
  intros [|[|[|c]]] H; try lia; cbn; tauto.
Qed.
(** A fine rule without coarse rule is assigned to the coarse rule with number 0. *)
Definition ex_frules : list frule := [FRule (str "S@1") (str "A") (str "B@2") (mkYf 2 4) 0; FRule (str "S") (str "B@2") Epsilon (mkYf 0 1) 1;
  FRule (str "B@2") (str "C") Epsilon (mkYf 0 1) 2].
Theorem C97_unknown_rule_refuted : exists g, grammar isort isort (str "S") ex_rules ex_lex [] = Some g
  /\ map (coarserule cut g) ex_frules = [Some 0; Some 1; None]
  /\ option_map snd (getrulemapping cut ex_frules g) = Some [[0; 2]; [1]; []].
Proof. eexists. split; [vm_compute; reflexivity|]. split; vm_compute; reflexivity. Qed.

(** ** Concrete cases meeting the hypotheses *)
Example ex_rulemapping : exists g, grammar isort isort (str "S") ex_rules ex_lex [] = Some g
  /\ (forall r, In r (firstn 2 ex_frules) -> coarserule cut g r <> None) /\ 0 < numrules g
  /\ option_map snd (getrulemapping cut (firstn 2 ex_frules) g) = Some [[0]; [1]; []].
Proof.
  eexists. split; [vm_compute; reflexivity|]. split; [|split; [vm_compute; lia|vm_compute; reflexivity]].
  intros r [<-|[<-|[]]]; vm_compute; discriminate.
Qed.
Definition ex_split : list pystr := [str "Epsilon"; str "S"; str "VP*0"; str "VP*1"; str "X"].
Definition ex_digits (n : nat) : pystr := [N.of_nat (48 + n)].
Example ex_markorigin : exists sn, getmapping [str "Epsilon"; str "S@1"; str "VP@2"; str "X|<"] (fun n => nth n [0; 1; 2; 1] 0)
    (fun l => eqs l (str "X|<")) cut Some (fun l => index l ex_split) ex_digits false true true 5 0 nomaps
  = (true, Maps [0; 1; 4; 0] [] [[]; []; [2; 3]; []] [[0]; [1]; [2]; [2]; []], sn).
Proof. eexists. vm_compute. reflexivity. Qed.
Example ex_incremental : exists m1 m2 mf s1 s2 sf, ex_get (firstn 3 ex_fine) 0 nomaps = (true, m1, s1)
  /\ ex_get (firstn 3 ex_fine ++ skipn 3 ex_fine) (length (firstn 3 ex_fine)) m1 = (true, m2, s2)
  /\ ex_get (firstn 3 ex_fine ++ skipn 3 ex_fine) 0 nomaps = (true, mf, sf) /\ m2 = mf.
Proof. do 6 eexists. split; [vm_compute; reflexivity|]. split; [vm_compute; reflexivity|]. split; vm_compute; reflexivity. Qed.
