(** Proofs for C62, second part: keys of fragments, merging, counting *)
From Coq Require Import NArith ZArith List Bool Arith Lia Permutation Sorting.Sorted.
From Verif Require Import ExportProofs2 BitsModel BitsSpec TreeModel FragModel FragSpec FragProofs FragProofs2 FragProofs3 FragProofs4 FragProofs5 FragProofs6 FragProofs7 FragProps FragParModel FragParSpec FragParProofs.
Import ListNotations.

(** * getsubtree gives back the fragment *)
Lemma getfrag_ok : forall fuel a bits f s i, height s <= fuel -> holds a i s -> NoDup (nodes_of a i s) -> matches f s ->
  (forall k, In k (nodes_of a i s) -> (inrow bits k <-> In k (frag_nodes a i f))) -> getfrag fuel a bits i = f.
Proof.
  induction fuel as [|n IH]; intros a bits f s i Hf Hs ND M HB; [destruct s; cbn in Hf; lia|].
  assert (TB : TESTBIT bits (bit i) = true <-> f <> Open).
  { rewrite test_inrow, HB by apply nodes_root. destruct (frag_nodes_root a i f) as [HI|HI].
    - split; auto. intros _ E. subst f. exact HI.
    - rewrite HI. cbn. split; [intros []|congruence]. }
  cbn [getfrag]. destruct (TESTBIT bits (bit i)).
  2:{ destruct f; auto; exfalso; assert (X : false = true) by (apply TB; discriminate); discriminate. }
  assert (NO : f <> Open) by now apply TB. clear TB.
  destruct s as [p x|p s1|p s1 s2]; cbn [holds] in Hs; cbn [nodes_of] in ND, HB.
  - destruct Hs as (_ & Hp & Hl & _). destruct (Z.leb_spec 0 (left (nd a i))); [lia|].
    destruct f; cbn [matches] in M; try contradiction; try congruence.
  - destruct Hs as (_ & Hp & Hl & Hr & Hs1).
    destruct (Z.leb_spec 0 (left (nd a i))); [|lia]. rewrite Hr. cbn [Z.leb Z.compare].
    inversion ND as [|? ? Ns ND1]; subst.
    destruct f as [|p'|p' f1|]; cbn [matches] in M; try contradiction; try congruence. destruct M as [-> M1]. f_equal.
    apply (IH a bits f1 s1); auto; [cbn in Hf; lia|].
    intros k Hk. rewrite (HB k (or_intror Hk)). cbn [frag_nodes In]. split; [intros [<-|]; auto; contradiction|auto].
  - destruct Hs as (_ & Hp & Hl & Hr & Hs1 & Hs2).
    destruct (Z.leb_spec 0 (left (nd a i))); [|lia]. destruct (Z.leb_spec 0 (right (nd a i))); [|lia].
    inversion ND as [|? ? Ns ND0]; subst. apply nodup_app_inv in ND0. destruct ND0 as (ND1 & ND2 & D).
    destruct f as [|p'|p' f1|p' f1 f2]; cbn [matches] in M; try contradiction; try congruence. destruct M as (-> & M1 & M2). f_equal.
    + apply (IH a bits f1 s1); auto; [cbn in Hf; lia|]. intros k Hk. rewrite (HB k (or_intror (in_or_app _ _ _ (or_introl Hk)))). cbn [frag_nodes In]. rewrite in_app_iff. split; [|auto].
      intros [<-|[HI|HI]]; auto; exfalso; [apply Ns; apply in_or_app; auto|].
      apply (D k Hk). exact (frag_nodes_incl a f2 s2 _ k Hs2 M2 HI).
    + apply (IH a bits f2 s2); auto; [cbn in Hf; lia|]. intros k Hk. rewrite (HB k (or_intror (in_or_app _ _ _ (or_intror Hk)))). cbn [frag_nodes In]. rewrite in_app_iff. split; [|auto].
      intros [<-|[HI|HI]]; auto; exfalso; [apply Ns; apply in_or_app; auto|].
      apply (D k); auto. exact (frag_nodes_incl a f1 s1 _ k Hs1 M1 HI).
Qed.
(** x is a set of nodes standing for fragment f of tree n *)
Definition means (ts : list ctree) (trees : list btree) (x : stored) (f : frag) : Prop :=
  exists bits n i a ra ta u, x = (bits, n, i) /\ nth_error ts n = Some (a, ra) /\ nth_error trees n = Some ta /\
    node_at a ra u = Some i /\ denotes a bits i f /\ occurs f ta u /\ f <> Open.
Lemma sub_height : forall a ra ta u i s, array_of a ra ta -> sub ta u = Some s -> node_at a ra u = Some i -> holds a i s -> height s <= length a.
Proof.
  intros a ra ta u i s HA Es Eu Hs. pose proof (height_nodes a s i) as X. pose proof (sub_nodup _ _ _ _ _ _ HA Es Eu) as Y.
  assert (Z : incl (nodes_of a i s) (seq 0 (length a))) by (intros k Hk; apply in_seq; pose proof (nodes_lt a s i k Hs Hk); lia).
  pose proof (NoDup_incl_length Y Z) as W. rewrite seq_length in W. lia.
Qed.
Lemma means_key : forall ts trees x f, treebank ts trees -> means ts trees x f -> keyof ts x = f.
Proof.
  intros ts trees x f B (bits & n & i & a & ra & ta & u & -> & E & Et & Eu & (_ & D) & (s & Es & M) & NO).
  destruct (treebank_nth _ _ _ _ B E) as (ta' & Et' & HA). assert (ta' = ta) by congruence. subst ta'. cbn [fst snd] in HA.
  destruct (array_node _ _ _ _ _ HA Es) as (i' & Eu' & Hs). assert (i' = i) by congruence. subst i'.
  unfold keyof. rewrite (nth_error_nth _ _ _ E). cbn [fst].
  apply (getfrag_ok _ a bits f s i); auto.
  - pose proof (sub_height a ra ta u i s HA Es Eu Hs). lia.
  - exact (sub_nodup _ _ _ _ _ _ HA Es Eu).
  - intros k _. apply D.
Qed.

(** * the workers and their results *)
Section Merge.
Variable ts : list ctree.
Notation inter n := (fragments_of ts ts (slots_for (maxnodes ts)) n (S n) (length ts)).
Lemma worker_inv : forall it w, (forall n l, Permutation (it n l) l) -> fst w < snd w -> snd w <= length ts ->
  Inv ts (worker it ts w) (fun x => exists n, fst w <= n < snd w /\ In x (inter n)).
Proof.
  intros it [s e] HP L1 L2. cbn [fst snd] in *. unfold worker. cbn [fst snd]. destruct (Nat.eqb_spec e 0) as [E0|_]; [lia|]. rewrite Nat.min_l by lia.
  assert (G : forall c s d P, Inv ts d P -> Inv ts (fold_left (fun d n => collect ts d (it n (inter n))) (seq s c) d) (fun x => P x \/ exists n, s <= n < s + c /\ In x (inter n))).
  { clear - HP. induction c as [|c IH]; intros s d P H; cbn [seq fold_left].
    - eapply inv_ext; [|exact H]. intros x. split; [auto|]. intros [|(n & ? & _)]; auto. lia.
    - apply (inv_ext _ _ (fun x => (P x \/ In x (it s (inter s))) \/ exists n, S s <= n < S s + c /\ In x (inter n))).
      + intros x. split.
        * intros [[H1|H1]|(n & H1 & H2)]; auto; right.
          -- exists s. split; [lia|]. exact (Permutation_in _ (HP s _) H1).
          -- exists n. split; [lia|auto].
        * intros [H1|(n & H1 & H2)]; auto. destruct (Nat.eq_dec n s) as [->|]; [left; right; exact (Permutation_in _ (Permutation_sym (HP s _)) H2)|].
          right. exists n. split; [lia|auto].
      + apply IH. now apply collect_inv. }
  eapply inv_ext; [|apply (G (e - s) s [] _ (inv_nil ts))]. intros x. split; [intros [[]|(n & H1 & H2)]; exists n; split; [lia|auto]|].
  intros (n & H1 & H2). right. exists n. split; [lia|auto].
Qed.
Lemma merge_inv : forall A (res : A -> list (frag * stored)) (R : A -> stored -> Prop) ws, (forall w, In w ws -> Inv ts (res w) (R w)) ->
  forall d P, Inv ts d P -> Inv ts (fold_left dupdate (map res ws) d) (fun x => P x \/ exists w, In w ws /\ R w x).
Proof.
  intros A res R. induction ws as [|w ws IH]; intros H d P HD; cbn [map fold_left].
  - eapply inv_ext; [|exact HD]. intros x. split; [auto|]. intros [|(w & [] & _)]; auto.
  - eapply inv_ext; [|apply IH; [intros; apply H; now right|apply update_inv; [exact HD|apply H; now left]]].
    intros x. cbn [In]. split.
    + intros [[?|?]|(w' & ? & ?)]; auto; right; [exists w|exists w']; auto.
    + intros [?|(w' & [<-|?] & ?)]; auto. right. exists w'. auto.
Qed.
(** every work division and every iteration order collects the same fragments *)
Lemma merged_inv : forall (it : nat -> nat -> list stored -> list stored) work, (forall p n l, Permutation (it p n l) l) -> tiles 0 (length ts) work ->
  Inv ts (fold_left dupdate (map (fun pw => worker (it (fst pw)) ts (snd pw)) (combine (seq 1 (length work)) work)) [])
    (fun x => exists n, n < length ts /\ In x (inter n)).
Proof.
  intros it work HP HT.
  eapply inv_ext; [|apply (merge_inv _ _ (fun pw x => exists n, fst (snd pw) <= n < snd (snd pw) /\ In x (inter n))); [|apply inv_nil]].
  - intros x. split.
    + intros [[]|([p w] & Hw & n & Hn & Hx)]. cbn [fst snd] in *. exists n. split; auto. apply in_combine_r in Hw.
      pose proof (tiles_in _ _ _ _ HT Hw). lia.
    + intros (n & Hn & Hx). right. destruct (tiles_cover _ _ _ n HT ltac:(lia)) as (w & Hw & Hwn).
      destruct (In_nth work w (0, 0) Hw) as (k & Lk & Ek). exists (nth k (seq 1 (length work)) 0, w). split; [|exists n; auto].
      rewrite <- Ek, <- combine_nth by now rewrite seq_length. apply nth_In. rewrite combine_length, seq_length. lia.
  - intros [p w] Hw. apply in_combine_r in Hw. cbn [fst snd]. pose proof (tiles_in _ _ _ _ HT Hw). apply worker_inv; [apply HP|lia|lia].
Qed.
End Merge.

(** * dividing the counting *)
Lemma skipn_skipn' : forall A (l : list A) a b, skipn a (skipn b l) = skipn (b + a) l.
Proof. induction l as [|x l IH]; intros a b; [now rewrite !skipn_nil|]. destruct b; [reflexivity|]. cbn [skipn Nat.add]. apply IH. Qed.
Lemma rangestep_concat : forall A (l : list A) c fuel s, 1 <= c -> length l - s <= fuel ->
  concat (map (fun a => firstn c (skipn a l)) (rangestep fuel s (length l) c)) = skipn s l.
Proof.
  intros A l c. induction fuel as [|fuel IH]; intros s Hc Hf; cbn [rangestep map concat].
  - rewrite skipn_all2 by lia. reflexivity.
  - destruct (Nat.ltb_spec s (length l)); cbn [map concat]; [|rewrite skipn_all2 by lia; reflexivity].
    rewrite IH by lia. rewrite <- skipn_skipn'. apply firstn_skipn.
Qed.
Lemma countwork_concat : forall A (l : list A) numproc, concat (countwork l numproc) = l.
Proof. intros A l numproc. unfold countwork. generalize (length l / numproc). intros c. rewrite rangestep_concat by lia. reflexivity. Qed.
Lemma concat_map_map : forall A B (g : A -> B) ll, concat (map (map g) ll) = map g (concat ll).
Proof. intros A B g. induction ll as [|l ll IH]; cbn; [reflexivity|]. now rewrite map_app, IH. Qed.
Lemma combine_app : forall A B (l1 l1' : list A) (l2 l2' : list B), length l1 = length l2 -> combine (l1 ++ l1') (l2 ++ l2') = combine l1 l2 ++ combine l1' l2'.
Proof. induction l1 as [|x l1 IH]; intros l1' [|y l2] l2' H; cbn in *; try discriminate; auto. f_equal. apply IH. lia. Qed.
Lemma combine_fst_snd : forall A B (l : list (A * B)), combine (map fst l) (map snd l) = l.
Proof. induction l as [|[x y] l IH]; cbn; [reflexivity|]. now rewrite IH. Qed.
Section DictResult.
Context {V W : Type}.
Lemma dget_app : forall f (d1 d2 : list (frag * V)), dget f (d1 ++ d2) = match dget f d1 with Some x => Some x | None => dget f d2 end.
Proof. intros f. induction d1 as [|[g v] d1 IH]; intros d2; cbn [app dget]; [reflexivity|]. destruct (frag_eq_dec f g); auto. Qed.
Lemma dget_map : forall f (g : V -> W) (d : list (frag * V)), dget f (combine (map fst d) (map g (map snd d))) = option_map g (dget f d).
Proof. intros f g. induction d as [|[h v] d IH]; cbn [map combine dget fst snd]; [reflexivity|]. destruct (frag_eq_dec f h); auto. Qed.
Lemma dget_filter : forall f (P : frag -> bool) (d : list (frag * V)), dget f (filter (fun fv => P (fst fv)) d) = if P f then dget f d else None.
Proof.
  intros f P. induction d as [|[h v] d IH]; cbn [filter dget fst]; [destruct (P f); reflexivity|]. destruct (frag_eq_dec f h) as [->|N].
  - destruct (P h) eqn:E; cbn [dget]; [destruct (frag_eq_dec h h); congruence|]. exact IH.
  - destruct (P h); cbn [dget]; [destruct (frag_eq_dec f h); [congruence|]|]; exact IH.
Qed.
End DictResult.
Definition collected iter ts numproc : list (frag * stored) :=
  let work := workload (length ts) 1 numproc in
  fold_left dupdate (map (fun pw => worker (iter (fst pw)) ts (snd pw)) (combine (seq 1 (length work)) work)) [].
Definition thecover (iter : nat -> nat -> list stored -> list stored) ts md mf : list (frag * list nat) := if md =? 0 then [] else coverfragments (iter 0) ts md mf.
Lemma result_get : forall iter ts nprods numproc md mf f,
  dget f (recurringfragments iter ts nprods numproc md mf) =
  match dget f (collected iter ts numproc) with
  | Some x => Some (map fst (exactindices ts ts nprods x))
  | None => dget f (thecover iter ts md mf)
  end.
Proof.
  intros. unfold recurringfragments. fold (thecover iter ts md mf). fold (collected iter ts numproc).
  set (d := collected iter ts numproc). set (c := thecover iter ts md mf). clearbody d c. unfold exactcountworker.
  rewrite concat_map_map, countwork_concat. rewrite combine_app by now rewrite !map_length. rewrite dget_app, dget_map, combine_fst_snd.
  destruct (dget f d) eqn:E; cbn [option_map]; [reflexivity|].
  rewrite (dget_filter f (fun g => match dget g d with None => true | Some _ => false end)). now rewrite E.
Qed.
Lemma nodup_filter_keys : forall V (P : frag * V -> bool) (d : list (frag * V)), NoDup (map fst d) -> NoDup (map fst (filter P d)).
Proof.
  intros V P. induction d as [|x d IH]; cbn [filter map]; intros H; [constructor|]. inversion H as [|? ? N ND]; subst. destruct (P x); cbn [map]; auto.
  constructor; auto. intros HI. apply N. apply in_map_iff in HI. destruct HI as (y & E & Hy). apply filter_In in Hy. apply in_map_iff. exists y. tauto.
Qed.
Lemma result_keys : forall iter ts nprods numproc md mf, NoDup (map fst (collected iter ts numproc)) -> NoDup (map fst (thecover iter ts md mf)) ->
  NoDup (map fst (recurringfragments iter ts nprods numproc md mf)).
Proof.
  intros iter ts nprods numproc md mf. unfold recurringfragments. fold (thecover iter ts md mf). fold (collected iter ts numproc).
  set (d := collected iter ts numproc). set (c := thecover iter ts md mf). clearbody d c. unfold exactcountworker. intros N1 N2.
  rewrite concat_map_map, countwork_concat. rewrite combine_app by now rewrite !map_length. rewrite combine_fst_snd, map_app.
  assert (E : map fst (combine (map fst d) (map (fun x => map fst (exactindices ts ts nprods x)) (map snd d))) = map fst d).
  { clear. induction d as [|[f x] d IH]; cbn; [reflexivity|]. now rewrite IH. }
  rewrite E. apply nodup_app; [exact N1|now apply nodup_filter_keys|]. intros f H1 H2. apply in_map_iff in H2. destruct H2 as ([g v] & E2 & Hv). cbn in E2. subst g.
  apply filter_In in Hv. destruct Hv as [_ Hv]. cbn [fst] in Hv. destruct (dget f d) eqn:ED; [discriminate|]. apply dget_none in ED. contradiction.
Qed.
