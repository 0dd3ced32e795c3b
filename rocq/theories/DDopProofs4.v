(** C64, part 4: the rules collected from all the fragments. *)
From Coq Require Import String.
From Coq Require Import List Bool Arith NArith Lia Permutation Sorted.
From Verif Require Import PyStr TreeModel BracketModel BinarizeModel TransformModel SortProofs LcfrsModel LcfrsProps TreebankModel DopModel DopProofs DDopModel DDopSpec DDopProofs DDopProofs2 DDopProofs3.
Import ListNotations.
Open Scope list_scope.

Section Prefix.
Variable prefix : pystr.
Notation newlabel := (newlabel prefix). Notation frules := (frules prefix). Notation flatten := (flatten prefix). Notation linksF := (linksF prefix). Notation frulesF := (frulesF prefix).
Notation ftop := (ftop prefix). Notation fothers := (fothers prefix). Notation addfrag := (addfrag prefix). Notation addfrags := (addfrags prefix).
Definition fback (fin : ids) (t : frag * N * nat) : list (rule * template) :=
  match t with (f, _, u) => match f with Inner _ _ => [(ftop fin f u, totemplate (ordered f) f)] | _ => [] end end.
Lemma flatten_term : forall l w s, okfrag (Term l 0 w) -> flatten (Term l 0 w) s = Some ([Lexical l w], None, s).
Proof.
  intros l w s ((* ok *) Ok & _). inversion Ok; subst. unfold DDopModel.flatten. cbn [flabel fidx map].
  destruct H3 as (W1 & W2 & _).
  unfold lcfrsproductions. destruct w as [|c w]; [congruence|]. cbn in W2 |- *. rewrite W2. reflexivity.
Qed.
Lemma addfrag_pure : forall g f n, okfrag f -> idsok (g_ids g) -> exists u g', addfrag g (f, n) = Some g' /\ idsok (g_ids g') /\ ext (g_ids g) (g_ids g') /\
  (isInner f -> cnt (g_ids g) <= u /\ avoided u (g_ids g')) /\
  forall fin, ext (g_ids g') fin -> g_rules g' = fold_left (fun g r => setrule r 1%N g) (fothers fin f u) (setrule (ftop fin f u) n (g_rules g)) /\ g_back g' = g_back g ++ fback fin (f, n, u) /\
    forall k, In k (fkeys (ordered f)) -> exists v, lk k fin = Some v.
Proof.
  intros [rules back s] f n Ok Ids. cbn [g_ids g_rules g_back] in *. destruct f as [l idx|l i w|label fs].
  - destruct Ok as (_ & _ & []).
  - destruct Ok as (Ok1 & Ok2 & ->). exists 0. eexists. unfold DDopModel.addfrag. cbn [fst g_ids]. rewrite flatten_term by (split; auto). split; [reflexivity|]. cbn [g_ids g_rules g_back snd].
    split; [exact Ids|]. split; [apply ext_refl|]. split; [intros []|]. intros fin F. split; [reflexivity|]. split; [now rewrite app_nil_r|]. intros k [].
  - destruct Ok as (Ok1 & Ok2 & _). destruct (ok_sites _ Ok1) as [S1 S2]. pose proof (flatten_inner prefix label fs s S1 S2 Ok2) as FI.
    assert (NE : ordered (Inner label fs) <> []) by (apply ordered_ok; split; auto).
    pose proof (frules_pure prefix label (ordered (Inner label fs)) s Ids NE) as FP. cbn zeta in FI.
    destruct (frules label (ordered (Inner label fs)) s) as [[aux top] s'] eqn:EF. destruct FP as (u & U1 & U2 & U3 & U4 & U5).
    assert (T : exists rhs yf, top = Phrasal label rhs yf).
    { destruct (U5 s' (ext_refl _)) as [E _]. pose proof (frulesF_shape prefix (idof s') u label _ NE) as Q. rewrite E in Q. destruct Q as (c0 & rest & ls & m & yf & _ & _ & [(_ & _ & -> & _)|(pre & c & _ & _ & ->)] & _); eauto. }
    destruct T as (rhs & yf & T). exists u. eexists. unfold DDopModel.addfrag. cbn [fst g_ids]. rewrite FI, T. split; [reflexivity|]. cbn [g_ids g_rules g_back snd].
    split; [exact U3|]. split; [exact U4|]. split; [auto|]. intros fin F. destruct (U5 fin F) as [E K]. split; [|split; [|exact K]].
    + unfold DDopProofs3.fothers, DDopProofs3.ftop. rewrite E. cbn [fst snd]. rewrite <- T. clear. generalize (rev aux ++ flat_map lexs (ordered (Inner label fs))) (setrule (astuple top) n rules).
      induction l as [|p l IH]; intros g; cbn [fold_left map]; auto.
    + cbn [fback]. unfold DDopProofs3.ftop. rewrite E. cbn [snd]. now rewrite T.
Qed.
(** ** all the fragments *)
Definition dfrag (t : frag * N * nat) : frag := fst (fst t).
Record Inv (g : gstate) (done : list (frag * N * nat)) : Prop := {
  i_ids : idsok (g_ids g);
  i_ok : forall f n u, In (f, n, u) done -> okfrag f /\ (isInner f -> avoided u (g_ids g));
  i_inj : forall f n f' n' u, In (f, n, u) done -> In (f', n', u) done -> isInner f -> isInner f' -> f = f';
  i_nodup : NoDup (map fst (g_rules g));
  i_keys : forall fin, ext (g_ids g) fin -> forall f n u k, In (f, n, u) done -> In k (fkeys (ordered f)) -> exists v, lk k fin = Some v;
  i_back : forall fin, ext (g_ids g) fin -> g_back g = flat_map (fback fin) done;
  i_rules : forall fin, ext (g_ids g) fin -> forall r w, In (r, w) (g_rules g) <-> exists f n u, In (f, n, u) done /\ ((r = ftop fin f u /\ w = n) \/ (In r (fothers fin f u) /\ w = 1%N)) }.
Lemma ftop_inj : forall fin f u f' u', okfrag f -> okfrag f' -> ftop fin f u = ftop fin f' u' -> (isInner f /\ isInner f' /\ u = u') \/ f = f'.
Proof.
  intros fin f u f' u' Ok Ok' E. destruct f as [l idx|l i w|l fs].
  - destruct Ok as (_ & _ & []).
  - destruct f' as [l' idx'|l' i' w'|l' fs']; [destruct Ok' as (_ & _ & [])| |].
    + destruct Ok as (_ & _ & ->). destruct Ok' as (_ & _ & ->). cbn in E. injection E as -> ->. auto.
    + destruct (ftop_inner prefix fin _ u' Ok' Logic.I) as (m & rest & yf & E'). rewrite E' in E. discriminate.
  - destruct (ftop_inner prefix fin _ u Ok Logic.I) as (m & rest & yf & E1). rewrite E1 in E.
    destruct f' as [l' idx'|l' i' w'|l' fs']; [destruct Ok' as (_ & _ & [])|discriminate|].
    destruct (ftop_inner prefix fin _ u' Ok' Logic.I) as (m' & rest' & yf' & E2). rewrite E2 in E. injection E as E3 E4 _ _. left. split; [exact Logic.I|]. split; [exact Logic.I|].
    destruct Ok as (Ok & _). destruct Ok' as (Ok' & _). apply oklabel_root in Ok, Ok'. destruct Ok as (_ & _ & Ok). destruct Ok' as (_ & _ & Ok'). now apply (newlabel_inj prefix) in E4.
Qed.
Lemma fold_setrule' : forall rs g, NoDup (map fst g) -> NoDup (map fst (fold_left (fun g r => setrule r 1%N g) rs g)) /\
  forall r w, In (r, w) (fold_left (fun g r => setrule r 1%N g) rs g) <-> (In r rs /\ w = 1%N) \/ (~ In r rs /\ In (r, w) g).
Proof.
  induction rs as [|p rs IH]; intros g H; cbn [fold_left].
  - split; auto. intros r w. split; [intros X; right; split; auto|intros [[[] _]|[_ X]]; auto].
  - destruct (IH (setrule p 1%N g) (setrule_nodup _ _ _ H)) as [I1 I2]. split; auto. intros r w. rewrite I2, (setrule_In _ _ _ H). cbn [In]. destruct (rule_dec r p) as [->|N].
    + split; [intros [[X ->]|[X [[_ ->]|[Y _]]]]; [auto|auto|congruence]|intros [[X ->]|[X _]]; [|exfalso; auto]].
      destruct (in_dec rule_dec p rs); auto.
    + split; [intros [[X ->]|[X [[Y _]|[_ Y]]]]; [auto|congruence|right; split; auto; intros [Z|Z]; congruence]|].
      intros [[[X|X] ->]|[X Y]]; [congruence|auto|right; split; auto].
Qed.
Lemma inv_step : forall g done f n, Inv g done -> okfrag f -> ~ In f (map dfrag done) -> exists u g', addfrag g (f, n) = Some g' /\ Inv g' (done ++ [(f, n, u)]).
Proof.
  intros g done f n IV Ok New. destruct (addfrag_pure g f n Ok (i_ids _ _ IV)) as (u & g' & E & Ids & X & Fr & P). exists u, g'. split; [exact E|].
  pose proof (i_ok _ _ IV) as IOK. pose proof (i_inj _ _ IV) as IINJ.
  assert (InD : forall f0 n0 u0, In (f0, n0, u0) (done ++ [(f, n, u)]) -> In (f0, n0, u0) done \/ (f0 = f /\ n0 = n /\ u0 = u)).
  { intros f0 n0 u0 H. apply in_app_or in H. destruct H as [H|[H|[]]]; [now left|right]. injection H as <- <- <-. auto. }
  assert (NotU : forall f0 n0, In (f0, n0, u) done -> isInner f0 -> isInner f -> False).
  { intros f0 n0 H Hi Hf. destruct (IOK _ _ _ H) as [_ A]. destruct (A Hi) as [A1 _]. destruct (Fr Hf) as [F1 _]. lia. }
  assert (Tops : forall fin f0 n0 u0, In (f0, n0, u0) done -> ftop fin f u <> ftop fin f0 u0).
  { intros fin f0 n0 u0 H T. destruct (IOK _ _ _ H) as [Ok0 _]. destruct (ftop_inj fin _ _ _ _ Ok Ok0 T) as [(I1 & I2 & <-)| ->]; [exact (NotU _ _ H I2 I1)|].
    apply New. apply in_map_iff. exists (f0, n0, u0). auto. }
  split.
  - exact Ids.
  - intros f0 n0 u0 H. apply InD in H. destruct H as [H|(-> & -> & ->)]; [|split; [exact Ok|intros I0; now apply Fr]].
    destruct (IOK _ _ _ H) as [O1 O2]. split; [exact O1|]. intros I0. exact (avoided_ext _ _ _ (O2 I0) X).
  - intros f1 n1 f2 n2 u0 H1 H2 I1 I2. apply InD in H1, H2. destruct H1 as [H1|(-> & -> & ->)], H2 as [H2|(-> & -> & E2)]; auto.
    + exact (IINJ _ _ _ _ _ H1 H2 I1 I2).
    + subst u0. destruct (NotU _ _ H1 I1 I2).
    + destruct (NotU _ _ H2 I2 I1).
  - destruct (P _ (ext_refl _)) as (-> & _). apply fold_setrule'. apply setrule_nodup. exact (i_nodup _ _ IV).
  - intros fin F f0 n0 u0 k H Hk. apply InD in H. destruct H as [H|(-> & -> & ->)].
    + exact (i_keys _ _ IV fin (ext_trans _ _ _ X F) _ _ _ _ H Hk).
    + destruct (P fin F) as (_ & _ & K). auto.
  - intros fin F. destruct (P fin F) as (_ & -> & _). rewrite flat_map_app, (i_back _ _ IV fin (ext_trans _ _ _ X F)). cbn [flat_map]. now rewrite app_nil_r.
  - intros fin F r w. destruct (P fin F) as (-> & _). destruct (fold_setrule' (fothers fin f u) _ (setrule_nodup (ftop fin f u) n _ (i_nodup _ _ IV))) as [_ Q]. rewrite Q, (setrule_In _ _ _ (i_nodup _ _ IV)).
    pose proof (i_rules _ _ IV fin (ext_trans _ _ _ X F)) as IR. rewrite IR. split.
    + intros [[A ->]|[A [[-> ->]|[B (f0 & n0 & u0 & H & C)]]]].
      * exists f, n, u. split; [apply in_or_app; right; now left|auto].
      * exists f, n, u. split; [apply in_or_app; right; now left|auto].
      * exists f0, n0, u0. split; [apply in_or_app; now left|exact C].
    + assert (OL : forall f0 u0, okfrag f0 -> oklabel (lhs (ftop fin f0 u0))) by (intros f0 u0 O0; rewrite ftop_lhs by exact O0; destruct O0 as (O0 & _); now apply oklabel_root).
      intros (f0 & n0 & u0 & H & C). apply InD in H. destruct H as [H|(-> & -> & ->)].
      * destruct (IOK _ _ _ H) as [O0 _]. destruct (in_dec rule_dec r (fothers fin f u)) as [D|D].
        -- left. split; [exact D|]. destruct C as [[-> ->]|[_ ->]]; [|reflexivity]. exfalso. exact (fothers_lhs prefix fin f u _ Ok D (OL f0 u0 O0)).
        -- right. split; [exact D|]. right. split; [|exists f0, n0, u0; auto]. intros ->. destruct C as [[C _]|[C _]]; [exact (Tops fin _ _ _ H C)|].
           exact (fothers_lhs prefix fin f0 u0 _ O0 C (OL f u Ok)).
      * destruct C as [[-> ->]|[C ->]]; [|auto]. right. split; [|auto]. intros D. exact (fothers_lhs prefix fin f u _ Ok D (OL f u Ok)).
Qed.
Lemma inv_all : forall fs g done, Inv g done -> NoDup (map fst fs) -> (forall f n, In (f, n) fs -> okfrag f /\ ~ In f (map dfrag done)) ->
  exists g' done', addfrags g fs = Some g' /\ Inv g' (done ++ done') /\ map fst done' = fs.
Proof.
  induction fs as [|[f n] fs IH]; intros g done IV ND H.
  - exists g, []. rewrite app_nil_r. auto.
  - cbn [map fst] in ND. inversion ND as [|? ? N1 N2]; subst. destruct (H f n (or_introl eq_refl)) as [Ok New].
    destruct (inv_step g done f n IV Ok New) as (u & g1 & E & IV1). destruct (IH g1 (done ++ [(f, n, u)]) IV1 N2) as (g' & done' & E' & IV' & M).
    + intros f0 n0 H0. destruct (H f0 n0 (or_intror H0)) as [O0 N0]. split; [exact O0|]. rewrite map_app. intros X. apply in_app_or in X. destruct X as [X|[X|[]]]; [auto|].
      cbn in X. subst f0. apply N1. apply in_map_iff. exists (f, n0). auto.
    + exists g', ((f, n, u) :: done'). cbn [DDopModel.addfrags]. rewrite E. split; [exact E'|]. rewrite <- app_assoc in IV'. split; [exact IV'|]. cbn. now rewrite M.
Qed.
Lemma inv_init : Inv (mkG [] [] (mkIds 0 [])) [].
Proof.
  split; cbn; try contradiction; try (intros; contradiction); try constructor; try discriminate.
  - intros [].
  - intros (f & n & u & [] & _).
Qed.
Theorem rules_of_fragments : forall fs, okfragments fs -> exists g done, addfrags (mkG [] [] (mkIds 0 [])) fs = Some g /\ Inv g done /\ map fst done = fs.
Proof.
  intros fs [ND Ok]. destruct (inv_all fs _ [] inv_init ND) as (g & done & E & IV & M); [|exists g, done; auto]. intros f n H. split; [exact (proj1 (Ok f n H))|intros []].
Qed.
End Prefix.
