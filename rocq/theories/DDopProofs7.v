(** C64, part 7: derivations with the rules of one fragment. *)
From Coq Require Import String.
From Coq Require Import List Bool Arith NArith ZArith QArith Qcanon Lia Permutation Sorted.
From Verif Require Import PyStr TreeModel BracketModel BinarizeModel TransformModel SortProofs LcfrsModel LcfrsProps TreebankModel DopModel DopProofs DDopModel DDopSpec DDopProofs DDopProofs2 DDopProofs3 DDopProofs4 DDopProofs5 DDopProofs6.
Import ListNotations.
Open Scope nat_scope.
Open Scope list_scope.

Lemma ders_app : forall G sent ls1 ls2 gs1 gs2 q1 q2, Ders G sent ls1 gs1 q1 -> Ders G sent ls2 gs2 q2 -> Ders G sent (ls1 ++ ls2) (gs1 ++ gs2) (q1 * q2)%Qc.
Proof.
  intros G sent ls1 ls2 gs1 gs2 q1 q2 H1 H2. induction H1; cbn; [now rewrite Qcmult_1_l|]. rewrite <- Qcmult_assoc. now constructor.
Qed.
Lemma ders_app_inv : forall G sent ls1 ls2 gs q, Ders G sent (ls1 ++ ls2) gs q -> exists gs1 gs2 q1 q2, gs = gs1 ++ gs2 /\ Ders G sent ls1 gs1 q1 /\ Ders G sent ls2 gs2 q2 /\ q = (q1 * q2)%Qc.
Proof.
  intros G sent ls1. induction ls1 as [|l ls1 IH]; intros ls2 gs q H; cbn in H.
  - exists [], gs, 1%Qc, q. rewrite Qcmult_1_l. split; [reflexivity|]. split; [constructor|auto].
  - inversion H as [|? g p ? gs' q' Dg Dgs]; subst. destruct (IH _ _ _ Dgs) as (gs1 & gs2 & q1 & q2 & -> & D1 & D2 & ->). exists (g :: gs1), gs2, (p * q1)%Qc, q2. rewrite Qcmult_assoc. split; [reflexivity|]. split; [now constructor|auto].
Qed.
Lemma nodup_key : forall (G : list (rule * N)) r n n', NoDup (map fst G) -> In (r, n) G -> In (r, n') G -> n = n'.
Proof.
  induction G as [|[k v] G IH]; intros r n n' H H1 H2; [destruct H1|]. cbn in H. inversion H as [|? ? N1 N2]; subst.
  assert (X : forall m, In (r, m) G -> k <> r) by (intros m Hm ->; apply N1; apply in_map_iff; exists (r, m); auto).
  destruct H1 as [H1|H1], H2 as [H2|H2]; [congruence| | |eauto]; [injection H1 as -> ->; now destruct (X _ H2)|injection H2 as -> ->; now destruct (X _ H1)].
Qed.
Lemma total_one : forall (G : list (rule * N)) r, NoDup (map fst G) -> In (r, 1%N) G -> (forall r' n', In (r', n') G -> lhs r' = lhs r -> r' = r) ->
  total (map snd (filter (fun x => eqs (lhs (fst x)) (lhs r)) G)) = 1%N.
Proof.
  intros G r ND H U. assert (P : Permutation (filter (fun x => eqs (lhs (fst x)) (lhs r)) G) [(r, 1%N)]).
  { apply NoDup_Permutation; [apply NoDup_filter; now apply NoDup_map_inv in ND|repeat constructor; intros []|]. intros [r' n']. rewrite filter_In. cbn [fst In]. split.
    - intros [H1 H2]. apply eqs_true in H2. pose proof (U _ _ H1 H2). subst r'. left. f_equal. exact (nodup_key _ _ _ _ ND H H1).
    - intros [E|[]]. injection E as <- <-. split; [exact H|apply eqs_refl]. }
  apply Permutation_length_1_inv with (a := (r, 1%N)) in P || (apply Permutation_sym, Permutation_length_1_inv in P). rewrite P. reflexivity.
Qed.
Lemma total_perm : forall l l', Permutation l l' -> total l = total l'.
Proof. intros l l' P. unfold total. induction P; cbn [fold_right]; [reflexivity|now rewrite IHP|lia|congruence]. Qed.

Section Grammar.
Variable prefix : pystr.
Variable G : list (rule * N).
Variable B : list template.
Variable done : list (frag * N * nat).
Variable fin : ids.
Notation newlabel := (newlabel prefix). Notation ftop := (ftop prefix fin). Notation fothers := (fothers prefix fin). Notation frulesF := (frulesF prefix (idof fin)).
Hypothesis HR : forall r w, In (r, w) G <-> exists f n u, In (f, n, u) done /\ ((r = ftop f u /\ w = n) \/ (In r (fothers f u) /\ w = 1%N)).
Hypothesis HN : NoDup (map fst G).
Hypothesis HOK : forall f n u, In (f, n, u) done -> okfrag f.
Hypothesis HINJ : forall f n f' n' u, In (f, n, u) done -> In (f', n', u) done -> isInner f -> isInner f' -> f = f'.
Hypothesis HD : NoDup (map dfrag done).
Hypothesis HT : forall f n u, In (f, n, u) done -> isInner f -> exists k, ruleno (ftop f u) (map fst (filter phrasal G)) = Some k /\ nth_error B k = Some (totemplate (ordered f) f).
Notation fs := (map fst done).
Definition faux (f : frag) (u : nat) : list prod := fst (frulesF u (flabel f) (ordered f)).
Definition up (f : frag) (u : nat) (ds : list deriv) : deriv := match ds with [] => DLex [] 0 | g0 :: gs => build g0 (rls (faux f u) ++ [ftop f u]) gs end.

Lemma up_shape : forall f u ds, okfrag f -> isInner f -> length ds = length (ordered f) ->
  (exists c0 g0 m yf yf', ordered f = [c0] /\ ds = [g0] /\ faux f u = [Phrasal (newlabel (flabel f) u m) [wlabel c0] yf'] /\ ftop f u = ([flabel f; newlabel (flabel f) u m], PYf yf) /\
     up f u ds = DUn (ftop f u) (DUn ([newlabel (flabel f) u m; wlabel c0], PYf yf') g0)) \/
  (exists c0 pre c g0 gs gl m yf, ordered f = c0 :: pre ++ [c] /\ ds = g0 :: gs ++ [gl] /\ length gs = length pre /\ Chain (wlabel c0) (faux f u) (map wlabel pre) (newlabel (flabel f) u m) /\
     ftop f u = ([flabel f; newlabel (flabel f) u m; wlabel c], PYf yf) /\ up f u ds = DBin (ftop f u) (build g0 (rls (faux f u)) gs) gl).
Proof using. clear HR HN HOK HINJ HD HT.
  intros f u ds Ok If L. destruct (ordered_ok _ Ok) as [_ NE]. pose proof (frulesF_shape prefix (idof fin) u (flabel f) _ NE) as Q. unfold up, faux.
  assert (ET : ftop f u = astuple (snd (frulesF u (flabel f) (ordered f)))) by (destruct f; try contradiction; reflexivity).
  destruct (frulesF u (flabel f) (ordered f)) as [aux top]. cbn [fst snd] in *. destruct Q as (c0 & rest & ls & m & yf & EO & C & S & _). rewrite EO in L.
  destruct ds as [|g0 gs]; [discriminate|]. cbn in L. destruct S as [(-> & -> & -> & yf' & ->)|(pre & c & -> & -> & ->)].
  - left. destruct gs; [|discriminate]. exists c0, g0, m, yf, yf'. rewrite ET. auto.
  - right. rewrite app_length in L. cbn in L. destruct (exists_last (l := gs)) as (gs1 & gl & ->); [destruct gs; [cbn in L; lia|discriminate]|]. rewrite app_length in L. cbn in L.
    exists c0, pre, c, g0, gs1, gl, m, yf. split; [exact EO|]. split; [reflexivity|]. split; [lia|]. split; [exact C|]. rewrite ET. split; [reflexivity|].
    rewrite (build_app _ _ _ _ C) by (rewrite map_length; lia). reflexivity.
Qed.
Lemma aux_other : forall f u p, isInner f -> In p (faux f u) -> In (astuple p) (fothers f u).
Proof.
  intros f u p If H. destruct f as [| |label gs]; try contradiction. unfold DDopProofs3.fothers. apply in_map. apply in_or_app. left. apply -> in_rev. exact H.
Qed.
Lemma aux_lhs : forall f u p, okfrag f -> isInner f -> In p (faux f u) -> exists i m, plhs p = newlabel (flabel f) i m.
Proof.
  intros f u p Ok If H. destruct (ordered_ok _ Ok) as [_ NE]. pose proof (frulesF_shape prefix (idof fin) u (flabel f) _ NE) as Q. unfold faux in H. destruct (frulesF u (flabel f) (ordered f)) as [aux top].
  destruct Q as (c0 & rest & ls & m & yf & EO & C & S & A). auto.
Qed.
(** the left-hand sides of rules *)
Lemma rules_lhs : forall r n, In (r, n) G -> oklabel (lhs r) -> exists f u, In (f, n, u) done /\ r = ftop f u /\ flabel f = lhs r.
Proof.
  intros r n H OL. apply HR in H. destruct H as (f & n' & u & Hd & [[-> ->]|[C _]]); [|destruct (fothers_lhs prefix fin f u r (HOK _ _ _ Hd) C OL)].
  exists f, u. rewrite ftop_lhs by exact (HOK _ _ _ Hd). auto.
Qed.
Lemma top_in : forall f n u, In (f, n, u) done -> In (ftop f u, n) G.
Proof. intros f n u H. apply HR. exists f, n, u. auto. Qed.
Lemma other_in : forall f n u r, In (f, n, u) done -> In r (fothers f u) -> In (r, 1%N) G.
Proof. intros f n u r H Hr. apply HR. exists f, n, u. auto. Qed.
Lemma done_inj : forall f n u n' u', In (f, n, u) done -> In (f, n', u') done -> n = n' /\ u = u'.
Proof.
  intros f n u n' u' H H'. revert HD H H'. clear. induction done as [|[[f0 n0] u0] d IH]; intros HD H H'; [destruct H|]. cbn in HD. inversion HD as [|? ? N1 N2]; subst.
  assert (X : forall m v, In (f, m, v) d -> f0 <> f) by (intros m v Hm ->; apply N1; apply in_map_iff; exists (f, m, v); auto).
  destruct H as [H|H], H' as [H'|H']; [|  | |auto].
  - injection H as -> -> ->. injection H' as -> ->. auto.
  - injection H as -> -> ->. now destruct (X _ _ H').
  - injection H' as -> -> ->. now destruct (X _ _ H).
Qed.
Lemma done_top_inj : forall f n u f' n' u', In (f, n, u) done -> In (f', n', u') done -> ftop f u = ftop f' u' -> f = f' /\ n = n' /\ u = u'.
Proof.
  intros f n u f' n' u' H H' E. assert (EF : f = f').
  { destruct (ftop_inj prefix _ _ _ _ _ (HOK _ _ _ H) (HOK _ _ _ H') E) as [(I1 & I2 & <-)|]; [|auto]. exact (HINJ _ _ _ _ _ H H' I1 I2). }
  subst f'. destruct (done_inj _ _ _ _ _ H H'). auto.
Qed.
(** ** probabilities *)
Lemma top_prob : forall f n u, In (f, n, u) done -> ruleprob G (ftop f u) n = relfreq fs (flabel f) n.
Proof.
  intros f n u H. pose proof (HOK _ _ _ H) as Ok. unfold ruleprob, relfreq. rewrite ftop_lhs by exact Ok.
  enough (T : total (map snd (filter (fun x => eqs (lhs (fst x)) (flabel f)) G)) = total (map snd (filter (fun x => eqs (flabel (fst x)) (flabel f)) fs))) by (now rewrite T).
  assert (P : Permutation (filter (fun x => eqs (lhs (fst x)) (flabel f)) G) (map (fun t => (ftop (dfrag t) (snd t), snd (fst t))) (filter (fun t => eqs (flabel (dfrag t)) (flabel f)) done))).
  { apply NoDup_Permutation.
    - apply NoDup_filter. now apply NoDup_map_inv in HN.
    - assert (ND : NoDup (filter (fun t => eqs (flabel (dfrag t)) (flabel f)) done)) by (apply NoDup_filter; now apply NoDup_map_inv in HD).
      assert (Sub : forall t, In t (filter (fun t => eqs (flabel (dfrag t)) (flabel f)) done) -> In t done) by (intros t Ht; now apply filter_In in Ht).
      induction ND as [|[[f0 n0] u0] l N1 N2 IH]; cbn [map]; [constructor|]. constructor; [|apply IH; intros; apply Sub; now right].
      intros X. apply in_map_iff in X. destruct X as ([[f1 n1] u1] & E & H1). unfold dfrag in E. cbn [fst snd] in E. injection E as E E'.
      destruct (done_top_inj f1 n1 u1 f0 n0 u0) as (-> & -> & ->); auto; [apply Sub; now right|apply Sub; now left].
    - intros [r w]. rewrite filter_In, in_map_iff. cbn [fst]. split.
      + intros [H1 H2]. apply eqs_true in H2. destruct (rules_lhs r w H1) as (f0 & u0 & Hd & -> & E); [rewrite H2; destruct Ok as (Ok & _); now apply oklabel_root|].
        exists (f0, w, u0). split; [reflexivity|]. apply filter_In. split; [exact Hd|]. unfold dfrag. cbn [fst]. apply eqs_true. congruence.
      + intros ([[f0 n0] u0] & E & H1). unfold dfrag in E. cbn [fst snd] in E. injection E as <- <-. apply filter_In in H1. destruct H1 as [H1 H2]. unfold dfrag in H2. cbn [fst] in H2.
        split; [now apply top_in|]. rewrite ftop_lhs by exact (HOK _ _ _ H1). exact H2. }
  rewrite (total_perm _ _ (Permutation_map snd P)). rewrite map_map. cbn [snd]. f_equal. clear.
  induction done as [|[[f0 n0] u0] d IH]; [reflexivity|]. cbn [filter map fst snd]. unfold dfrag at 1. cbn [fst]. destruct (eqs (flabel f0) (flabel f)); cbn [map fst snd]; [f_equal|]; exact IH.
Qed.
Lemma lex_unique : forall l w r n, oklabel l -> okword w -> In (r, n) G -> lhs r = l ++ str "@" ++ w -> r = ([l ++ str "@" ++ w; str "Epsilon"], PWord w) /\ n = 1%N.
Proof.
  intros l w r n (L1 & L2 & L3) (W1 & W2 & W3) H E. apply HR in H. destruct H as (f & n' & u & Hd & [[-> ->]|[C ->]]).
  - exfalso. rewrite ftop_lhs in E by exact (HOK _ _ _ Hd). destruct (HOK _ _ _ Hd) as (O & _). apply oklabel_root in O. destruct O as (_ & O & _). rewrite E in O. apply O. apply in_or_app. right. now left.
  - split; [|reflexivity]. destruct (fothers_spec prefix fin f u r (HOK _ _ _ Hd) C) as [(i & m & EL & _)|(c & l' & i & w' & Hc & -> & ->)].
    + exfalso. pose proof (newlabel_has prefix (flabel f) i m) as Q. rewrite <- EL, E in Q. apply has_mark_app in Q. tauto.
    + cbn in E. assert (OT : oknode (Term l' i w')).
      { destruct (HOK _ _ _ Hd) as (O & _). destruct (ok_sites _ O) as [S _]. rewrite Forall_forall in S. exact (S _ Hc). }
      inversion OT as [|? ? ? OL OW|]; subst. destruct OL as (_ & OL & _). apply split_at in E; auto. destruct E as [-> ->]. reflexivity.
Qed.
Lemma lex_prob : forall l w, oklabel l -> okword w -> In (([l ++ str "@" ++ w; str "Epsilon"], PWord w), 1%N) G -> ruleprob G ([l ++ str "@" ++ w; str "Epsilon"], PWord w) 1 = 1%Qc.
Proof.
  intros l w OL OW H. unfold ruleprob. rewrite total_one; [|exact HN|exact H|].
  - apply Qc_is_canon. vm_compute. reflexivity.
  - intros r' n' H' E. exact (proj1 (lex_unique l w r' n' OL OW H' E)).
Qed.
Hypothesis UN : unambiguous G.
Lemma aux_unique : forall f n u p, In (f, n, u) done -> isInner f -> In p (faux f u) -> In (astuple p, 1%N) G /\ ruleprob G (astuple p) 1 = 1%Qc /\ forall r n, In (r, n) G -> lhs r = plhs p -> r = astuple p /\ n = 1%N.
Proof.
  intros f n u p Hd If Hp. pose proof (other_in _ _ _ _ Hd (aux_other f u p If Hp)) as Hin.
  assert (U : forall r n, In (r, n) G -> lhs r = plhs p -> r = astuple p).
  { intros r n' Hr E. symmetry. apply (UN _ _ _ _ Hin Hr); rewrite lhs_astuple; [|auto]. destruct (aux_lhs f u p (HOK _ _ _ Hd) If Hp) as (i & m & ->). apply newlabel_has. }
  split; [exact Hin|]. split.
  - unfold ruleprob. rewrite total_one; [apply Qc_is_canon; vm_compute; reflexivity|exact HN|exact Hin|]. intros r' n' H' E. rewrite lhs_astuple in E. eauto.
  - intros r n' Hr E. pose proof (U r n' Hr E). subst r. split; [reflexivity|]. exact (nodup_key _ _ _ _ HN Hr Hin).
Qed.

Section Sent.
Variable sent : nat -> pystr.
Notation Der := (Der G sent). Notation Ders := (Ders G sent).
(** (a) *)
Lemma up_der : forall f n u ds q, In (f, n, u) done -> isInner f -> Ders (map wlabel (ordered f)) ds q -> Der (flabel f) (up f u ds) (relfreq fs (flabel f) n * q)%Qc.
Proof using HR HN HOK HINJ HD UN. clear HT.
  intros f n u ds q Hd If Ds. pose proof (ders_length _ _ _ _ _ Ds) as L. rewrite map_length in L. pose proof (HOK _ _ _ Hd) as Ok. rewrite <- (top_prob _ _ _ Hd). pose proof (top_in _ _ _ Hd) as Ht.
  assert (AUX : forall p, In p (faux f u) -> In (astuple p, 1%N) G /\ ruleprob G (astuple p) 1 = 1%Qc) by (intros p Hp; destruct (aux_unique _ _ _ p Hd If Hp) as (A1 & A2 & _); auto).
  destruct (up_shape f u ds Ok If L) as [(c0 & g0 & m & yf & yf' & EO & -> & EA & ET & ->)|(c0 & pre & c & g0 & gs & gl & m & yf & EO & -> & L' & C & ET & ->)]; rewrite EO in Ds; rewrite ET in *.
  - cbn [map] in Ds. inversion Ds as [|? ? p ? ? q' D0 D1]; subst. inversion D1; subst. rewrite Qcmult_1_r. apply d_un; [exact Ht|].
    destruct (AUX (Phrasal (newlabel (flabel f) u m) [wlabel c0] yf')) as [A1 A2]; [rewrite EA; now left|]. cbn [astuple] in A1, A2. pose proof (d_un G sent _ _ _ _ _ _ A1 D0) as Q. rewrite A2, Qcmult_1_l in Q. exact Q.
  - cbn [map] in Ds. inversion Ds as [|? ? p0 ? ? q' D0 D1]; subst. rewrite map_app in D1. apply ders_app_inv in D1. destruct D1 as (gs1 & gs2 & q1 & q2 & E & D1 & D2 & ->).
    cbn [map] in D2. inversion D2 as [|? g2 p2 ? ? q3 D2' D3]; subst. inversion D3; subst. apply app_inj_tail in E. destruct E as [-> ->].
    replace (p0 * (q1 * (p2 * 1)))%Qc with ((p0 * q1) * p2)%Qc by ring. apply d_bin; [exact Ht| |exact D2']. exact (chain_der G sent _ _ _ _ C AUX g0 gs1 p0 q1 D0 D1).
Qed.
(** (b) *)
Lemma up_inv : forall l g p, oklabel l -> Der l g p ->
  (exists n u i, In (Term l 0 (sent i), n, u) done /\ g = DLex l i /\ p = relfreq fs l n) \/
  (exists f n u ds q, In (f, n, u) done /\ isInner f /\ flabel f = l /\ g = up f u ds /\ Ders (map wlabel (ordered f)) ds q /\ p = (relfreq fs l n * q)%Qc /\ list_sum (map dsize ds) < dsize g).
Proof using HR HN HOK HINJ HD UN. clear HT.
  intros l g p OL D.
  assert (GO : forall r n, In (r, n) G -> lhs r = l -> exists f u, In (f, n, u) done /\ r = ftop f u /\ flabel f = l).
  { intros r n H <-. destruct (rules_lhs r n H OL) as (f & u & A & B0 & C0). exists f, u. auto. }
  assert (FIN : forall f n u ds q, In (f, n, u) done -> isInner f -> flabel f = l -> Ders (map wlabel (ordered f)) ds q -> g = up f u ds -> p = (ruleprob G (ftop f u) n * q)%Qc -> list_sum (map dsize ds) < dsize g ->
     exists f n u ds q, In (f, n, u) done /\ isInner f /\ flabel f = l /\ g = up f u ds /\ Ders (map wlabel (ordered f)) ds q /\ p = (relfreq fs l n * q)%Qc /\ list_sum (map dsize ds) < dsize g).
  { intros f n u ds q Hd If E Ds Eg Ep Sz. exists f, n, u, ds, q. rewrite (top_prob _ _ _ Hd), E in Ep. auto 10. }
  assert (AUX : forall f n u, In (f, n, u) done -> isInner f -> forall p, In p (faux f u) -> ruleprob G (astuple p) 1 = 1%Qc /\ forall r n, In (r, n) G -> lhs r = plhs p -> r = astuple p /\ n = 1%N).
  { intros f n u Hd If p0 Hp. destruct (aux_unique _ _ _ p0 Hd If Hp) as (_ & A2 & A3). auto. }
  assert (DUMMY : forall f, okfrag f -> exists ds : list deriv, length ds = length (ordered f)) by (intros f _; exists (map (fun _ => DLex [] 0) (ordered f)); apply map_length).
  inversion D as [? i n I1|? a yf n d' p' I1 I2|? a b yf n d1 d2 p1 p2 I1 I2 I3]; subst.
  - left. destruct (GO _ _ I1 eq_refl) as (f & u & Hd & E & <-). pose proof (HOK _ _ _ Hd) as Ok. destruct f as [l0 idx|l0 i0 w|l0 fs0]; [destruct Ok as (_ & _ & [])| |].
    + cbn [DDopProofs3.ftop] in E. injection E as E. destruct Ok as (Ok1 & Ok2 & ->). subst w. exists n, u, i. split; [exact Hd|]. split; [reflexivity|]. exact (top_prob _ _ _ Hd).
    + destruct (ftop_inner prefix fin _ u Ok Logic.I) as (m & rest & yf & E'). rewrite E' in E. discriminate.
  - right. destruct (GO _ _ I1 eq_refl) as (f & u & Hd & E & <-). pose proof (HOK _ _ _ Hd) as Ok. assert (If : isInner f) by (destruct f; [destruct Ok as (_ & _ & [])|discriminate|exact Logic.I]).
    destruct (DUMMY f Ok) as (ds0 & L0). destruct (up_shape f u ds0 Ok If L0) as [(c0 & g0 & m & yf1 & yf2 & EO & E0 & EA & ET & EU)|(c0 & pre & c & g0 & gs & gl & m & yf1 & EO & E0 & L' & C & ET & EU)]; rewrite ET in E; [|discriminate]. clear EU. subst ds0.
    injection E as -> ->.
    assert (C : Chain (wlabel c0) (faux f u) [] (newlabel (flabel f) u m)) by (rewrite EA; repeat constructor).
    destruct (chain_inv G sent _ _ _ _ C (AUX _ _ _ Hd If) _ _ I2) as (g1 & gs & p0 & q & E2 & D0 & Ds & ->). inversion Ds; subst gs q.
    apply (FIN f n u [g1] (p0 * 1)%Qc Hd If eq_refl).
    + rewrite EO. cbn [map]. constructor; [exact D0|constructor].
    + unfold up. rewrite E2, EA, ET. reflexivity.
    + now rewrite ET.
    + rewrite E2, EA. cbn. lia.
  - right. destruct (GO _ _ I1 eq_refl) as (f & u & Hd & E & <-). pose proof (HOK _ _ _ Hd) as Ok. assert (If : isInner f) by (destruct f; [destruct Ok as (_ & _ & [])|discriminate|exact Logic.I]).
    destruct (DUMMY f Ok) as (ds0 & L0). destruct (up_shape f u ds0 Ok If L0) as [(c0 & g0 & m & yf1 & yf2 & EO & E0 & EA & ET & EU)|(c0 & pre & c & g0 & gs & gl & m & yf1 & EO & E0 & L' & C & ET & EU)]; rewrite ET in E; [discriminate|]. clear EU E0 L'.
    injection E as -> -> ->.
    destruct (chain_inv G sent _ _ _ _ C (AUX _ _ _ Hd If) _ _ I2) as (g1 & gs1 & p0 & q & -> & D0 & Ds & ->). pose proof (ders_length _ _ _ _ _ Ds) as LS.
    apply (FIN f n u (g1 :: gs1 ++ [d2]) (p0 * (q * (p2 * 1)))%Qc Hd If eq_refl).
    + rewrite EO. cbn [map]. rewrite map_app. constructor; [exact D0|]. apply ders_app; [exact Ds|]. cbn [map]. constructor; [exact I3|constructor].
    + unfold up. rewrite (build_app _ _ _ _ C) by exact LS. rewrite ET. reflexivity.
    + rewrite ET. ring.
    + cbn [dsize map]. rewrite (build_size _ _ _ _ C) by exact LS. rewrite map_app, <- !(app_comm_cons), list_sum_app || idtac. rewrite map_app. cbn [map]. change (list_sum (dsize g1 :: map dsize gs1 ++ [dsize d2])) with (dsize g1 + list_sum (map dsize gs1 ++ [dsize d2])). rewrite list_sum_app. cbn [list_sum fold_right]. lia.
Qed.
End Sent.
(** (c) *)
Lemma up_raw : forall f n u ds, In (f, n, u) done -> isInner f -> length ds = length (ordered f) ->
  raw G B (up f u ds) = match sequence (map (raw G B) ds) with Some cs => format (totemplate (ordered f) f) cs | None => None end.
Proof using HOK HT. clear HR HN HINJ HD UN.
  intros f n u ds Hd If L. pose proof (HOK _ _ _ Hd) as Ok. destruct (HT _ _ _ Hd If) as (k & K1 & K2). destruct Ok as (Ok1 & Ok2). pose proof (oklabel_root _ Ok1) as OL. assert (Ok : okfrag f) by (split; auto).
  assert (AL : forall m, auxlabel (newlabel (flabel f) u m) = true) by (intros m; apply newlabel_aux; apply OL).
  assert (WL : forall c, In c (ordered f) -> auxlabel (wlabel c) = false).
  { intros c Hc. apply not_aux. destruct (ordered_ok _ Ok) as [S _]. specialize (S c Hc). destruct c as [l idx|l i w|]; [| |destruct S]; cbn [wlabel flabel]; inversion S as [? ? A|? ? ? A A'|]; subst; [apply A|].
    intros X. apply has_mark_app in X. destruct X as [X|X]; [now apply A|now apply A']. }
  assert (EX : forall l, expandrule G B (ftop f u) l = match sequence l with Some cs => format (totemplate (ordered f) f) cs | None => None end).
  { intros l. unfold expandrule. rewrite K1, K2. destruct (sequence l); reflexivity. }
  destruct (up_shape f u ds Ok If L) as [(c0 & g0 & m & yf & yf' & EO & -> & EA & ET & ->)|(c0 & pre & c & g0 & gs & gl & m & yf & EO & -> & L' & C & ET & ->)].
  - rewrite <- EX. unfold raw at 1. cbn [recover_ map]. rewrite ET. cbn [rhs1 fst nth]. unfold raw. unfold rhs1. cbn [fst nth]. rewrite AL, WL by (rewrite EO; now left). destruct (recover_ G B g0) as [[t w] f0]. cbn [fst snd]. reflexivity.
  - rewrite <- EX. cbn [map]. rewrite map_app. cbn [map]. unfold raw at 1. cbn [recover_].
    assert (AUX : forall p, In p (faux f u) -> auxlabel (plhs p) = true) by (intros p Hp; destruct (aux_lhs f u p Ok If Hp) as (i & m' & ->); apply newlabel_aux; apply OL).
    pose proof (chain_walk G B _ _ _ _ C AUX g0 gs ltac:(rewrite map_length; exact L')) as W. unfold walked in W. rewrite AL, WL in W by (rewrite EO; now left).
    rewrite ET. unfold rhs1. cbn [fst nth]. rewrite AL. change (raw G B gl) with (fst (fst (recover_ G B gl))). destruct (recover_ G B (build g0 (rls (faux f u)) gs)) as [[t1 w1] f1], (recover_ G B gl) as [[t2 w2] f2]. cbn [fst snd] in *. rewrite W, <- ET. reflexivity.
Qed.
(** (d) *)
Lemma up_positions : forall f u ds, okfrag f -> isInner f -> length ds = length (ordered f) -> positions (up f u ds) = flat_map positions ds.
Proof using. clear HR HN HOK HINJ HD HT UN.
  intros f u ds Ok If L. destruct (up_shape f u ds Ok If L) as [(c0 & g0 & m & yf & yf' & EO & -> & EA & ET & ->)|(c0 & pre & c & g0 & gs & gl & m & yf & EO & -> & L' & C & ET & ->)].
  - cbn. now rewrite app_nil_r.
  - cbn [positions flat_map]. rewrite (build_positions _ _ _ _ C) by (rewrite map_length; exact L'). rewrite flat_map_app. cbn [flat_map]. rewrite app_nil_r. now rewrite app_assoc.
Qed.
(** (e) *)
Lemma up_inj : forall f n u ds f' n' u' ds', In (f, n, u) done -> In (f', n', u') done -> isInner f -> isInner f' -> length ds = length (ordered f) -> length ds' = length (ordered f') ->
  up f u ds = up f' u' ds' -> f = f' /\ ds = ds'.
Proof using HOK HINJ HD. clear HR HN HT UN.
  intros f n u ds f' n' u' ds' Hd Hd' If If' L L' E. pose proof (HOK _ _ _ Hd) as Ok. pose proof (HOK _ _ _ Hd') as Ok'.
  assert (T : ftop f u = ftop f' u').
  { destruct (up_shape f u ds Ok If L) as [(? & ? & ? & ? & ? & _ & _ & _ & _ & E1)|(? & ? & ? & ? & ? & ? & ? & ? & _ & _ & _ & _ & _ & E1)];
    destruct (up_shape f' u' ds' Ok' If' L') as [(? & ? & ? & ? & ? & _ & _ & _ & _ & E2)|(? & ? & ? & ? & ? & ? & ? & ? & _ & _ & _ & _ & _ & E2)]; rewrite E1, E2 in E; clear - E; congruence. }
  destruct (done_top_inj _ _ _ _ _ _ Hd Hd' T) as (<- & <- & <-). split; [reflexivity|].
  destruct (up_shape f u ds Ok If L) as [(c0 & g0 & m & yf & yf' & EO & -> & EA & ET & E1)|(c0 & pre & c & g0 & gs & gl & m & yf & EO & -> & LG & C & ET & E1)];
  destruct (up_shape f u ds' Ok If L') as [(c0' & g0' & m' & yf1 & yf1' & EO' & -> & EA' & ET' & E2)|(c0' & pre' & c' & g0' & gs' & gl' & m' & yf1 & EO' & -> & LG' & C' & ET' & E2)]; rewrite E1, E2 in E.
  - clear - E. congruence.
  - rewrite EO in EO'. exfalso. injection EO' as _ EO'. destruct pre'; discriminate.
  - rewrite EO in EO'. exfalso. injection EO' as _ EO'. destruct pre; discriminate.
  - injection E as E ->. rewrite EO in EO'. injection EO' as <- EO'. apply app_inj_tail in EO'. destruct EO' as [<- <-].
    apply (build_inj _ _ _ _ C) in E; [|now rewrite map_length|now rewrite map_length]. destruct E as [-> ->]. reflexivity.
Qed.
End Grammar.
