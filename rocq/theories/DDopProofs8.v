(** C64, part 8: derivations of the tree-substitution grammar as derivations
    of the grammar. *)
From Coq Require Import String.
From Coq Require Import List Bool Arith NArith ZArith QArith Qcanon Lia Permutation Sorted.
From Verif Require Import PyStr TreeModel BracketModel BinarizeModel TransformModel SortProofs LcfrsModel LcfrsProps TreebankModel DopModel DopProofs DDopModel DDopSpec DDopProofs DDopProofs2 DDopProofs3 DDopProofs4 DDopProofs5 DDopProofs6 DDopProofs7.
Import ListNotations.
Open Scope nat_scope.
Open Scope list_scope.

Definition frag_dec : forall a b : frag, {a = b} + {a <> b}.
Proof.
  assert (D : forall a b : pystr, {a = b} + {a <> b}) by (apply list_eq_dec, N.eq_dec).
  assert (DN : forall a b : list nat, {a = b} + {a <> b}) by (apply list_eq_dec, Nat.eq_dec).
  fix IH 1. intros [l idx|l i w|l fs] [l' idx'|l' i' w'|l' fs']; try (right; discriminate).
  - destruct (D l l') as [->|N]; [|right; congruence]. destruct (DN idx idx') as [->|N]; [now left|right; congruence].
  - destruct (D l l') as [->|N]; [|right; congruence]. destruct (Nat.eq_dec i i') as [->|N]; [|right; congruence]. destruct (D w w') as [->|N]; [now left|right; congruence].
  - destruct (D l l') as [->|N]; [|right; congruence].
    assert (X : {fs = fs'} + {fs <> fs'}).
    { revert fs'. induction fs as [|f fs IHf]; intros [|f' fs']; try (right; discriminate); [now left|]. destruct (IH f f') as [->|N]; [|right; congruence]. destruct (IHf fs') as [->|N]; [now left|right; congruence]. }
    destruct X as [->|N]; [now left|right; congruence].
Defined.

Lemma flat_map_perm : forall A B (f : A -> list B) l l', Permutation l l' -> Permutation (flat_map f l) (flat_map f l').
Proof.
  intros A B f l l' P. induction P; cbn; auto; [now apply Permutation_app_head|rewrite !app_assoc; apply Permutation_app_tail, Permutation_app_comm|eapply Permutation_trans; eauto].
Qed.
(** * pairs sorted by the first index *)
Definition pairle {X} (a b : frag * X) : bool := first_le (fst a) (fst b).
Lemma first_le_total : forall a b, first_le a b = true \/ first_le b a = true.
Proof. intros. apply leb_total. Qed.
Lemma first_le_trans : forall a b c, first_le a b = true -> first_le b c = true -> first_le a c = true.
Proof. intros a b c. unfold first_le. rewrite !Nat.leb_le. lia. Qed.
Lemma sort_fst : forall X (L : list (frag * X)), map fst (sort pairle L) = sort first_le (map fst L).
Proof. intros X L. symmetry. apply sort_map. reflexivity. Qed.
Lemma combine_fst : forall A B (l : list A) (l' : list B), length l' = length l -> map fst (combine l l') = l.
Proof. induction l as [|a l IH]; intros [|b l'] H; cbn in *; try discriminate; auto. f_equal. apply IH. lia. Qed.
Lemma combine_snd : forall A B (l : list A) (l' : list B), length l' = length l -> map snd (combine l l') = l'.
Proof. induction l as [|a l IH]; intros [|b l'] H; cbn in *; try discriminate; auto. f_equal. apply IH. lia. Qed.
Lemma combine_split' : forall A B (l : list (A * B)), combine (map fst l) (map snd l) = l.
Proof. induction l as [|[a b] l IH]; cbn; auto. now rewrite IH. Qed.
Lemma combine_map_r : forall A B C (f : B -> C) (l : list A) (l' : list B), combine l (map f l') = map (fun x => (fst x, f (snd x))) (combine l l').
Proof. induction l as [|a l IH]; intros [|b l']; cbn; auto. now rewrite IH. Qed.
Lemma nodup_flat_fst : forall (ls : list frag), NoDup (flat_map fidx ls) -> (forall c, In c ls -> fidx c <> []) -> NoDup (map first ls).
Proof.
  induction ls as [|c ls IH]; intros H NE; cbn; [constructor|]. cbn in H. assert (NE' : forall c, In c ls -> fidx c <> []) by (intros; apply NE; now right).
  assert (HC : In (first c) (fidx c)) by (unfold first; destruct (fidx c) eqn:E; [now destruct (NE c (or_introl eq_refl))|now left]).
  assert (X : forall a b : list nat, NoDup (a ++ b) -> NoDup b /\ forall x, In x a -> In x b -> False).
  { clear. induction a as [|x a IH]; intros b H; cbn in H; [split; auto|]. inversion H as [|? ? N1 N2]; subst. destruct (IH _ N2) as [I1 I2]. split; auto. intros y [<-|Hy] Hb; [apply N1; apply in_or_app; auto|eauto]. }
  destruct (X _ _ H) as [H1 H2]. constructor; [|auto]. intros HI. apply in_map_iff in HI. destruct HI as (c' & E & Hc'). apply (H2 (first c) HC). apply in_flat_map. exists c'. split; auto. rewrite <- E. unfold first. destruct (fidx c') eqn:E'; [now destruct (NE' c' Hc')|now left].
Qed.
Lemma okfrag_firsts : forall f, okfrag f -> NoDup (map first (sites f)).
Proof.
  intros f (O1 & O2 & _). apply nodup_flat_fst; auto. destruct (ok_sites _ O1) as [S _]. rewrite Forall_forall in S. intros c Hc. apply oksite_idx. auto.
Qed.
Lemma sort_pairs : forall X (L L' : list (frag * X)), NoDup (map first (map fst L)) -> Permutation L L' -> map fst L' = sort first_le (map fst L) -> sort pairle L = L'.
Proof.
  intros X L L' ND P E. apply sorted_unique with (R := fun a b => pairle a b = true).
  - apply sort_sorted; unfold pairle; intros; [apply first_le_total|eapply first_le_trans; eauto].
  - assert (SS : StronglySorted (fun a b => first_le a b = true) (map fst L')) by (rewrite E; apply sort_sorted; intros; [apply first_le_total|eapply first_le_trans; eauto]).
    clear - SS. induction L' as [|x L' IH]; [constructor|]. cbn in SS. inversion SS as [|? ? S1 S2]; subst. constructor; auto. rewrite Forall_forall in *. intros y Hy. apply S2. now apply in_map.
  - eapply Permutation_trans; [apply Permutation_sym, sort_perm|exact P].
  - intros x y Hx Hy A A'. apply sort_In in Hx, Hy. unfold pairle, first_le in A, A'. apply Nat.leb_le in A, A'. assert (E1 : first (fst x) = first (fst y)) by lia.
    clear - ND Hx Hy E1. rewrite map_map in ND. induction L as [|z L IH]; [destruct Hx|]. cbn in ND. inversion ND as [|? ? N1 N2]; subst.
    destruct Hx as [->|Hx], Hy as [->|Hy]; auto; exfalso; apply N1; [rewrite E1|rewrite <- E1]; apply in_map_iff; [exists y|exists x]; auto.
Qed.
Lemma pairs_eq : forall X (L L' : list (frag * X)), NoDup (map fst L) -> Permutation L L' -> map fst L = map fst L' -> L = L'.
Proof.
  intros X L. induction L as [|[c x] L IH]; intros [|[c' x'] L'] ND P E; cbn in E; try discriminate; auto. injection E as <- E. cbn in ND. inversion ND as [|? ? N1 N2]; subst.
  assert (x = x').
  { assert (Hin : In (c, x) ((c, x') :: L')) by (eapply Permutation_in; [exact P|now left]). destruct Hin as [Q|Q]; [congruence|]. exfalso. apply N1. rewrite E. apply in_map_iff. exists (c, x). auto. }
  subst x'. f_equal. apply IH; auto. now apply Permutation_cons_inv in P.
Qed.
Lemma nodup_map_nodup : forall A B (f : A -> B) l, NoDup (map f l) -> NoDup l. Proof. intros. now apply NoDup_map_inv in H. Qed.

(** * grafting *)
Definition grafts := fix grafts (fs : list frag) (ts : list (tree pystr nat)) : list (tree pystr nat) * list (tree pystr nat) :=
        match fs with
        | [] => ([], ts)
        | f :: fs => let '(t, ts) := graft f ts in let '(rs, ts) := grafts fs ts in (t :: rs, ts)
        end.
Lemma graft_inner : forall l fs ts, graft (Inner l fs) ts = (let '(rs, ts) := grafts fs ts in (Node l rs, ts)).
Proof. reflexivity. Qed.
Lemma graft_leaves : forall f us rest, length us = length (sites f) -> exists T, graft f (us ++ rest) = (T, rest) /\ leaves T = flat_map leaves us.
Proof.
  intros f. induction f as [l idx|l i w|l fs IH] using frag_ind'; intros us rest L.
  - destruct us as [|t [|]]; try discriminate. exists t. cbn. rewrite app_nil_r. auto.
  - destruct us as [|t [|]]; try discriminate. exists (Node l [t]). cbn. rewrite app_nil_r. auto.
  - rewrite graft_inner. cbn [sites] in L.
    assert (X : exists Ts, grafts fs (us ++ rest) = (Ts, rest) /\ flat_map leaves Ts = flat_map leaves us).
    { revert us L. induction fs as [|f fs IHf]; intros us L; cbn [flat_map] in L.
      - destruct us; [|discriminate]. exists []. auto.
      - inversion IH as [|? ? I1 I2]; subst. rewrite app_length in L. set (k := length (sites f)) in *. rewrite <- (firstn_skipn k us).
        destruct (I1 (firstn k us) (skipn k us ++ rest)) as (T & E & EL); [rewrite firstn_length; lia|]. destruct (IHf I2 (skipn k us)) as (Ts & E' & EL'); [rewrite skipn_length; lia|].
        exists (T :: Ts). rewrite <- app_assoc. cbn [grafts]. rewrite E. fold grafts. rewrite E'. split; [reflexivity|]. cbn [flat_map]. rewrite flat_map_app. congruence. }
    destruct X as (Ts & -> & EL). exists (Node l Ts). split; [reflexivity|]. exact EL.
Qed.
(** str.format fills in the same tree *)
Section Format.
Variable order : list frag.
Variable cs : list (tree pystr nat).
Definition fills (c : frag) (u : tree pystr nat) : Prop := exists t, nth_error cs (posof c order) = Some t /\
  match c with Site _ _ => removewordtags t = u | Term l _ w => exists v, t = Node (l ++ str "@" ++ w) [Leaf v] /\ u = Leaf v | Inner _ _ => False end.
Lemma removeword_at : forall l w, ~ In (ch "@") l -> w <> [] -> removeword (l ++ str "@" ++ w) = l.
Proof.
  intros l w H W. induction l as [|c l IH]; cbn [app removeword].
  - change (str "@") with [ch "@"]. cbn [app removeword]. destruct w; [congruence|]. rewrite N.eqb_refl. reflexivity.
  - destruct (N.eqb_spec c (ch "@")) as [->|N]; [exfalso; apply H; now left|]. cbn [andb]. f_equal. apply IH. intros X. apply H. now right.
Qed.
Lemma removeword_id : forall l, ~ In (ch "@") l -> removeword l = l.
Proof.
  induction l as [|c l IH]; intros H; cbn [removeword]; auto. destruct (N.eqb_spec c (ch "@")) as [->|N]; [exfalso; apply H; now left|]. cbn [andb]. f_equal. apply IH. intros X. apply H. now right.
Qed.
Lemma format_graft : forall h us rest, oknode h -> Forall2 fills (sites h) us -> exists T, format (totemplate order h) cs = Some T /\ graft h (us ++ rest) = (removewordtags T, rest).
Proof.
  intros h. induction h as [l idx|l i w|l fs IH] using frag_ind'; intros us rest Ok F.
  - cbn [sites] in F. inversion F as [|? u ? us' F1 F2]; subst. inversion F2; subst. destruct F1 as (t & E & <-). exists t. split; [exact E|reflexivity].
  - cbn [sites] in F. inversion F as [|? u ? us' F1 F2]; subst. inversion F2; subst. destruct F1 as (t & E & v & -> & ->). eexists. split; [exact E|]. cbn [removewordtags map graft app hd tl]. inversion Ok as [|? ? ? (_ & OL & _) (OW & _)|]; subst. now rewrite removeword_at.
  - inversion Ok as [| |? ? (_ & OL & _) O2 O3]; subst. rewrite graft_inner. cbn [sites] in F. cbn [totemplate format].
    assert (X : exists Ts, sequence (map (fun t => format t cs) (map (totemplate order) fs)) = Some Ts /\ grafts fs (us ++ rest) = (map removewordtags Ts, rest)).
    { clear O2 Ok. revert us F. induction fs as [|f fs IHf]; intros us F; cbn [flat_map] in F.
      - inversion F; subst. exists []. auto.
      - inversion IH as [|? ? I1 I2]; subst. inversion O3 as [|? ? P1 P2]; subst. apply Forall2_app_inv_l in F. destruct F as (us1 & us2 & F1 & F2 & ->).
        destruct (I1 us1 (us2 ++ rest) P1 F1) as (T & E1 & G1). destruct (IHf I2 P2 us2 F2) as (Ts & E2 & G2). exists (T :: Ts). cbn [map sequence]. rewrite E1, E2. split; [reflexivity|].
        rewrite <- app_assoc. cbn [grafts]. fold grafts. rewrite G1, G2. reflexivity. }
    destruct X as (Ts & -> & ->). cbn [option_map]. eexists. split; [reflexivity|]. cbn [removewordtags]. now rewrite removeword_id.
Qed.
End Format.
Lemma posof_nth : forall order c k, NoDup (flat_map fidx order) -> (forall c, In c order -> fidx c <> []) -> nth_error order k = Some c -> posof c order = k.
Proof.
  intros order c k ND NE. revert k. induction order as [|x order IH]; intros [|k] H; cbn in H; try discriminate.
  - injection H as ->. cbn [posof]. assert (E : eqll Nat.eqb (fidx c) (fidx c) = true) by (induction (fidx c); cbn; [auto|rewrite Nat.eqb_refl; auto]). now rewrite E.
  - cbn [posof]. destruct (eqll Nat.eqb (fidx x) (fidx c)) eqn:E.
    + exfalso. assert (EQ : fidx x = fidx c) by (revert E; generalize (fidx x) (fidx c); clear; induction l as [|a l IH]; intros [|b l'] E; cbn in E; try discriminate; auto; apply andb_prop in E; destruct E as [E1 E2]; apply Nat.eqb_eq in E1; subst; f_equal; auto).
      cbn in ND. apply nth_error_In in H. assert (NX : fidx x <> []) by (apply NE; now left). destruct (fidx x) as [|a r] eqn:EX; [congruence|]. cbn in ND. inversion ND as [|? ? N1 N2]; subst. apply N1. apply in_or_app. right. apply in_flat_map. exists c. split; [exact H|]. rewrite <- EQ. now left.
    + f_equal. apply IH; [|intros; apply NE; now right|exact H]. cbn in ND. clear - ND. induction (fidx x) as [|a r IHr]; [exact ND|]. cbn in ND. inversion ND; auto.
Qed.

(** * the encoding *)
Scheme valid_mut := Induction for Valid Sort Prop with subs_mut := Induction for Subs Sort Prop.
Definition tagged (c : frag) (g : deriv) : deriv := match c, g with Term _ _ _, DLex _ j => DLex (wlabel c) j | _, _ => g end.
Section Grammar.
Variable prefix : pystr.
Variable G : list (rule * N).
Variable B : list template.
Variable done : list (frag * N * nat).
Variable fin : ids.
Notation newlabel := (newlabel prefix). Notation ftop := (ftop prefix fin). Notation fothers := (fothers prefix fin). Notation up := (up prefix fin).
Hypothesis HR : forall r w, In (r, w) G <-> exists f n u, In (f, n, u) done /\ ((r = ftop f u /\ w = n) \/ (In r (fothers f u) /\ w = 1%N)).
Hypothesis HN : NoDup (map fst G).
Hypothesis HOK : forall f n u, In (f, n, u) done -> okfrag f.
Hypothesis HINJ : forall f n f' n' u, In (f, n, u) done -> In (f', n', u) done -> isInner f -> isInner f' -> f = f'.
Hypothesis HD : NoDup (map dfrag done).
Hypothesis HT : forall f n u, In (f, n, u) done -> isInner f -> exists k, ruleno (ftop f u) (map fst (filter phrasal G)) = Some k /\ nth_error B k = Some (totemplate (ordered f) f).
Hypothesis UN : unambiguous G.
Notation fs := (map fst done).
Definition uof (f : frag) : nat := match find (fun t => if frag_dec (dfrag t) f then true else false) done with Some t => snd t | None => 0 end.
Lemma uof_in : forall f n, In (f, n) fs -> In (f, n, uof f) done.
Proof.
  intros f n H. apply in_map_iff in H. destruct H as ([[f0 n0] u0] & E & H). cbn in E. injection E as -> ->. unfold uof.
  destruct (find (fun t => if frag_dec (dfrag t) f then true else false) done) as [[[f1 n1] u1]|] eqn:Fd.
  - apply find_some in Fd. destruct Fd as [F1 F2]. unfold dfrag in F2. cbn [fst] in F2. destruct (frag_dec f1 f) as [->|]; [|discriminate]. cbn [snd].
    destruct (done_inj done HD _ _ _ _ _ H F1) as [-> ->]. exact H.
  - exfalso. apply (find_none _ _ Fd) in H. unfold dfrag in H. cbn [fst] in H. destruct (frag_dec f f); congruence.
Qed.
Definition children (f : frag) (gs : list deriv) : list (frag * deriv) := sort pairle (combine (sites f) gs).
Definition tg (x : frag * deriv) : deriv := tagged (fst x) (snd x).
Definition encfrag (f : frag) (gs : list deriv) : deriv :=
  match f with
  | Term l _ _ => match gs with DLex _ j :: _ => DLex l j | _ => DLex [] 0 end
  | _ => up f (uof f) (map tg (children f gs))
  end.
Fixpoint enc (d : tsgderiv) : deriv := match d with Word j => DLex [] j | Use f subs => encfrag f (map enc subs) end.
Lemma encfrag_inner : forall f gs, isInner f -> encfrag f gs = up f (uof f) (map tg (children f gs)).
Proof. intros [| |] gs H; try contradiction. reflexivity. Qed.
Lemma children_fst : forall f gs, length gs = length (sites f) -> map fst (children f gs) = ordered f.
Proof. intros f gs L. unfold children. rewrite sort_fst, combine_fst by exact L. reflexivity. Qed.
Lemma children_length : forall f gs, length gs = length (sites f) -> length (map tg (children f gs)) = length (ordered f).
Proof. intros f gs L. rewrite <- (children_fst f gs L), !map_length. reflexivity. Qed.
Lemma subs_length : forall sent ls ds q, Subs fs sent ls ds q -> length ds = length ls.
Proof. intros sent ls ds q H. induction H; cbn; auto. Qed.

Section Sent.
Variable sent : nat -> pystr.
Notation Der := (Der G sent). Notation Ders := (Ders G sent). Notation Valid := (Valid fs sent). Notation Subs := (Subs fs sent).
Inductive Prods : list (frag * deriv) -> Qc -> Prop :=
| p_nil : Prods [] 1%Qc
| p_cons : forall c g p l q, Der (wlabel c) (tagged c g) p -> Prods l q -> Prods ((c, g) :: l) (p * q)%Qc.
Lemma prods_perm : forall l l', Permutation l l' -> forall q, Prods l q -> Prods l' q.
Proof.
  intros l l' P. induction P as [|[c g] l l' P IH|[c g] [c' g'] l|l1 l2 l3 P1 IH1 P2 IH2]; intros q H; auto.
  - inversion H; subst. constructor; auto.
  - inversion H as [|? ? p ? q1 D1 P1]; subst. inversion P1 as [|? ? p' ? q2 D2 P2]; subst. replace (p * (p' * q2))%Qc with (p' * (p * q2))%Qc by ring. constructor; auto. constructor; auto.
Qed.
Lemma prods_ders : forall l q, Prods l q <-> Ders (map wlabel (map fst l)) (map tg l) q.
Proof.
  induction l as [|[c g] l IH]; intros q; split; intros H; cbn [map fst] in *; inversion H; subst; constructor; auto; now apply IH.
Qed.
Lemma term_der : forall f n u l i w j, In (f, n, u) done -> isInner f -> In (Term l i w) (sites f) -> sent j = w -> Der (l ++ str "@" ++ w) (DLex (l ++ str "@" ++ w) j) 1%Qc.
Proof.
  intros f n u l i w j Hd If Hc E. pose proof (HOK _ _ _ Hd) as (O1 & O2). destruct (ok_sites _ O1) as [S _]. rewrite Forall_forall in S. pose proof (S _ Hc) as OT. inversion OT as [|? ? ? OL OW|]; subst.
  assert (Hin : In (([l ++ str "@" ++ sent j; str "Epsilon"], PWord (sent j)), 1%N) G).
  { apply HR. exists f, n, u. split; [exact Hd|]. right. split; [|reflexivity]. destruct f as [| |label gs]; try contradiction. unfold DDopProofs3.fothers. apply in_map_iff. exists (Lexical (l ++ str "@" ++ sent j) (sent j)). split; [reflexivity|].
    apply in_or_app. right. apply in_flat_map. exists (Term l i (sent j)). split; [apply sort_In; exact Hc|now left]. }
  rewrite <- (lex_prob prefix G done fin HR HN HOK l (sent j) OL OW Hin). apply d_lex. exact Hin.
Qed.
(** forwards *)
Lemma enc_der : forall l d p, Valid l d p -> Der l (enc d) p.
Proof.
  apply (valid_mut fs sent (fun l d p _ => Der l (enc d) p)
    (fun ls ds q _ => (forall l i w, In (Term l i w) ls -> forall j, sent j = w -> Der (l ++ str "@" ++ w) (DLex (l ++ str "@" ++ w) j) 1%Qc) -> Prods (combine ls (map enc ds)) q)).
  - intros f n subs q Hf Hs IH. pose proof (uof_in f n Hf) as Hd. pose proof (HOK _ _ _ Hd) as Ok. pose proof (subs_length _ _ _ _ Hs) as L. cbn [enc]. destruct f as [l idx|l i w|l gs].
    + destruct Ok as (_ & _ & []).
    + cbn [sites] in *. inversion Hs as [|? ? ? j ? ds q' E Hs'|]; subst. inversion Hs'; subst. cbn [map enc encfrag flabel]. rewrite Qcmult_1_r. destruct Ok as (Ok1 & Ok2 & ->).
      pose proof (top_prob prefix G done fin HR HN HOK HINJ HD _ _ _ Hd) as TP. cbn [DDopProofs3.ftop flabel] in TP. rewrite <- TP. apply d_lex. exact (top_in prefix G done fin HR _ _ _ Hd).
    + rewrite encfrag_inner by exact Logic.I. apply (up_der prefix G done fin HR HN HOK HINJ HD UN sent _ _ _ _ _ Hd Logic.I).
      rewrite <- (children_fst (Inner l gs) (map enc subs)) by (now rewrite map_length). apply prods_ders.
      eapply prods_perm; [apply sort_perm|]. apply IH. intros l0 i0 w0 H0 j E. exact (term_der _ _ _ _ _ _ _ Hd Logic.I H0 E).
  - intros _. constructor.
  - intros l i w j ls ds q E Hs IH HL. cbn [map enc combine]. rewrite <- (Qcmult_1_l q). apply p_cons; [|apply IH; intros l0 i0 w0 H0; apply (HL l0 i0 w0); now right]. cbn [tagged wlabel]. apply (HL l i w (or_introl eq_refl) j E).
  - intros l idx d ls ds p q Hv IHv Hs IHs HL. cbn [map combine]. apply p_cons; [exact IHv|]. apply IHs. intros l0 i0 w0 H0. apply (HL l0 i0 w0). now right.
Qed.
(** backwards *)
Lemma ders_in : forall ls ds q, Ders ls ds q -> forall d, In d ds -> dsize d <= list_sum (map dsize ds).
Proof.
  intros ls ds q H. induction H as [|l g p ls gs q D Ds IH]; intros d Hd; [destruct Hd|]. cbn [map]. change (list_sum (dsize g :: map dsize gs)) with (dsize g + list_sum (map dsize gs)).
  destruct Hd as [->|Hd]; [lia|]. specialize (IH d Hd). lia.
Qed.
Lemma enc_onto : forall k l g p, dsize g <= k -> oklabel l -> Der l g p -> exists d, Valid l d p /\ enc d = g.
Proof.
  induction k as [|k IH]; intros l g p Sz OL D; [destruct g; cbn in Sz; lia|].
  destruct (up_inv prefix G done fin HR HN HOK HINJ HD UN sent l g p OL D) as [(n & u & i & Hd & -> & ->)|(f & n & u & ds & q & Hd & If & <- & -> & Ds & -> & Lt)].
  - assert (Hf : In (Term l 0 (sent i), n) fs) by (apply in_map_iff; exists (Term l 0 (sent i), n, u); auto). exists (Use (Term l 0 (sent i)) [Word i]). split; [|reflexivity].
    pose proof (v_use fs sent (Term l 0 (sent i)) n [Word i] 1%Qc Hf) as Q. rewrite Qcmult_1_r in Q. apply Q. cbn [sites]. constructor; [reflexivity|constructor].
  - assert (Hf : In (f, n) fs) by (apply in_map_iff; exists (f, n, u); auto). assert (EU : uof f = u) by (destruct (done_inj done HD _ _ _ _ _ Hd (uof_in f n Hf)); auto).
    pose proof (HOK _ _ _ Hd) as Ok. pose proof Ok as (O1 & O2). destruct (ok_sites _ O1) as [OS _]. rewrite Forall_forall in OS.
    (* derivations for the children *)
    assert (X : forall ls ds q, Ders (map wlabel ls) ds q -> (forall c, In c ls -> In c (sites f)) -> (forall d, In d ds -> dsize d <= k) ->
       exists L : list (frag * tsgderiv), map fst L = ls /\ map (fun x => tagged (fst x) (enc (snd x))) L = ds /\ forall l', Permutation L l' -> Subs (map fst l') (map snd l') q).
    { assert (SP : forall L L' : list (frag * tsgderiv), Permutation L L' -> forall q, Subs (map fst L) (map snd L) q -> Subs (map fst L') (map snd L') q).
      { intros L L' P. induction P as [|[c d] L L' P IHP|[c d] [c' d'] L|L1 L2 L3 P1 IH1 P2 IH2]; intros q0 H; auto.
        - cbn [map fst snd] in *. inversion H; subst; constructor; auto.
        - cbn [map fst snd] in *. inversion H as [|? ? ? ? ? ? ? E1 H1|? ? ? ? ? p1 q1 V1 H1]; subst; inversion H1 as [|? ? ? ? ? ? ? E2 H2|? ? ? ? ? p2 q2 V2 H2]; subst.
          + constructor; auto. constructor; auto.
          + constructor; auto. constructor; auto.
          + constructor; auto. constructor; auto.
          + replace (p1 * (p2 * q2))%Qc with (p2 * (p1 * q2))%Qc by ring. constructor; auto. constructor; auto. }
      induction ls as [|c ls IHl]; intros ds0 q0 D0 Hin Hsz; cbn [map] in D0; inversion D0 as [|? g1 p1 ? gs1 q1 D1 D2]; subst.
      - exists []. split; [reflexivity|]. split; [reflexivity|]. intros l' P. apply Permutation_nil in P. subst. constructor.
      - destruct (IHl gs1 q1 D2) as (L & L1 & L2 & L3); [intros; apply Hin; now right|intros; apply Hsz; now right|].
        assert (Hc : In c (sites f)) by (apply Hin; now left). pose proof (OS _ Hc) as OC. destruct c as [lc idx|lc ic wc|]; [| |destruct OC].
        + inversion OC as [? ? OLc _| |]; subst. destruct (IH lc g1 p1 (Hsz _ (or_introl eq_refl)) OLc D1) as (d1 & V1 & <-).
          exists ((Site lc idx, d1) :: L). split; [cbn; reflexivity|]. split; [cbn; reflexivity|]. intros l' P. apply (SP _ _ P). cbn [map fst snd]. constructor; auto.
        + inversion OC as [|? ? ? OLc OWc|]; subst. cbn [wlabel] in D1.
          assert (J : exists j, g1 = DLex (lc ++ str "@" ++ wc) j /\ sent j = wc /\ p1 = 1%Qc).
          { inversion D1 as [? j m I1|? a yf m d' p' I1 I2|? a b yf m da db pa pb I1 I2 I3]; subst.
            - destruct (lex_unique prefix G done fin HR HOK lc wc _ _ OLc OWc I1 eq_refl) as [E ->]. injection E as E. exists j. split; [reflexivity|]. split; [exact E|].
              rewrite E in *. apply (lex_prob prefix G done fin HR HN HOK lc wc OLc OWc I1).
            - destruct (lex_unique prefix G done fin HR HOK lc wc _ _ OLc OWc I1 eq_refl) as [E _]. discriminate.
            - destruct (lex_unique prefix G done fin HR HOK lc wc _ _ OLc OWc I1 eq_refl) as [E _]. discriminate. }
          destruct J as (j & -> & EJ & ->). rewrite Qcmult_1_l. exists ((Term lc ic wc, Word j) :: L). split; [cbn; reflexivity|]. split; [cbn; reflexivity|]. intros l' P. apply (SP _ _ P). cbn [map fst snd]. constructor; auto. }
    destruct (X (ordered f) ds q Ds) as (L & L1 & L2 & L3).
    { intros c Hc. now apply sort_In in Hc. }
    { intros d Hdd. pose proof (ders_in _ _ _ Ds d Hdd). lia. }
    assert (PS : Permutation (sites f) (map fst L)) by (rewrite L1; apply sort_perm). destruct (Permutation_map_inv fst _ PS) as (L' & EL & PL). exists (Use f (map snd L')).
    split.
    + apply v_use; [exact Hf|]. rewrite EL. apply L3. exact PL.
    + cbn [enc]. rewrite encfrag_inner by exact If. rewrite EU. f_equal. rewrite <- L2. unfold children. rewrite EL at 1. rewrite map_map.
      assert (EC : combine (map fst L') (map (fun x => enc (snd x)) L') = map (fun x => (fst x, enc (snd x))) L') by (clear; induction L' as [|[a b] L' IHL]; cbn; [auto|now rewrite IHL]).
      rewrite EC. rewrite (sort_map _ _ (fun x : frag * tsgderiv => (fst x, enc (snd x))) pairle pairle) by reflexivity. rewrite (sort_pairs _ L' L).
      * rewrite map_map. apply map_ext. intros [a b]. reflexivity.
      * rewrite <- EL. now apply okfrag_firsts.
      * now apply Permutation_sym.
      * rewrite <- EL. exact L1.
Qed.
(** the tree *)
Definition valid_tree (d : tsgderiv) : Prop := exists T, raw G B (enc d) = Some T /\ removewordtags T = derived d.
Lemma sequence_some : forall X (l : list (option X)) xs, l = map Some xs -> sequence l = Some xs.
Proof. intros X l xs ->. induction xs as [|x xs IH]; cbn; auto. now rewrite IH. Qed.
Lemma enc_tree : forall l d p, Valid l d p -> valid_tree d.
Proof.
  apply (valid_mut fs sent (fun l d p _ => valid_tree d)
    (fun ls ds q _ => Forall2 (fun c d => match c with Site _ _ => valid_tree d | Term _ _ _ => exists j, d = Word j | Inner _ _ => False end) ls ds)).
  - intros f n subs q Hf Hs IH. pose proof (uof_in f n Hf) as Hd. pose proof (HOK _ _ _ Hd) as Ok. pose proof (subs_length _ _ _ _ Hs) as L. destruct f as [l idx|l i w|l gs].
    + destruct Ok as (_ & _ & []).
    + cbn [sites] in IH. inversion IH as [|? d ? ds HJ IH1]; subst. destruct HJ as (j & ->). inversion IH1; subst. exists (Node l [Leaf j]). split; [reflexivity|]. cbn. destruct Ok as (Ok & _). inversion Ok as [|? ? ? (_ & OL & _) _|]; subst. now rewrite removeword_id.
    + set (f := Inner l gs) in *. assert (If : isInner f) by exact Logic.I. clearbody f. unfold valid_tree. cbn [enc derived]. rewrite encfrag_inner by exact If.
      assert (LE : length (map enc subs) = length (sites f)) by (now rewrite map_length). rewrite (up_raw prefix G B done fin HOK HT f n _ _ Hd If) by (now apply children_length).
      (* the trees of the children, in the order of the sites *)
      assert (X : exists ts, length ts = length (sites f) /\ map (fun x => raw G B (tg x)) (combine (sites f) (map enc subs)) = map Some ts /\
         Forall2 (fun ct u => match fst ct with Site _ _ => removewordtags (snd ct) = u | Term l _ w => exists v, snd ct = Node (l ++ str "@" ++ w) [Leaf v] /\ u = Leaf v | Inner _ _ => False end) (combine (sites f) ts) (map derived subs)).
      { clear - IH. induction IH as [|c d ls ds H H' IH'].
        - exists []. split; [reflexivity|]. split; [reflexivity|constructor].
        - destruct IH' as (ts & T1 & T2 & T3). destruct c as [lc idx|lc ic wc|]; [| |contradiction].
          + destruct H as (T & R1 & R2). exists (T :: ts). split; [cbn; now rewrite T1|]. split; [cbn [map combine]; rewrite T2; f_equal; exact R1|]. cbn [combine map]. constructor; auto.
          + destruct H as (j & ->). exists (Node (lc ++ str "@" ++ wc) [Leaf j] :: ts). split; [cbn; now rewrite T1|]. split; [cbn [map combine]; rewrite T2; f_equal; reflexivity|]. cbn [combine map]. constructor; auto. exists j. auto. }
      destruct X as (ts & T1 & T2 & T3). set (cs := map snd (sort pairle (combine (sites f) ts))).
      assert (Q : map (raw G B) (map tg (children f (map enc subs))) = map Some cs).
      { unfold children, cs. rewrite map_map.
        assert (E2 : map (fun x => (fst x, raw G B (tg x))) (combine (sites f) (map enc subs)) = map (fun x => (fst x, Some (snd x))) (combine (sites f) ts)).
        { clear - T1 T2 LE. revert T2 LE T1. generalize (map enc subs) (sites f). intros ds ls. revert ds ts. induction ls as [|c ls IHl]; intros [|d ds] [|t ts] T2 LE T1; cbn in *; try discriminate; auto. injection T2 as T2 T2'. rewrite T2. f_equal. apply IHl; auto. }
        assert (E3 : forall (A C : Type) (h : frag * A -> C) (M : list (frag * A)), map (fun x => (fst x, h x)) (sort pairle M) = sort pairle (map (fun x => (fst x, h x)) M)) by (intros A C h M; symmetry; apply sort_map; reflexivity).
        pose proof (E3 deriv _ (fun x => raw G B (tg x)) (combine (sites f) (map enc subs))) as E4. pose proof (E3 (tree pystr nat) _ (fun x => Some (snd x)) (combine (sites f) ts)) as E5.
        cbv beta in E4, E5. rewrite E2, <- E5 in E4. apply (f_equal (map snd)) in E4. rewrite !map_map in E4. cbn [snd] in E4. rewrite E4, map_map. reflexivity. }
      rewrite (sequence_some _ _ _ Q). pose proof Ok as (O1 & O2 & _). destruct (ok_sites _ O1) as [OS _]. rewrite Forall_forall in OS.
      destruct (format_graft (ordered f) cs f (map derived subs) [] O1) as (T & E1 & E2).
      { assert (P : forall c t, In (c, t) (combine (sites f) ts) -> nth_error cs (posof c (ordered f)) = Some t).
        { intros c t Hct. assert (Hs' : In (c, t) (sort pairle (combine (sites f) ts))) by (now apply sort_In). apply In_nth_error in Hs'. destruct Hs' as (k & Hk).
          assert (Ek : posof c (ordered f) = k).
          { apply posof_nth.
            - apply Permutation_NoDup with (l := flat_map fidx (sites f)); [apply flat_map_perm, sort_perm|exact O2].
            - intros c' Hc'. apply oksite_idx, OS. now apply sort_In in Hc'.
            - unfold ordered. rewrite <- (combine_fst _ _ (sites f) ts T1) at 1. rewrite <- sort_fst. rewrite nth_error_map, Hk. reflexivity. }
          rewrite Ek. unfold cs. rewrite nth_error_map, Hk. reflexivity. }
        clearbody cs. clear - T3 T1 P. revert T3 P T1. generalize (map derived subs) (sites f). intros us ls. revert us ts. induction ls as [|c ls IHl]; intros us [|t ts] T3 P T1; cbn [combine length] in *; try discriminate; inversion T3 as [|? u ? us' F1 F2]; subst; constructor.
        - exists t. split; [apply P; now left|]. destruct c; auto.
        - apply (IHl _ ts); auto. intros c' t' H'. apply P. now right. }
      exists T. rewrite app_nil_r in E2. rewrite E2. auto.
  - constructor.
  - intros l i w j ls ds q E Hs IH. constructor; eauto.
  - intros l idx d ls ds p q Hv IHv Hs IHs. constructor; auto.
Qed.
(** the positions *)
Lemma flat_map_sorted : forall f gs, flat_map positions (map tg (children f gs)) = flat_map (fun x => positions (tg x)) (children f gs).
Proof. intros. induction (children f gs) as [|x l IH]; cbn; [auto|now rewrite IH]. Qed.
Lemma enc_positions : forall l d p, Valid l d p -> Permutation (positions (enc d)) (leaves (derived d)) /\ ((forall f n, In (f, n) fs -> continuous f) -> positions (enc d) = leaves (derived d)).
Proof.
  set (PP := fun d => Permutation (positions (enc d)) (leaves (derived d)) /\ ((forall f n, In (f, n) fs -> continuous f) -> positions (enc d) = leaves (derived d))).
  apply (valid_mut fs sent (fun l d p _ => PP d)
    (fun ls ds q _ => Forall2 (fun c d => match c with Site _ _ => PP d | Term _ _ _ => exists j, d = Word j | Inner _ _ => False end) ls ds)).
  - intros f n subs q Hf Hs IH. pose proof (uof_in f n Hf) as Hd. pose proof (HOK _ _ _ Hd) as Ok. pose proof (subs_length _ _ _ _ Hs) as L. destruct f as [l idx|l i w|l gs].
    + destruct Ok as (_ & _ & []).
    + cbn [sites] in IH. inversion IH as [|? d ? ds HJ IH1]; subst. destruct HJ as (j & ->). inversion IH1; subst. split; cbn; auto.
    + set (f := Inner l gs) in *. assert (If : isInner f) by exact Logic.I. clearbody f. unfold PP. cbn [enc derived]. rewrite encfrag_inner by exact If.
      assert (LE : length (map enc subs) = length (sites f)) by (now rewrite map_length). rewrite (up_positions prefix fin f _ _ Ok If) by (now apply children_length).
      destruct (graft_leaves f (map derived subs) []) as (T & E & EL); [now rewrite map_length|]. rewrite app_nil_r in E. rewrite E. cbn [fst]. rewrite EL. rewrite flat_map_sorted.
      assert (X : Permutation (flat_map (fun x => positions (tg x)) (combine (sites f) (map enc subs))) (flat_map leaves (map derived subs)) /\
         ((forall f n, In (f, n) fs -> continuous f) -> flat_map (fun x => positions (tg x)) (combine (sites f) (map enc subs)) = flat_map leaves (map derived subs))).
      { clear - IH. induction IH as [|c d ls ds H H' IH']; [split; auto|]. destruct IH' as [I1 I2]. destruct c as [lc idx|lc ic wc|]; [| |contradiction]; cbn [map combine flat_map].
        - destruct H as [H1 H2]. split; [apply Permutation_app; auto|]. intros C. rewrite I2 by exact C. f_equal. exact (H2 C).
        - destruct H as (j & ->). split; [apply Permutation_app; [auto|exact I1]|]. intros C. rewrite I2 by exact C. reflexivity. }
      destruct X as [X1 X2]. split.
      * eapply Permutation_trans; [|exact X1]. apply flat_map_perm. apply Permutation_sym, sort_perm.
      * intros C. rewrite <- X2 by exact C. f_equal. unfold children. apply sorted_sort_id.
        pose proof (C f n Hf) as CF. unfold continuous in CF. assert (SF : map first (sites f) = seq 0 (length (sites f))).
        { assert (EF : map first (sites f) = map (hd 0) (map fidx (sites f))) by (rewrite map_map; reflexivity). rewrite EF, CF, map_map. cbn. apply map_id. }
        assert (SS : forall (ls : list frag) (ds : list deriv) a, map first ls = seq a (length ls) -> StronglySorted (fun x y => pairle x y = true) (combine ls ds)).
        { clear. induction ls as [|c ls IHl]; intros [|d ds] a H; cbn [combine]; [constructor|constructor|constructor|]. cbn in H. injection H as H1 H2. constructor; [apply (IHl ds (S a) H2)|].
          rewrite Forall_forall. intros [c' d'] Hc. apply in_combine_l in Hc. apply (in_map first) in Hc. rewrite H2 in Hc. apply in_seq in Hc. unfold pairle, first_le. cbn [fst]. apply Nat.leb_le. lia. }
        exact (SS (sites f) (map enc subs) 0 SF).
  - constructor.
  - intros l i w j ls ds q E Hs IH. constructor; eauto.
  - intros l idx d ls ds p q Hv IHv Hs IHs. constructor; auto.
Qed.
(** different derivations *)
Lemma enc_inj : forall l d p, Valid l d p -> forall l' d' p', Valid l' d' p' -> enc d = enc d' -> d = d'.
Proof.
  apply (valid_mut fs sent (fun l d p _ => forall l' d' p', Valid l' d' p' -> enc d = enc d' -> d = d')
    (fun ls ds q _ => forall ds' q', Subs ls ds' q' -> map tg (combine ls (map enc ds)) = map tg (combine ls (map enc ds')) -> ds = ds')).
  - intros f n subs q Hf Hs IH l' d' p' Hv E. inversion Hv as [f' n' subs' q' Hf' Hs']; subst. cbn [enc] in E.
    pose proof (uof_in f n Hf) as Hd. pose proof (HOK _ _ _ Hd) as Ok. pose proof (subs_length _ _ _ _ Hs) as L. pose proof (uof_in f' n' Hf') as Hd'. pose proof (HOK _ _ _ Hd') as Ok'. pose proof (subs_length _ _ _ _ Hs') as L'.
    assert (NL : forall f subs, okfrag f -> isInner f -> length subs = length (sites f) -> forall l j, encfrag f (map enc subs) <> DLex l j).
    { intros f0 subs0 O0 I0 L0 l0 j0 E0. rewrite encfrag_inner in E0 by exact I0. destruct (up_shape prefix fin f0 (uof f0) (map tg (children f0 (map enc subs0))) O0 I0) as [(? & ? & ? & ? & ? & _ & _ & _ & _ & E1)|(? & ? & ? & ? & ? & ? & ? & ? & _ & _ & _ & _ & _ & E1)]; [apply children_length; now rewrite map_length| |]; rewrite E1 in E0; discriminate. }
    assert (TE : forall l i w subs q, Subs [Term l i w] subs q -> exists j, subs = [Word j] /\ sent j = w).
    { clear. intros l i w subs q H. inversion H as [|? ? ? j ? ds ? E H'|]; subst. inversion H'; subst. eauto. }
    destruct f as [l0 idx|l0 i0 w0|l0 gs0]; [destruct Ok as (_ & _ & [])| |].
    + destruct f' as [l1 idx|l1 i1 w1|l1 gs1]; [destruct Ok' as (_ & _ & [])| |].
      * cbn [sites] in *. destruct (TE _ _ _ _ _ Hs) as (j & -> & <-). destruct (TE _ _ _ _ _ Hs') as (j' & -> & <-). cbn in E. injection E as -> ->. destruct Ok as (_ & _ & ->). destruct Ok' as (_ & _ & ->). reflexivity.
      * exfalso. cbn [sites] in *. destruct (TE _ _ _ _ _ Hs) as (j & -> & <-). symmetry in E. exact (NL (Inner l1 gs1) subs' Ok' Logic.I L' _ _ E).
    + destruct f' as [l1 idx|l1 i1 w1|l1 gs1]; [destruct Ok' as (_ & _ & [])| |].
      * exfalso. cbn [sites] in *. destruct (TE _ _ _ _ _ Hs') as (j & -> & <-). exact (NL (Inner l0 gs0) subs Ok Logic.I L _ _ E).
      * assert (If : isInner (Inner l0 gs0)) by exact Logic.I. assert (If' : isInner (Inner l1 gs1)) by exact Logic.I. set (f := Inner l0 gs0) in *. set (f' := Inner l1 gs1) in *. clearbody f f'.
        rewrite !encfrag_inner in E by assumption. assert (LE : length (map enc subs) = length (sites f)) by (now rewrite map_length). assert (LE' : length (map enc subs') = length (sites f')) by (now rewrite map_length).
        destruct (up_inj prefix done fin HOK HINJ HD f n _ _ f' n' _ _ Hd Hd' If If' (children_length _ _ LE) (children_length _ _ LE') E) as [<- EC]. f_equal.
        apply (IH subs' q' Hs').
        (* undo the sorting *)
        assert (SM : forall ds, map (fun x => (fst x, tg x)) (children f ds) = sort pairle (map (fun x => (fst x, tg x)) (combine (sites f) ds))) by (intros ds; symmetry; apply sort_map; reflexivity).
        assert (Z : map (fun x => (fst x, tg x)) (children f (map enc subs)) = map (fun x => (fst x, tg x)) (children f (map enc subs'))).
        { rewrite <- (combine_split' _ _ (map (fun x => (fst x, tg x)) (children f (map enc subs)))), <- (combine_split' _ _ (map (fun x => (fst x, tg x)) (children f (map enc subs')))). rewrite !map_map. cbn [fst snd].
          f_equal; [|exact EC]. change (map fst (children f (map enc subs)) = map fst (children f (map enc subs'))). now rewrite !children_fst. }
        rewrite !SM in Z.
        assert (PZ : map (fun x => (fst x, tg x)) (combine (sites f) (map enc subs)) = map (fun x => (fst x, tg x)) (combine (sites f) (map enc subs'))).
        { assert (FZ : forall ds, length ds = length (sites f) -> map fst (map (fun x => (fst x, tg x)) (combine (sites f) ds)) = sites f).
          { intros ds LD. rewrite map_map. cbn [fst]. change (map fst (combine (sites f) ds) = sites f). now apply combine_fst. }
          apply pairs_eq.
          - rewrite FZ by exact LE. exact (nodup_map_nodup _ _ first _ (okfrag_firsts f Ok)).
          - eapply Permutation_trans; [apply sort_perm|]. rewrite Z. apply Permutation_sym, sort_perm.
          - now rewrite !FZ. }
        apply (f_equal (map snd)) in PZ. rewrite !map_map in PZ. exact PZ.
  - intros ds' q' H _. inversion H. reflexivity.
  - intros l i w j ls ds q E Hs IH ds' q' H EQ. inversion H as [|? ? ? j' ? ds1 ? E' H'|]; subst. cbn [map combine] in EQ. injection EQ as EQ1 EQ2. f_equal; [now subst|eauto].
  - intros l idx d ls ds p q Hv IHv Hs IHs ds' q' H EQ. inversion H as [| |? ? d' ? ds1 p1 q1 V1 H1]; subst. cbn [map combine] in EQ. injection EQ as EQ1 EQ2. f_equal; [|eauto]. apply (IHv l d' p1 V1). exact EQ1.
Qed.
End Sent.
End Grammar.
