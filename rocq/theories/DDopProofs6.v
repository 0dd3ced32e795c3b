(** C64, part 6: a fragment as a chain of rules. *)
From Coq Require Import String.
From Coq Require Import List Bool Arith NArith ZArith QArith Qcanon Lia Permutation Sorted.
From Verif Require Import PyStr TreeModel BracketModel BinarizeModel TransformModel SortProofs LcfrsModel LcfrsProps TreebankModel DopModel DopProofs DDopModel DDopSpec DDopProofs DDopProofs2 DDopProofs3 DDopProofs4 DDopProofs5.
Import ListNotations.
Open Scope nat_scope.
Open Scope list_scope.

(** * applying a chain of rules *)
Fixpoint build (g0 : deriv) (rs : list rule) (gs : list deriv) : deriv :=
  match rs with
  | [] => g0
  | r :: rs => match fst r, gs with
    | [_; _], _ => build (DUn r g0) rs gs
    | _, g :: gs => build (DBin r g0 g) rs gs
    | _, [] => g0
    end
  end.
Notation rls ps := (map astuple ps).
Lemma build_un : forall g0 nl pl yf ps gs, build g0 (rls (Phrasal nl [pl] yf :: ps)) gs = build (DUn ([nl; pl], PYf yf) g0) (rls ps) gs.
Proof. reflexivity. Qed.
Lemma build_bin : forall g0 nl pl c yf ps g gs, build g0 (rls (Phrasal nl [pl; c] yf :: ps)) (g :: gs) = build (DBin ([nl; pl; c], PYf yf) g0 g) (rls ps) gs.
Proof. reflexivity. Qed.
Fixpoint dsize (d : deriv) : nat := match d with DLex _ _ => 1 | DUn _ d => S (dsize d) | DBin _ d1 d2 => S (dsize d1 + dsize d2) end.
Lemma build_size : forall pl aux ls l, Chain pl aux ls l -> forall g0 gs, length gs = length ls -> dsize (build g0 (rls aux) gs) = dsize g0 + list_sum (map dsize gs) + length aux.
Proof.
  intros pl aux ls l C. induction C as [pl|pl nl yf aux ls l C IH|pl nl yf aux c ls l C IH]; intros g0 gs L.
  - destruct gs; [cbn; lia|discriminate].
  - rewrite build_un, IH by exact L. cbn [dsize length]. lia.
  - destruct gs as [|g gs]; [discriminate|]. rewrite build_bin, IH by (cbn in L; lia). cbn [dsize length map]. change (list_sum (dsize g :: map dsize gs)) with (dsize g + list_sum (map dsize gs)). lia.
Qed.
Lemma build_positions : forall pl aux ls l, Chain pl aux ls l -> forall g0 gs, length gs = length ls -> positions (build g0 (rls aux) gs) = positions g0 ++ flat_map positions gs.
Proof.
  intros pl aux ls l C. induction C as [pl|pl nl yf aux ls l C IH|pl nl yf aux c ls l C IH]; intros g0 gs L.
  - destruct gs; [cbn; now rewrite app_nil_r|discriminate].
  - rewrite build_un, IH by exact L. reflexivity.
  - destruct gs as [|g gs]; [discriminate|]. rewrite build_bin, IH by (cbn in L; lia). cbn [positions flat_map]. now rewrite app_assoc.
Qed.
Lemma build_inj : forall pl aux ls l, Chain pl aux ls l -> forall g0 gs g0' gs', length gs = length ls -> length gs' = length ls -> build g0 (rls aux) gs = build g0' (rls aux) gs' -> g0 = g0' /\ gs = gs'.
Proof.
  intros pl aux ls l C. induction C as [pl|pl nl yf aux ls l C IH|pl nl yf aux c ls l C IH]; intros g0 gs g0' gs' L L' E.
  - destruct gs, gs'; try discriminate. auto.
  - rewrite !build_un in E. apply IH in E; auto. destruct E as [E ->]. injection E as ->. auto.
  - destruct gs as [|g gs], gs' as [|g' gs']; try discriminate. rewrite !build_bin in E. apply IH in E; [|cbn in L; lia|cbn in L'; lia]. destruct E as [E ->]. injection E as -> ->. auto.
Qed.
Lemma build_app : forall pl aux ls l, Chain pl aux ls l -> forall g0 gs rs gs', length gs = length ls -> build g0 (rls aux ++ rs) (gs ++ gs') = build (build g0 (rls aux) gs) rs gs'.
Proof.
  intros pl aux ls l C. induction C as [pl|pl nl yf aux ls l C IH|pl nl yf aux c ls l C IH]; intros g0 gs rs gs' L.
  - destruct gs; [reflexivity|discriminate].
  - change (build g0 (rls (Phrasal nl [pl] yf :: aux) ++ rs) (gs ++ gs')) with (build (DUn ([nl; pl], PYf yf) g0) (rls aux ++ rs) (gs ++ gs')). rewrite IH by exact L. reflexivity.
  - destruct gs as [|g gs]; [discriminate|]. change (build g0 (rls (Phrasal nl [pl; c] yf :: aux) ++ rs) ((g :: gs) ++ gs')) with (build (DBin ([nl; pl; c], PYf yf) g0 g) (rls aux ++ rs) (gs ++ gs')).
    rewrite IH by (cbn in L; lia). reflexivity.
Qed.

(** * derivations of a chain *)
Section Der.
Variable G : list (rule * N).
Variable sent : nat -> pystr.
Notation Der := (Der G sent). Notation ruleprob := (ruleprob G).
Inductive Ders : list pystr -> list deriv -> Qc -> Prop :=
| ds_nil : Ders [] [] 1%Qc
| ds_cons : forall l g p ls gs q, Der l g p -> Ders ls gs q -> Ders (l :: ls) (g :: gs) (p * q)%Qc.
Lemma ders_length : forall ls gs q, Ders ls gs q -> length gs = length ls.
Proof. intros ls gs q H. induction H; cbn; auto. Qed.
Lemma chain_der : forall pl aux ls l, Chain pl aux ls l -> (forall p, In p aux -> In (astuple p, 1%N) G /\ ruleprob (astuple p) 1%N = 1%Qc) ->
  forall g0 gs p0 q, Der pl g0 p0 -> Ders ls gs q -> Der l (build g0 (rls aux) gs) (p0 * q)%Qc.
Proof.
  intros pl aux ls l C. induction C as [pl|pl nl yf aux ls l C IH|pl nl yf aux c ls l C IH]; intros H g0 gs p0 q D0 Ds.
  - inversion Ds; subst. cbn. now rewrite Qcmult_1_r.
  - rewrite build_un. apply IH; [intros p Hp; apply H; now right| |exact Ds]. destruct (H _ (or_introl eq_refl)) as [H1 H2]. cbn [astuple] in H1, H2.
    pose proof (d_un G sent nl pl yf 1%N g0 p0 H1 D0) as Q. rewrite H2, Qcmult_1_l in Q. exact Q.
  - inversion Ds as [|? g p ? gs' q' Dg Dgs]; subst. rewrite build_bin. rewrite Qcmult_assoc. apply IH; [intros p1 Hp; apply H; now right| |exact Dgs]. destruct (H _ (or_introl eq_refl)) as [H1 H2]. cbn [astuple] in H1, H2.
    pose proof (d_bin G sent nl pl c yf 1%N g0 g p0 p H1 D0 Dg) as Q. rewrite H2, Qcmult_1_l in Q. exact Q.
Qed.
Lemma chain_inv : forall pl aux ls l, Chain pl aux ls l -> (forall p, In p aux -> ruleprob (astuple p) 1%N = 1%Qc /\ forall r n, In (r, n) G -> lhs r = plhs p -> r = astuple p /\ n = 1%N) ->
  forall g p, Der l g p -> exists g0 gs p0 q, g = build g0 (rls aux) gs /\ Der pl g0 p0 /\ Ders ls gs q /\ p = (p0 * q)%Qc.
Proof.
  intros pl aux ls l C. induction C as [pl|pl nl yf aux ls l C IH|pl nl yf aux c ls l C IH]; intros H g p D.
  - exists g, [], p, 1%Qc. split; [reflexivity|]. split; [exact D|]. split; [constructor|]. now rewrite Qcmult_1_r.
  - destruct (IH (fun p Hp => H p (or_intror Hp)) g p D) as (g1 & gs & p1 & q & -> & D1 & Ds & ->). destruct (H _ (or_introl eq_refl)) as [H1 H2]. cbn [plhs astuple] in *.
    inversion D1 as [? ? n I1|? a ? n d' p' I1 I2|? a b ? n d1 d2 p1' p2' I1 I2 I3]; subst.
    + destruct (H2 _ _ I1 eq_refl) as [E _]. discriminate.
    + destruct (H2 _ _ I1 eq_refl) as [E ->]. injection E as -> ->. exists d', gs, p', q. rewrite H1, Qcmult_1_l. auto.
    + destruct (H2 _ _ I1 eq_refl) as [E _]. discriminate.
  - destruct (IH (fun p Hp => H p (or_intror Hp)) g p D) as (g1 & gs & p1 & q & -> & D1 & Ds & ->). destruct (H _ (or_introl eq_refl)) as [H1 H2]. cbn [plhs astuple] in *.
    inversion D1 as [? ? n I1|? a ? n d' p' I1 I2|? a b ? n d1 d2 p1' p2' I1 I2 I3]; subst.
    + destruct (H2 _ _ I1 eq_refl) as [E _]. discriminate.
    + destruct (H2 _ _ I1 eq_refl) as [E _]. discriminate.
    + destruct (H2 _ _ I1 eq_refl) as [E ->]. injection E as -> -> ->. exists d1, (d2 :: gs), p1', (p2' * q)%Qc. rewrite H1, Qcmult_1_l, Qcmult_assoc. split; [reflexivity|]. split; [exact I2|]. split; [now constructor|reflexivity].
Qed.
End Der.

(** * the children that are recovered from a chain *)
Section Walk.
Variable G : list (rule * N).
Variable B : list template.
Notation recover_ := (recover_ G B).
Definition raw (g : deriv) : option (tree pystr nat) := fst (fst (recover_ g)).
Definition walked (l : pystr) (g : deriv) : list (option (tree pystr nat)) := if auxlabel l then snd (fst (recover_ g)) else [raw g].
Lemma chain_walk : forall pl aux ls l, Chain pl aux ls l -> (forall p, In p aux -> auxlabel (plhs p) = true) ->
  forall g0 gs, length gs = length ls -> walked l (build g0 (rls aux) gs) = walked pl g0 ++ map raw gs.
Proof.
  intros pl aux ls l C. induction C as [pl|pl nl yf aux ls l C IH|pl nl yf aux c ls l C IH]; intros H g0 gs L.
  - destruct gs; [cbn; now rewrite app_nil_r|discriminate].
  - rewrite build_un, IH by (try exact L; intros p Hp; apply H; now right). f_equal. pose proof (H _ (or_introl eq_refl)) as A. cbn [plhs] in A. unfold walked. rewrite A. cbn [DDopModel.recover_]. unfold raw.
    destruct (recover_ g0) as [[t w] f]. cbn. reflexivity.
  - destruct gs as [|g gs]; [discriminate|]. rewrite build_bin, IH by (try (cbn in L; lia); intros p Hp; apply H; now right). cbn [map]. change (raw g :: map raw gs) with ([raw g] ++ map raw gs). rewrite app_assoc. f_equal.
    pose proof (H _ (or_introl eq_refl)) as A. cbn [plhs] in A. unfold walked. rewrite A. cbn [DDopModel.recover_]. unfold raw.
    destruct (recover_ g0) as [[t w] f], (recover_ g) as [[t' w'] f']. cbn. reflexivity.
Qed.
End Walk.
