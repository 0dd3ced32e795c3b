(** Proofs for C47 (2): newtreedist *)
From Coq Require Import List Bool Arith NArith Lia.
From Verif Require Import PyStr TedModel TedSpec TedProofs.
Import ListNotations.
Open Scope list_scope.
Open Scope nat_scope.

Section Ind.
Variable P : ltree -> Prop.
Hypothesis H : forall l ts, Forall P ts -> P (T l ts).
Fixpoint ltree_ind' (t : ltree) : P t :=
  match t with T l ts => H l ts ((fix go (ts : list ltree) : Forall P ts := match ts with [] => Forall_nil P | t :: r => Forall_cons t (ltree_ind' t) (go r) end) ts) end.
End Ind.
Lemma teqb_eq : forall s t, teqb s t = true -> s = t.
Proof.
  induction s as [l ss IH] using ltree_ind'. intros [m ts] E. cbn in E. apply andb_true_iff in E. destruct E as [E1 E2]. apply eqs_eq in E1. subst m. f_equal. revert ts E2. induction IH as [|s ss Hs HR IHR]; intros [|t ts] E; try discriminate; auto. apply andb_true_iff in E. destruct E as [E1 E2]. f_equal; auto.
Qed.
Lemma feqb_eq : forall f g, feqb f g = true -> f = g.
Proof. induction f as [|s f IH]; intros [|t g] E; try discriminate; auto. cbn in E. apply andb_true_iff in E. destruct E as [E1 E2]. f_equal; auto. now apply teqb_eq. Qed.

Definition dels (s : list op) : list ltree := flat_map (fun o => match o with Del t => [t] | _ => [] end) s.
Definition inss (s : list op) : list ltree := flat_map (fun o => match o with Ins t => [t] | _ => [] end) s.
Definition swaps (s : list op) : list (ltree * ltree) := flat_map (fun o => match o with Swap t u => [(t, u)] | _ => [] end) s.
(** the statistics for a pair of forests *)
Definition good (f g : list ltree) (s : stats) : Prop :=
  least f g (distance s) /\ length (editscript s) = distance s /\
  fsize f = matched s + length (swaps (editscript s)) + length (dels (editscript s)) /\
  fsize g = matched s + length (swaps (editscript s)) + length (inss (editscript s)) /\
  (forall t u, In (t, u) (swaps (editscript s)) -> label t <> label u).
Definition memo_ok (m : memo) : Prop := forall f g s, In (f, g, s) m -> good f g s.
Lemma mget_ok : forall m f g s, memo_ok m -> mget m f g = Some s -> good f g s.
Proof.
  induction m as [|[[f' g'] s'] m IH]; intros f g s M E; [discriminate|]. cbn in E. destruct (feqb f f' && feqb g g') eqn:Q.
  - injection E as <-. apply andb_true_iff in Q. destruct Q as [Q1 Q2]. apply feqb_eq in Q1, Q2. subst. apply M. now left.
  - apply IH; auto. intros a b c H. apply M. now right.
Qed.
Lemma good_nil : good [] [] (Stats 0 0 []).
Proof. split; [apply least_nil|]. cbn. repeat split; auto. Qed.
Lemma good_del : forall i n t, good (flat i n) [] t -> good (i ++ [n]) [] (Stats (distance t + 1) (matched t) (Del n :: editscript t)).
Proof.
  intros i n t (A & B & C & D & E). unfold flat in *. split; [now apply least_del|]. unfold swaps, dels, inss in *. cbn [distance matched editscript flat_map app length]. rewrite fsize_app in *. rewrite fsize_one. repeat split; auto; lia.
Qed.
Lemma good_ins : forall i n t, good [] (flat i n) t -> good [] (i ++ [n]) (Stats (distance t + 1) (matched t) (Ins n :: editscript t)).
Proof.
  intros i n t (A & B & C & D & E). unfold flat in *. split; [now apply least_ins|]. unfold swaps, dels, inss in *. cbn [distance matched editscript flat_map app length]. rewrite fsize_app in *. rewrite fsize_one. repeat split; auto; lia.
Qed.
Lemma minstats_min : forall a b, distance (minstats a b) = Nat.min (distance a) (distance b) /\ (minstats a b = a \/ minstats a b = b).
Proof. intros a b. unfold minstats. destruct (Nat.ltb_spec (distance b) (distance a)); split; auto; lia. Qed.
Lemma good_both : forall i1 i2 n1 n2 t1 t2 t3 t4, good (flat i1 n1) (i2 ++ [n2]) t1 -> good (i1 ++ [n1]) (flat i2 n2) t2 -> good (kids n1) (kids n2) t3 -> good i1 i2 t4 ->
  good (i1 ++ [n1]) (i2 ++ [n2])
    (minstats (minstats (Stats (distance t1 + 1) (matched t1) (Del n1 :: editscript t1)) (Stats (distance t2 + 1) (matched t2) (Ins n2 :: editscript t2)))
       (if eqs (label n1) (label n2) then Stats (distance (addstats t3 t4)) (matched (addstats t3 t4) + 1) (editscript (addstats t3 t4))
        else Stats (distance (addstats t3 t4) + 1) (matched (addstats t3 t4)) (Swap n1 n2 :: editscript (addstats t3 t4)))).
Proof.
  intros i1 i2 n1 n2 t1 t2 t3 t4 (A1 & B1 & C1 & D1 & E1) (A2 & B2 & C2 & D2 & E2) (A3 & B3 & C3 & D3 & E3) (A4 & B4 & C4 & D4 & E4). unfold flat in *.
  match goal with |- good _ _ (minstats (minstats ?a ?b) ?c) => set (d := a); set (i := b); set (s := c) end.
  destruct (minstats_min d i) as [M1 M2]. destruct (minstats_min (minstats d i) s) as [M3 M4].
  assert (DS : distance s = distance t3 + distance t4 + strdist (label n1) (label n2)) by (subst s; unfold strdist; destruct (eqs _ _); cbn; lia).
  split; [rewrite M3, M1, DS; now apply least_both|].
  assert (G : forall x, x = d \/ x = i \/ x = s -> length (editscript x) = distance x /\ fsize (i1 ++ [n1]) = matched x + length (swaps (editscript x)) + length (dels (editscript x)) /\ fsize (i2 ++ [n2]) = matched x + length (swaps (editscript x)) + length (inss (editscript x)) /\ (forall t u, In (t, u) (swaps (editscript x)) -> label t <> label u)).
  { rewrite !fsize_app, !fsize_one in *. intros x [->|[->| ->]].
    - subst d. unfold swaps, dels, inss in *. cbn [distance matched editscript flat_map app length]. repeat split; auto; lia.
    - subst i. unfold swaps, dels, inss in *. cbn [distance matched editscript flat_map app length]. repeat split; auto; lia.
    - assert (FA : forall X (f : op -> list X), length (flat_map f (editscript t3 ++ editscript t4)) = length (flat_map f (editscript t3)) + length (flat_map f (editscript t4))) by (intros; rewrite flat_map_app; apply app_length).
      subst s. unfold swaps, dels, inss in *. destruct (eqs (label n1) (label n2)) eqn:Q; cbn [addstats distance matched editscript flat_map app length].
      + rewrite app_length, !FA. repeat split; try lia. intros t u H. rewrite flat_map_app in H. apply in_app_or in H. destruct H; auto.
      + rewrite app_length, !FA. repeat split; try lia. intros t u [H|H]; [injection H as <- <-; now apply eqs_neq|]. rewrite flat_map_app in H. apply in_app_or in H. destruct H; auto. }
  apply G. destruct M4 as [->|M4]; auto. tauto.
Qed.
Lemma memo_cons : forall m f g s, memo_ok m -> good f g s -> memo_ok ((f, g, s) :: m).
Proof. intros m f g s M G f' g' s' [E|H]; [injection E as <- <- <-; auto|auto]. Qed.
Lemma geteditstats_ok : forall fuel f g m, fsize f + fsize g < fuel -> memo_ok m -> exists s m', geteditstats fuel f g m = Some (s, m') /\ good f g s /\ memo_ok m'.
Proof.
  induction fuel as [|fu IH]; intros f g m L M; [lia|]. cbn [geteditstats]. destruct (mget m f g) as [r|] eqn:MG; [exists r, m; split; auto; split; auto; eapply mget_ok; eauto|].
  destruct (splitlast f) as [[i1 n1]|] eqn:S1; [apply splitlast_some in S1|apply splitlast_none in S1]; (destruct (splitlast g) as [[i2 n2]|] eqn:S2; [apply splitlast_some in S2|apply splitlast_none in S2]); subst f g.
  - assert (Z : forall i n, fsize (flat i n) < fsize (i ++ [n])) by (intros; unfold flat; rewrite !fsize_app, fsize_one; lia). assert (Z1 := Z i1 n1). assert (Z2 := Z i2 n2).
    destruct (IH (flat i1 n1) (i2 ++ [n2]) m) as (t1 & m1 & -> & G1 & M1); auto; [lia|]. destruct (IH (i1 ++ [n1]) (flat i2 n2) m1) as (t2 & m2 & -> & G2 & M2); auto; [lia|].
    rewrite !fsize_app, !fsize_one in L. destruct (IH (kids n1) (kids n2) m2) as (t3 & m3 & -> & G3 & M3); auto; [lia|]. destruct (IH i1 i2 m3) as (t4 & m4 & -> & G4 & M4); auto; [lia|].
    assert (G := good_both _ _ _ _ _ _ _ _ G1 G2 G3 G4). do 2 eexists. split; [reflexivity|]. split; [exact G|now apply memo_cons].
  - rewrite fsize_app, fsize_one in L. destruct (IH (flat i1 n1) [] m) as (t & m' & -> & G & M'); auto; [unfold flat; rewrite fsize_app; lia|]. apply good_del in G. do 2 eexists. split; [reflexivity|]. split; [exact G|now apply memo_cons].
  - rewrite fsize_app, fsize_one in L. destruct (IH [] (flat i2 n2) m) as (t & m' & -> & G & M'); auto; [unfold flat; rewrite fsize_app; lia|]. apply good_ins in G. do 2 eexists. split; [reflexivity|]. split; [exact G|now apply memo_cons].
  - do 2 eexists. split; [reflexivity|]. split; [apply good_nil|]. apply memo_cons; auto. apply good_nil.
Qed.
