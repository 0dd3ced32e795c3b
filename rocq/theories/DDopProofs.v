(** C64, part 1: the productions that flatten returns. *)
From Coq Require Import String.
From Coq Require Import List Bool Arith NArith Lia Permutation Sorted.
From Verif Require Import PyStr TreeModel BracketModel BinarizeModel TransformModel SortProofs LcfrsModel TreeProps LcfrsProps TreebankModel DopModel DDopModel DDopSpec.
Import ListNotations.
Open Scope list_scope.

Lemma leaves_fnode : forall c, leaves (fnode c) = fidx c.
Proof. intros c. unfold fnode. cbn [leaves]. induction (fidx c) as [|a l IH]; cbn; [auto|now rewrite IH]. Qed.
Lemma pre_fnode : forall c, pre (fnode c) = [fnode c].
Proof. intros c. unfold fnode. cbn [pre]. f_equal. induction (fidx c) as [|a l IH]; cbn; auto. Qed.
(** yield functions depend on the leaves only *)
Definition bare (l : list nat) : tree pystr nat := Node [] (map Leaf l).
Lemma leaves_bare : forall l, leaves (bare l) = l.
Proof. intros l. unfold bare. cbn [leaves]. induction l as [|a l IH]; cbn; [auto|now rewrite IH]. Qed.
Definition yfs (ls : list (list nat)) : list (list nat) := match yieldfunction (map bare ls) with Some yf => yf | None => [] end.
Lemma yieldfunction_leaves : forall ts, flat_map leaves ts <> [] -> yieldfunction ts = Some (yfs (map leaves ts)).
Proof.
  intros ts H. assert (E : indexed ts = indexed (map bare (map leaves ts))).
  { unfold indexed. generalize 0. clear. induction ts as [|t ts IH]; intros n; auto. cbn [map enumerate flat_map fst snd]. rewrite leaves_bare. f_equal. apply IH. }
  assert (E' : yieldfunction ts = yieldfunction (map bare (map leaves ts))) by (unfold yieldfunction; now rewrite E).
  destruct (yieldfunction_some ts H) as [yf Y]. unfold yfs. rewrite <- E', Y. reflexivity.
Qed.
Lemma production_phrasal : forall sent l t ts, forallb is_node (t :: ts) = true -> flat_map leaves (t :: ts) <> [] ->
  production false sent (Node l (t :: ts)) = SRule (Phrasal l (map (fun c => match c with Node l _ => l | Leaf _ => [] end) (t :: ts)) (yfs (map leaves (t :: ts)))).
Proof.
  intros sent l t ts F H. destruct t as [a|m us]; [discriminate|]. cbn [production]. rewrite F, (yieldfunction_leaves _ H). reflexivity.
Qed.
Definition oksite (c : frag) : Prop := match c with Inner _ _ => False | _ => oknode c end.
Lemma oksite_idx : forall c, oksite c -> fidx c <> [].
Proof. intros [l idx|l i w|l fs] H; cbn in *; [inversion H; auto|discriminate|contradiction]. Qed.
(** the production of a frontier node or terminal *)
Definition lexs (c : frag) : list prod := match c with Term _ _ w => [Lexical (wlabel c) w] | _ => [] end.
Definition leafres (c : frag) : sres := match c with Term _ _ w => SRule (Lexical (wlabel c) w) | _ => SSkip end.
Lemma production_leaf : forall ls c, NoDup (flat_map fidx ls) -> In c ls -> oksite c -> production false (fsent ls) (fnode c) = leafres c.
Proof.
  intros ls c ND Hc Ok.
  assert (W : forall a, In a (fidx c) -> nth_error (fsent ls) a = Some (fword c)).
  { intros a Ha. unfold fsent. assert (L : a < S (list_max (flat_map fidx ls))).
    { assert (Hin : In a (flat_map fidx ls)) by (apply in_flat_map; eauto). pose proof (proj1 (list_max_le (flat_map fidx ls) _) (le_n _)) as Q. rewrite Forall_forall in Q. specialize (Q a Hin). lia. }
    erewrite map_nth_error; [|rewrite (nth_error_nth' _ 0) by (rewrite seq_length; lia); rewrite seq_nth by lia; reflexivity]. cbn [Nat.add]. f_equal.
    assert (F : find (fun f => existsb (Nat.eqb a) (fidx f)) ls = Some c); [|now rewrite F].
    clear L Ok. induction ls as [|x ls IH]; [destruct Hc|]. cbn [find flat_map] in *. assert (ND2 : NoDup (flat_map fidx ls)) by (revert ND; generalize (fidx x); intros u; induction u as [|y u IHu]; intros N; [exact N|inversion N; auto]).
    destruct (existsb (Nat.eqb a) (fidx x)) eqn:E.
    - apply existsb_exists in E. destruct E as (b & Hb & E). apply Nat.eqb_eq in E. subst b. destruct Hc as [->|Hc]; auto. exfalso.
      assert (D : forall (u v : list nat), NoDup (u ++ v) -> forall z, In z u -> In z v -> False).
      { clear. induction u as [|y u IH]; intros v N z Hz Hv; [destruct Hz|]. inversion N as [|? ? N1 N2]; subst. destruct Hz as [<-|Hz]; [apply N1; apply in_or_app; now right|eauto]. }
      apply (D _ _ ND a Hb). apply in_flat_map. eauto.
    - destruct Hc as [->|Hc]; [|auto]. exfalso. assert (X : existsb (Nat.eqb a) (fidx c) = true) by (apply existsb_exists; exists a; split; [exact Ha|apply Nat.eqb_refl]). congruence. }
  destruct c as [l idx|l i w|l fs]; cbn in Ok; [| |contradiction].
  - inversion Ok as [? ? O1 O2| |]; subst. unfold fnode. cbn [fidx wlabel flabel]. cbn [fidx fword] in W. destruct idx as [|a r]; [congruence|]. cbn [map production].
    rewrite (W a (or_introl eq_refl)). destruct r; reflexivity.
  - inversion Ok as [|? ? ? O1 (W1 & W2 & W3)|]; subst. unfold fnode. cbn [fidx map production]. rewrite (W i (or_introl eq_refl)). cbn [fword]. rewrite W2. reflexivity.
Qed.
Lemma collect_app : forall a b ps, collect (map SRule ps ++ a ++ b) = match collect a, collect b with PRules x, PRules y => PRules (ps ++ x ++ y) | _, _ => PError end.
Proof.
  intros a b. induction ps as [|p ps IH]; cbn [map app collect].
  - induction a as [|r a IH]; cbn [app collect]; [destruct (collect b); reflexivity|]. destruct r; auto. rewrite IH. destruct (collect a), (collect b); reflexivity.
  - rewrite IH. destruct (collect a), (collect b); reflexivity.
Qed.
Lemma collect_leaves : forall ls, collect (map leafres ls) = PRules (flat_map lexs ls).
Proof. induction ls as [|c ls IH]; auto. cbn [map collect flat_map]. rewrite IH. destruct c; reflexivity. Qed.

Section Prefix.
Variable prefix : pystr.
Notation newlabel := (newlabel prefix). Notation fcleft := (fcleft prefix). Notation factorids := (factorids prefix). Notation artificial := (artificial prefix). Notation flatten := (flatten prefix).
(** the rules for the binarized nodes, bottom up, and the rule for the root *)
Fixpoint links (label : pystr) (before : list pystr) (pl : pystr) (pv : list nat) (c : frag) (rest : list frag) (s : ids) : list prod * prod * ids :=
  match rest with
  | [] => ([], Phrasal label [pl; wlabel c] (yfs [pv; fidx c]), s)
  | c' :: more =>
      let '(id, s) := match more with [] => nextid s | _ => getid (join (str ",") (before ++ [wlabel c]) ++ getyf pv (fidx c)) s end in
      let nl := newlabel label id (fomark (fanoutof (pv ++ fidx c))) in
      let '(aux, top, s) := links label (before ++ [wlabel c]) nl (pv ++ fidx c) c' more s in
      (Phrasal nl [pl; wlabel c] (yfs [pv; fidx c]) :: aux, top, s)
  end.
Lemma links_eq : forall label before pl pv c c' more s, links label before pl pv c (c' :: more) s =
  (let '(id, s) := match more with [] => nextid s | _ => getid (join (str ",") (before ++ [wlabel c]) ++ getyf pv (fidx c)) s end in
      let nl := newlabel label id (fomark (fanoutof (pv ++ fidx c))) in
      let '(aux, top, s) := links label (before ++ [wlabel c]) nl (pv ++ fidx c) c' more s in
      (Phrasal nl [pl; wlabel c] (yfs [pv; fidx c]) :: aux, top, s)).
Proof. reflexivity. Qed.
Lemma fcleft_eq : forall label before prev c c' more s, fcleft label before prev (c :: c' :: more) s =
  (let '(id, s) := match more with [] => nextid s | _ => getid (join (str ",") (before ++ [match c with Node l _ => l | Leaf _ => [] end]) ++ getyf (leaves prev) (leaves c)) s end in
   fcleft label (before ++ [match c with Node l _ => l | Leaf _ => [] end]) (Node (newlabel label id (fomark (fanoutof (leaves prev ++ leaves c)))) [prev; c]) (c' :: more) s).
Proof. reflexivity. Qed.
Lemma fcleft_links : forall rest label before pl ts c s sent, leaves (Node pl ts) <> [] ->
  let '(t, s1) := fcleft label before (Node pl ts) (fnode c :: map fnode rest) s in
  let '(aux, top, s2) := links label before pl (leaves (Node pl ts)) c rest s in
  s1 = s2 /\ leaves t = leaves (Node pl ts) ++ flat_map fidx (c :: rest) /\ (exists us, t = Node label us) /\
  map (production false sent) (pre t) = map SRule (top :: rev aux) ++ map (production false sent) (pre (Node pl ts)) ++ map (production false sent) (map fnode (c :: rest)).
Proof.
  induction rest as [|c' more IH]; intros label before pl ts c s sent NE.
  - cbn [map DDopModel.fcleft links]. split; auto. split; [|split; [eauto|]].
    + change (leaves (Node label [Node pl ts; fnode c])) with (leaves (Node pl ts) ++ leaves (fnode c) ++ []). rewrite leaves_fnode. cbn [flat_map]. reflexivity.
    + change (pre (Node label [Node pl ts; fnode c])) with (Node label [Node pl ts; fnode c] :: pre (Node pl ts) ++ pre (fnode c) ++ []). rewrite pre_fnode. cbn [map rev app]. f_equal.
      * rewrite production_phrasal; [cbn [map]; rewrite leaves_fnode; reflexivity|reflexivity|]. cbn [flat_map]. intros E. apply app_eq_nil in E. now destruct E.
      * rewrite map_app. reflexivity.
  - change (map fnode (c' :: more)) with (fnode c' :: map fnode more). rewrite fcleft_eq, links_eq. cbv zeta.
    change (match fnode c with Leaf _ => [] | Node l _ => l end) with (wlabel c). rewrite leaves_fnode.
    assert (M : forall X (a b : X), match map fnode more with [] => a | _ :: _ => b end = match more with [] => a | _ :: _ => b end) by (destruct more; reflexivity).
    rewrite M. destruct (match more with [] => nextid s | _ :: _ => getid (join (str ",") (before ++ [wlabel c]) ++ getyf (leaves (Node pl ts)) (fidx c)) s end) as [id s'].
    set (nl := newlabel label id (fomark (fanoutof (leaves (Node pl ts) ++ fidx c)))).
    assert (EL : leaves (Node nl [Node pl ts; fnode c]) = leaves (Node pl ts) ++ fidx c).
    { change (leaves (Node nl [Node pl ts; fnode c])) with (leaves (Node pl ts) ++ leaves (fnode c) ++ []). now rewrite leaves_fnode, app_nil_r. }
    specialize (IH label (before ++ [wlabel c]) nl [Node pl ts; fnode c] c' s' sent). rewrite EL in IH.
    assert (NE2 : leaves (Node pl ts) ++ fidx c <> []) by (intros E; apply app_eq_nil in E; now destruct E). specialize (IH NE2).
    destruct (fcleft label (before ++ [wlabel c]) (Node nl [Node pl ts; fnode c]) (fnode c' :: map fnode more) s') as [t s1].
    destruct (links label (before ++ [wlabel c]) nl (leaves (Node pl ts) ++ fidx c) c' more s') as [[aux top] s2]. destruct IH as (I1 & I2 & I3 & I4).
    split; auto. split; [rewrite I2; cbn [flat_map]; now rewrite <- app_assoc|]. split; auto. rewrite I4.
    change (pre (Node nl [Node pl ts; fnode c])) with (Node nl [Node pl ts; fnode c] :: pre (Node pl ts) ++ pre (fnode c) ++ []). rewrite pre_fnode.
    cbn [rev]. change (top :: rev aux ++ [Phrasal nl [pl; wlabel c] (yfs [leaves (Node pl ts); fidx c])]) with ((top :: rev aux) ++ [Phrasal nl [pl; wlabel c] (yfs [leaves (Node pl ts); fidx c])]).
    rewrite (map_app SRule), <- app_assoc. f_equal. cbn [map app]. f_equal.
    + rewrite production_phrasal; [cbn [map]; rewrite leaves_fnode; reflexivity|reflexivity|]. cbn [flat_map]. intros E. apply app_eq_nil in E. now destruct E.
    + rewrite map_app. cbn [map app]. now rewrite <- app_assoc.
Qed.
(** all the rules of a fragment with at least one child: the rules of the
    binarized nodes, bottom up, and the rule of the root *)
Definition frules (label : pystr) (order : list frag) (s : ids) : list prod * prod * ids :=
  let art (rest : list pystr) (yf : list (list nat)) (c0 : frag) :=
    let '(id, s) := nextid s in
    let nl := newlabel label id (match yf with [_] => [] | _ => str "_" ++ dec (length yf) end) in
    ([Phrasal nl [wlabel c0] (zeros yf)], Phrasal label (nl :: rest) yf, s) in
  match order with
  | [] => ([], Phrasal label [] [], s)
  | [c0] => art [] (yfs [fidx c0]) c0
  | [c0; c1] => art [wlabel c1] (yfs [fidx c0; fidx c1]) c0
  | c0 :: c1 :: rest => links label [wlabel c0] (wlabel c0) (fidx c0) c1 rest s
  end.
Lemma flatten_inner : forall label fs s, let f := Inner label fs in Forall oksite (sites f) -> sites f <> [] -> NoDup (flat_map fidx (sites f)) ->
  flatten f s = (let '(aux, top, s') := frules label (ordered f) s in Some (top :: rev aux ++ flat_map lexs (ordered f), Some (totemplate (ordered f) f), s')).
Proof.
  intros label fs s f Ok NE ND.
  change (flatten f s) with (let '(tmp, s) := factorids label (map fnode (ordered f)) s in
      match lcfrsproductions tmp (fsent (ordered f)) false with
      | PError => None
      | PRules prods =>
          match (if length (ordered f) <=? 2 then artificial prods s else Some (prods, s)) with
          | Some (prods, s) => Some (prods, Some (totemplate (ordered f) f), s)
          | None => None
          end
      end). clearbody f.
  assert (P : Permutation (sites f) (ordered f)) by (apply sort_perm).
  assert (Ok' : forall c, In c (ordered f) -> oksite c) by (intros c Hc; rewrite Forall_forall in Ok; apply Ok; exact (Permutation_in _ (Permutation_sym P) Hc)).
  assert (ND' : NoDup (flat_map fidx (ordered f))).
  { eapply Permutation_NoDup; [|exact ND]. clear - P. induction P; cbn; auto; [now apply Permutation_app_head| |eapply Permutation_trans; eauto].
    rewrite !app_assoc. apply Permutation_app_tail, Permutation_app_comm. }
  assert (NE' : ordered f <> []) by (intros E; rewrite E in P; apply Permutation_sym, Permutation_nil in P; contradiction).
  set (order := ordered f) in *. clearbody order. clear P NE ND Ok.
  assert (PROD : forall ls, (forall c, In c ls -> In c order) -> map (production false (fsent order)) (map fnode ls) = map leafres ls).
  { intros ls H. rewrite map_map. apply map_ext_in. intros c Hc. apply production_leaf; auto. }
  assert (CHK : forall t, leaves t = flat_map fidx order -> lcfrsproductions t (fsent order) false = collect (map (production false (fsent order)) (pre t))).
  { intros t E. unfold lcfrsproductions. rewrite E, (proj2 (nodupb_spec _) ND'). cbn [negb]. destruct (fsent order) as [|w sent] eqn:ES; [unfold fsent in ES; discriminate|]. rewrite <- ES.
    assert (B : forallb (fun a => a <? length (fsent order)) (flat_map fidx order) = true).
    { apply forallb_forall. intros a Ha. apply Nat.ltb_lt. unfold fsent. rewrite map_length, seq_length.
      pose proof (proj1 (list_max_le (flat_map fidx order) _) (le_n _)) as Q. rewrite Forall_forall in Q. specialize (Q a Ha). lia. }
    rewrite B. cbn [negb]. rewrite C16_subtrees_preorder. f_equal. f_equal. clear. induction (pre t) as [|x l IH]; cbn; [auto|now rewrite IH]. }
  assert (IDX : forall c, In c order -> fidx c <> []) by (intros; now apply oksite_idx, Ok').
  destruct order as [|c0 [|c1 [|c2 rest]]]; [congruence| | |].
  - cbn [map DDopModel.factorids frules length Nat.leb]. rewrite CHK by (cbn [leaves flat_map]; rewrite leaves_fnode; reflexivity).
    cbn [pre flat_map]. rewrite pre_fnode. cbn [app map].
    rewrite production_phrasal; [|reflexivity|cbn [flat_map]; rewrite leaves_fnode, app_nil_r; apply IDX; now left].
    cbn [map collect]. rewrite leaves_fnode. rewrite (production_leaf [c0] c0 ND' (or_introl eq_refl) (Ok' c0 (or_introl eq_refl))).
    change (leafres c0) with (nth 0 (map leafres [c0]) SSkip). pose proof (collect_leaves [c0]) as CL. cbn [map collect] in CL. cbn [nth map]. rewrite CL.
    unfold DDopModel.artificial. reflexivity.
  - cbn [map DDopModel.factorids frules length Nat.leb]. rewrite CHK by (cbn [leaves flat_map]; rewrite !leaves_fnode; reflexivity).
    cbn [pre flat_map]. rewrite !pre_fnode. cbn [app map].
    rewrite production_phrasal; [|reflexivity|cbn [flat_map]; rewrite leaves_fnode; intros E; apply app_eq_nil in E; destruct E as [E _]; revert E; apply IDX; now left].
    cbn [map collect]. rewrite !leaves_fnode. rewrite (production_leaf [c0; c1] c0 ND' (or_introl eq_refl) (Ok' c0 (or_introl eq_refl))), (production_leaf [c0; c1] c1 ND' (or_intror (or_introl eq_refl)) (Ok' c1 (or_intror (or_introl eq_refl)))).
    pose proof (collect_leaves [c0; c1]) as CL. cbn [map collect] in CL. rewrite CL. unfold DDopModel.artificial. reflexivity.
  - cbn [map DDopModel.factorids]. fold (map fnode rest). cbn [frules length].
    change (match fnode c0 with Leaf _ => [] | Node l _ => l end) with (wlabel c0). unfold fnode at 1.
    pose proof (fcleft_links (c2 :: rest) label [wlabel c0] (wlabel c0) (map Leaf (fidx c0)) c1 s (fsent (c0 :: c1 :: c2 :: rest))) as Q.
    fold (fnode c0) in Q. rewrite leaves_fnode in Q. specialize (Q (IDX c0 (or_introl eq_refl))). cbn [map] in Q. fold (fnode c0).
    destruct (fcleft label [wlabel c0] (fnode c0) (fnode c1 :: fnode c2 :: map fnode rest) s) as [t s1]. destruct (links label [wlabel c0] (wlabel c0) (fidx c0) c1 (c2 :: rest) s) as [[aux top] s2].
    destruct Q as (-> & Q2 & _ & Q4). rewrite CHK by exact Q2. rewrite Q4, pre_fnode.
    pose proof (PROD (c1 :: c2 :: rest) (fun c H => or_intror H)) as PR. cbn [map] in PR. rewrite PR. cbn [map]. rewrite (production_leaf _ c0 ND' (or_introl eq_refl) (Ok' c0 (or_introl eq_refl))).
    change (SRule top :: map SRule (rev aux)) with (map SRule (top :: rev aux)). rewrite collect_app.
    change [leafres c0] with (map leafres [c0]). change (leafres c1 :: leafres c2 :: map leafres rest) with (map leafres (c1 :: c2 :: rest)). rewrite !collect_leaves.
    cbn [Nat.leb length]. cbn [flat_map]. rewrite app_nil_r. reflexivity.
Qed.
End Prefix.
