(** Descriptions of the transformed tree; words; numbering (C69). *)
From Coq Require Import List Bool Arith Lia Permutation.
From Verif Require Import PyStr TreeModel BinarizeModel TreeProps EvalModel EvalProps ETransModel ETransSpec ETransProofs.
Import ListNotations.
Open Scope list_scope.
Open Scope nat_scope.

Section Desc.
Variable param : eparam.
Variable sent : list pystr.
Variable gpos : list (nat * pystr).
Variable grootpos : list nat.
Variable keep : nat -> bool.
Notation eql := (dictmap (eq_label param)).
Notation del := (delete_label param).
Notation kf := (filter keep).
Notation strip := (strip param keep).
Notation good := (good param sent gpos grootpos keep).
Notation goods := (goods param sent gpos grootpos keep).
Definition becomes0 (s : tr) : list (bool * pystr * list nat) :=
  match kf (leaves s) with
  | [] => []
  | ks => if phrasal s && mems (eql (tlabel s)) del then [] else [(phrasal s, eql (tlabel s), ks)]
  end.
Lemma filter_flat : forall X (f : nat -> bool) (g : X -> list nat) l, filter f (flat_map g l) = flat_map (fun x => filter f (g x)) l.
Proof. intros X f g. induction l as [|x l IH]; [reflexivity|]. cbn [flat_map]. now rewrite filter_app', IH. Qed.
Lemma flat_flat : forall X Y Z (f : X -> list Y) (g : Y -> list Z) l, flat_map g (flat_map f l) = flat_map (fun x => flat_map g (f x)) l.
Proof. intros X Y Z f g. induction l as [|x l IH]; [reflexivity|]. cbn [flat_map]. now rewrite flat_map_app, IH. Qed.
Lemma flat_ext_in : forall X Y (f g : X -> list Y) l, (forall x, In x l -> f x = g x) -> flat_map f l = flat_map g l.
Proof. intros X Y f g. induction l as [|x l IH]; intros H; [reflexivity|]. cbn [flat_map]. rewrite (H x) by now left. rewrite IH; [reflexivity|]. intros y I. apply H. now right. Qed.
Lemma map_flat : forall X Y Z (f : X -> list Y) (g : Y -> Z) l, map g (flat_map f l) = flat_map (fun x => map g (f x)) l.
Proof. intros X Y Z f g. induction l as [|x l IH]; [reflexivity|]. cbn [flat_map]. now rewrite map_app, IH. Qed.
Lemma strip_unfold : forall l m ms us, strip (Node l (Node m ms :: us)) =
  match flat_map strip (Node m ms :: us) with [] => [] | us => if mems (eql l) del then us else [Node (eql l) us] end.
Proof. reflexivity. Qed.
Lemma strip_leaves : forall t, good t -> flat_map leaves (strip t) = kf (leaves t).
Proof.
  intros t. induction t as [a|l ts IH] using tree_ind'; intros G; [destruct G|].
  destruct (good_cases _ _ _ _ _ _ G) as [(l' & E)|[(l' & k & E & _)|(l' & m & ms & us & E & GS)]]; injection E as -> ->.
  - reflexivity.
  - cbn. destruct (keep k); reflexivity.
  - rewrite strip_unfold. set (ts := Node m ms :: us) in *.
    change (leaves (Node l' ts)) with (flat_map leaves ts). rewrite filter_flat.
    rewrite Forall_forall in IH. rewrite goods_in in GS.
    assert (E : flat_map leaves (flat_map strip ts) = flat_map (fun x => kf (leaves x)) ts).
    { rewrite flat_flat. apply flat_ext_in. intros x I. now apply IH, GS. }
    rewrite <- E. destruct (flat_map strip ts) as [|v vs]; [reflexivity|].
    destruct (mems (eql l') del); [reflexivity|]. cbn [flat_map leaves]. now rewrite app_nil_r.
Qed.
Lemma strip_nil : forall t, good t -> kf (leaves t) = [] -> strip t = [].
Proof.
  intros t. induction t as [a|l ts IH] using tree_ind'; intros G; [destruct G|].
  destruct (good_cases _ _ _ _ _ _ G) as [(l' & E)|[(l' & k & E & _)|(l' & m & ms & us & E & GS)]]; injection E as -> ->; intros K.
  - reflexivity.
  - cbn in K |- *. destruct (keep k); [discriminate|reflexivity].
  - rewrite strip_unfold. set (ts := Node m ms :: us) in *.
    change (leaves (Node l' ts)) with (flat_map leaves ts) in K. rewrite filter_flat in K.
    assert (E : flat_map strip ts = []); [|now rewrite E].
    rewrite Forall_forall in IH. rewrite goods_in in GS. clear G. clearbody ts.
    induction ts as [|t ts IHt]; [reflexivity|]. cbn [flat_map] in K |- *. apply app_eq_nil in K. destruct K as [K1 K2].
    rewrite (IH t (or_introl eq_refl) (GS t (or_introl eq_refl)) K1). cbn [app].
    apply IHt; [intros x I; apply IH; now right|intros x I; apply GS; now right|exact K2].
Qed.
Lemma strip_desc : forall t, good t -> map describe (flat_map pre (strip t)) = flat_map becomes0 (pre t).
Proof.
  intros t. induction t as [a|l ts IH] using tree_ind'; intros G; [destruct G|].
  assert (NIL := strip_nil _ G). assert (LV := strip_leaves _ G).
  destruct (good_cases _ _ _ _ _ _ G) as [(l' & E)|[(l' & k & E & _)|(l' & m & ms & us & E & GS)]]; injection E as -> ->.
  - reflexivity.
  - cbn. unfold becomes0. cbn. destruct (keep k); reflexivity.
  - assert (KD : map describe (flat_map pre (flat_map strip (Node m ms :: us))) = flat_map becomes0 (flat_map pre (Node m ms :: us))).
    { rewrite Forall_forall in IH. rewrite goods_in in GS. rewrite !flat_flat, map_flat. apply flat_ext_in. intros x I. now apply IH, GS. }
    assert (FN : Forall (fun u => exists l ts, u = Node l ts) (flat_map strip (Node m ms :: us))).
    { rewrite goods_in in GS. apply Forall_forall. intros u I. apply in_flat_map in I. destruct I as (c & Ic & Iu).
      pose proof (strip_nodes _ _ _ _ _ c (GS c Ic)) as F. rewrite Forall_forall in F. now apply F. }
    rewrite strip_unfold in NIL, LV |- *. set (ts := Node m ms :: us) in *.
    change (pre (Node l' ts)) with (Node l' ts :: flat_map pre ts). cbn [flat_map]. rewrite <- KD.
    unfold becomes0 at 1. assert (PH : phrasal (Node l' ts) = true) by reflexivity. rewrite PH. cbn [andb tlabel].
    destruct (flat_map strip ts) as [|v vs].
    + cbn [flat_map] in LV. rewrite <- LV. reflexivity.
    + inversion FN as [|? ? (lv & tv & ->) _]; subst.
      destruct (kf (leaves (Node l' ts))) as [|k ks]; [discriminate (NIL eq_refl) || (specialize (NIL eq_refl); destruct (mems (eql l') del); discriminate)|].
      destruct (mems (eql l') del); [reflexivity|]. cbn [flat_map]. rewrite app_nil_r.
      cbn [flat_map] in LV. rewrite app_nil_r in LV.
      change (pre (Node (eql l') (Node lv tv :: vs))) with (Node (eql l') (Node lv tv :: vs) :: flat_map pre (Node lv tv :: vs)).
      cbn [map]. unfold describe at 1. rewrite LV. reflexivity.
Qed.
End Desc.

(** ** new positions *)
Fixpoint mapleaves (f : nat -> nat) (t : tr) : tr :=
  match t with Leaf k => Leaf (f k) | Node l ts => Node l (map (mapleaves f) ts) end.
Lemma mapleaves_leaves : forall f t, leaves (mapleaves f t) = map f (leaves t).
Proof.
  intros f t. induction t as [a|l ts IH] using tree_ind'; [reflexivity|]. cbn [mapleaves leaves].
  rewrite map_flat, flat_map_concat_map, map_map, <- flat_map_concat_map. apply flat_ext_in. rewrite Forall_forall in IH. exact IH.
Qed.
Lemma mapleaves_pre : forall f t, pre (mapleaves f t) = map (mapleaves f) (pre t).
Proof.
  intros f t. induction t as [a|l ts IH] using tree_ind'; [reflexivity|]. cbn [mapleaves pre map]. f_equal.
  rewrite map_flat, flat_map_concat_map, map_map, <- flat_map_concat_map. apply flat_ext_in. rewrite Forall_forall in IH. exact IH.
Qed.
Lemma mapleaves_describe : forall f t, describe (mapleaves f t) = (let '(p, l, ks) := describe t in (p, l, map f ks)).
Proof.
  intros f t. unfold describe. rewrite mapleaves_leaves. destruct t as [a|l [|[k|m ms] ts]]; reflexivity.
Qed.
Lemma renumber_ok : forall ls ps f t, (forall k, In k (leaves t) -> In k ps /\ indexof k ls = Some (f k)) ->
  renumber ls ps t = Some (mapleaves f t).
Proof.
  intros ls ps f t. induction t as [a|l ts IH] using tree_ind'; intros H; cbn [renumber mapleaves].
  - destruct (H a (or_introl eq_refl)) as [A B]. apply memn_iff in A. now rewrite A, B.
  - rewrite (allsome_map _ _ _ (mapleaves f)); [reflexivity|]. intros c I. rewrite Forall_forall in IH. apply IH; [exact I|].
    intros k Ik. apply H. cbn [leaves]. apply in_flat_map. now exists c.
Qed.
Lemma indexof_filter : forall keep n a k, keep k = true -> a <= k < a + n ->
  indexof k (filter keep (seq a n)) = Some (length (filter keep (seq a (k - a)))).
Proof.
  intros keep. induction n as [|n IH]; intros a k K L; [lia|]. cbn [seq filter].
  destruct (Nat.eq_dec a k) as [->|NE].
  - rewrite K. cbn [indexof]. now rewrite Nat.eqb_refl, Nat.sub_diag.
  - replace (k - a) with (S (k - S a)) by lia. cbn [seq filter].
    specialize (IH (S a) k K ltac:(lia)). destruct (keep a); [|exact IH].
    cbn [indexof]. destruct (Nat.eqb_spec a k); [lia|]. rewrite IH. reflexivity.
Qed.
Lemma indexof_newpos : forall keep n k, keep k = true -> k < n -> indexof k (filter keep (seq 0 n)) = Some (newpos keep k).
Proof. intros keep n k K L. unfold newpos. rewrite (indexof_filter keep n 0 k K) by lia. now rewrite Nat.sub_0_r. Qed.
(** ** words *)
Lemma indexof_lt : forall ls k i, indexof k ls = Some i -> nth_error ls i = Some k.
Proof.
  induction ls as [|x ls IH]; intros k i; [discriminate|]. cbn [indexof]. destruct (Nat.eqb_spec x k) as [->|NE].
  - intros E. now injection E as <-.
  - destruct (indexof k ls) as [j|] eqn:E; [|discriminate]. intros E'. injection E' as <-. cbn. now apply IH.
Qed.
Lemma nth_update : forall X i j (x : X) l, i < length l -> nth_error (firstn i l ++ x :: skipn (S i) l) j = if j =? i then Some x else nth_error l j.
Proof.
  intros X. induction i as [|i IH]; intros j x l L.
  - destruct l as [|y l]; [cbn in L; lia|]. cbn [firstn skipn app]. destruct j; reflexivity.
  - destruct l as [|y l]; [cbn in L; lia|]. cbn [firstn app]. destruct j as [|j]; [reflexivity|]. cbn [nth_error Nat.eqb]. cbn in L.
    change (skipn (S (S i)) (y :: l)) with (skipn (S i) l). apply IH. lia.
Qed.
Lemma eqwords_ok : forall param ls ps words, length words = length ls -> NoDup ps -> NoDup ls -> incl ps ls ->
  exists words', eqwords param ls ps words = Some words' /\ length words' = length ls /\
  forall i k w, nth_error ls i = Some k -> nth_error words i = Some w ->
    nth_error words' i = Some (if memn k ps then dictmap (eq_word param) w else w).
Proof.
  intros param ls. induction ps as [|p ps IH]; intros words LW NP NL IN.
  - exists words. cbn. auto.
  - inversion NP as [|? ? NI NP']; subst. cbn [eqwords]. destruct (indexof_ok ls p (IN p (or_introl eq_refl))) as (j & EJ & NJ). rewrite EJ.
    assert (LJ : j < length words) by (rewrite LW; apply nth_error_Some; congruence).
    destruct (nth_error words j) as [w|] eqn:EW; [|apply nth_error_None in EW; lia].
    destruct (IH (firstn j words ++ dictmap (eq_word param) w :: skipn (S j) words)) as (words' & E & L & H); auto.
    + rewrite app_length, firstn_length. cbn [length]. rewrite skipn_length. lia.
    + intros k I. apply IN. now right.
    + exists words'. split; [exact E|]. split; [exact L|]. intros i k v Ni Nv.
      destruct (Nat.eq_dec i j) as [->|NE].
      * assert (k = p) by congruence. subst k. assert (v = w) by congruence. subst v.
        rewrite (H j p (dictmap (eq_word param) w) NJ) by (rewrite nth_update by lia; now rewrite Nat.eqb_refl).
        cbn [memn existsb]. rewrite Nat.eqb_refl. cbn [orb].
        destruct (memn p ps) eqn:M; [apply memn_iff in M; contradiction|reflexivity].
      * rewrite (H i k v Ni) by (rewrite nth_update by lia; destruct (Nat.eqb_spec i j); [contradiction|exact Nv]).
        cbn [memn existsb]. destruct (Nat.eqb_spec k p) as [->|NK]; [|reflexivity].
        exfalso. apply NE. apply (NoDup_nth_error ls); [exact NL|apply nth_error_Some; congruence|congruence].
Qed.
