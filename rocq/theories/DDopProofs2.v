(** C64, part 2: the identifiers; the rules as a function of the final table
    of identifiers and the unique identifier of a fragment. *)
From Coq Require Import String.
From Coq Require Import List Bool Arith NArith Lia Permutation Sorted.
From Verif Require Import PyStr TreeModel BracketModel BinarizeModel TransformModel SortProofs LcfrsModel TreebankModel DopModel DDopModel DDopSpec DDopProofs.
Import ListNotations.
Open Scope list_scope.

Notation lk k s := (idlookup k (seen s)).
Record idsok (s : ids) : Prop := { io_lt : forall k v, lk k s = Some v -> v < cnt s; io_inj : forall k k' v, lk k s = Some v -> lk k' s = Some v -> k = k' }.
Record ext (s s' : ids) : Prop := { ex_cnt : cnt s <= cnt s'; ex_keep : forall k v, lk k s = Some v -> lk k s' = Some v; ex_new : forall k v, lk k s' = Some v -> lk k s = Some v \/ cnt s <= v }.
Definition avoided (u : nat) (s : ids) : Prop := u < cnt s /\ forall k v, lk k s = Some v -> v <> u.
Lemma ext_refl : forall s, ext s s. Proof. split; auto. Qed.
Lemma ext_trans : forall a b c, ext a b -> ext b c -> ext a c.
Proof.
  intros a b c [A1 A2 A3] [B1 B2 B3]. split; [lia|auto|]. intros k v H. apply B3 in H. destruct H as [H|H]; [apply A3 in H; tauto|]. right. lia.
Qed.
Lemma avoided_ext : forall u s s', avoided u s -> ext s s' -> avoided u s'.
Proof. intros u s s' [A1 A2] [E1 E2 E3]. split; [lia|]. intros k v H. apply E3 in H. destruct H as [H|H]; [eauto|lia]. Qed.
Lemma idlookup_cons : forall k key v d, idlookup key ((k, v) :: d) = if eqs k key then Some v else idlookup key d.
Proof. reflexivity. Qed.
Lemma getid_ok : forall key s id s', idsok s -> getid key s = (id, s') -> idsok s' /\ ext s s' /\ lk key s' = Some id.
Proof.
  intros key s id s' [L J] E. unfold getid in E. destruct (lk key s) as [v|] eqn:K; injection E as <- <-.
  - split; [split; auto|]. split; [apply ext_refl|exact K].
  - split; [split; cbn [cnt seen]|split; [split; cbn [cnt seen]|]].
    + intros k v H. rewrite idlookup_cons in H. destruct (eqs key k); [injection H as <-; lia|]. apply L in H. lia.
    + intros k k' v H H'. rewrite idlookup_cons in H, H'. destruct (eqs key k) eqn:E1, (eqs key k') eqn:E2.
      * apply eqs_eq in E1, E2. congruence.
      * injection H as <-. apply L in H'. lia.
      * injection H' as <-. apply L in H. lia.
      * eauto.
    + lia.
    + intros k v H. rewrite idlookup_cons. destruct (eqs key k) eqn:E; [|exact H]. apply eqs_eq in E. subst. congruence.
    + intros k v H. rewrite idlookup_cons in H. destruct (eqs key k); [injection H as <-; right; lia|now left].
    + cbn [seen]. rewrite idlookup_cons, eqs_refl. reflexivity.
Qed.
Lemma nextid_ok : forall s id s', idsok s -> nextid s = (id, s') -> idsok s' /\ ext s s' /\ avoided id s' /\ cnt s <= id.
Proof.
  intros s id s' [L J] E. unfold nextid in E. injection E as <- <-. split; [|split; [|split]].
  - split; cbn; [intros k v H; apply L in H; lia|exact J].
  - split; cbn; auto.
  - split; cbn; [lia|]. intros k v H. apply L in H. lia.
  - lia.
Qed.

Section Prefix.
Variable prefix : pystr.
Notation newlabel := (newlabel prefix). Notation links := (links prefix). Notation frules := (frules prefix). Notation flatten := (flatten prefix).
Definition keyof (before : list pystr) (pv : list nat) (c : frag) : pystr := join (str ",") (before ++ [wlabel c]) ++ getyf pv (fidx c).
Section Pure.
Variable idof : pystr -> nat.
Variable u : nat.
Fixpoint linksF (label : pystr) (before : list pystr) (pl : pystr) (pv : list nat) (c : frag) (rest : list frag) : list prod * prod :=
  match rest with
  | [] => ([], Phrasal label [pl; wlabel c] (yfs [pv; fidx c]))
  | c' :: more =>
      let id := match more with [] => u | _ => idof (keyof before pv c) end in
      let nl := newlabel label id (fomark (fanoutof (pv ++ fidx c))) in
      let '(aux, top) := linksF label (before ++ [wlabel c]) nl (pv ++ fidx c) c' more in
      (Phrasal nl [pl; wlabel c] (yfs [pv; fidx c]) :: aux, top)
  end.
Definition frulesF (label : pystr) (order : list frag) : list prod * prod :=
  let art (rest : list pystr) (yf : list (list nat)) (c0 : frag) :=
    let nl := newlabel label u (match yf with [_] => [] | _ => str "_" ++ dec (length yf) end) in
    ([Phrasal nl [wlabel c0] (zeros yf)], Phrasal label (nl :: rest) yf) in
  match order with
  | [] => ([], Phrasal label [] [])
  | [c0] => art [] (yfs [fidx c0]) c0
  | [c0; c1] => art [wlabel c1] (yfs [fidx c0; fidx c1]) c0
  | c0 :: c1 :: rest => linksF label [wlabel c0] (wlabel c0) (fidx c0) c1 rest
  end.
End Pure.
(** the keys looked up *)
Fixpoint keysF (before : list pystr) (pv : list nat) (c : frag) (rest : list frag) : list pystr :=
  match rest with
  | [] => []
  | c' :: more => match more with [] => [] | _ => [keyof before pv c] end ++ keysF (before ++ [wlabel c]) (pv ++ fidx c) c' more
  end.
Definition fkeys (order : list frag) : list pystr := match order with c0 :: c1 :: rest => keysF [wlabel c0] (fidx c0) c1 rest | _ => [] end.
Definition idof (fin : ids) (key : pystr) : nat := match lk key fin with Some v => v | None => 0 end.
Lemma linksF_eq : forall id u label before pl pv c c' more, linksF id u label before pl pv c (c' :: more) =
  (let nl := newlabel label (match more with [] => u | _ => id (keyof before pv c) end) (fomark (fanoutof (pv ++ fidx c))) in
   let '(aux, top) := linksF id u label (before ++ [wlabel c]) nl (pv ++ fidx c) c' more in
      (Phrasal nl [pl; wlabel c] (yfs [pv; fidx c]) :: aux, top)).
Proof. reflexivity. Qed.
Lemma links_pure : forall rest label before pl pv c s, idsok s -> rest <> [] ->
  let '(aux, top, s') := links label before pl pv c rest s in
  exists u, cnt s <= u /\ avoided u s' /\ idsok s' /\ ext s s' /\
    forall fin, ext s' fin -> linksF (idof fin) u label before pl pv c rest = (aux, top) /\ forall k, In k (keysF before pv c rest) -> exists v, lk k fin = Some v.
Proof.
  induction rest as [|c' more IH]; intros label before pl pv c s Ok NE; [congruence|]. rewrite links_eq. cbv zeta. fold (keyof before pv c). destruct more as [|c'' more].
  - destruct (nextid s) as [id s1] eqn:E. destruct (nextid_ok s id s1 Ok E) as (O1 & O2 & O3 & O4). cbn [DDopProofs.links].
    exists id. split; [lia|]. split; [exact O3|]. split; [exact O1|]. split; [exact O2|]. intros fin F. split; [reflexivity|]. cbn. intros k [].
  - destruct (getid (keyof before pv c) s) as [id s1] eqn:E. destruct (getid_ok _ s id s1 Ok E) as (O1 & O2 & O3).
    set (nl := newlabel label id (fomark (fanoutof (pv ++ fidx c)))).
    specialize (IH label (before ++ [wlabel c]) nl (pv ++ fidx c) c' s1 O1 ltac:(discriminate)).
    destruct (links label (before ++ [wlabel c]) nl (pv ++ fidx c) c' (c'' :: more) s1) as [[aux top] s'].
    destruct IH as (u & U1 & U2 & U3 & U4 & U5). exists u. split; [pose proof (ex_cnt _ _ O2); lia|]. split; [exact U2|]. split; [exact U3|]. split; [exact (ext_trans _ _ _ O2 U4)|].
    intros fin F. destruct (U5 fin F) as [V1 V2].
    assert (K : lk (keyof before pv c) fin = Some id) by (apply (ex_keep _ _ F), (ex_keep _ _ U4); exact O3).
    split.
    + assert (ID : idof fin (keyof before pv c) = id) by (unfold idof; now rewrite K). rewrite linksF_eq. cbv beta zeta iota. rewrite ID. fold nl. rewrite V1. reflexivity.
    + intros k Hk. cbn [keysF] in Hk. cbn [app] in Hk. destruct Hk as [<-|Hk]; [eauto|]. apply V2. exact Hk.
Qed.
Lemma frules_pure : forall label order s, idsok s -> order <> [] ->
  let '(aux, top, s') := frules label order s in
  exists u, cnt s <= u /\ avoided u s' /\ idsok s' /\ ext s s' /\
    forall fin, ext s' fin -> frulesF (idof fin) u label order = (aux, top) /\ forall k, In k (fkeys order) -> exists v, lk k fin = Some v.
Proof.
  intros label order s Ok NE. destruct order as [|c0 [|c1 [|c2 rest]]]; [congruence| | |].
  - cbn [DDopProofs.frules]. destruct (nextid s) as [id s1] eqn:E. destruct (nextid_ok s id s1 Ok E) as (O1 & O2 & O3 & O4).
    exists id. repeat (split; [assumption|]). intros fin F. split; [reflexivity|intros k []].
  - cbn [DDopProofs.frules]. destruct (nextid s) as [id s1] eqn:E. destruct (nextid_ok s id s1 Ok E) as (O1 & O2 & O3 & O4).
    exists id. repeat (split; [assumption|]). intros fin F. split; [reflexivity|intros k []].
  - exact (links_pure (c2 :: rest) label [wlabel c0] (wlabel c0) (fidx c0) c1 s Ok ltac:(discriminate)).
Qed.

(** ** shape of the rules *)
(** [Chain pl aux labels nl]: the rules [aux] derive [nl] from [pl] followed by
    the labels [labels] *)
Inductive Chain : pystr -> list prod -> list pystr -> pystr -> Prop :=
| ch_nil : forall pl, Chain pl [] [] pl
| ch_un : forall pl nl yf aux ls l, Chain nl aux ls l -> Chain pl (Phrasal nl [pl] yf :: aux) ls l
| ch_bin : forall pl nl yf aux c ls l, Chain nl aux ls l -> Chain pl (Phrasal nl [pl; c] yf :: aux) (c :: ls) l.
Definition plhs (p : prod) : pystr := match p with Lexical l _ => l | Frontier l => l | Phrasal l _ _ => l end.
Lemma last_indep : forall A (l : list A) x d d', last (x :: l) d = last (x :: l) d'.
Proof. induction l as [|y l IH]; intros x d d'; [reflexivity|]. change (last (x :: y :: l) d) with (last (y :: l) d). change (last (x :: y :: l) d') with (last (y :: l) d'). apply IH. Qed.
Lemma linksF_shape : forall id u rest label before pl pv c, let '(aux, top) := linksF id u label before pl pv c rest in
  exists ls l yf, Chain pl aux ls l /\ top = Phrasal label [l; wlabel (last rest c)] yf /\ ls ++ [wlabel (last rest c)] = map wlabel (c :: rest) /\
    (forall p, In p aux -> exists i m, plhs p = newlabel label i m) /\ (rest <> [] -> exists m, l = newlabel label u m).
Proof.
  intros id u. induction rest as [|c' more IH]; intros label before pl pv c.
  - cbn [linksF]. exists [], pl. eexists. split; [constructor|]. split; [reflexivity|]. split; [reflexivity|]. split; [intros p []|congruence].
  - rewrite linksF_eq. cbv zeta. set (nl := newlabel label _ _). specialize (IH label (before ++ [wlabel c]) nl (pv ++ fidx c) c').
    destruct (linksF id u label (before ++ [wlabel c]) nl (pv ++ fidx c) c' more) as [aux top] eqn:EQ. destruct IH as (ls & l & yf & C & T & L & A & U).
    assert (EL : last (c' :: more) c = last more c').
    { destruct more as [|x more]; [reflexivity|]. change (last (c' :: x :: more) c) with (last (x :: more) c). apply last_indep. }
    rewrite EL. exists (wlabel c :: ls), l, yf. split; [now constructor|]. split; [exact T|]. split; [cbn [map app] in *; now rewrite L|]. split.
    + intros p [<-|Hp]; [|auto]. cbn [plhs]. subst nl. eauto.
    + intros _. destruct more as [|x more]; [|apply U; discriminate]. cbn [linksF] in EQ. injection EQ as <- <-. inversion C; subst. subst nl. eauto.
Qed.
End Prefix.
