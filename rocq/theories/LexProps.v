(** C70: the unknown-word model.  The words handed to the parser are words the
    grammar has lexical rules for, up to the exceptions stated here. *)
From Coq Require Import String.
From Coq Require Import List Arith NArith Bool QArith Lia.
From Verif Require Import PyStr TreeModel BracketModel BracketProofs EscapeProofs McpModel McpProofs LexModel.
Import ListNotations.
Open Scope nat_scope.
Open Scope list_scope.

(** ---------- specification ---------- *)
(** what the two patterns are meant to accept (a final newline is tolerated,
    as Python's [$] does) *)
Definition digit (c : char) : Prop := (48 <= c <= 57)%N.
Definition digits (s : pystr) : Prop := forall c, In c s -> digit c.
Definition year_text (s : pystr) : Prop :=
  exists c d, digit c /\ digit d /\ (s = str "19" ++ [c; d] \/ s = str "20" ++ [c; d]).
Definition number_text (s : pystr) : Prop :=
  (s <> [] /\ digits s) \/
  exists a sep b, s = a ++ sep :: b /\ digits a /\ b <> [] /\ digits b /\
    (sep = ch "," \/ sep = ch "." \/ sep = ch "'").
Definition upto_newline (P : pystr -> Prop) (w : pystr) : Prop := P w \/ exists v, w = v ++ [10%N] /\ P v.
Definition year : word -> Prop := upto_newline year_text.
Definition number : word -> Prop := upto_newline number_text.
Definition numeral (w : word) : Prop := year w \/ number w.

(** an occurrence of word [w] with tag [t] at position [n] of a sentence *)
Definition occ_at (sents : tagsents) (n : nat) (w : word) (t : tag) : Prop :=
  exists s, In s sents /\ nth_error s n = Some (w, t).
Definition freq (sents : tagsents) (w : word) : nat := count_occ eqs_dec (map fst (concat sents)) w.

Section Spec.
  Variable lower : pystr -> pystr.
  Variable basetag : tag -> option tag.
  (** tags that only differ in function tags and state splits *)
  Definition sametag (t u : tag) : Prop :=
    match basetag t with Some b => basetag u = Some b | None => u = t end.
  (** a closed class tag has fewer than [thr] word types, ignoring case *)
  Definition closed_tag (sents : tagsents) (thr : nat) (t : tag) : Prop :=
    exists types, NoDup types /\ length types < thr /\
      forall x, In x types <-> exists n w u, occ_at sents n w u /\ sametag t u /\ x = lower w.
  (** a word counts as known in training *)
  Definition trainword (sents : tagsents) (unkthr openthr : nat) (w : word) : Prop :=
    unkthr < freq sents w \/ exists n t, occ_at sents n w t /\ closed_tag sents openthr t.
End Spec.

(** a word is written to the lexicon file and read back unchanged *)
Definition clean (w : word) : Prop := unescape (escape (Some w)) = Some w.

(** ---------- lemmas ---------- *)
Lemma some_inj : forall A (a b : A), Some a = Some b -> a = b.
Proof. intros. congruence. Qed.
Lemma ins_iff : forall w l, ins w l = true <-> In w l.
Proof.
  intros w l. unfold ins. rewrite existsb_exists. split.
  - intros (x & I & E). apply eqs_eq in E. now subst.
  - intros I. exists w. split; [exact I|apply eqs_refl].
Qed.
Lemma ins_false : forall w l, ins w l = false <-> ~ In w l.
Proof. intros. rewrite <- ins_iff. now destruct (ins w l); split; intros; congruence || (exfalso; auto) || auto. Qed.
Lemma paireqb_ok : forall a b, paireqb a b = true <-> a = b.
Proof.
  intros [a1 a2] [b1 b2]. unfold paireqb. cbn [fst snd]. rewrite andb_true_iff, !eqs_eq.
  split; [intros [Ea Eb]; now subst|intros E; inversion E; auto].
Qed.
Lemma isdigit_iff : forall c, isdigit c = true <-> digit c.
Proof. intros c. unfold isdigit, digit. rewrite andb_true_iff, !N.leb_le. tauto. Qed.
Lemma digits_iff : forall s, forallb isdigit s = true <-> digits s.
Proof. intros s. rewrite forallb_forall. unfold digits. split; intros H c I; apply isdigit_iff; auto. Qed.
Lemma digits1_iff : forall s, digits1 s = true <-> s <> [] /\ digits s.
Proof. intros s. unfold digits1. rewrite andb_true_iff, negb_true_iff, eqs_neq, digits_iff. tauto. Qed.
Lemma numsep_iff : forall c, numsep c = true <-> (c = ch "," \/ c = ch "." \/ c = ch "'").
Proof.
  intros c. unfold numsep. rewrite ins_iff. cbn [In]. split.
  - intros [E|[E|[E|[]]]]; injection E as <-; auto.
  - intros [-> |[-> | ->]]; auto.
Qed.
Lemma sepdigits_iff : forall s, sepdigits s = true <->
  exists a sep b, s = a ++ sep :: b /\ digits a /\ b <> [] /\ digits b /\ (sep = ch "," \/ sep = ch "." \/ sep = ch "'").
Proof.
  induction s as [|c s IH]; cbn [sepdigits].
  - split; [discriminate|]. intros (a & sep & b & E & _). now destruct a.
  - rewrite orb_true_iff, !andb_true_iff, digits1_iff, numsep_iff, isdigit_iff, IH. split.
    + intros [(S & N & D)|(D & a & sep & b & -> & Da & Nb & Db & S)].
      * exists [], c, s. split; [reflexivity|]. split; [intros x []|auto].
      * exists (c :: a), sep, b. split; [reflexivity|]. split; [intros x [<-|I]; auto|auto].
    + intros (a & sep & b & E & Da & Nb & Db & S). destruct a as [|x a]; cbn in E; injection E as -> ->.
      * left. auto.
      * right. split; [apply Da; now left|]. exists a, sep, b. split; [reflexivity|]. split; [intros y I; apply Da; now right|auto].
Qed.
Lemma num_core_iff : forall s, num_core s = true <-> number_text s.
Proof. intros s. unfold num_core, number_text. now rewrite orb_true_iff, digits1_iff, sepdigits_iff. Qed.
Lemma year_core_iff : forall s, year_core s = true <-> year_text s.
Proof.
  intros s. unfold year_core, year_text. split.
  - destruct s as [|a [|b [|c [|d [|]]]]]; try discriminate.
    rewrite !andb_true_iff, orb_true_iff, !isdigit_iff, !eqs_eq. intros [[[E|E] C] D]; exists c, d; (split; [exact C|]); (split; [exact D|]).
    + left. injection E as -> ->. reflexivity.
    + right. injection E as -> ->. reflexivity.
  - intros (c & d & C & D & [-> | ->]); apply isdigit_iff in C, D; change (true && isdigit c && isdigit d = true); rewrite C, D; reflexivity.
Qed.
Lemma chop_iff : forall (P : pystr -> Prop) f w, (forall s, f s = true <-> P s) ->
  (f w || f (chop w) = true <-> upto_newline P w).
Proof.
  intros P f w H. unfold upto_newline. rewrite orb_true_iff, H. split.
  - intros [A|B]; [auto|]. unfold chop in B. destruct (rev w) as [|c r] eqn:R.
    + left. now apply H.
    + destruct (N.eqb_spec c 10) as [-> |]; [|left; now apply H].
      right. exists (rev r). split; [|now apply H]. rewrite <- (rev_involutive w), R. reflexivity.
  - intros [A|(v & -> & A)]; [auto|]. right. unfold chop. rewrite rev_app_distr. cbn [rev app N.eqb Pos.eqb].
    rewrite rev_involutive. now apply H.
Qed.

(** C70: the patterns for years and numbers *)
Theorem C70_year_pattern : forall w, yearre w = true <-> year w.
Proof. intros w. apply chop_iff, year_core_iff. Qed.
Theorem C70_number_pattern : forall w, numberre w = true <-> number w.
Proof. intros w. apply chop_iff, num_core_iff. Qed.
Example number_ex : number (str "12,5") /\ ~ number (str "1,000,000") /\ year (str "1987") /\ ~ year (str "1887").
Proof.
  rewrite <- !C70_number_pattern, <- !C70_year_pattern.
  split; [reflexivity|]. split; [vm_compute; discriminate|]. split; [reflexivity|vm_compute; discriminate].
Qed.

(** counters *)
Section Counter.
  Context {K : Type}.
  Variable eqb : K -> K -> bool.
  Hypothesis eqb_ok : forall a b, eqb a b = true <-> a = b.
  Variable dec : forall a b : K, {a = b} + {a <> b}.
  Lemma counter_gen : forall l d k,
    match dget eqb k (fold_left (incr eqb) l d) with Some n => n | None => 0 end =
    match dget eqb k d with Some n => n | None => 0 end + count_occ dec l k.
  Proof.
    induction l as [|x l IH]; intros d k; cbn [fold_left count_occ]; [lia|].
    rewrite IH. unfold incr. destruct (dec x k) as [-> |N].
    - rewrite (dget_put_same eqb eqb_ok). lia.
    - rewrite (dget_put_other eqb eqb_ok) by congruence. lia.
  Qed.
  Lemma counter_keys_gen : forall l d k,
    In k (map fst (fold_left (incr eqb) l d)) <-> In k (map fst d) \/ In k l.
  Proof.
    induction l as [|x l IH]; intros d k; cbn [fold_left In]; [tauto|].
    rewrite IH. unfold incr. rewrite (dput_keys eqb eqb_ok). intuition congruence.
  Qed.
  Lemma counter_nodup_gen : forall l d, NoDup (map fst d) -> NoDup (map fst (fold_left (incr eqb) l d)).
  Proof. induction l as [|x l IH]; intros d N; cbn [fold_left]; [exact N|]. apply IH. unfold incr. now apply dput_nodup. Qed.
  Lemma counter_keys : forall l k, In k (map fst (counter eqb l)) <-> In k l.
  Proof. intros. unfold counter. rewrite counter_keys_gen. cbn. tauto. Qed.
  Lemma counter_nodup : forall l, NoDup (map fst (counter eqb l)).
  Proof. intros. apply counter_nodup_gen. constructor. Qed.
  Lemma counter_entry : forall l k n, In (k, n) (counter eqb l) <-> In k l /\ n = count_occ dec l k.
  Proof.
    intros l k n. pose proof (counter_gen l [] k) as G. cbn [dget] in G. fold (counter eqb l) in G.
    split.
    - intros I. assert (D := in_dget eqb eqb_ok _ _ _ (counter_nodup l) I). rewrite D in G.
      split; [|lia]. apply counter_keys. now apply (in_map fst) in I.
    - intros [I ->]. apply counter_keys in I. apply (dget_some eqb eqb_ok) in I. destruct I as [v D].
      rewrite D in G. apply (dget_in eqb eqb_ok) in D. replace (count_occ dec l k) with v by lia. exact D.
  Qed.
End Counter.
Definition pair_dec : forall a b : word * tag, {a = b} + {a <> b}.
Proof. intros [a1 a2] [b1 b2]. destruct (eqs_dec a1 b1), (eqs_dec a2 b2); subst; auto; right; congruence. Defined.

Lemma dedup_spec : forall l, NoDup (dedup l) /\ forall x, In x (dedup l) <-> In x l.
Proof.
  induction l as [|x l [N I]]; cbn [dedup]; [split; [constructor|tauto]|]. destruct (ins x l) eqn:E.
  - apply ins_iff in E. split; [exact N|]. intros y. rewrite I. cbn. intuition (subst; auto).
  - apply ins_false in E. split; [constructor; [now rewrite I|exact N]|]. intros y. cbn. now rewrite I.
Qed.
Lemma distinct_lt : forall l thr, distinct l < thr <-> exists types, NoDup types /\ length types < thr /\ forall x, In x types <-> In x l.
Proof.
  intros l thr. destruct (dedup_spec l) as [N I]. unfold distinct. split.
  - intros H. exists (dedup l). auto.
  - intros (ty & N' & L & I'). assert (length (dedup l) <= length ty); [|lia].
    apply NoDup_incl_length; [exact N|]. intros x. now rewrite I, I'.
Qed.

Lemma occ_in : forall sents w t, In (w, t) (occs sents) <-> exists n, occ_at sents n w t.
Proof.
  intros sents w t. unfold occs, occ_at. rewrite in_flat_map. split.
  - intros (s & I & J). apply In_nth_error in J. destruct J as [n J]. eauto.
  - intros (n & s & I & J). exists s. split; [exact I|]. now apply nth_error_In in J.
Qed.
Lemma occs_concat : forall sents, occs sents = concat sents.
Proof. unfold occs. induction sents as [|s r IH]; [reflexivity|]. cbn [flat_map concat]. now rewrite IH. Qed.

Section Main.
Variable lower : pystr -> pystr.
Variable basetag : tag -> option tag.
Variable unknownword : word -> nat -> list word -> word.
Notation gum := (getunknownwordmodel lower basetag unknownword).

Lemma isopen_closed : forall sents thr t, isopen lower basetag sents thr t = false <-> closed_tag lower basetag sents thr t.
Proof.
  intros sents thr t. unfold isopen, closed_tag, sametag. destruct (basetag t) as [b|] eqn:B.
  - rewrite Nat.leb_gt, distinct_lt. split; intros (ty & N & L & I); exists ty; (split; [exact N|]); (split; [exact L|]); intros x; rewrite I;
      unfold wordsforcollapsed; rewrite in_map_iff; split.
    + intros ([w u] & <- & J). apply filter_In in J. destruct J as [J E]. cbn [fst snd] in *. apply occ_in in J. destruct J as [n J].
      exists n, w, u. split; [exact J|]. split; [|reflexivity]. destruct (basetag u); [|discriminate]. apply eqs_eq in E. now subst.
    + intros (n & w & u & J & E & ->). exists (w, u). split; [reflexivity|]. apply filter_In. cbn [fst snd].
      split; [apply occ_in; eauto|]. rewrite E. apply eqs_refl.
    + intros (n & w & u & J & E & ->). exists (w, u). split; [reflexivity|]. apply filter_In. cbn [fst snd].
      split; [apply occ_in; eauto|]. rewrite E. apply eqs_refl.
    + intros ([w u] & <- & J). apply filter_In in J. destruct J as [J E]. cbn [fst snd] in *. apply occ_in in J. destruct J as [n J].
      exists n, w, u. split; [exact J|]. split; [|reflexivity]. destruct (basetag u); [|discriminate]. apply eqs_eq in E. now subst.
  - rewrite Nat.leb_gt, distinct_lt.
    assert (Q : forall x, In x (map lower (wordsfortag sents t)) <-> exists n w u, occ_at sents n w u /\ u = t /\ x = lower w).
    { intros x. rewrite in_map_iff. unfold wordsfortag. split.
      - intros (w & <- & J). apply in_map_iff in J. destruct J as ([w' u] & <- & J). apply filter_In in J. destruct J as [J E].
        cbn [fst snd] in *. apply eqs_eq in E. subst u. apply occ_in in J. destruct J as [n J]. exists n, w', t. auto.
      - intros (n & w & u & J & -> & ->). exists w. split; [reflexivity|]. apply in_map_iff. exists (w, t). split; [reflexivity|].
        apply filter_In. split; [apply occ_in; eauto|apply eqs_refl]. }
    split; intros (ty & N & L & I); exists ty; (split; [exact N|]); (split; [exact L|]); intros x; rewrite I; [apply Q|symmetry; apply Q].
Qed.

(** C70: with openclassthreshold = 0, documented as "tags that rewrite to at
    least this much word types", the call fails *)
Theorem C70_zero_threshold_fails : forall sents unkthr, gum sents unkthr 0 = None.
Proof. reflexivity. Qed.
Theorem C70_defined : forall sents unkthr openthr, 0 < openthr -> exists m, gum sents unkthr openthr = Some m.
Proof. intros s u [|o] H; [lia|]. eexists. reflexivity. Qed.

(** C70: the words kept in the training trees are exactly those above the
    frequency threshold and those seen with a closed class tag *)
Theorem C70_lexicon : forall sents unkthr openthr m, gum sents unkthr openthr = Some m ->
  forall w, In w (lm_lexicon m) <-> trainword lower basetag sents unkthr openthr w.
Proof.
  intros sents u o m E w. unfold getunknownwordmodel in E. destruct (o =? 0); [discriminate|]. injection E as <-. cbn [lm_lexicon].
  unfold trainword, freq. rewrite in_app_iff. assert (OI : forall A B C D : Prop, (A <-> B) -> (C <-> D) -> (A \/ C <-> B \/ D)) by tauto. apply OI; clear OI.
  - rewrite in_map_iff. split.
    + intros ([w' n] & <- & J). apply filter_In in J. destruct J as [J L]. cbn [fst snd] in *.
      apply (counter_entry eqs eqs_eq eqs_dec) in J. destruct J as [_ ->]. rewrite occs_concat in L. now apply Nat.ltb_lt.
    + intros L. exists (w, count_occ eqs_dec (map fst (occs sents)) w). split; [reflexivity|]. apply filter_In. cbn [snd]. split.
      * apply (counter_entry eqs eqs_eq eqs_dec). split; [|reflexivity]. apply (count_occ_In eqs_dec). rewrite occs_concat. lia.
      * apply Nat.ltb_lt. now rewrite occs_concat.
  - rewrite in_flat_map. split.
    + intros (t & J & K). apply filter_In in J. destruct J as [_ J]. apply negb_true_iff, isopen_closed in J.
      unfold wordsfortag in K. apply in_map_iff in K. destruct K as ([w' t'] & <- & K). apply filter_In in K. destruct K as [K Q].
      apply eqs_eq in Q. cbn [snd fst] in *. subst t'. apply occ_in in K. destruct K as [n K]. eauto.
    + intros (n & t & J & C). assert (K : In (w, t) (occs sents)) by (apply occ_in; eauto). exists t. split.
      * apply filter_In. split; [|apply negb_true_iff, isopen_closed; exact C]. apply (counter_keys eqs eqs_eq). now apply (in_map snd) in K.
      * unfold wordsfortag. apply in_map_iff. exists (w, t). split; [reflexivity|]. apply filter_In. split; [exact K|apply eqs_refl].
Qed.

(** C70: the statistics *)
Theorem C70_statistics : forall sents unkthr openthr m, gum sents unkthr openthr = Some m ->
  (forall w n, In (w, n) (lm_words m) <-> In w (map fst (concat sents)) /\ n = freq sents w) /\
  (forall t n, In (t, n) (lm_tags m) <-> In t (map snd (concat sents)) /\ n = count_occ eqs_dec (map snd (concat sents)) t) /\
  (forall wt n, In (wt, n) (lm_wordtags m) <-> In wt (concat sents) /\ n = count_occ pair_dec (concat sents) wt) /\
  NoDup (map fst (lm_words m)) /\ NoDup (map fst (lm_tags m)) /\ NoDup (map fst (lm_wordtags m)).
Proof.
  intros sents u o m E. unfold getunknownwordmodel in E. destruct (o =? 0); [discriminate|]. injection E as <-.
  cbn [lm_words lm_tags lm_wordtags]. rewrite !occs_concat. unfold freq.
  split; [intros; apply (counter_entry eqs eqs_eq)|]. split; [intros; apply (counter_entry eqs eqs_eq)|].
  split; [intros; apply (counter_entry paireqb paireqb_ok)|].
  split; [apply counter_nodup, eqs_eq|]. split; [apply counter_nodup, eqs_eq|apply counter_nodup, paireqb_ok].
Qed.

Lemma enum_nth : forall A (l : list A) n, nth_error (enum l) n = option_map (fun x => (n, x)) (nth_error l n).
Proof.
  intros A l n. unfold enum.
  assert (G : forall (l : list A) s n, nth_error (combine (seq s (length l)) l) n = option_map (fun x => (s + n, x)) (nth_error l n)).
  { clear. induction l as [|x l IH]; intros s n; cbn [length seq combine].
    - destruct n; reflexivity.
    - destruct n as [|n]; cbn [nth_error option_map]; [now rewrite Nat.add_0_r|]. rewrite IH. destruct (nth_error l n); cbn; [|reflexivity].
      do 2 f_equal. lia. }
  rewrite G. reflexivity.
Qed.
Lemma enum_length : forall A (l : list A), length (enum l) = length l.
Proof. intros. unfold enum. rewrite combine_length, seq_length. lia. Qed.
Lemma in_enum : forall A (l : list A) n x, In (n, x) (enum l) <-> nth_error l n = Some x.
Proof.
  intros A l n x. split.
  - intros I. apply In_nth_error in I. destruct I as [k I]. rewrite enum_nth in I. destruct (nth_error l k) eqn:E; [|discriminate].
    cbn in I. injection I as -> ->. exact E.
  - intros I. apply (nth_error_In _ n). now rewrite enum_nth, I.
Qed.

(** C70: training sentences keep their shape; each word is replaced on its own *)
Theorem C70_train_sentences : forall sents lexicon,
  length (replaceraretrainwords unknownword sents lexicon) = length sents /\
  forall k s, nth_error sents k = Some s ->
    exists s', nth_error (replaceraretrainwords unknownword sents lexicon) k = Some s' /\ length s' = length s /\
    forall n w t, nth_error s n = Some (w, t) ->
      exists w', nth_error s' n = Some w' /\
        (year w -> w' = str "1970") /\
        (~ year w -> number w -> w' = str "000") /\
        (~ numeral w -> In w lexicon -> w' = w) /\
        (~ numeral w -> ~ In w lexicon -> w' = unknownword w n lexicon).
Proof.
  intros sents lexicon. unfold replaceraretrainwords. split; [apply map_length|]. intros k s K.
  rewrite nth_error_map, K. cbn [option_map]. eexists. split; [reflexivity|]. split; [now rewrite map_length, enum_length|].
  intros n w t N. rewrite nth_error_map, enum_nth, N. cbn [option_map fst snd]. eexists. split; [reflexivity|].
  unfold trainrepl, numeral. rewrite <- C70_year_pattern, <- C70_number_pattern, <- ins_iff.
  destruct (yearre w), (numberre w), (ins w lexicon); cbn [negb]; repeat split; intros; try reflexivity; exfalso; intuition congruence.
Qed.

(** C70: the signatures counted are those of the occurrences outside the lexicon *)
Theorem C70_signatures : forall sents unkthr openthr m, gum sents unkthr openthr = Some m ->
  forall sig, In sig (map fst (lm_sigs m)) <->
    exists n w t, occ_at sents n w t /\ ~ In w (lm_lexicon m) /\ sig = unknownword w n (lm_lexicon m).
Proof.
  intros sents u o m E sig. unfold getunknownwordmodel in E. destruct (o =? 0); [discriminate|]. injection E as <-. cbn [lm_sigs lm_lexicon].
  match goal with |- context [ins _ ?L] => set (lx := L) end. clearbody lx.
  rewrite (counter_keys eqs eqs_eq), in_flat_map. split.
  - intros (s & I & J). apply in_flat_map in J. destruct J as ([n [w t]] & J & K). cbn [fst snd] in K. apply in_enum in J.
    destruct (ins w lx) eqn:Q; [destruct K|]. destruct K as [<-|[]]. exists n, w, t. split; [now exists s|]. split; [now apply ins_false|reflexivity].
  - intros (n & w & t & (s & I & J) & N & ->). exists s. split; [exact I|]. apply in_flat_map. exists (n, (w, t)). split; [now apply in_enum|].
    cbn [fst snd]. apply ins_false in N. rewrite N. now left.
Qed.

(** ---- smoothing ---- *)
Notation smooth := simplesmoothlexicon.
Definition smooth_step (m : lexmodel) := (fun (d : list ((tag * word) * Q)) (e : (word * tag) * nat) =>
      let '((w, t), n) := e in
      if ins w (lm_lexicon m) then d
      else dput paireqb (t, escape (Some w)) (inject_Z (Z.of_nat n)) d).
Lemma rare_keys : forall m l d k, In k (map fst (fold_left (smooth_step m) l d)) <->
  In k (map fst d) \/ exists w t n, In ((w, t), n) l /\ ~ In w (lm_lexicon m) /\ k = (t, escape (Some w)).
Proof.
  intros m. induction l as [|[[w t] n] l IH]; intros d k; cbn [fold_left].
  - split; [auto|]. intros [H|(w & t & n & [] & _)]. exact H.
  - rewrite IH. cbn [smooth_step]. destruct (ins w (lm_lexicon m)) eqn:Q.
    + apply ins_iff in Q. split.
      * intros [H|(w' & t' & n' & I & N & ->)]; [auto|]. right. exists w', t', n'. split; [now right|auto].
      * intros [H|(w' & t' & n' & [I|I] & N & ->)]; [auto|injection I as -> -> ->; contradiction|]. right. exists w', t', n'. auto.
    + apply ins_false in Q. rewrite (dput_keys paireqb paireqb_ok). split.
      * intros [[-> |H]|(w' & t' & n' & I & N & ->)]; [right; exists w, t, n; split; [now left|auto]|auto|].
        right. exists w', t', n'. split; [now right|auto].
      * intros [H|(w' & t' & n' & [I|I] & N & ->)]; [auto|injection I as -> -> ->; auto|]. right. exists w', t', n'. auto.
Qed.
Lemma rare_nodup : forall m l d, NoDup (map fst d) -> NoDup (map fst (fold_left (smooth_step m) l d)).
Proof.
  intros m. induction l as [|[[w t] n] l IH]; intros d N; cbn [fold_left]; [exact N|]. apply IH. cbn [smooth_step].
  destruct (ins w (lm_lexicon m)); [exact N|]. now apply dput_nodup; [apply paireqb_ok|].
Qed.
Lemma rare_get : forall m l d w t n, NoDup (map fst l) -> In ((w, t), n) l -> ~ In w (lm_lexicon m) ->
  (forall w' n', In ((w', t), n') l -> ~ In w' (lm_lexicon m) -> escape (Some w') = escape (Some w) -> w' = w) ->
  dget paireqb (t, escape (Some w)) (fold_left (smooth_step m) l d) = Some (inject_Z (Z.of_nat n)).
Proof.
  intros m. induction l as [|[[w0 t0] n0] l IH]; intros d w t n ND I NL U; [destruct I|]. cbn [fold_left].
  cbn [map fst] in ND. inversion ND as [|? ? ND1 ND2]; subst.
  destruct I as [I|I].
  - injection I as -> -> ->. cbn [smooth_step]. apply ins_false in NL. rewrite NL. apply ins_false in NL.
    assert (G : forall l' d', (forall w' n', In ((w', t), n') l' -> ~ In w' (lm_lexicon m) -> escape (Some w') <> escape (Some w)) ->
        dget paireqb (t, escape (Some w)) (fold_left (smooth_step m) l' d') = dget paireqb (t, escape (Some w)) d').
    { clear. induction l' as [|[[w' t'] n'] l' IH]; intros d' H; cbn [fold_left]; [reflexivity|].
      rewrite IH by (intros; eapply H; [right; eassumption|auto]). cbn [smooth_step]. destruct (ins w' (lm_lexicon m)) eqn:Q; [reflexivity|].
      apply ins_false in Q. apply (dget_put_other paireqb paireqb_ok). intros E. injection E as -> E. now apply (H w' n'); [left|..]. }
    rewrite G. { apply (dget_put_same paireqb paireqb_ok). }
    intros w' n' J NL' EQ. assert (w' = w) by (apply (U w' n'); [now right|auto..]). subst w'. apply ND1. apply in_map_iff. now exists ((w, t), n').
  - apply IH; auto. intros w' n' J. apply (U w' n'). now right.
Qed.
Lemma unk_fold_keys : forall (eps : Q) (l : list (tag * nat)) d k,
  In k (map fst (fold_left (fun d e => dput paireqb (fst e, UNK) eps d) l d)) <->
  In k (map fst d) \/ exists t, In t (map fst l) /\ k = (t, UNK).
Proof.
  intros eps. induction l as [|[t n] l IH]; intros d k; cbn [fold_left map fst].
  - split; [auto|]. intros [H|(t & [] & _)]. exact H.
  - rewrite IH, (dput_keys paireqb paireqb_ok). split.
    + intros [[-> |H]|(u & I & ->)]; [right; exists t; split; [now left|reflexivity]|auto|right; exists u; split; [now right|reflexivity]].
    + intros [H|(u & [<-|I] & ->)]; [auto|auto|right; exists u; auto].
Qed.
Lemma unk_fold_get : forall (eps : Q) (l : list (tag * nat)) d k,
  dget paireqb k (fold_left (fun d e => dput paireqb (fst e, UNK) eps d) l d) =
  if eqs (snd k) UNK && ins (fst k) (map fst l) then Some eps else dget paireqb k d.
Proof.
  intros eps. induction l as [|[t n] l IH]; intros d k; cbn [fold_left map fst].
  - cbn. now rewrite andb_false_r.
  - rewrite IH. cbn [ins existsb]. destruct (eqs (snd k) UNK) eqn:E1; cbn [andb].
    + fold (ins (fst k) (map fst l)). destruct (ins (fst k) (map fst l)); [now rewrite orb_true_r|]. rewrite orb_false_r.
      destruct (eqs (fst k) t) eqn:E2.
      * apply eqs_eq in E1, E2. destruct k as [a b]. cbn [fst snd] in *. subst. apply (dget_put_same paireqb paireqb_ok).
      * apply (dget_put_other paireqb paireqb_ok). intros ->. cbn [fst] in E2. now rewrite eqs_refl in E2.
    + apply (dget_put_other paireqb paireqb_ok). intros ->. cbn [snd] in E1. now rewrite eqs_refl in E1.
Qed.
Lemma unk_fold_nodup : forall (eps : Q) (l : list (tag * nat)) d, NoDup (map fst d) ->
  NoDup (map fst (fold_left (fun d e => dput paireqb (fst e, UNK) eps d) l d)).
Proof. intros eps. induction l as [|[t n] l IH]; intros d N; cbn [fold_left]; [exact N|]. apply IH, dput_nodup; [apply paireqb_ok|exact N]. Qed.

(** C70: the extra lexical rules are exactly: each rare word with each tag it
    was seen with, and the catch-all signature with every tag *)
Theorem C70_smoothing_rules : forall sents unkthr openthr m eps, gum sents unkthr openthr = Some m ->
  NoDup (map fst (smooth m eps)) /\
  forall t x, In (t, x) (map fst (smooth m eps)) <->
    (x = UNK /\ exists n w, occ_at sents n w t) \/
    (exists n w, occ_at sents n w t /\ ~ In w (lm_lexicon m) /\ x = escape (Some w)).
Proof.
  intros sents u o m eps E. destruct (C70_statistics _ _ _ _ E) as (_ & ST & SW & _). split.
  - unfold smooth. apply unk_fold_nodup. apply (rare_nodup m). constructor.
  - intros t x. unfold smooth. rewrite unk_fold_keys. change (fold_left _ (lm_wordtags m) []) with (fold_left (smooth_step m) (lm_wordtags m) []).
    rewrite rare_keys. cbn [map In]. split.
    + intros [[[]|(w & t' & n & I & N & Q)]|(t' & I & Q)].
      * injection Q as <- ->. right. apply SW in I. destruct I as [I _]. rewrite <- occs_concat in I. apply occ_in in I. destruct I as [k I]. exists k, w. auto.
      * injection Q as <- ->. left. split; [reflexivity|]. apply in_map_iff in I. destruct I as ([t'' n] & <- & I). apply ST in I. destruct I as [I _].
        apply in_map_iff in I. destruct I as ([w t'] & <- & I). rewrite <- occs_concat in I. apply occ_in in I. destruct I as [k I]. cbn. eauto.
    + intros [[-> (n & w & J)]|(n & w & J & N & ->)].
      * right. exists t. split; [|reflexivity]. assert (I : In (w, t) (concat sents)) by (rewrite <- occs_concat; apply occ_in; eauto).
        apply in_map_iff. eexists (t, _). split; [reflexivity|]. apply ST. split; [now apply (in_map snd) in I|reflexivity].
      * left. right. exists w, t. eexists. split; [|split; [exact N|reflexivity]]. apply SW. split; [|reflexivity]. rewrite <- occs_concat. apply occ_in. eauto.
Qed.
(** ... with the number of occurrences, resp. epsilon, as pseudo-frequency *)
Theorem C70_smoothing_weights : forall sents unkthr openthr m eps, gum sents unkthr openthr = Some m ->
  forall n w t, occ_at sents n w t ->
    dget paireqb (t, UNK) (smooth m eps) = Some eps /\
    (~ In w (lm_lexicon m) -> escape (Some w) <> UNK ->
     (forall n' w', occ_at sents n' w' t -> ~ In w' (lm_lexicon m) -> escape (Some w') = escape (Some w) -> w' = w) ->
     dget paireqb (t, escape (Some w)) (smooth m eps) =
       Some (inject_Z (Z.of_nat (count_occ pair_dec (concat sents) (w, t))))).
Proof.
  intros sents u o m eps E n w t J. destruct (C70_statistics _ _ _ _ E) as (_ & ST & SW & _ & _ & NW).
  assert (I : In (w, t) (concat sents)) by (rewrite <- occs_concat; apply occ_in; eauto).
  unfold smooth. rewrite !unk_fold_get. cbn [fst snd]. rewrite eqs_refl. split.
  - replace (ins t (map fst (lm_tags m))) with true; [reflexivity|]. symmetry. apply ins_iff. apply in_map_iff. eexists (t, _). split; [reflexivity|].
    apply ST. split; [now apply (in_map snd) in I|reflexivity].
  - intros N NU U. apply eqs_neq in NU. rewrite NU. cbn [andb].
    change (fold_left _ (lm_wordtags m) []) with (fold_left (smooth_step m) (lm_wordtags m) []).
    apply rare_get; auto; [apply SW; auto|]. intros w' n' K N' Q. apply SW in K. destruct K as [K _]. rewrite <- occs_concat in K. apply occ_in in K.
    destruct K as [k K]. eapply U; eauto.
Qed.

(** ---- coverage at test time ---- *)
Lemma nospecial_clean : forall w, w <> [] -> ~ In (ch "#") w -> ~ In (ch "(") w -> ~ In (ch ")") w -> clean w.
Proof.
  intros w N H L R. apply roundtrip_iff. split; [exact N|]. split.
  { intros ->. apply H. now left. }
  assert (E : rrb w = w).
  { unfold rrb, esc1. clear N H L. induction w as [|c w IH]; [reflexivity|]. cbn [flat_map]. destruct (N.eqb_spec 41 c) as [<-|]; [exfalso; apply R; now left|].
    cbn [app]. f_equal. apply IH. intros I. apply R. now right. }
  rewrite E. split; apply no_bad_iff; split; intros (l & r & ->); apply H; apply in_or_app; right; now left.
Qed.
Lemma escape_nopar : forall w, ~ In (ch "(") w -> ~ In (ch ")") w -> escape (Some w) = w.
Proof.
  intros w L R. rewrite escape_eq. assert (A : forall x b s, ~ In b s -> esc1 x b s = s).
  { intros x b. induction s as [|c s IH]; intros I; [reflexivity|]. unfold esc1. cbn [flat_map]. destruct (N.eqb_spec b c) as [<-|]; [exfalso; apply I; now left|].
    cbn [app]. f_equal. apply IH. intros J. apply I. now right. }
  unfold rrb, lrb. rewrite (A 76%N 40%N w L). now apply A.
Qed.

Lemma grammarwords_in : forall trainsents extra x, In x (grammarwords trainsents extra) <->
  (exists s w, In s trainsents /\ In w s /\ unescape (escape (Some w)) = Some x) \/
  (exists t y q, In ((t, y), q) extra /\ unescape y = Some x).
Proof.
  intros ts ex x. unfold grammarwords. rewrite in_flat_map. split.
  - intros (y & I & J). destruct (unescape y) as [u|] eqn:U; [|destruct J]. destruct J as [<-|[]].
    apply in_app_or in I. destruct I as [I|I].
    + apply in_map_iff in I. destruct I as (w & <- & I). apply in_concat in I. destruct I as (s & I1 & I2). left. eauto 6.
    + apply in_map_iff in I. destruct I as ([[t z] q] & <- & I). right. eauto 6.
  - intros [(s & w & I & J & U)|(t & y & q & I & U)].
    + exists (escape (Some w)). rewrite U. split; [|now left]. apply in_or_app. left. apply in_map_iff. exists w. split; [reflexivity|]. apply in_concat. eauto.
    + exists y. rewrite U. split; [|now left]. apply in_or_app. right. apply in_map_iff. exists ((t, y), q). auto.
Qed.

Lemma train_word_in : forall sents lexicon n w t, occ_at sents n w t ->
  exists s', In s' (replaceraretrainwords unknownword sents lexicon) /\ In (trainrepl unknownword lexicon n w) s'.
Proof.
  intros sents lx n w t (s & I & J). unfold replaceraretrainwords. eexists. split; [apply in_map_iff; exists s; split; [reflexivity|exact I]|].
  apply in_map_iff. exists (n, (w, t)). split; [reflexivity|]. now apply in_enum.
Qed.
Lemma train_word_from : forall sents lexicon x s', In s' (replaceraretrainwords unknownword sents lexicon) -> In x s' ->
  exists n w t, occ_at sents n w t /\ x = trainrepl unknownword lexicon n w.
Proof.
  intros sents lx x s' I J. unfold replaceraretrainwords in I. apply in_map_iff in I. destruct I as (s & <- & I).
  apply in_map_iff in J. destruct J as ([n [w t]] & <- & J). apply in_enum in J. exists n, w, t. split; [now exists s|reflexivity].
Qed.
Lemma numeral_iff : forall w, numeral w <-> yearre w = true \/ numberre w = true.
Proof. intros. unfold numeral. now rewrite C70_year_pattern, C70_number_pattern. Qed.

(** Words of the grammar of a run: training words and extra rules. *)
Definition gwords (m : lexmodel) (trainsents : list (list word)) (eps : Q) := grammarwords trainsents (smooth m eps).

Lemma unk_in : forall sents unkthr openthr m ts eps, gum sents unkthr openthr = Some m -> concat sents <> [] -> In UNK (gwords m ts eps).
Proof.
  intros sents u o m ts eps E NE. apply grammarwords_in. right. destruct (concat sents) as [|[w t] r] eqn:Q; [contradiction|].
  assert (I : In (w, t) (occs sents)) by (rewrite occs_concat, Q; now left). apply occ_in in I. destruct I as [n I].
  destruct (C70_smoothing_rules _ _ _ _ eps E) as [_ S]. assert (K : In (t, UNK) (map fst (smooth m eps))) by (apply S; left; eauto).
  apply in_map_iff in K. destruct K as ([k q] & KE & K). cbn in KE. subst k. exists t, UNK, q. split; [exact K|reflexivity].
Qed.

(** C70: '1970' and '000' are words of the grammar when the training set has a
    year, resp. a number that is not a year *)
Theorem C70_numerals_covered : forall sents m eps,
  ((exists n w t, occ_at sents n w t /\ year w) ->
    In (str "1970") (gwords m (replaceraretrainwords unknownword sents (lm_lexicon m)) eps)) /\
  ((exists n w t, occ_at sents n w t /\ number w /\ ~ year w) ->
    In (str "000") (gwords m (replaceraretrainwords unknownword sents (lm_lexicon m)) eps)).
Proof.
  intros sents m eps. split.
  - intros (n & w & t & J & Y). apply C70_year_pattern in Y. destruct (train_word_in sents (lm_lexicon m) _ _ _ J) as (s' & I1 & I2).
    unfold trainrepl in I2. rewrite Y in I2. apply grammarwords_in. left. exists s', (str "1970"). split; [exact I1|]. split; [exact I2|reflexivity].
  - intros (n & w & t & J & Y & NY). apply C70_number_pattern in Y. destruct (train_word_in sents (lm_lexicon m) _ _ _ J) as (s' & I1 & I2).
    unfold trainrepl in I2. rewrite <- C70_year_pattern in NY. apply not_true_iff_false in NY. rewrite Y, NY in I2.
    apply grammarwords_in. left. exists s', (str "000"). split; [exact I1|]. split; [exact I2|reflexivity].
Qed.

(** str.lower does not make numerals out of other text *)
Hypothesis LN : forall w, numeral (lower w) -> numeral w.
(** C70: within one run (runexp), for any training set and any test sentence,
    each word the parser looks up either is a word of the grammar, or stands
    for a year or number ('1970' / '000'), or is a signature that in training
    only numerals had. *)
Theorem C70_test_words_covered : forall sents unkthr openthr m trainsents model eps sent,
  getposmodel lower basetag unknownword sents unkthr openthr = Some (m, trainsents, model) ->
  concat sents <> [] ->
  (forall n w t, occ_at sents n w t -> clean w /\ clean (unknownword w n (lm_lexicon m))) ->
  length (parsersent lower unknownword sent model) = length sent /\
  forall n x, nth_error (parsersent lower unknownword sent model) n = Some x ->
    exists tok, nth_error sent n = Some tok /\
    ( In x (gwords m trainsents eps)
      \/ (year (escape (Some tok)) /\ x = str "1970")
      \/ (number (escape (Some tok)) /\ x = str "000")
      \/ (x = unknownword (escape (Some tok)) n (fst model) /\ In x (map fst (lm_sigs m)) /\
          forall k w t, occ_at sents k w t -> ~ In w (lm_lexicon m) ->
            x = unknownword w k (lm_lexicon m) -> numeral w)).
Proof.
  intros sents u o m ts model eps sent E NE CL. unfold getposmodel in E. destruct (gum sents u o) as [m'|] eqn:EG; [|discriminate].
  injection E as -> <- <-. cbn [fst snd].
  unfold parsersent, replaceraretestwords. cbn [fst snd]. split; [now rewrite map_length, enum_length, map_length|].
  intros n x. rewrite nth_error_map, enum_nth, nth_error_map. destruct (nth_error sent n) as [tok|] eqn:T; [|intros X; cbn in X; discriminate X].
  cbn [option_map fst snd]. intros X. apply some_inj in X. subst x. exists tok. split; [reflexivity|].
  set (e := escape (Some tok)). unfold testrepl.
  destruct (yearre e) eqn:Y; [right; left; split; [now apply C70_year_pattern|reflexivity]|].
  destruct (numberre e) eqn:NB; [right; right; left; split; [now apply C70_number_pattern|reflexivity]|].
  destruct (C70_statistics _ _ _ _ EG) as (SW & _ & _ & _). destruct (C70_smoothing_rules _ _ _ _ eps EG) as [_ SR].
  assert (KW : forall v, ins v (map fst (lm_words m)) = true -> In v (map fst (concat sents)) ).
  { intros v I. apply ins_iff, in_map_iff in I. destruct I as ([v' k] & <- & I). apply SW in I. apply I. }
  assert (OC : forall v, In v (map fst (concat sents)) -> exists k t, occ_at sents k v t).
  { intros v I. apply in_map_iff in I. destruct I as ([v' t] & <- & I). rewrite <- occs_concat in I. apply occ_in in I. destruct I as [k I]. eauto. }
  assert (KN : forall v, In v (map fst (concat sents)) -> (In v (lm_lexicon m) -> yearre v = false /\ numberre v = false) -> In v (gwords m (replaceraretrainwords unknownword sents (lm_lexicon m)) eps)).
  { intros v I NN. destruct (OC v I) as (k & t & J). destruct (CL _ _ _ J) as [CV _]. apply grammarwords_in.
    destruct (ins v (lm_lexicon m)) eqn:Q.
    - left. destruct (train_word_in sents (lm_lexicon m) _ _ _ J) as (s' & I1 & I2). exists s', v. split; [exact I1|]. split; [|exact CV].
      assert (Q' := Q). apply ins_iff in Q'. destruct (NN Q') as [Y' N']. unfold trainrepl in I2. rewrite Y', N', Q in I2. exact I2.
    - right. apply ins_false in Q. assert (K : In (t, escape (Some v)) (map fst (smooth m eps))) by (apply SR; right; eauto).
      apply in_map_iff in K. destruct K as ([kk q] & KE & K). cbn in KE. subst kk. exists t, (escape (Some v)), q. split; [exact K|exact CV]. }
  destruct (ins e (map fst (lm_words m))) eqn:W1; [left; apply KN; [apply KW; exact W1|intros _; split; [exact Y|exact NB]]|].
  destruct (ins (lower e) (map fst (lm_words m))) eqn:W2.
  { left. apply KN; [apply KW; exact W2|]. intros _. split; apply not_true_iff_false; intros Z.
    - assert (ZN : numeral (lower e)) by (apply numeral_iff; auto). apply LN, numeral_iff in ZN. destruct ZN; congruence.
    - assert (ZN : numeral (lower e)) by (apply numeral_iff; auto). apply LN, numeral_iff in ZN. destruct ZN; congruence. }
  destruct (ins (unknownword e n (map fst (lm_words m))) (map fst (lm_sigs m))) eqn:SG; [|left; eapply unk_in; eauto].
  set (sig := unknownword e n (map fst (lm_words m))) in *. apply ins_iff in SG.
  (* does some non-numeral occurrence have this signature? *)
  set (f := fun nwt : nat * (word * tag) => negb (ins (fst (snd nwt)) (lm_lexicon m)) && eqs sig (unknownword (fst (snd nwt)) (fst nwt) (lm_lexicon m))
              && negb (yearre (fst (snd nwt)) || numberre (fst (snd nwt)))).
  destruct (existsb (fun s => existsb f (enum s)) sents) eqn:X.
  - left. apply existsb_exists in X. destruct X as (s & I & X). apply existsb_exists in X. destruct X as ([k [w t]] & J & X).
    unfold f in X. cbn [fst snd] in X. rewrite !andb_true_iff, !negb_true_iff in X. destruct X as [[NL EQ] NN]. apply eqs_eq in EQ.
    apply in_enum in J. assert (O : occ_at sents k w t) by (now exists s). destruct (CL _ _ _ O) as [_ CS].
    apply grammarwords_in. left. destruct (train_word_in sents (lm_lexicon m) _ _ _ O) as (s' & I1 & I2).
    exists s', sig. split; [exact I1|]. rewrite EQ in *. split; [|exact CS]. unfold trainrepl in I2. apply orb_false_elim in NN. destruct NN as [N1 N2].
    rewrite N1, N2, NL in I2. exact I2.
  - right; right; right. split; [reflexivity|]. split; [exact SG|]. intros k w t (s & I & J) NL EQ. apply numeral_iff.
    destruct (yearre w) eqn:Y1; [auto|]. destruct (numberre w) eqn:N1; [auto|]. exfalso. apply not_true_iff_false in X. apply X.
    apply existsb_exists. exists s. split; [exact I|]. apply existsb_exists. exists (k, (w, t)). split; [now apply in_enum|].
    unfold f. cbn [fst snd]. rewrite Y1, N1. apply ins_false in NL. rewrite NL, EQ, eqs_refl. reflexivity.
Qed.

(** C70: a parser read back from the grammar files never passes on a signature
    the grammar does not have: only '1970' and '000' may be missing. *)
Theorem C70_loaded_parser_covered : forall gw sent, In UNK gw ->
  let model := loadedmodel gw in
  length (parsersent lower unknownword sent model) = length sent /\
  forall n x, nth_error (parsersent lower unknownword sent model) n = Some x ->
    exists tok, nth_error sent n = Some tok /\
    ( In x gw
      \/ (year (escape (Some tok)) /\ x = str "1970")
      \/ (number (escape (Some tok)) /\ x = str "000")).
Proof.
  intros gw sent U. cbv zeta. unfold parsersent, replaceraretestwords, loadedmodel. cbn [fst snd]. split; [now rewrite map_length, enum_length, map_length|].
  intros n x. rewrite nth_error_map, enum_nth, nth_error_map. destruct (nth_error sent n) as [tok|] eqn:T; [|intros X; cbn in X; discriminate X].
  cbn [option_map fst snd]. intros X. apply some_inj in X. subst x. exists tok. split; [reflexivity|].
  set (e := escape (Some tok)). unfold testrepl.
  destruct (yearre e) eqn:Y; [right; left; split; [now apply C70_year_pattern|reflexivity]|].
  destruct (numberre e) eqn:NB; [right; right; split; [now apply C70_number_pattern|reflexivity]|]. left.
  match goal with |- context [ins e ?L] => destruct (ins e L) eqn:W1; [apply ins_iff, filter_In in W1; apply W1|] end.
  match goal with |- context [ins (lower e) ?L] => destruct (ins (lower e) L) eqn:W2; [apply ins_iff, filter_In in W2; apply W2|] end.
  match goal with |- In (if ?c then _ else _) _ => destruct c eqn:W3; [apply ins_iff, filter_In in W3; apply W3|exact U] end.
Qed.

(** C70: with a known word, the token itself is looked up (when it is not a
    numeral and has no parentheses) *)
Theorem C70_known_word_kept : forall sents unkthr openthr m trainsents model sent n tok,
  getposmodel lower basetag unknownword sents unkthr openthr = Some (m, trainsents, model) ->
  nth_error sent n = Some tok -> In tok (map fst (concat sents)) -> ~ numeral tok ->
  ~ In (ch "(") tok -> ~ In (ch ")") tok ->
  nth_error (parsersent lower unknownword sent model) n = Some tok.
Proof.
  intros sents u o m ts model sent n tok E T I NN L R. unfold getposmodel in E. destruct (gum sents u o) as [m'|] eqn:EG; [|discriminate].
  injection E as -> <- <-. unfold parsersent, replaceraretestwords. cbn [fst snd]. rewrite nth_error_map, enum_nth, nth_error_map, T.
  cbn [option_map fst snd]. f_equal. rewrite escape_nopar by auto. unfold testrepl. rewrite numeral_iff in NN.
  destruct (yearre tok); [exfalso; auto|]. destruct (numberre tok); [exfalso; auto|].
  replace (ins tok (map fst (lm_words m))) with true; [reflexivity|]. symmetry. apply ins_iff, in_map_iff.
  eexists (tok, _). split; [reflexivity|]. destruct (C70_statistics _ _ _ _ EG) as (SW & _). apply SW. split; [exact I|reflexivity].
Qed.
End Main.

(** ---- signature functions ---- *)
Definition sigchar (c : char) : Prop := c <> ch "#" /\ c <> ch "(" /\ c <> ch ")".
Ltac sigconst := let c := fresh in let I := fresh in intros c I; cbn in I; unfold sigchar; cbn; intuition (subst; discriminate).

Section SigProps.
Variable lower : pystr -> pystr.
Variable unidigit isupper islower : char -> bool.
Variables advsuffix verbsuffix nounsuffix adjsuffix possibleplural ispunc haspunc : word -> bool.
Definition all_sigs : list (word -> nat -> list word -> word) :=
  [unknownword4 lower unidigit isupper islower; unknownword6 lower unidigit isupper islower;
   unknownwordbase lower unidigit isupper islower;
   unknownwordftb unidigit isupper advsuffix verbsuffix nounsuffix adjsuffix possibleplural ispunc haspunc].

(** C70: all four models produce strings starting with the UNK marker, so that
    they are told apart from words when a grammar is loaded *)
Theorem C70_signature_marker : forall f w n lexicon, In f all_sigs -> startswith (f w n lexicon) UNK = true.
Proof.
  intros f w n lx I. apply startswith_iff.
  destruct I as [<-|[<-|[<-|[<-|[]]]]].
  - eexists. reflexivity.
  - unfold unknownword6. rewrite <- !app_assoc.
    repeat match goal with |- context [if ?c then _ else _] => destruct c end; rewrite <- ?app_assoc; eexists; reflexivity.
  - eexists. reflexivity.
  - eexists. reflexivity.
Qed.

Lemma sig_app : forall a b : pystr, (forall c, In c a -> sigchar c) -> (forall c, In c b -> sigchar c) -> forall c, In c (a ++ b) -> sigchar c.
Proof. intros a b A B c I. apply in_app_or in I. destruct I; auto. Qed.
Lemma sig_nil : forall c, In c [] -> sigchar c.
Proof. intros c []. Qed.
(** C70: signatures survive being written to and read from the lexicon file;
    for the two models that copy a suffix, if the word has no special characters *)
Theorem C70_signature_clean : forall f w n lexicon, In f all_sigs ->
  (forall c, In c w -> sigchar c) ->
  (forall v, (forall c, In c v -> sigchar c) -> forall c, In c (lower v) -> sigchar c) ->
  clean (f w n lexicon).
Proof.
  intros f w n lx I W LW.
  assert (ALL : forall c, In c (f w n lx) -> sigchar c).
  { assert (SP : forall c, In c (suffixpart lower isupper islower w) -> sigchar c).
    { unfold suffixpart. destruct (3 <? length w); [|apply sig_nil]. destruct (rev w) as [|x r]; [apply sig_nil|].
      destruct (isupper x || islower x); [|apply sig_nil]. apply sig_app; [sigconst|]. apply LW. intros c J. apply W.
      unfold last2 in J. apply in_rev in J. apply in_rev. rewrite <- (firstn_skipn 2 (rev w)). apply in_or_app. now left. }
    destruct I as [<-|[<-|[<-|[<-|[]]]]].
    - unfold unknownword4, digitpart. repeat apply sig_app; repeat match goal with |- context [if ?c then _ else _] => destruct c end; try exact SP; try apply sig_nil; sigconst.
    - unfold unknownword6. cbv zeta.
      match goal with |- forall c, In c (if ?a then if ?b then ?s else _ else _) -> _ => assert (S0 : forall c, In c s -> sigchar c) end.
      { repeat apply sig_app; repeat match goal with |- context [if ?c then _ else _] => destruct c end; try apply sig_app; try apply sig_nil; try sigconst. }
      match goal with |- forall c, In c (if ?a then if ?b then _ else _ else _) -> _ => destruct a; [destruct b|] end.
      + exact S0.
      + apply sig_app; [exact S0|sigconst].
      + match goal with |- forall c, In c (if ?a then _ else _) -> _ => destruct a end; [|exact S0]. apply sig_app; [exact S0|].
        destruct (find _ _) as [a|] eqn:F; [|apply sig_nil]. apply find_some in F. destruct F as [F _]. apply sig_app; [sigconst|].
        cbn [map In] in F. repeat (destruct F as [<-|F]; [sigconst|]). destruct F.
    - unfold unknownwordbase, digitpart. repeat apply sig_app; repeat match goal with |- context [if ?c then _ else _] => destruct c end; try exact SP; try apply sig_nil; sigconst.
    - unfold unknownwordftb. repeat apply sig_app; repeat match goal with |- context [if ?c then _ else _] => destruct c end; try apply sig_nil; sigconst. }
  apply nospecial_clean.
  - pose proof (C70_signature_marker f w n lx I) as S. intros E. rewrite E in S. discriminate.
  - intros J. apply ALL in J. destruct J as (J & _ & _). now apply J.
  - intros J. apply ALL in J. destruct J as (_ & J & _). now apply J.
  - intros J. apply ALL in J. destruct J as (_ & _ & J). now apply J.
Qed.
End SigProps.

(** ---- concrete cases ---- *)
Definition asciilower (c : char) : char := if (N.leb 65 c && N.leb c 90)%N then (c + 32)%N else c.
Definition alower (w : pystr) : pystr := map asciilower w.
Definition aupper (c : char) : bool := (N.leb 65 c && N.leb c 90)%N.
Definition aislower (c : char) : bool := (N.leb 97 c && N.leb c 122)%N.
Definition sig4 := unknownword4 alower isdigit aupper aislower.
Definition occ (w t : string) := (str w, str t).
Definition demo : tagsents :=
  [[occ "The" "DT"; occ "cat" "NN"; occ "cost" "VB"; occ "1,000" "CD"];
   [occ "The" "DT"; occ "(" "-LRB-"; occ "dog" "NN"; occ ")" "-RRB-"; occ "slept" "VB"; occ "1987" "CD"];
   [occ "The" "DT"; occ "cat" "NN"; occ "eschewed" "VB"; occ "3" "CD"]].
Definition demorun := getposmodel alower (fun t => Some t) sig4 demo 1 2.
Definition demolook (s : list string) : list word :=
  match demorun with Some (_, _, model) => parsersent alower sig4 (map str s) model | None => [] end.
Definition demowords : list word :=
  match demorun with Some (m, ts, _) => gwords m ts (1 # 100) | None => [] end.
(** ordinary tokens: known, lower-cased, signature, year, number, unseen signature *)
Example demo_lookup : demolook ["The"; "Cat"; "chewed"; "1999"; "7"; "?!"]%string =
  map str ["The"; "cat"; "_UNK-L-ed"; "1970"; "000"; "_UNK"]%string.
Proof. vm_compute. reflexivity. Qed.
Example demo_covered : forallb (fun w => ins w demowords) (demolook ["The"; "Cat"; "chewed"; "1999"; "7"; "?!"]%string) = true.
Proof. vm_compute. reflexivity. Qed.
(** FINDING: "1,000" is counted under a signature in getunknownwordmodel, but
    replaced by '000' in training; a test token that is not a NUMBERRE number
    but has the same signature gets a word without any lexical rule. *)
Theorem C70_numeral_signature_refuted :
  demolook ["1,000,000"]%string = [str "_UNK-S-n-C"] /\ ~ In (str "_UNK-S-n-C") demowords.
Proof. split; [vm_compute; reflexivity|]. rewrite <- ins_iff. vm_compute. discriminate. Qed.
(** FINDING: '(' is a word of the grammar, but the parser looks up the
    signature of '#LRB#' instead. *)
Theorem C70_parenthesis_refuted :
  In (str "(") demowords /\ demolook ["("]%string = [str "_UNK"].
Proof. split; [apply ins_iff; vm_compute; reflexivity|vm_compute; reflexivity]. Qed.
(** FINDING: with no year in the training set, a year in a test sentence has no
    lexical rule. *)
Definition demo2 : tagsents := [[occ "The" "DT"; occ "cat" "NN"]].
Theorem C70_year_uncovered_refuted :
  exists m ts model, getposmodel alower (fun t => Some t) sig4 demo2 1 2 = Some (m, ts, model) /\
    parsersent alower sig4 [str "1999"] model = [str "1970"] /\ ~ In (str "1970") (gwords m ts (1 # 100)).
Proof.
  eexists _, _, _. split; [reflexivity|]. split; [vm_compute; reflexivity|]. rewrite <- ins_iff. vm_compute. discriminate.
Qed.
(** the hypotheses of the coverage theorem are met by [demo] *)
Example demo_clean : forall n w t, occ_at demo n w t -> forall m ts model, demorun = Some (m, ts, model) ->
  clean w /\ clean (sig4 w n (lm_lexicon m)).
Proof.
  intros n w t (s & I & J) m ts model E.
  assert (Q : lm_lexicon m = match demorun with Some (m', _, _) => lm_lexicon m' | None => [] end) by (now rewrite E).
  rewrite Q. clear Q E. cbn [demo In] in I.
  destruct I as [<-|[<-|[<-|[]]]]; do 6 (destruct n as [|n]; [cbn [nth_error] in J; try discriminate; injection J as <- <-; split; vm_compute; reflexivity|]);
    destruct n; discriminate.
Qed.
Lemma alower_numeral : forall w, numeral (alower w) -> numeral w.
Proof.
  assert (D : forall c, digit (asciilower c) -> asciilower c = c).
  { intros c. unfold asciilower, digit. destruct (N.leb_spec 65 c), (N.leb_spec c 90); cbn [andb]; auto. lia. }
  assert (FIX : forall w, (forall c, In c (alower w) -> asciilower c = c /\ aislower c <> true) -> alower w = w).
  { induction w as [|c w IH]; intros H; [reflexivity|]. cbn [alower map]. f_equal.
    - destruct (H (asciilower c)) as [_ H2]; [now left|]. unfold asciilower, aislower in *.
      destruct (N.leb_spec 65 c), (N.leb_spec c 90); cbn [andb] in *; auto. exfalso. apply H2. rewrite andb_true_iff, !N.leb_le. lia.
    - apply IH. intros x I. apply H. now right. }
  assert (DC : forall c, digit c -> asciilower c = c /\ aislower c <> true).
  { intros c. unfold digit, asciilower, aislower. intros H. rewrite andb_true_iff, !N.leb_le. split; [|lia].
    destruct (N.leb_spec 65 c); cbn [andb]; auto. lia. }
  assert (SC : forall c, c = ch "," \/ c = ch "." \/ c = ch "'" -> asciilower c = c /\ aislower c <> true).
  { intros c [->|[->| ->]]; split; try reflexivity; vm_compute; discriminate. }
  assert (NT : forall s, number_text s -> forall c, In c s -> asciilower c = c /\ aislower c <> true).
  { intros s [[_ H]|(a & sep & b & -> & A & _ & B & S)] c I; [auto|]. apply in_app_or in I. destruct I as [I|[<-|I]]; auto. }
  assert (YT : forall s, year_text s -> forall c, In c s -> asciilower c = c /\ aislower c <> true).
  { intros s (c & d & C & D' & [->| ->]) x I; apply DC; apply in_app_or in I; destruct I as [I|I]; cbn in I;
      intuition (subst; auto); unfold digit; cbn; lia. }
  assert (NL : forall c, In c [10%N] -> asciilower c = c /\ aislower c <> true).
  { intros c [<-|[]]. split; [reflexivity|]. vm_compute. discriminate. }
  intros w [[H|(v & E & H)]|[H|(v & E & H)]].
  - left. left. rewrite <- (FIX w); [exact H|apply YT; exact H].
  - left. right. exists v. split; [|exact H]. rewrite <- E. symmetry. apply FIX. rewrite E. intros c I. apply in_app_or in I. destruct I; eauto.
  - right. left. rewrite <- (FIX w); [exact H|apply NT; exact H].
  - right. right. exists v. split; [|exact H]. rewrite <- E. symmetry. apply FIX. rewrite E. intros c I. apply in_app_or in I. destruct I; eauto.
Qed.
