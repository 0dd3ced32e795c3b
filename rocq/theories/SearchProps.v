(** C74: searching text files by line; C75: the caches; C76: highlighting. *)
From Coq Require Import String.
From Coq Require Import List Bool Arith NArith Lia Permutation Sorted.
From Verif Require Import PyStr SearchModel SearchProofs.
Import ListNotations.
Open Scope list_scope.
Open Scope nat_scope.

(** ---- C74 ---- *)
(** the k'th sentence of a file is the k'th line that is not white space *)
Definition sentence (file : list N) (k : nat) : option (list N) := if k =? 0 then None else nth_error (filter nonblank (lines file)) (k - 1).
Lemma at_line_of : forall file k l, sentence file k = Some l -> exists pre blanks post, at_line file k pre l blanks post.
Proof.
  intros file k l E. unfold sentence in E. destruct k as [|k]; [discriminate|]. cbn [Nat.eqb] in E. replace (S k - 1) with k in E by lia. unfold at_line.
  assert (G : forall ls k, nth_error (filter nonblank ls) k = Some l -> exists pre r, ls = pre ++ l :: r /\ isspace l = false /\ k = length (filter nonblank pre)).
  { clear. induction ls as [|x ls IH]; intros k E; cbn [filter] in E; [destruct k; discriminate|]. destruct (nonblank x) eqn:Q.
    - destruct k as [|k]; cbn [nth_error] in E.
      + injection E as ->. exists [], ls. split; [reflexivity|]. split; [unfold nonblank in Q; now apply negb_true_iff|reflexivity].
      + destruct (IH k E) as (pre & r & -> & A & ->). exists (x :: pre), r. split; [reflexivity|]. split; [exact A|]. cbn [filter]. now rewrite Q.
    - destruct (IH k E) as (pre & r & -> & A & ->). exists (x :: pre), r. split; [reflexivity|]. split; [exact A|]. cbn [filter]. now rewrite Q. }
  destruct (G _ _ E) as (pre & r & E1 & NL1 & E2). destruct (takew_dropw r) as (ER & F & D). exists pre, (takew r), (dropw r). rewrite <- ER. split; [exact E1|]. split; [exact NL1|]. split; [exact F|]. split; [exact D|]. now rewrite E2.
Qed.
Lemma sentence_of : forall file k pre l blanks post, at_line file k pre l blanks post -> sentence file k = Some l.
Proof.
  intros file k pre l blanks post (E & A & _ & _ & ->). unfold sentence. cbn [Nat.eqb]. rewrite E, filter_app. cbn [filter]. unfold nonblank at 2. rewrite A. cbn [negb].
  rewrite nth_error_app2 by lia. replace (S (length (filter nonblank pre)) - 1 - length (filter nonblank pre)) with 0 by lia. reflexivity.
Qed.
(** the index has a position for every sentence, and the size of the file *)
Theorem C74_numlines : forall file, length (indexfile file) = length (filter nonblank (lines file)) + 1.
Proof. intros file. destruct (last_index file) as (A & -> & L). rewrite app_length. cbn. lia. Qed.
Lemma slice_app : forall A (a b c : list A), slice (length a) (length a + length b) (a ++ b ++ c) = b.
Proof.
  intros A a b c. unfold slice. rewrite skipn_app, skipn_all, Nat.sub_diag. cbn [skipn app]. replace (length a + length b - length a) with (length b) by lia. rewrite firstn_app, Nat.sub_diag, firstn_all. cbn. apply app_nil_r.
Qed.
Lemma file_split : forall file k pre l blanks post, at_line file k pre l blanks post -> file = concat pre ++ (l ++ concat blanks) ++ concat post.
Proof. intros file k pre l blanks post (E & _). rewrite <- (lines_concat file) at 1. rewrite E, concat_app. cbn [concat]. now rewrite concat_app, <- app_assoc. Qed.
Lemma dropnl_all : forall a b, Forall (eq NL) a -> dropnl (a ++ b) = dropnl b.
Proof. induction 1 as [|x a E F IH]; [reflexivity|]. cbn. now rewrite <- E. Qed.
Lemma rstrip_app : forall a b, Forall (eq NL) b -> rstripnl (a ++ b) = rstripnl a.
Proof. intros a b F. unfold rstripnl. rewrite rev_app_distr, dropnl_all; [reflexivity|]. apply Forall_rev, F. Qed.
Lemma rstrip_end : forall a c, c <> NL -> rstripnl (a ++ [c]) = a ++ [c].
Proof. intros a c N. unfold rstripnl. rewrite rev_app_distr. cbn [rev app dropnl]. destruct (N.eqb c NL) eqn:Q; [apply N.eqb_eq in Q; contradiction|]. cbn. now rewrite rev_involutive. Qed.
(** a line without its newline *)
Definition chomp (l : list N) : list N := rstripnl l.
Theorem C74_chomp : forall file l, In l (lines file) -> l = chomp l \/ l = chomp l ++ [NL] /\ ~ In NL (chomp l).
Proof.
  intros file l I. pose proof (lines_newline file) as F. rewrite Forall_forall in F. specialize (F l I). unfold chomp. destruct l as [|x0 l0] using rev_ind; [now left|]. clear IHl0.
  destruct (N.eq_dec x0 NL) as [->|N]; [|left; now rewrite rstrip_end].
  assert (NI : ~ In NL l0). { intros J. apply in_split in J. destruct J as (a & b & ->). rewrite <- app_assoc in F. cbn in F. specialize (F a (b ++ [NL]) eq_refl). destruct b; discriminate. }
  assert (E : rstripnl (l0 ++ [NL]) = l0).
  { rewrite rstrip_app by repeat constructor. destruct l0 as [|y l0] using rev_ind; [reflexivity|]. apply rstrip_end. intros ->. apply NI. apply in_or_app. right. now left. }
  right. rewrite E. auto.
Qed.
(** extracting a sentence gives its text; both ways of reading the file agree *)
Lemma back_spec : forall d n, n <= length d -> firstn (back d n) d = rstripnl (firstn n d).
Proof.
  intros d. induction n as [|n IH]; intros L; cbn [back]; [reflexivity|]. assert (E : firstn (S n) d = firstn n d ++ [nth n d 0%N]).
  { clear IH. revert n L. induction d as [|x d IHd]; intros n L; cbn in L; [lia|]. destruct n as [|n]; [reflexivity|]. change (x :: firstn (S n) d = x :: firstn n d ++ [nth n d 0%N]). f_equal. apply IHd. lia. }
  destruct (N.eqb (nth n d 0%N) NL) eqn:Q; rewrite E.
  - apply N.eqb_eq in Q. rewrite IH by lia. rewrite Q, rstrip_app; [reflexivity|repeat constructor].
  - rewrite rstrip_end; [reflexivity|]. apply N.eqb_neq. exact Q.
Qed.
Lemma rstrip_length : forall s, length (rstripnl s) <= length s.
Proof. intros s. unfold rstripnl. rewrite rev_length. assert (G : forall l, length (dropnl l) <= length l) by (induction l as [|x l IH]; cbn; [lia|destruct (N.eqb x NL); cbn; lia]). specialize (G (rev s)). now rewrite rev_length in G. Qed.
Lemma rstrip_mid : forall a b, (exists c, In c b /\ c <> NL) -> rstripnl (a ++ b) = a ++ rstripnl b.
Proof.
  intros a b (c & I & N). unfold rstripnl. rewrite rev_app_distr. assert (G : forall x y, In c x -> dropnl (x ++ y) = dropnl x ++ y).
  { induction x as [|z x IH]; intros y J; [contradiction|]. cbn. destruct (N.eqb z NL) eqn:Q; [|reflexivity]. apply IH. destruct J as [->|J]; [apply N.eqb_eq in Q; contradiction|exact J]. }
  rewrite G by now apply -> in_rev. rewrite rev_app_distr, rev_involutive. reflexivity.
Qed.
Lemma nonspace_char : forall l, l <> [] -> isspace l = false -> exists c, In c l /\ c <> NL.
Proof.
  intros [|x l] NE H; [congruence|]. cbn [isspace] in H. assert (G : forall l, forallb isspacec l = false -> exists c, In c l /\ c <> NL).
  { induction l0 as [|y m IH]; cbn [forallb]; [discriminate|]. intros E. apply andb_false_iff in E. destruct E as [E|E]; [exists y; split; [now left|]; intros ->; discriminate|]. destruct (IH E) as (c & I & N). exists c. split; [now right|exact N]. }
  now apply G.
Qed.
Lemma back_le : forall d n, back d n <= n.
Proof. intros d. induction n as [|n IH]; cbn; [lia|]. destruct (N.eqb _ _); lia. Qed.
Lemma extract_at : forall inmemory file k pre l blanks post, at_line file k pre l blanks post -> extract inmemory file (indexfile file) k = Some (rstripnl (l ++ concat blanks)).
Proof.
  intros inmemory file k pre l blanks post A. destruct (select_line _ _ _ _ _ _ A) as (S1 & S2 & L1 & L2). pose proof (file_split _ _ _ _ _ _ A) as E.
  unfold extract, getoffsets. rewrite (proj2 (Nat.leb_le 1 k) L1), (proj2 (Nat.ltb_lt k _) L2), S1, S2. cbn [andb].
  set (o := length (concat pre)) in *. set (m := l ++ concat blanks) in *.
  assert (SL : slice o (o + length m) file = m) by (rewrite E; apply slice_app).
  destruct inmemory; [|now rewrite SL]. f_equal. assert (LN : o + length m <= length file) by (rewrite E, !app_length; unfold o, m; lia).
  pose proof (back_spec file (o + length m) LN) as B. assert (FM : firstn (o + length m) file = concat pre ++ m) by (rewrite E, app_assoc, firstn_app, firstn_all2 by (rewrite app_length; unfold o; lia); replace (o + length m - length (concat pre ++ m)) with 0 by (rewrite app_length; unfold o; lia); cbn; apply app_nil_r).
  rewrite FM in B. destruct A as (EL & NL1 & _). pose proof (lines_nonempty file) as NE. rewrite Forall_forall in NE. assert (NEl : l <> []) by (apply NE; rewrite EL; apply in_elt).
  destruct (nonspace_char l NEl NL1) as (c & Ic & Nc). rewrite rstrip_mid in B by (exists c; split; [unfold m; apply in_or_app; now left|exact Nc]).
  assert (BL : back file (o + length m) = o + length (rstripnl m)).
  { apply (f_equal (@length N)) in B. rewrite app_length, firstn_length in B. change (length (concat pre)) with o in B. pose proof (back_le file (o + length m)). lia. }
  unfold slice. rewrite BL. replace (o + length (rstripnl m) - o) with (length (rstripnl m)) by lia. rewrite BL in B.
  assert (EF : file = (concat pre ++ rstripnl m) ++ skipn (o + length (rstripnl m)) file) by (rewrite <- B; symmetry; apply firstn_skipn).
  revert EF. generalize (skipn (o + length (rstripnl m)) file) as rest. intros rest EF. rewrite EF, <- app_assoc, skipn_app. unfold o. rewrite skipn_all, Nat.sub_diag. cbn [skipn app]. rewrite firstn_app, firstn_all, Nat.sub_diag. cbn. apply app_nil_r.
Qed.
Theorem C74_extract : forall inmemory file k l, sentence file k = Some l -> (forall b, In b (lines file) -> isspace b = true -> b = [NL]) -> extract inmemory file (indexfile file) k = Some (chomp l).
Proof.
  intros inmemory file k l S B. destruct (at_line_of _ _ _ S) as (pre & blanks & post & A). rewrite (extract_at inmemory _ _ _ _ _ _ A). f_equal. apply rstrip_app.
  destruct A as (E & _ & F & _). assert (H : Forall (fun b => b = [NL]) blanks). { rewrite Forall_forall in *. intros b I. apply B; [rewrite E; apply in_or_app; right; right; apply in_or_app; now left|now apply F]. }
  clear - H. induction H as [|b bs -> H IH]; cbn; constructor; auto.
Qed.
(** ... but blank lines with other white space become part of the sentence before *)
Theorem C74_extract_blanks : forall inmemory file k l, sentence file k = Some l -> exists pre blanks post, at_line file k pre l blanks post /\ extract inmemory file (indexfile file) k = Some (rstripnl (l ++ concat blanks)).
Proof. intros inmemory file k l S. destruct (at_line_of _ _ _ S) as (pre & blanks & post & A). exists pre, blanks, post. split; [exact A|now apply extract_at with (pre := pre) (post := post)]. Qed.
(** and other numbers are errors *)
Theorem C74_extract_error : forall inmemory file k, sentence file k = None -> extract inmemory file (indexfile file) k = None.
Proof.
  intros inmemory file k S. assert (G : (1 <=? k) && (k <? length (indexfile file)) = false).
  { apply andb_false_iff. unfold sentence in S. destruct k as [|k]; [now left|]. right. cbn [Nat.eqb] in S. apply nth_error_None in S. apply Nat.ltb_ge. rewrite C74_numlines. lia. }
  unfold extract, getoffsets. rewrite G. destruct inmemory; reflexivity.
Qed.

(** ---- queries on a range of lines ---- *)
(** where sentence [k] starts (or the end of the file) *)
Definition position (file : list N) (k : nat) : nat := nth (k - 1) (indexfile file) (length file).
Theorem C74_position : forall file k l, sentence file k = Some l -> exists a r, file = a ++ l ++ r /\ length a = position file k.
Proof.
  intros file k l S. destruct (at_line_of _ _ _ S) as (pre & blanks & post & A). destruct (select_line _ _ _ _ _ _ A) as (S1 & _). exists (concat pre), (concat blanks ++ concat post). split; [rewrite (file_split _ _ _ _ _ _ A), <- app_assoc; reflexivity|].
  unfold position. unfold select in S1. symmetry. apply (nth_error_nth _ _ _ S1).
Qed.
(** the searched part is from the start of line [start] to the start of the line after [end] *)
Definition from_ (start : option nat) : nat := match start with Some (S s) => S s | _ => 1 end.
Definition upto (file : list N) (end_ : option nat) : nat := match end_ with Some e => Nat.min e (length (filter nonblank (lines file))) | None => length (filter nonblank (lines file)) end.
Lemma idx_all : forall file k, k < length (indexfile file) -> exists x, select (indexfile file) k = Some x /\ x = position file (S k).
Proof. intros file k L. unfold select, position. replace (S k - 1) with k by lia. exists (nth k (indexfile file) (length file)). split; [now apply nth_error_nth'|reflexivity]. Qed.
Lemma position_last : forall file, position file (length (indexfile file)) = length file.
Proof. intros file. unfold position. destruct (last_index file) as (A & -> & _). rewrite app_length. cbn [length]. replace (length A + 1 - 1) with (length A) by lia. rewrite app_nth2, Nat.sub_diag by lia. reflexivity. Qed.
Theorem C74_window : forall file start end_, file <> [] -> 
  getwindow file (indexfile file) start end_ =
    Some (if length (filter nonblank (lines file)) + 1 <=? match start with Some s => s | None => 0 end then Nothing
          else Window (if (position file (from_ start) =? 0) && match end_ with None => true | Some e => length (filter nonblank (lines file)) <? e end then 0 else position file (from_ start))
                 (slice (position file (from_ start)) (position file (S (upto file end_))) file)).
Proof.
  intros file start end_ NE. unfold getwindow. rewrite C74_numlines. set (n := length (filter nonblank (lines file))). replace (n + 1 - 1) with n by lia.
  set (st := match start with Some s => s | None => 0 end).
  set (lastline := match end_ with None => true | Some e => n <? e end).
  assert (EE : match end_ with Some e => if lastline then n else e | None => n end = upto file end_).
  { unfold upto, lastline. fold n. destruct end_ as [e|]; [|reflexivity]. destruct (n <? e) eqn:Q; [apply Nat.ltb_lt in Q; lia|apply Nat.ltb_ge in Q; lia]. }
  rewrite EE. assert (UB : upto file end_ <= n) by (unfold upto; fold n; destruct end_; lia).
  destruct (n + 1 <? st) eqn:Q1; [apply Nat.ltb_lt in Q1; rewrite (proj2 (Nat.leb_le (n + 1) st)) by lia; reflexivity|]. apply Nat.ltb_ge in Q1.
  destruct (idx_all file (st - 1)) as (si & SE & PE); [rewrite C74_numlines; fold n; lia|]. rewrite SE.
  destruct (idx_all file (upto file end_)) as (ei & SE2 & PE2); [rewrite C74_numlines; fold n; lia|]. rewrite SE2.
  assert (FR : S (st - 1) = from_ start) by (unfold st, from_; destruct start as [[|s]|]; lia). rewrite FR in PE. rewrite <- PE, <- PE2.
  destruct ((si =? 0) && lastline) eqn:Q2.
  - destruct file as [|c file]; [congruence|]. destruct (n + 1 <=? st); [reflexivity|]. do 2 f_equal. unfold slice. apply andb_true_iff in Q2. destruct Q2 as [Q2 _]. apply Nat.eqb_eq in Q2. rewrite Q2, Nat.sub_0_r. reflexivity.
  - destruct (n + 1 <=? st); reflexivity.
Qed.
(** a file without a single byte cannot be searched *)
Theorem C74_empty_refuted : forall start end_, match start with Some s => s <= 1 | None => True end -> match end_ with Some e => e > 0 | None => True end -> getwindow [] (indexfile []) start end_ = None.
Proof.
  intros start end_ S E. unfold getwindow, indexfile. cbn [lines index length]. destruct start as [[|[|s]]|]; try lia; destruct end_ as [[|e]|]; try lia; reflexivity.
Qed.
Lemma skipn_skipn' : forall A (l : list A) a b, skipn a (skipn b l) = skipn (b + a) l.
Proof. induction l as [|x l IH]; intros a b; [now rewrite !skipn_nil|]. destruct b as [|b]; [reflexivity|]. cbn [skipn plus]. apply IH. Qed.
Lemma slice_slice : forall A (l : list A) off e a b, off <= a -> b <= e -> slice (a - off) (b - off) (slice off e l) = slice a b l.
Proof.
  intros A l off e a b H1 H2. unfold slice. rewrite skipn_firstn_comm, skipn_skipn', firstn_firstn. replace (off + (a - off)) with a by lia. f_equal. lia.
Qed.
Section Query.
Variable finditer : list N -> list (nat * nat).
Variable dec : list N -> option pystr.
(** what is reported for a match at [off + fst m]: the sentence it starts in, the
    text of the sentence, and the place of the match in that text *)
Definition reported (file : list N) (off : nat) (m : nat * nat) (r : result) : Prop :=
  exists k pre l blanks post before txt x y, at_line file k pre l blanks post /\ sentence file k = Some l /\
    r = (k, txt, length x, length y) /\
    off + fst m = length (concat pre) + before /\ before < length (l ++ concat blanks) /\
    dec (rstripnl (l ++ concat blanks)) = Some txt /\ dec (firstn before (l ++ concat blanks)) = Some x /\ dec (slice (length (concat pre)) (off + snd m) file) = Some y.
Lemma onesent_ok : forall file off e data m r, data = slice off e file -> (exists i, select (indexfile file) i = Some off) -> (exists j, select (indexfile file) j = Some e) ->
  fst m < snd m <= length data -> onesent dec (indexfile file) off data m = Some r -> reported file off m r.
Proof using.
  intros file off e data m r ED (i & Si) (j & Sj) M E. pose proof (index_sorted file) as SS.
  assert (LD : length data <= e - off) by (rewrite ED; unfold slice; rewrite firstn_length; lia).
  assert (LE : length data <= length file - off) by (rewrite ED; unfold slice; rewrite firstn_length, skipn_length; lia).
  set (p := fst m + off) in *.
  assert (P : length (concat (takew (lines file))) <= p < length (concat (lines file))).
  { rewrite lines_concat. split; [|unfold p; lia]. rewrite <- first_index. destruct i as [|i].
    - unfold select in Si. destruct (indexfile file) as [|z idx]; [discriminate|]. cbn in Si. injection Si as ->. cbn. unfold p. lia.
    - destruct (indexfile file) as [|z idx] eqn:EI; [discriminate|]. cbn [hd]. assert (z < off) by (eapply (sorted_nth _ SS 0 (S i)); [lia|reflexivity|exact Si]). unfold p. lia. }
  destruct (locate _ _ P) as (pre & l & blanks & post & EL & H1 & H2 & H3 & H4).
  assert (A : at_line file (S (length (filter nonblank pre))) pre l blanks post) by (unfold at_line; auto). set (k := S (length (filter nonblank pre))) in *.
  destruct (select_line _ _ _ _ _ _ A) as (S1 & S2 & L1 & L2). pose proof (rank_line _ _ _ _ _ _ p A H4) as RK.
  unfold onesent in E. fold p in E. rewrite RK in E. unfold getoffsets in E. rewrite (proj2 (Nat.leb_le 1 k) L1), (proj2 (Nat.ltb_lt k _) L2), S1, S2 in E. cbn [andb] in E.
  set (a := length (concat pre)) in *. set (b := a + length (l ++ concat blanks)) in *.
  assert (OA : off <= a).
  { assert (I : i < k) by (rewrite <- RK; apply (rank_nth _ SS i off p Si); unfold p; lia). destruct (Nat.eq_dec i (k - 1)) as [->|NI]; [unfold select in *; rewrite Si in S1; injection S1 as ->; lia|].
    assert (off < a) by (eapply (sorted_nth _ SS i (k - 1)); [lia|exact Si|exact S1]). lia. }
  assert (BE : b <= e).
  { assert (J : ~ (e <= p)) by (unfold p; lia). assert (KJ : k <= j). { destruct (le_lt_dec k j) as [X|X]; [exact X|]. exfalso. apply J. apply (rank_nth _ SS j e p Sj). now rewrite RK. }
    destruct (Nat.eq_dec j k) as [->|NJ]; [unfold select in *; rewrite Sj in S2; injection S2 as ->; lia|]. assert (b < e) by (eapply (sorted_nth _ SS k j); [lia|exact S2|exact Sj]). lia. }
  assert (FS : file = concat pre ++ (l ++ concat blanks) ++ concat post) by (eapply file_split; exact A).
  assert (SL : slice (a - off) (b - off) data = l ++ concat blanks) by (rewrite ED, slice_slice by assumption; rewrite FS; apply slice_app).
  assert (SX : slice (a - off) (fst m) data = firstn (p - a) (l ++ concat blanks)).
  { replace (fst m) with (p - off) by (unfold p; lia). rewrite ED, slice_slice by lia. unfold slice. rewrite FS, skipn_app. unfold a. rewrite skipn_all, Nat.sub_diag. cbn [skipn app]. rewrite firstn_app. replace (p - length (concat pre) - length (l ++ concat blanks)) with 0 by (fold a; lia). cbn. apply app_nil_r. }
  assert (SY : slice (a - off) (snd m) data = slice a (off + snd m) file).
  { replace (snd m) with (snd m + off - off) by lia. rewrite ED, slice_slice by lia. f_equal. lia. }
  rewrite SL, SX, SY in E. destruct (dec (rstripnl (l ++ concat blanks))) as [txt|] eqn:D1; [|discriminate]. destruct (dec (firstn (p - a) (l ++ concat blanks))) as [x|] eqn:D2; [|discriminate].
  destruct (dec (slice a (off + snd m) file)) as [y|] eqn:D3; [|discriminate]. injection E as <-.
  exists k, pre, l, blanks, post, (p - a), txt, x, y. split; [exact A|]. split; [eapply sentence_of; exact A|]. split; [reflexivity|]. split; [fold a; unfold p; lia|]. split; [lia|]. auto.
Qed.
(** every result of a query is a match, with the number and text of its sentence *)
Theorem C74_sents : forall file start end_ maxresults rs, file <> [] -> querysents finditer dec file (indexfile file) start end_ maxresults = Some rs ->
  (forall data m, In m (finditer data) -> fst m < snd m <= length data) ->
  rs = [] /\ length (filter nonblank (lines file)) < match start with Some s => s | None => 0 end \/ exists off data, data = slice (position file (from_ start)) (position file (S (upto file end_))) file /\ off = position file (from_ start) /\
    Forall2 (reported file off) (match maxresults with None => finditer data | Some k => firstn k (finditer data) end) rs.
Proof using.
  intros file start end_ maxresults rs NE E F. unfold querysents in E. rewrite C74_window in E by exact NE. destruct (_ <=? match start with Some s => s | None => 0 end) eqn:Q; [injection E as <-; left; split; [reflexivity|apply Nat.leb_le in Q; lia]|]. right.
  set (off := position file (from_ start)) in *. set (e := position file (S (upto file end_))) in *.
  assert (OFF : (if (off =? 0) && match end_ with None => true | Some e => length (filter nonblank (lines file)) <? e end then 0 else off) = off) by (destruct (off =? 0) eqn:Z; [apply Nat.eqb_eq in Z; rewrite Z; destruct (_ && _); reflexivity|reflexivity]).
  rewrite OFF in E. apply Nat.leb_gt in Q. exists off, (slice off e file). split; [reflexivity|]. split; [reflexivity|].
  assert (SI : exists i, select (indexfile file) i = Some off).
  { exists (from_ start - 1). destruct (idx_all file (from_ start - 1)) as (x & Sx & Px); [rewrite C74_numlines; unfold from_ in *; destruct start as [[|s]|]; lia|]. rewrite Sx, Px. unfold off. f_equal. f_equal. unfold from_. destruct start as [[|s]|]; lia. }
  assert (SJ : exists j, select (indexfile file) j = Some e).
  { exists (upto file end_). destruct (idx_all file (upto file end_)) as (x & Sx & Px); [rewrite C74_numlines; unfold upto; destruct end_; lia|]. rewrite Sx, Px. reflexivity. }
  unfold spans in E. assert (FM : Forall (fun m => fst m < snd m <= length (slice off e file)) (match maxresults with None => finditer (slice off e file) | Some k => firstn k (finditer (slice off e file)) end)).
  { apply Forall_forall. intros m I. apply F. destruct maxresults as [k|]; [|exact I]. rewrite <- (firstn_skipn k (finditer _)). apply in_or_app. now left. }
  revert rs E FM. generalize (match maxresults with None => finditer (slice off e file) | Some k => firstn k (finditer (slice off e file)) end) as ms.
  induction ms as [|m ms IH]; intros rs E FM; cbn [map allsome] in E; [injection E as <-; constructor|]. inversion FM as [|? ? M1 M2]; subst.
  destruct (onesent dec (indexfile file) off (slice off e file) m) as [r|] eqn:O; [|discriminate]. destruct (allsome _) as [rest|] eqn:AS; [|discriminate]. injection E as <-.
  constructor; [|apply IH; auto]. eapply onesent_ok; eauto.
Qed.
(** the numbers that are given without the text are the same *)
Theorem C74_indices : forall file start end_ maxresults rs ns, querysents finditer dec file (indexfile file) start end_ maxresults = Some rs ->
  queryindices finditer file (indexfile file) start end_ maxresults = Some ns -> ns = map (fun r => fst (fst (fst r))) rs.
Proof using.
  intros file start end_ maxresults rs ns E1 E2. unfold querysents, queryindices in *. destruct (getwindow _ _ _ _) as [[|off data]|]; [injection E1 as <-; injection E2 as <-; reflexivity| |discriminate].
  injection E2 as <-. revert rs E1. induction (spans finditer maxresults data) as [|m ms IH]; intros rs E; cbn [map allsome] in E; [injection E as <-; reflexivity|].
  destruct (onesent dec (indexfile file) off data m) as [r|] eqn:O; [|discriminate]. destruct (allsome _) as [rest|] eqn:AS; [|discriminate]. injection E as <-. cbn [map]. rewrite <- (IH rest eq_refl). f_equal.
  unfold onesent in O. destruct (getoffsets _ _ _) as [[a b]|]; [|discriminate]. destruct (dec _) as [t|]; [|discriminate]. destruct (dec _) as [x|]; [|discriminate]. destruct (dec _) as [y|]; [|discriminate]. injection O as <-. reflexivity.
Qed.
(** the count is the number of matches; a maximum makes it larger instead of smaller *)
Theorem C74_count : forall file start end_ ns, queryindices finditer file (indexfile file) start end_ None = Some ns ->
  querycount finditer file (indexfile file) start end_ None = Some (length ns).
Proof using.
  intros file start end_ ns E. unfold queryindices, querycount in *. destruct (getwindow _ _ _ _) as [[|off data]|]; [injection E as <-; reflexivity| |discriminate]. injection E as <-. rewrite map_length. cbn [spans]. f_equal. apply Nat.max_0_r.
Qed.
Theorem C74_count_refuted : forall file start end_ m n, querycount finditer file (indexfile file) start end_ (Some m) = Some n -> n = 0 \/ m <= n.
Proof using.
  intros file start end_ m n E. unfold querycount in E. destruct (getwindow _ _ _ _) as [[|off data]|]; [injection E as <-; now left| |discriminate]. injection E as <-. right. apply Nat.le_max_r.
Qed.
(** the place of the match in the text is right, when it ends in the sentence *)
Theorem C74_highlight : (forall a b x y, dec a = Some x -> dec b = Some y -> dec (a ++ b) = Some (x ++ y)) ->
  forall A M B x m b txt y, dec A = Some x -> dec M = Some m -> dec B = Some b -> dec (A ++ M ++ B) = Some txt -> dec (A ++ M) = Some y -> slice (length x) (length y) txt = m.
Proof using.
  intros DA A M B x m b txt y HA HM HB HT HY. pose proof (DA _ _ _ _ HM HB) as H1. pose proof (DA _ _ _ _ HA H1) as H2. pose proof (DA _ _ _ _ HA HM) as H3. rewrite H2 in HT. injection HT as <-. rewrite H3 in HY. injection HY as <-.
  rewrite app_length. apply slice_app.
Qed.
(** an empty match at the end of the file has a line number that does not exist: an error *)
Theorem C74_emptymatch_refuted : forall file e, onesent dec (indexfile file) 0 file (length file, e) = None.
Proof using.
  intros file e. unfold onesent. cbn [fst]. rewrite Nat.add_0_r. assert (R : rank (indexfile file) (length file) = length (indexfile file)).
  { unfold rank. f_equal. apply filter_all. intros x I. apply Nat.leb_le. destruct (last_index file) as (A & E & _). pose proof (index_sorted file) as SS. apply In_nth_error in I. destruct I as [i I].
    assert (LI : i < length (indexfile file)) by (apply nth_error_Some; congruence). rewrite E, app_length in LI. cbn in LI.
    assert (Z : nth_error (indexfile file) (length A) = Some (length file)) by (rewrite E, nth_error_app2, Nat.sub_diag by lia; reflexivity).
    destruct (Nat.eq_dec i (length A)) as [->|N]; [rewrite Z in I; injection I as <-; lia|]. assert (x < length file) by (eapply (sorted_nth _ SS i (length A)); [lia|exact I|exact Z]). lia. }
  rewrite R. unfold getoffsets. rewrite Nat.ltb_irrefl, andb_false_r. reflexivity.
Qed.
End Query.
(** the index that is stored is used for any files as many as those it was made for *)
Theorem C74_index_fresh : forall mtime maxmtime files, openindex (Some (mtime, map indexfile files)) maxmtime files = map indexfile files.
Proof. intros. unfold openindex. destruct (_ && _); reflexivity. Qed.
Theorem C74_index_stale_refuted : forall mtime maxmtime old files, length old = length files -> maxmtime < mtime -> openindex (Some (mtime, map indexfile old)) maxmtime files = map indexfile old.
Proof. intros mtime maxmtime old files L M. unfold openindex. rewrite map_length, L, Nat.eqb_refl, (proj2 (Nat.ltb_lt _ _) M). reflexivity. Qed.

(** ---- C75: the caches ---- *)
Section Cache.
Context {K V : Type}.
Variable keqb : K -> K -> bool.
Hypothesis keqb_ok : forall a b, keqb a b = true <-> a = b.
Notation cache := (list (K * V)) (only parsing).
Lemma keqb_refl : forall a, keqb a a = true.
Proof using keqb_ok. intros. now apply keqb_ok. Qed.
Lemma cget_in : forall k v (c : cache), cget keqb k c = Some v -> In (k, v) c.
Proof using keqb_ok. induction c as [|[k' v'] c IH]; cbn; [discriminate|]. destruct (keqb k k') eqn:Q; intros E; [injection E as ->; apply keqb_ok in Q; subst; now left|right; auto]. Qed.
Lemma cget_app : forall k (a b : cache), cget keqb k (a ++ b) = match cget keqb k a with Some v => Some v | None => cget keqb k b end.
Proof using. induction a as [|[k' v'] a IH]; intros b; cbn; [reflexivity|]. destruct (keqb k k'); auto. Qed.
Lemma cget_del : forall k (c : cache), cget keqb k (cdel keqb k c) = None.
Proof using keqb_ok. induction c as [|[k' v'] c IH]; cbn; [reflexivity|]. destruct (keqb k k') eqn:Q; cbn; [exact IH|]. now rewrite Q. Qed.
Lemma cget_del_other : forall k j (c : cache), k <> j -> cget keqb j (cdel keqb k c) = cget keqb j c.
Proof using keqb_ok.
  intros k j c N. unfold cdel in *. induction c as [|[k' v'] c IH]; cbn; [reflexivity|]. destruct (keqb k k') eqn:Q; cbn; rewrite IH; [|reflexivity]. destruct (keqb j k') eqn:R; [|reflexivity]. apply keqb_ok in Q, R. congruence.
Qed.
Lemma cdel_length : forall k (c : cache) v, cget keqb k c = Some v -> length (cdel keqb k c) < length c.
Proof using.
  unfold cdel. intros k. assert (G : forall c' : cache, length (filter (fun e => negb (keqb k (fst e))) c') <= length c') by (induction c' as [|[x y] c' IHc]; cbn; [lia|destruct (keqb k x); cbn; lia]).
  induction c as [|[k' v'] c IH]; cbn; [discriminate|]. intros v E. destruct (keqb k k') eqn:Q; cbn.
  - specialize (G c). cbn in G. lia.
  - specialize (IH v E). lia.
Qed.
(** the size is bounded *)
Theorem C75_limit : forall limit k v (c : cache), length c <= limit -> length (cset keqb limit k v c) <= limit.
Proof using.
  intros limit k v c L. unfold cset. destruct (limit =? 0) eqn:Z; [exact L|]. apply Nat.eqb_neq in Z. destruct (cget keqb k c) as [v'|] eqn:E; rewrite app_length; cbn [length].
  - pose proof (cdel_length _ _ _ E). lia.
  - destruct (limit <=? length c) eqn:Q; [|apply Nat.leb_gt in Q; lia]. destruct c as [|x c]; cbn [tl length] in *; lia.
Qed.
(** what was stored last is found; nothing that was not stored is found *)
Theorem C75_set : forall limit k v (c : cache), limit <> 0 -> NoDup (map fst c) -> cget keqb k (cset keqb limit k v c) = Some v.
Proof using keqb_ok.
  intros limit k v c Z ND. unfold cset. destruct (limit =? 0) eqn:Q; [apply Nat.eqb_eq in Q; contradiction|]. destruct (cget keqb k c) as [v'|] eqn:E; rewrite cget_app.
  - rewrite cget_del. cbn. now rewrite keqb_refl.
  - assert (T : cget keqb k (if limit <=? length c then tl c else c) = None). { destruct (limit <=? length c); [|exact E]. destruct c as [|[k' v'] c]; [reflexivity|]. cbn in *. destruct (keqb k k'); [discriminate|exact E]. }
    rewrite T. cbn. now rewrite keqb_refl.
Qed.
Theorem C75_only_stored : forall limit k v (c : cache) j w, cget keqb j (cset keqb limit k v c) = Some w -> NoDup (map fst c) -> (j = k /\ (w = v \/ limit = 0)) \/ cget keqb j c = Some w.
Proof using keqb_ok.
  intros limit k v c j w E ND. unfold cset in E. destruct (limit =? 0) eqn:Z; [right; exact E|]. destruct (cget keqb k c) as [v'|] eqn:G; rewrite cget_app in E.
  - destruct (keqb k j) eqn:Q.
    + apply keqb_ok in Q. subst j. rewrite cget_del in E. cbn in E. rewrite keqb_refl in E. injection E as <-. auto.
    + assert (N : k <> j) by (intros ->; rewrite keqb_refl in Q; discriminate). rewrite cget_del_other in E by exact N. destruct (cget keqb j c) as [x|]; [now right|]. cbn in E. destruct (keqb j k) eqn:R; [apply keqb_ok in R; congruence|discriminate].
  - destruct (limit <=? length c).
    + destruct c as [|[k' v'] c]; cbn [tl] in E.
      * cbn in E. destruct (keqb j k) eqn:R; [|discriminate]. apply keqb_ok in R. injection E as <-. auto.
      * destruct (cget keqb j c) as [x|] eqn:X; [injection E as ->|].
        -- right. cbn. destruct (keqb j k') eqn:R; [|exact X]. apply keqb_ok in R. subst k'. inversion ND; subst. exfalso. apply H1. apply in_map_iff. exists (j, w). split; [reflexivity|now apply cget_in].
        -- cbn in E. destruct (keqb j k) eqn:R; [|discriminate]. apply keqb_ok in R. injection E as <-. auto.
    + destruct (cget keqb j c) as [x|] eqn:X; [injection E as ->; now right|]. cbn in E. destruct (keqb j k) eqn:R; [|discriminate]. apply keqb_ok in R. injection E as <-. auto.
Qed.
Lemma cset_nodup : forall limit k v (c : cache), NoDup (map fst c) -> NoDup (map fst (cset keqb limit k v c)).
Proof using keqb_ok.
  intros limit k v c ND. unfold cset. destruct (limit =? 0); [exact ND|].
  assert (APP : forall l : list K, NoDup l -> ~ In k l -> NoDup (l ++ [k])).
  { intros l N I. apply (Permutation_NoDup (Permutation_cons_append l k)). now constructor. }
  assert (NI : forall (c' : cache), cget keqb k c' = None -> ~ In k (map fst c')).
  { induction c' as [|[x y] c' IH]; cbn; [tauto|]. destruct (keqb k x) eqn:Q; [discriminate|]. intros E [->|I]; [rewrite keqb_refl in Q; discriminate|exact (IH E I)]. }
  destruct (cget keqb k c) as [v'|] eqn:G; rewrite map_app; cbn [map fst]; apply APP.
  - unfold cdel. clear - ND. induction c as [|[x y] c IH]; [constructor|]. cbn in *. inversion ND; subst. destruct (negb (keqb k x)); cbn; [|auto]. constructor; [|auto]. intros I. apply H1. apply in_map_iff in I. destruct I as (e & E & I). apply filter_In in I. apply in_map_iff. exists e. tauto.
  - apply NI, cget_del.
  - destruct (limit <=? length c); [|exact ND]. destruct c; [constructor|]. cbn in *. now inversion ND.
  - apply NI in G. destruct (limit <=? length c); [|exact G]. destruct c as [|[x y] c]; [auto|]. cbn in *. tauto.
Qed.
(** first in, first out: after storing results for different queries the last [limit] are kept *)
Theorem C75_fifo : forall limit (kvs : cache), limit <> 0 -> NoDup (map fst kvs) ->
  fold_left (fun c e => cset keqb limit (fst e) (snd e) c) kvs [] = skipn (length kvs - limit) kvs.
Proof using keqb_ok.
  intros limit kvs Z. induction kvs as [|[k v] kvs IH] using rev_ind; intros ND; [reflexivity|].
  rewrite fold_left_app. cbn [fold_left fst snd]. rewrite map_app in ND. cbn [map fst] in ND.
  assert (ND1 : NoDup (map fst kvs)) by (apply NoDup_remove_1 in ND; now rewrite app_nil_r in ND).
  assert (NI : ~ In k (map fst kvs)) by (apply NoDup_remove_2 in ND; now rewrite app_nil_r in ND).
  rewrite (IH ND1). unfold cset. rewrite (proj2 (Nat.eqb_neq _ _) Z). assert (G : cget keqb k (skipn (length kvs - limit) kvs) = None).
  { destruct (cget keqb k (skipn (length kvs - limit) kvs)) as [w|] eqn:G; [|reflexivity]. exfalso. apply NI. apply cget_in in G. apply in_map_iff. exists (k, w). split; [reflexivity|]. rewrite <- (firstn_skipn (length kvs - limit) kvs). apply in_or_app. now right. }
  rewrite G, skipn_length, app_length, skipn_app. cbn [length]. replace (length kvs + 1 - limit - length kvs) with 0 by lia. cbn [skipn]. f_equal.
  destruct (limit <=? length kvs - (length kvs - limit)) eqn:Q.
  - apply Nat.leb_le in Q. replace (length kvs + 1 - limit) with (length kvs - limit + 1) by lia. rewrite <- skipn_skipn'. destruct (skipn (length kvs - limit) kvs); reflexivity.
  - apply Nat.leb_gt in Q. f_equal. lia.
Qed.
End Cache.

(** counts with the cache gives what it gives without, after any history of calls,
    whatever the size of the cache and the order in which jobs end *)
Section Counts.
Context {Q F R : Type}.
Variable qeqb : Q -> Q -> bool.
Variable feqb : F -> F -> bool.
Hypothesis qeqb_ok : forall a b, qeqb a b = true <-> a = b.
Hypothesis feqb_ok : forall a b, feqb a b = true <-> a = b.
Variable run : Q -> F -> R.
Variable limit : nat.
Inductive history : list (Q * F * R) -> Prop :=
| h_nil : history []
| h_call : forall c q files done, history c -> NoDup files -> Permutation done (jobs qeqb feqb q files c) -> history (snd (counts qeqb feqb run limit q files done c)).
Lemma kqf_ok : forall a b : Q * F, kqf qeqb feqb a b = true <-> a = b.
Proof using qeqb_ok feqb_ok.
  intros [q f] [q' f']. unfold kqf. cbn. rewrite andb_true_iff, qeqb_ok, feqb_ok. split; [intros [-> ->]; reflexivity|intros E; injection E as -> ->; auto].
Qed.
Lemma history_ok : forall c, history c -> NoDup (map fst c) /\ forall q f v, cget (kqf qeqb feqb) (q, f) c = Some v -> v = run q f.
Proof using qeqb_ok feqb_ok.
  assert (G : forall q fs c', NoDup (map fst c') -> (forall q' f' v, cget (kqf qeqb feqb) (q', f') c' = Some v -> v = run q' f') ->
     NoDup (map fst (fold_left (fun c f => cset (kqf qeqb feqb) limit (q, f) (run q f) c) fs c')) /\
     forall q' f' v, cget (kqf qeqb feqb) (q', f') (fold_left (fun c f => cset (kqf qeqb feqb) limit (q, f) (run q f) c) fs c') = Some v -> v = run q' f').
  { intros q. induction fs as [|g fs IH]; intros c' N V; cbn [fold_left]; [auto|]. apply IH; [apply cset_nodup; [apply kqf_ok|exact N]|].
    intros q' f' v E. destruct (limit =? 0) eqn:Z; [unfold cset in E; rewrite Z in E; eauto|].
    destruct (C75_only_stored _ kqf_ok _ _ _ _ _ _ E N) as [[EQ [->|L]]|E2]; [now injection EQ as -> ->|apply Nat.eqb_neq in Z; contradiction|eauto]. }
  induction 1 as [|c q files done H [ND IH] NF P]; [split; [constructor|discriminate]|]. unfold counts. cbn [snd]. apply G; auto.
Qed.
Theorem C75_counts : forall c q files done, history c -> Permutation done (jobs qeqb feqb q files c) ->
  Permutation (fst (counts qeqb feqb run limit q files done c)) (map (fun f => (f, run q f)) files).
Proof using qeqb_ok feqb_ok.
  intros c q files done H P. destruct (history_ok _ H) as [ND OK]. unfold counts. cbn [fst]. rewrite P. clear P. induction files as [|f files IH]; [constructor|]. unfold cached, jobs in *. cbn [flat_map filter map].
  destruct (cget (kqf qeqb feqb) (q, f) c) as [v|] eqn:E.
  - cbn [app]. rewrite (OK _ _ _ E). constructor. exact IH.
  - cbn [app map]. rewrite <- Permutation_middle. constructor. exact IH.
Qed.
End Counts.

Section Sents.
Context {Q R : Type}.
Variable qeqb : Q -> Q -> bool.
Hypothesis qeqb_ok : forall a b, qeqb a b = true <-> a = b.
Variable run : Q -> option nat -> list R.
Variable limit : nat.
(** histories of sents/trees with a maximum number of results, stored under the right key *)
Inductive shistory : list (Q * (list R * option nat)) -> Prop :=
| s_nil : shistory []
| s_call : forall c q m x c', shistory c -> sents qeqb run (fun q _ => q) limit q (Some m) c = Some (x, c') -> shistory c'.
(** a search that stops after the maximum: the cache makes no difference *)
Theorem C75_sents : forall all, (forall q m, run q (Some m) = firstn m (all q)) -> forall c q m, shistory c -> exists c', sents qeqb run (fun q _ => q) limit q (Some m) c = Some (firstn m (all q), c').
Proof using qeqb_ok.
  intros all RUN.
  assert (INV : forall c, shistory c -> NoDup (map fst c) /\ forall q x m2, cget qeqb q c = Some (x, m2) -> exists m, m2 = Some m /\ x = firstn m (all q)).
  { induction 1 as [|c q m x c' H [ND IH] E]; [split; [constructor|discriminate]|]. unfold sents in E. destruct (cget qeqb q c) as [[y m2]|] eqn:G.
    - destruct (IH _ _ _ G) as (m' & -> & ->). destruct (if truthy (Some m) then _ else _) as [[|]|]; [|injection E as _ <-; auto|discriminate].
      injection E as <- <-. split; [apply cset_nodup; [exact qeqb_ok|exact ND]|]. intros q' x' mm E. destruct (limit =? 0) eqn:Z; [unfold cset in E; rewrite Z in E; eauto|].
      destruct (C75_only_stored _ qeqb_ok _ _ _ _ _ _ E ND) as [[-> [EQ|L]]|E2]; [|apply Nat.eqb_neq in Z; contradiction|eauto]. injection EQ as -> ->. exists m. split; [reflexivity|apply RUN].
    - destruct (if truthy (Some m) then _ else _) as [[|]|]; [|injection E as _ <-; auto|discriminate].
      injection E as <- <-. split; [apply cset_nodup; [exact qeqb_ok|exact ND]|]. intros q' x' mm E. destruct (limit =? 0) eqn:Z; [unfold cset in E; rewrite Z in E; eauto|].
      destruct (C75_only_stored _ qeqb_ok _ _ _ _ _ _ E ND) as [[-> [EQ|L]]|E2]; [|apply Nat.eqb_neq in Z; contradiction|eauto]. injection EQ as -> ->. exists m. split; [reflexivity|apply RUN]. }
  intros c q m H. destruct (INV c H) as [ND OK]. unfold sents. destruct (cget qeqb q c) as [[x m2]|] eqn:G.
  - destruct (OK _ _ _ G) as (m' & -> & ->). destruct m as [|m]; cbn [truthy]; [rewrite RUN; eauto|]. destruct (m' <? S m) eqn:L; [rewrite RUN; eauto|]. apply Nat.ltb_ge in L. rewrite firstn_firstn, Nat.min_l by lia. eauto.
  - destruct m as [|m]; cbn [truthy]; [rewrite RUN; eauto|]. cbn [Nat.ltb Nat.leb]. rewrite RUN. eauto.
Qed.
(** after a search without a maximum, the same search with a maximum is an error *)
Theorem C75_nomaximum_refuted : forall c q m, limit <> 0 -> NoDup (map fst c) -> exists x c', sents qeqb run (fun q _ => q) limit q None c = Some (x, c') /\ sents qeqb run (fun q _ => q) limit q (Some (S m)) c' = None.
Proof using qeqb_ok.
  intros c q m L ND. unfold sents at 1. cbn [truthy]. destruct (cget qeqb q c) as [[x0 m0]|]; (eexists _, _; split; [reflexivity|]; unfold sents; rewrite C75_set by assumption; reflexivity).
Qed.
End Sents.
(** regular expressions (960-965): the loop over the results assigns to start and end,
    and these are part of the key.  The results are found again by a query for other
    lines: those with the numbers of the last match. *)
Definition rkey := (nat * option nat * option nat)%type.
Definition optnat_eqb (a b : option nat) : bool := match a, b with Some a, Some b => a =? b | None, None => true | _, _ => false end.
Definition rkeqb (a b : rkey) : bool := (fst (fst a) =? fst (fst b)) && optnat_eqb (snd (fst a)) (snd (fst b)) && optnat_eqb (snd a) (snd b).
Definition clobber (q : rkey) (x : list result) : rkey :=
  match rev x with [] => q | (_, _, s, e) :: _ => (fst (fst q), Some s, Some e) end.
Lemma optnat_ok : forall a b, optnat_eqb a b = true <-> a = b.
Proof. intros [a|] [b|]; cbn; try (split; congruence). rewrite Nat.eqb_eq. split; congruence. Qed.
Lemma rkeqb_ok : forall a b, rkeqb a b = true <-> a = b.
Proof.
  intros [[q s] e] [[q' s'] e']. unfold rkeqb. cbn. rewrite !andb_true_iff, Nat.eqb_eq, !optnat_ok. split; [intros [[-> ->] ->]; reflexivity|intros E; injection E as -> -> ->; auto].
Qed.
Theorem C75_regex_sents_refuted : forall (run : rkey -> option nat -> list result) limit q start end_ m m' x lineno sent s e,
  limit <> 0 -> run (q, start, end_) (Some (S m)) = x ++ [(lineno, sent, s, e)] -> 0 < m' <= S m ->
  exists c, sents rkeqb run clobber limit (q, start, end_) (Some (S m)) [] = Some (x ++ [(lineno, sent, s, e)], c) /\
            sents rkeqb run clobber limit (q, Some s, Some e) (Some m') c = Some (firstn m' (x ++ [(lineno, sent, s, e)]), c).
Proof.
  intros run limit q start end_ m m' x lineno sent s e L E M. unfold sents at 1. cbn [cget truthy Nat.ltb Nat.leb]. rewrite E. eexists. split; [reflexivity|].
  unfold clobber. rewrite rev_app_distr. cbn [rev app fst snd]. unfold sents. rewrite C75_set; [|apply rkeqb_ok|exact L|constructor].
  destruct m' as [|m']; [lia|]. cbn [truthy]. destruct (S m <? S m') eqn:Q; [apply Nat.ltb_lt in Q; lia|]. reflexivity.
Qed.
(** a query of several fragments (670-772) has the maximum for each of them; the cached
    results are cut off at the maximum for all together: the same call, twice *)
Example C75_fragments_refuted : let run := fun (q : nat) m => match m with Some m => firstn m [1; 2; 3] ++ firstn m [4; 5; 6] | None => [1; 2; 3; 4; 5; 6] end in
  exists c, sents Nat.eqb run (fun q _ => q) 10 7 (Some 2) [] = Some ([1; 2; 4; 5], c) /\ sents Nat.eqb run (fun q _ => q) 10 7 (Some 2) c = Some ([1; 2], c).
Proof. eexists. split; reflexivity. Qed.

(** ---- C76: highlighting ---- *)
(** what a terminal shows: every character with its color *)
Fixpoint show (cur : option nat) (out : list piece) : list (N * option nat) :=
  match out with
  | [] => []
  | Text s :: r => map (fun c => (c, cur)) s ++ show cur r
  | Color c :: r => show (Some c) r
  | Reset :: r => show None r
  end.
Fixpoint final (cur : option nat) (out : list piece) : option nat :=
  match out with [] => cur | Text _ :: r => final cur r | Color c :: r => final (Some c) r | Reset :: r => final None r end.
Definition colorof (high1 high2 : nat -> bool) (c1 c2 : nat) (n : nat) : option nat := if high1 n then Some c1 else if high2 n then Some c2 else None.
Lemma show_app : forall a b cur, show cur (a ++ b) = show cur a ++ show (final cur a) b.
Proof. induction a as [|[s|c|] a IH]; intros b cur; cbn; rewrite ?IH; auto. now rewrite app_assoc. Qed.
Lemma final_app : forall a b cur, final cur (a ++ b) = final (final cur a) b.
Proof. induction a as [|[s|c|] a IH]; intros b cur; cbn; auto. Qed.
Definition colored (high1 high2 : nat -> bool) (c1 c2 : nat) (sent : pystr) : list (N * option nat) :=
  combine sent (map (colorof high1 high2 c1 c2) (seq 0 (length sent))).
Lemma slice_snoc : forall A (l : list A) a n d, a <= n -> n < length l -> slice a (S n) l = slice a n l ++ [nth n l d].
Proof.
  intros A l a n d L1 L2. unfold slice. replace (S n - a) with (S (n - a)) by lia.
  assert (G : forall (m : list A) k, k < length m -> firstn (S k) m = firstn k m ++ [nth k m d]).
  { induction m as [|x m IH]; intros k L; cbn in L; [lia|]. destruct k as [|k]; [reflexivity|]. change (x :: firstn (S k) m = x :: firstn k m ++ [nth k m d]). f_equal. apply IH. lia. }
  rewrite G by (rewrite skipn_length; lia). f_equal. f_equal. rewrite <- (firstn_skipn a l) at 2. rewrite app_nth2; rewrite firstn_length, Nat.min_l by lia; [reflexivity|lia].
Qed.
Lemma colored_snoc : forall h1 h2 c1 c2 sent n d, n < length sent ->
  firstn (S n) (colored h1 h2 c1 c2 sent) = firstn n (colored h1 h2 c1 c2 sent) ++ [(nth n sent d, colorof h1 h2 c1 c2 n)].
Proof.
  intros h1 h2 c1 c2 sent n d L. assert (LC : length (colored h1 h2 c1 c2 sent) = length sent) by (unfold colored; rewrite combine_length, map_length, seq_length; lia).
  pose proof (slice_snoc _ (colored h1 h2 c1 c2 sent) 0 n (d, colorof h1 h2 c1 c2 0) (Nat.le_0_l n) ltac:(lia)) as S. unfold slice in S. cbn [skipn] in S. rewrite !Nat.sub_0_r in S. rewrite S. f_equal. f_equal.
  unfold colored. rewrite combine_nth by (now rewrite map_length, seq_length). f_equal. rewrite map_nth, seq_nth by exact L. reflexivity.
Qed.
(** the text that is shown is the sentence, each character with the color for its
    number; afterwards the color is back to normal *)
Theorem C76_highlight : forall h1 h2 c1 c2 reset sent,
  show None (applyhighlight h1 h2 c1 c2 reset sent) = colored h1 h2 c1 c2 sent /\ final None (applyhighlight h1 h2 c1 c2 reset sent) = None.
Proof.
  intros h1 h2 c1 c2 reset sent. unfold applyhighlight.
  assert (INV : forall n, n <= length sent -> let st := fold_left (hstep h1 h2 c1 c2 reset sent) (seq 0 n) (mkH None 0 []) in
    h_start st <= n /\ final None (h_out st) = h_cur st /\ show None (h_out st) ++ map (fun c => (c, h_cur st)) (slice (h_start st) n sent) = firstn n (colored h1 h2 c1 c2 sent)
    /\ (forall i, h_start st <= i < n -> True)).
  { induction n as [|n IH]; intros L st; [cbn; auto|]. specialize (IH ltac:(lia)). cbv zeta in IH. unfold st. rewrite seq_S, fold_left_app. cbn [fold_left plus].
    set (s0 := fold_left (hstep h1 h2 c1 c2 reset sent) (seq 0 n) (mkH None 0 [])) in *. destruct IH as (I1 & I2 & I3 & _).
    rewrite (colored_snoc h1 h2 c1 c2 sent n 0%N) by lia. rewrite <- I3.
    assert (KEEP : h_cur s0 = colorof h1 h2 c1 c2 n -> h_start s0 <= S n /\ final None (h_out s0) = h_cur s0 /\ show None (h_out s0) ++ map (fun c => (c, h_cur s0)) (slice (h_start s0) (S n) sent) =
       (show None (h_out s0) ++ map (fun c => (c, h_cur s0)) (slice (h_start s0) n sent)) ++ [(nth n sent 0%N, colorof h1 h2 c1 c2 n)] /\ (forall i, h_start s0 <= i < S n -> True)).
    { intros E. split; [lia|]. split; [exact I2|]. split; [|auto]. rewrite (slice_snoc _ sent (h_start s0) n 0%N) by lia. rewrite map_app, <- E, app_assoc. reflexivity. }
    assert (ONE : slice n (S n) sent = [nth n sent 0%N]). { rewrite (slice_snoc _ sent n n 0%N) by lia. unfold slice. rewrite Nat.sub_diag. reflexivity. }
    assert (CH : forall c, colorof h1 h2 c1 c2 n = Some c -> forall s1, s1 = mkH (Some c) n (h_out s0 ++ [Text (slice (h_start s0) n sent)] ++ (if reset then [Reset] else []) ++ [Color c]) ->
       h_start s1 <= S n /\ final None (h_out s1) = h_cur s1 /\ show None (h_out s1) ++ map (fun c => (c, h_cur s1)) (slice (h_start s1) (S n) sent) =
       (show None (h_out s0) ++ map (fun c => (c, h_cur s0)) (slice (h_start s0) n sent)) ++ [(nth n sent 0%N, colorof h1 h2 c1 c2 n)] /\ (forall i, h_start s1 <= i < S n -> True)).
    { intros c E s1 ->. cbn [h_start h_cur h_out]. split; [lia|]. split; [rewrite final_app; destruct reset; reflexivity|]. split; [|auto]. rewrite show_app, I2, ONE, E. destruct reset; cbn [app show map final]; rewrite !app_nil_r; reflexivity. }
    unfold hstep at 1 2 3 4 5 6 7. fold s0. cbv zeta. unfold colorof in KEEP, CH |- *. destruct (h1 n) eqn:H1; [|destruct (h2 n) eqn:H2].
    - destruct (h_cur s0) as [c|] eqn:HC; cbn [curis].
      + destruct (c1 =? c) eqn:Q; [apply Nat.eqb_eq in Q; subst c; cbn [h_start h_cur h_out]; rewrite ?HC; apply KEEP; reflexivity|eapply CH; reflexivity].
      + eapply CH; reflexivity.
    - destruct (h_cur s0) as [c|] eqn:HC; cbn [curis].
      + destruct (c2 =? c) eqn:Q; [apply Nat.eqb_eq in Q; subst c; rewrite ?HC; apply KEEP; reflexivity|eapply CH; reflexivity].
      + eapply CH; reflexivity.
    - destruct (h_cur s0) as [c|] eqn:HC; [|rewrite ?HC; apply KEEP; reflexivity].
      cbn [h_start h_cur h_out]. split; [lia|]. split; [rewrite final_app; reflexivity|]. split; [|auto]. rewrite show_app, I2, ONE. cbn [show map app]. rewrite !app_nil_r. reflexivity. }
  specialize (INV (length sent) (le_n _)). cbv zeta in INV. set (s0 := fold_left (hstep h1 h2 c1 c2 reset sent) (seq 0 (length sent)) (mkH None 0 [])) in *. destruct INV as (I1 & I2 & I3 & _).
  assert (SK : skipn (h_start s0) sent = slice (h_start s0) (length sent) sent) by (unfold slice; rewrite firstn_all2; [reflexivity|rewrite skipn_length; lia]).
  split.
  - rewrite show_app, I2. cbn [app show]. rewrite SK, app_assoc, I3. rewrite firstn_all2 by (unfold colored; rewrite combine_length, map_length, seq_length; lia). destruct (h_cur s0); cbn [show]; apply app_nil_r.
  - rewrite final_app, I2. cbn [app final]. destruct (h_cur s0) eqn:HC; reflexivity.
Qed.
(** the character indices of a token: its place in the sentence joined with spaces,
    with the space after it *)
Fixpoint joinsp (sent : list pystr) : pystr := match sent with [] => [] | [a] => a | a :: r => a ++ 32%N :: joinsp r end.
Lemma charranges_length : forall sent cur, length (charranges cur sent) = length sent.
Proof. induction sent as [|a [|b r] IH]; intros cur; [reflexivity|reflexivity|]. change (S (length (charranges (cur + length a + 1) (b :: r))) = S (length (b :: r))). now rewrite IH. Qed.
Lemma charranges_spec : forall sent cur n a, nth_error sent n = Some a -> exists p q, joinsp sent = p ++ a ++ q /\ (if S n =? length sent then q = [] else exists q', q = 32%N :: q') /\
  (n = 0 -> p = []) /\ (n <> 0 -> exists p', p = p' ++ [32%N]) /\
  nth_error (charranges cur sent) n = Some (seq (cur + length p) (length a + if S n =? length sent then 0 else 1)).
Proof.
  induction sent as [|b sent IH]; intros cur n a E; [destruct n; discriminate|]. destruct sent as [|c r].
  - destruct n as [|n]; [|destruct n; discriminate]. cbn in E. injection E as ->. exists [], []. cbn. rewrite app_nil_r, !Nat.add_0_r. repeat split; auto. lia.
  - destruct n as [|n].
    + cbn in E. injection E as ->. exists [], (32%N :: joinsp (c :: r)). change (S 0 =? length (a :: c :: r)) with false. cbn [app length]. rewrite Nat.add_0_r. split; [reflexivity|]. split; [eauto|]. split; [auto|]. split; [lia|]. reflexivity.
    + cbn [nth_error] in E. destruct (IH (cur + length b + 1) n a E) as (p & q & E1 & E2 & E3 & E4 & E5). exists (b ++ 32%N :: p), q. change (S (S n) =? length (b :: c :: r)) with (S n =? length (c :: r)).
      split; [change (b ++ 32%N :: joinsp (c :: r) = (b ++ 32%N :: p) ++ a ++ q); rewrite E1, <- app_assoc; reflexivity|]. split; [exact E2|]. split; [discriminate|]. split.
      * intros _. destruct n as [|n]; [rewrite E3 by reflexivity; exists b; reflexivity|]. destruct (E4 ltac:(lia)) as (p' & ->). exists (b ++ 32%N :: p'). now rewrite <- app_assoc.
      * change (nth_error (charranges (cur + length b + 1) (c :: r)) n = Some (seq (cur + length (b ++ 32%N :: p)) (length a + (if S n =? length (c :: r) then 0 else 1)))). rewrite E5, app_length. cbn [length]. do 2 f_equal. lia.
Qed.
Theorem C76_charindices : forall sent n a, nth_error sent n = Some a -> exists p q, joinsp sent = p ++ a ++ q /\ (n = 0 /\ p = [] \/ exists p', p = p' ++ [32%N]) /\
  charindices sent [n] = Some (seq (length p) (length a + if S n =? length sent then 0 else 1)).
Proof.
  intros sent n a E. destruct (charranges_spec sent 0 n a E) as (p & q & E1 & _ & E3 & E4 & E5). exists p, q. split; [exact E1|]. split; [destruct n; [left; auto|right; apply E4; lia]|]. cbn [charindices]. rewrite E5, app_nil_r. reflexivity.
Qed.
Theorem C76_charindices_union : forall sent ind, (forall n, In n ind -> n < length sent) -> exists l, charindices sent ind = Some l /\ forall x, In x l <-> exists n r, In n ind /\ charindices sent [n] = Some r /\ In x r.
Proof.
  intros sent. induction ind as [|n ind IH]; intros H; [exists []; split; [reflexivity|]; intros x; split; [intros []|intros (n & r & [] & _)]|].
  destruct IH as (l & E & S); [intros; apply H; now right|]. assert (L : n < length (charranges 0 sent)) by (rewrite charranges_length; apply H; now left).
  destruct (nth_error (charranges 0 sent) n) as [r|] eqn:N; [|apply nth_error_None in N; lia]. exists (r ++ l). cbn [charindices]. rewrite N, E. split; [reflexivity|]. intros x. rewrite in_app_iff, S. split.
  - intros [I|(m & r' & I1 & I2 & I3)]; [exists n, r; cbn [charindices]; rewrite N, app_nil_r; split; [now left|auto]|exists m, r'; split; [now right|auto]].
  - intros (m & r' & [<-|I1] & I2 & I3); [left; cbn [charindices] in I2; rewrite N, app_nil_r in I2; injection I2 as <-; exact I3|right; eauto].
Qed.

(** ---- examples ---- *)
(** "ab\n\nc d\n", and searching for the letter d *)
Definition ex_file : list N := [97; 98; 10; 10; 99; 32; 100; 10]%N.
Definition findd (s : list N) : list (nat * nat) := flat_map (fun i => if N.eqb (nth i s 0%N) 100 then [(i, i + 1)] else []) (seq 0 (length s)).
Example C74_example : indexfile ex_file = [0; 4; 8] /\ sentence ex_file 2 = Some [99; 32; 100; 10]%N /\ extract true ex_file (indexfile ex_file) 1 = Some [97; 98]%N
  /\ querysents findd Some ex_file (indexfile ex_file) (Some 2) None (Some 5) = Some [(2, [99; 32; 100]%N, 2, 3)].
Proof. repeat split; vm_compute; reflexivity. Qed.
(** with Windows line ends, or spaces in an empty line, the blank line is in the sentence *)
Example C74_example_blank : extract true [97; 10; 32; 10; 98]%N (indexfile [97; 10; 32; 10; 98]%N) 1 = Some [97; 10; 32]%N.
Proof. vm_compute. reflexivity. Qed.
Example C76_example : applyhighlight (fun n => n =? 1) (fun n => (n =? 1) || (n =? 2)) 31 34 false (str "abcd") = [Text (str "a"); Color 31; Text (str "b"); Color 34; Text (str "c"); Reset; Text (str "d")].
Proof. vm_compute. reflexivity. Qed.
Example C75_example : snd (counts Nat.eqb Nat.eqb (fun q f => q + f) 2 5 [1; 2; 3] [3; 1; 2] []) = [((5, 1), 6); ((5, 2), 7)].
Proof. vm_compute. reflexivity. Qed.
Print Assumptions C74_sents.
Print Assumptions C75_counts.
Print Assumptions C76_highlight.
