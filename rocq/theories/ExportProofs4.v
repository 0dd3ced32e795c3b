(** Proofs for C45 (4): lines and files *)
From Coq Require Import String.
From Coq Require Import List Bool Arith NArith Lia Permutation.
From Verif Require Import PyStr TreeModel TreeProps BracketModel EscapeProofs TransformModel BinarizeProps TransformProps ExportModel ExportSpec ExportProofs ExportProofs2 ExportProofs3.
Import ListNotations.
Open Scope list_scope.
Open Scope nat_scope.

(** ---- stripping ---- *)
Definition allsp (s : pystr) : Prop := forall c, In c s -> isspace c = true.
Lemma lstrip_app : forall s c y, isspace c = false -> lstrip (s ++ c :: y) = lstrip s ++ c :: y.
Proof. induction s as [|d s IH]; intros c y H; cbn [app lstrip]; [now rewrite H|]. destruct (isspace d); auto. Qed.
Lemma rstrip_app : forall a c x, isspace c = false -> rstrip (a ++ c :: x) = a ++ c :: rstrip x.
Proof. intros a c x H. unfold rstrip. rewrite rev_app_distr. cbn [rev]. rewrite <- app_assoc. cbn [app]. rewrite lstrip_app by exact H. rewrite rev_app_distr. cbn [rev]. rewrite rev_involutive. rewrite <- app_assoc. reflexivity. Qed.
Lemma rstrip_cons : forall c x, isspace c = false -> rstrip (c :: x) = c :: rstrip x.
Proof. intros c x H. exact (rstrip_app [] c x H). Qed.
Lemma rstrip_sp : forall a c, isspace c = true -> rstrip (a ++ [c]) = rstrip a.
Proof. intros a c H. unfold rstrip. rewrite rev_app_distr. cbn [rev app lstrip]. now rewrite H. Qed.
Lemma lstrip_cases : forall x, (lstrip x = [] /\ allsp x) \/ exists s c y, x = s ++ c :: y /\ isspace c = false /\ lstrip x = c :: y /\ lstrip s = [].
Proof.
  induction x as [|c x IH]; [left; split; [reflexivity|intros ? []]|]. cbn [lstrip]. destruct (isspace c) eqn:E.
  - destruct IH as [[H A]|(s & d & y & -> & H1 & H2 & H3)]; [left; split; auto; intros ? [<-|]; auto|]. right. exists (c :: s), d, y. cbn [lstrip app]. rewrite E. auto.
  - right. exists [], c, x. auto.
Qed.
Lemma allsp_rstrip : forall x, allsp x -> rstrip x = [].
Proof.
  intros x H. unfold rstrip. assert (A : allsp (rev x)) by (intros c C; apply H; now apply in_rev). destruct (lstrip_cases (rev x)) as [[-> _]|(s & c & y & E & E1 & _)]; [reflexivity|]. exfalso. rewrite E in A. rewrite (A c) in E1; [discriminate|]. apply in_or_app. right. now left.
Qed.
Lemma rstrip_prefix : forall x, exists z, x = rstrip x ++ z.
Proof.
  intros x. unfold rstrip. destruct (lstrip_cases (rev x)) as [[-> _]|(s & c & y & E & _ & -> & _)]; [exists x; reflexivity|]. exists (rev s). rewrite <- rev_app_distr, <- E. now rewrite rev_involutive.
Qed.
Lemma rstrip_idem : forall x, rstrip (rstrip x) = rstrip x.
Proof.
  intros x. unfold rstrip. rewrite rev_involutive. f_equal. destruct (lstrip_cases (rev x)) as [[-> _]|(s & c & y & _ & H & -> & _)]; [reflexivity|]. cbn [lstrip]. now rewrite H.
Qed.
Lemma strip_rstrip : forall x, strip (rstrip x) = strip x.
Proof.
  intros x. unfold strip. destruct (lstrip_cases x) as [[-> A]|(s & c & y & -> & H & -> & S')].
  - rewrite (allsp_rstrip x A). reflexivity.
  - rewrite rstrip_app by exact H. rewrite lstrip_app by exact H. rewrite S'. cbn [app]. rewrite !rstrip_cons by exact H. now rewrite rstrip_idem.
Qed.
Lemma strip_comment : forall c, strip (rstrip (space :: c ++ [newline])) = strip c.
Proof.
  intros c. rewrite strip_rstrip. unfold strip. cbn [lstrip]. change (isspace space) with true. cbv iota. destruct (lstrip_cases c) as [[E A]|(s & d & y & -> & H & -> & S')].
  - rewrite E. assert (A' : allsp (c ++ [newline])). { intros d D. apply in_app_or in D. destruct D as [D|[<-|[]]]; [auto|reflexivity]. } destruct (lstrip_cases (c ++ [newline])) as [[-> _]|(s & d & y & E' & H & _)]; [reflexivity|]. rewrite (A' d) in H; [discriminate|]. rewrite E'. apply in_or_app. right. now left.
  - rewrite <- app_assoc. cbn [app]. rewrite lstrip_app by exact H. rewrite S'. cbn [app]. rewrite (app_comm_cons y [newline] d). now rewrite rstrip_sp.
Qed.
(** ---- the comment ---- *)
Lemma pp_app_false : forall a b, pp (a ++ b) = false -> pp a = false /\ pp b = false.
Proof.
  induction a as [|c a IH]; intros b H; [auto|]. cbn [app pp] in H. destruct a as [|d a].
  - cbn [app] in H. split; [reflexivity|]. destruct b; [reflexivity|]. apply orb_false_iff in H. apply H.
  - cbn [app] in H. apply orb_false_iff in H. destruct H as [H1 H2]. destruct (IH b H2) as [A B]. split; auto. cbn [pp]. rewrite H1. exact A.
Qed.
Lemma cut_at : forall s y, pp s = false -> cut (s ++ space :: 37%N :: 37%N :: y) = (s ++ [space], Some y).
Proof.
  induction s as [|c s IH]; intros y H; [reflexivity|]. cbn [app cut]. destruct s as [|d s].
  - cbn [app]. change (N.eqb space pct) with false. rewrite andb_false_r. specialize (IH y eq_refl). cbn [app] in IH. cbn [app]. destruct (cut (space :: 37%N :: 37%N :: y)) as [u v] eqn:E. injection IH as -> ->. reflexivity.
  - cbn [pp] in H. apply orb_false_iff in H. destruct H as [H1 H2]. cbn [app] in *. rewrite H1. rewrite (IH y H2). reflexivity.
Qed.
Definition commentread (o : option pystr) : option pystr := match o with Some (c :: r) => Some (strip (c :: r)) | _ => None end.
Definition commentof (b : pystr) : option pystr := option_map (fun s => strip (fst (cut s))) (snd (cut b)).
Definition comment_pp (o : option pystr) : Prop := match o with Some c => pp c = false | None => True end.
Lemma pp_bos : forall key, fok key -> pp (str "#BOS " ++ key) = false.
Proof. intros key (A & B & C). change (str "#BOS " ++ key) with (str "#BOS" ++ space :: key). rewrite pp_app by (intros E; discriminate E). rewrite C. reflexivity. Qed.
Lemma comment_line : forall key o, fok key -> comment_pp o -> commentof (bos key o) = commentread o.
Proof.
  intros key o K C. unfold commentof, bos. assert (P := pp_bos key K). assert (NOC : commentof (str "#BOS " ++ key ++ []) = None). { rewrite app_nil_r. unfold commentof. rewrite pp_cut by exact P. reflexivity. }
  destruct o as [[|c r]|]; try exact NOC. change (str " %% " ++ c :: r) with (space :: 37%N :: 37%N :: space :: c :: r). rewrite app_assoc. rewrite cut_at by exact P. cbn [snd option_map commentread comment_pp] in *. rewrite pp_cut.
  - cbn [fst]. reflexivity.
  - change (space :: c :: r) with ([] ++ space :: (c :: r)). rewrite pp_app by (intros E; discriminate E). exact C.
Qed.
Definition lastns (s : pystr) : Prop := exists a c, s = a ++ [c] /\ isspace c = false.
Lemma lastns_fok : forall s, fok s -> lastns s.
Proof. intros s (A & B & _). destruct (exists_last A) as (a & c & ->). exists a, c. split; auto. apply B. apply in_or_app. right. now left. Qed.
Lemma lastns_app : forall a s, lastns s -> lastns (a ++ s).
Proof. intros a s (b & c & -> & H). exists (a ++ b), c. split; auto. now rewrite app_assoc. Qed.
Lemma lastns_join : forall fs, fs <> [] -> Forall fok fs -> lastns (join [tab] fs).
Proof.
  induction fs as [|f fs IH]; intros NE F; [contradiction|]. inversion F; subst. destruct fs as [|g fs]; [cbn [join]; now apply lastns_fok|]. change (join [tab] (f :: g :: fs)) with (f ++ [tab] ++ join [tab] (g :: fs)). apply lastns_app, lastns_app. apply IH; [discriminate|auto].
Qed.
Lemma rstrip_line : forall s, lastns s -> rstrip (s ++ [newline]) = s.
Proof. intros s (a & c & -> & H). rewrite rstrip_sp by reflexivity. change (a ++ [c]) with (a ++ c :: []). rewrite rstrip_app by exact H. reflexivity. Qed.
Lemma bos_line : forall key o, fok key -> comment_pp o -> exists rest, rstrip (bos key o ++ [newline]) = str "#BOS " ++ key ++ rest /\ (rest = [] \/ exists r, rest = space :: r) /\ commentof (rstrip (bos key o ++ [newline])) = commentread o.
Proof.
  intros key o K C. assert (P := pp_bos key K). assert (NOC : exists rest, rstrip ((str "#BOS " ++ key ++ []) ++ [newline]) = str "#BOS " ++ key ++ rest /\ (rest = [] \/ exists r, rest = space :: r) /\ commentof (rstrip ((str "#BOS " ++ key ++ []) ++ [newline])) = None).
  { rewrite app_nil_r. rewrite rstrip_line by (apply lastns_app, lastns_fok; exact K). exists []. rewrite app_nil_r. repeat split; auto. unfold commentof. rewrite pp_cut by exact P. reflexivity. }
  unfold bos. destruct o as [[|c r]|]; try exact NOC. exists (space :: 37%N :: 37%N :: rstrip (space :: (c :: r) ++ [newline])).
  assert (E : rstrip ((str "#BOS " ++ key ++ str " %% " ++ c :: r) ++ [newline]) = str "#BOS " ++ key ++ space :: 37%N :: 37%N :: rstrip (space :: (c :: r) ++ [newline])).
  { replace ((str "#BOS " ++ key ++ str " %% " ++ c :: r) ++ [newline]) with ((str "#BOS " ++ key ++ [space; 37%N]) ++ 37%N :: (space :: (c :: r) ++ [newline])).
    - rewrite rstrip_app by reflexivity. rewrite <- !app_assoc. reflexivity.
    - rewrite <- !app_assoc. reflexivity. }
  split; [exact E|]. split; [right; eauto|]. rewrite E. unfold commentof. rewrite app_assoc. rewrite cut_at by exact P. cbn [snd option_map commentread comment_pp] in *. rewrite pp_cut.
  - cbn [fst]. now rewrite strip_comment.
  - destruct (rstrip_prefix (space :: (c :: r) ++ [newline])) as [z Ez]. refine (proj1 (pp_app_false _ z _)). rewrite <- Ez. change (space :: (c :: r) ++ [newline]) with ([] ++ space :: ((c :: r) ++ [newline])). rewrite pp_app by (intros E'; discriminate E'). change ((c :: r) ++ [newline]) with ((c :: r) ++ newline :: []). rewrite pp_app by (intros E'; discriminate E'). rewrite C. reflexivity.
Qed.
(** ---- the blocks ---- *)
Lemma first_ws : forall a b x y r s, nows a -> nows b -> isspace x = true -> isspace y = true -> a ++ x :: r = b ++ y :: s -> a = b /\ x = y.
Proof.
  induction a as [|c a IH]; intros b x y r s A B X Y E; destruct b as [|d b]; cbn [app] in E.
  - injection E as -> _. auto.
  - injection E as -> _. rewrite (B d) in X by now left. discriminate.
  - injection E as -> _. rewrite (A y) in Y by now left. discriminate.
  - injection E as -> E. destruct (IH b x y r s) as [-> ->]; auto; [intros u U; apply A; now right|intros u U; apply B; now right].
Qed.
Lemma row_marker : forall f g fs m, nows f -> nows m -> startswith (join [tab] (f :: g :: fs)) (m ++ [space]) = false.
Proof.
  intros f g fs m F M. destruct (startswith (join [tab] (f :: g :: fs)) (m ++ [space])) eqn:E; auto. exfalso. apply startswith_iff in E. destruct E as [z E]. change (join [tab] (f :: g :: fs)) with (f ++ tab :: join [tab] (g :: fs)) in E. rewrite <- app_assoc in E. cbn [app] in E. apply first_ws in E; auto. destruct E as [_ E]. discriminate.
Qed.
Definition goodrow (row : list pystr) : Prop := length row = 6 /\ Forall fok row.
Lemma readblocks_rows : forall rows rest id block results, (forall r, In r rows -> goodrow r) ->
  readblocks (map (fun r => join [tab] r ++ [newline]) rows ++ rest) true id block results = readblocks rest true id (block ++ map (join [tab]) rows) results.
Proof.
  induction rows as [|r rows IH]; intros rest id block results H; [cbn; now rewrite app_nil_r|]. destruct (H r (or_introl eq_refl)) as [L F]. cbn [map app readblocks]. rewrite rstrip_line by (apply lastns_join; [intros ->; discriminate|exact F]).
  assert (M : forall m, nows m -> startswith (join [tab] r) (m ++ [space]) = false). { intros m Hm. destruct r as [|f [|g fs]]; try discriminate. apply row_marker; auto. inversion F as [|? ? Ff F']; subst. apply Ff. }
  assert (N1 : nows (str "#BOS")) by (intros c C; cbn in C; repeat (destruct C as [<-|C]; [reflexivity|]); destruct C). assert (N2 : nows (str "#EOS")) by (intros c C; cbn in C; repeat (destruct C as [<-|C]; [reflexivity|]); destruct C).
  change (str "#BOS ") with (str "#BOS" ++ [space]). change (str "#EOS ") with (str "#EOS" ++ [space]). rewrite (M _ N1), (M _ N2). rewrite IH by (intros; apply H; now right). now rewrite <- app_assoc.
Qed.
Lemma startswith_app : forall a b, startswith (a ++ b) a = true.
Proof. intros a b. apply startswith_iff. exists b. reflexivity. Qed.
Lemma split_marker : forall m key rest, m <> [] -> nows m -> fok key -> (rest = [] \/ exists r, rest = space :: r) -> exists more, split (m ++ space :: key ++ rest) = m :: key :: more.
Proof.
  intros m key rest NE M (K1 & K2 & _) R. unfold split. rewrite split_word by exact M. cbn [app split_go]. change (isspace space) with true. cbv iota. destruct m as [|x m]; [contradiction|]. rewrite split_word by exact K2. cbn [app]. destruct R as [->|(r & ->)]; cbn [split_go].
  - exists []. destruct key; [contradiction|reflexivity].
  - change (isspace space) with true. cbv iota. exists (split_go r []). destruct key; [contradiction|reflexivity].
Qed.
Lemma readblocks_block : forall key o rows rest id block results, fok key -> comment_pp o -> (forall r, In r rows -> goodrow r) -> ~ In key results ->
  exists b, commentof b = commentread o /\
  readblocks (map (fun l => l ++ [newline]) (bos key o :: map (join [tab]) rows ++ [eos key]) ++ rest) false id block results
  = option_map (cons (key, b :: map (join [tab]) rows ++ [eos key])) (readblocks rest false key (b :: map (join [tab]) rows ++ [eos key]) (key :: results)).
Proof.
  intros key o rows rest id block results K C G NI. destruct (bos_line key o K C) as (x & E & X & CM). exists (rstrip (bos key o ++ [newline])). split; [exact CM|]. cbn [map app readblocks]. rewrite E.
  change (str "#BOS " ++ key ++ x) with (str "#BOS" ++ space :: (key ++ x)). assert (S1 : startswith (str "#BOS" ++ space :: key ++ x) (str "#BOS ") = true) by (change (str "#BOS" ++ space :: key ++ x) with (str "#BOS " ++ (key ++ x)); apply startswith_app). rewrite S1.
  assert (N1 : nows (str "#BOS")) by (intros c D; cbn in D; repeat (destruct D as [<-|D]; [reflexivity|]); destruct D). assert (N2 : nows (str "#EOS")) by (intros c D; cbn in D; repeat (destruct D as [<-|D]; [reflexivity|]); destruct D).
  destruct (split_marker (str "#BOS") key x ltac:(discriminate) N1 K X) as (more & ->). rewrite map_app, map_map, <- app_assoc. rewrite readblocks_rows by exact G. cbn [map app readblocks]. rewrite rstrip_line by (unfold eos; apply lastns_app, lastns_fok; exact K).
  assert (S2 : startswith (eos key) (str "#BOS ") = false) by reflexivity. rewrite S2. unfold eos at 1. rewrite startswith_app. cbn [negb]. assert (S3 : exists m', split (eos key) = str "#EOS" :: key :: m'). { destruct (split_marker (str "#EOS") key [] ltac:(discriminate) N2 K (or_introl eq_refl)) as (m' & Em). exists m'. rewrite app_nil_r in Em. exact Em. } destruct S3 as (m' & ->). rewrite eqs_refl. cbn [negb].
  assert (S4 : existsb (eqs key) results = false). { destruct (existsb (eqs key) results) eqn:EE; auto. exfalso. apply existsb_exists in EE. destruct EE as (k & A & B). apply eqs_eq in B. subst k. contradiction. } rewrite S4. reflexivity.
Qed.
(** ---- the lines of a file ---- *)
Definition nonl (s : pystr) : Prop := forall c, In c s -> c <> newline /\ c <> 13%N.
Lemma filelines_line : forall l rest cur, nonl l -> filelines (l ++ newline :: rest) cur = (cur ++ l ++ [newline]) :: filelines rest [].
Proof.
  induction l as [|c l IH]; intros rest cur H; [reflexivity|]. cbn [app filelines]. destruct (H c (or_introl eq_refl)) as [H1 H2]. destruct (N.eqb_spec c newline); [contradiction|]. destruct (N.eqb_spec c 13); [contradiction|]. rewrite IH by (intros d D; apply H; now right). now rewrite <- app_assoc.
Qed.
Lemma filelines_lines : forall ls rest, (forall l, In l ls -> nonl l) -> filelines (flat_map (fun l => l ++ [newline]) ls ++ rest) [] = map (fun l => l ++ [newline]) ls ++ filelines rest [].
Proof.
  induction ls as [|l ls IH]; intros rest H; [reflexivity|]. cbn [flat_map map app]. rewrite <- !app_assoc. cbn [app]. rewrite filelines_line by (apply H; now left). cbn [app]. rewrite IH by (intros; apply H; now right). reflexivity.
Qed.
Lemma text_flat : forall ls, ls <> [] -> text ls = flat_map (fun l => l ++ [newline]) ls.
Proof.
  unfold text. induction ls as [|l ls IH]; intros H; [contradiction|]. destruct ls as [|m ls]; [cbn; now rewrite app_nil_r|]. change (join [newline] (l :: m :: ls)) with (l ++ [newline] ++ join [newline] (m :: ls)). rewrite <- !app_assoc. rewrite IH by discriminate. cbn [flat_map]. rewrite <- !app_assoc. reflexivity.
Qed.
Lemma nonl_nows : forall s, nows s -> nonl s.
Proof. intros s H c C. apply H in C. split; intros ->; discriminate C. Qed.
Lemma nonl_app : forall a b, nonl a -> nonl b -> nonl (a ++ b).
Proof. intros a b A B c C. apply in_app_or in C. destruct C; auto. Qed.
Lemma nonl_join : forall fs, Forall fok fs -> nonl (join [tab] fs).
Proof.
  induction fs as [|f fs IH]; intros F; [intros ? []|]. inversion F as [|? ? Ff F']; subst. assert (Nf : nonl f) by (apply nonl_nows; apply Ff). destruct fs as [|g fs]; [exact Nf|]. change (join [tab] (f :: g :: fs)) with (f ++ [tab] ++ join [tab] (g :: fs)). apply nonl_app; auto. apply nonl_app; auto. intros c [<-|[]]. split; discriminate.
Qed.
