(** Proofs about the bracket notation. *)
From Coq Require Import String.
From Coq Require Import List Bool Arith NArith Lia ZifyBool ZifyN.
From Verif Require Import PyStr TreeModel BracketModel.
Import ListNotations.
Open Scope list_scope.

Definition starts_not (p : char -> bool) (s : pystr) : Prop := match s with [] => True | c :: _ => p c = false end.
Lemma span_app : forall p a b, forallb p a = true -> starts_not p b -> span p (a ++ b) = (a, b).
Proof.
  induction a as [|c a IH]; intros b H1 H2; cbn in *.
  - destruct b as [|c b]; auto. cbn in *. now rewrite H2.
  - apply andb_prop in H1. destruct H1 as [-> H1]. now rewrite IH.
Qed.
Lemma span_spec : forall p s a b, span p s = (a, b) -> s = a ++ b /\ forallb p a = true /\ starts_not p b.
Proof.
  induction s as [|c s IH]; intros a b H; cbn in H.
  - inversion H; subst. cbn. auto.
  - destruct (p c) eqn:E.
    + destruct (span p s) as [x y] eqn:ES. inversion H; subst. destruct (IH x b eq_refl) as (-> & A & B).
      cbn. rewrite E. auto.
    + inversion H; subst. cbn. auto.
Qed.
Lemma span_len : forall p s, length (fst (span p s)) + length (snd (span p s)) = length s.
Proof.
  intros p s. destruct (span p s) as [a b] eqn:E. apply span_spec in E. destruct E as (-> & _). now rewrite app_length.
Qed.
Lemma space_ns : isspace space = true. Proof. reflexivity. Qed.
Lemma labelchar_not : forall c, labelchar c = true -> isspace c = false /\ N.eqb c openb = false /\ N.eqb c closeb = false.
Proof. intros c H. unfold labelchar in H. destruct (isspace c), (N.eqb c openb), (N.eqb c closeb); cbn in H; try discriminate. auto. Qed.
Lemma space_not_label : forall c, isspace c = true -> labelchar c = false.
Proof. intros c H. unfold labelchar. now rewrite H. Qed.
Lemma space_not_b : forall c, isspace c = true -> N.eqb c openb = false /\ N.eqb c closeb = false.
Proof.
  intros c H. split; apply N.eqb_neq; intros ->; discriminate H.
Qed.

Lemma tokens_fuel : forall f s, length s <= f -> tokens f s = tokenize s.
Proof.
  unfold tokenize. intros f s. remember (length s) as n eqn:E.
  revert f s E. induction n as [n IH] using lt_wf_ind. intros f s E Hf.
  destruct s as [|c t]; [destruct f, n; reflexivity|]. cbn in E. subst n. destruct f as [|f]; [lia|].
  cbn [tokens].
  pose proof (span_len isspace t) as L1. destruct (span isspace t) as [sp t1]. cbn [snd fst] in *.
  pose proof (span_len labelchar t1) as L2. destruct (span labelchar t1) as [lab rest]. cbn [snd fst] in *.
  assert (G : forall r, length r <= length t -> tokens f r = tokens (length t) r).
  { intros r Hr. rewrite (IH (length r)) with (f := f) by (auto; lia). symmetry. apply (IH (length r)); auto; lia. }
  destruct (N.eqb c openb) eqn:Eo; [rewrite G by lia; reflexivity|].
  destruct (N.eqb c closeb) eqn:Ec; [rewrite G by lia; reflexivity|].
  destruct (isspace c) eqn:Ei; [apply G; lia|].
  cbn [span]. replace (labelchar c) with true by (unfold labelchar; now rewrite Ei, Eo, Ec).
  pose proof (span_len labelchar t) as L3. destruct (span labelchar t) as [w r]. cbn [fst snd] in L3. f_equal. apply G. lia.
Qed.
Lemma tok_nil : tokenize [] = []. Proof. reflexivity. Qed.
Lemma tok_close : forall s, tokenize (closeb :: s) = TClose :: tokenize s.
Proof. reflexivity. Qed.
Lemma tok_space : forall ws s, forallb isspace ws = true -> tokenize (ws ++ s) = tokenize s.
Proof.
  induction ws as [|c ws IH]; intros s H; [reflexivity|]. cbn in H. apply andb_prop in H. destruct H as [H1 H2].
  destruct (space_not_b c H1) as [E1 E2]. unfold tokenize. cbn [app length tokens]. rewrite E1, E2, H1.
  apply IH; auto.
Qed.
Lemma tok_leaf : forall w s, w <> [] -> forallb labelchar w = true -> starts_not labelchar s ->
  tokenize (w ++ s) = TLeaf w :: tokenize s.
Proof.
  intros w s N H S. destruct w as [|c w]; [congruence|]. unfold tokenize. cbn [app length tokens].
  pose proof H as H'. cbn in H. apply andb_prop in H. destruct H as [H1 H2]. destruct (labelchar_not c H1) as (E0 & E1 & E2).
  rewrite E0, E1, E2. change (c :: w ++ s) with ((c :: w) ++ s). rewrite span_app by auto. f_equal.
  apply tokens_fuel. rewrite app_length. lia.
Qed.
Lemma tok_open : forall l s, l <> [] -> forallb labelchar l = true -> starts_not labelchar s ->
  tokenize (openb :: l ++ s) = TOpen l :: tokenize s.
Proof.
  intros l s N H S. unfold tokenize. cbn [length tokens]. rewrite N.eqb_refl.
  replace (snd (span isspace (l ++ s))) with (l ++ s).
  - rewrite span_app by auto. f_equal. apply tokens_fuel. rewrite app_length. lia.
  - destruct l as [|c l]; [congruence|]. cbn in *. apply andb_prop in H. destruct H as [H1 _].
    destruct (labelchar_not c H1) as (-> & _). reflexivity.
Qed.

(** ---- layouts: a tree written out with any white space ending in a blank
    before each child ---- *)
Inductive layout {A} (show : A -> pystr) : tree pystr A -> pystr -> Prop :=
| lay_leaf : forall a, layout show (Leaf a) (show a)
| lay_node0 : forall l, layout show (Node l []) (openb :: l ++ [] ++ [closeb])
| lay_node0s : forall l, layout show (Node l []) (openb :: l ++ [space] ++ [closeb])
| lay_node : forall l ts body, ts <> [] -> layouts show ts body -> layout show (Node l ts) (openb :: l ++ body ++ [closeb])
with layouts {A} (show : A -> pystr) : list (tree pystr A) -> pystr -> Prop :=
| lays_nil : layouts show [] []
| lays_cons : forall t ts ws s rest, forallb isspace ws = true -> layout show t s -> layouts show ts rest ->
    layouts show (t :: ts) (ws ++ space :: s ++ rest).

Fixpoint map_leaves {L A B} (f : A -> B) (t : tree L A) : tree L B :=
  match t with Leaf a => Leaf (f a) | Node l ts => Node l (map (map_leaves f) ts) end.
Fixpoint toks {A} (show : A -> pystr) (t : tree pystr A) : list token :=
  match t with Leaf a => [TLeaf (show a)] | Node l ts => TOpen l :: flat_map (toks show) ts ++ [TClose] end.
Definition clean_word (w : pystr) : bool := match w with [] => false | _ => forallb labelchar w end.
(** all labels and leaves are non-empty and free of white space and brackets *)
Fixpoint clean {A} (show : A -> pystr) (t : tree pystr A) : bool :=
  match t with Leaf a => clean_word (show a) | Node l ts => clean_word l && forallb (clean show) ts end.
Lemma clean_word_iff : forall w, clean_word w = true <-> w <> [] /\ forallb labelchar w = true.
Proof. destruct w; cbn; split; intros; try discriminate; try tauto. split; [discriminate|auto]. Qed.

Lemma layouts_start : forall A (show : A -> pystr) ts b, layouts show ts b -> forall r, starts_not labelchar r ->
  starts_not labelchar (b ++ r).
Proof.
  intros A show ts b H r Hr. inversion H; subst; auto. destruct ws as [|c ws]; [reflexivity|].
  cbn in *. apply andb_prop in H0. apply space_not_label. tauto.
Qed.
Lemma layout_tokens : forall A (show : A -> pystr) t, clean show t = true -> forall s r, layout show t s -> starts_not labelchar r ->
  tokenize (s ++ r) = toks show t ++ tokenize r.
Proof.
  intros A show t. induction t as [a|l ts IH] using tree_ind'; intros C s r H Hr.
  - inversion H; subst. cbn in C. apply clean_word_iff in C. destruct C. now rewrite tok_leaf.
  - cbn in C. apply andb_prop in C. destruct C as [Cl Ct]. apply clean_word_iff in Cl. destruct Cl as [Nl Cl].
    assert (B : exists body, s = openb :: l ++ body ++ [closeb] /\ starts_not labelchar (body ++ closeb :: r) /\
        tokenize (body ++ closeb :: r) = flat_map (toks show) ts ++ TClose :: tokenize r).
    { inversion H as [|? E1 E2|? E1 E2|? ? body Nt HB E1 E2]; subst.
      - exists []. split; auto. split; [reflexivity|]. apply tok_close.
      - exists [space]. split; auto. split; [reflexivity|]. rewrite tok_space by reflexivity. apply tok_close.
      - exists body. split; auto. split; [eapply layouts_start; eauto; reflexivity|].
        clear H Cl Nl l Hr Nt. revert body HB. induction IH as [|t ts Ht HF IHt]; intros body HB.
        + inversion HB; subst. apply tok_close.
        + inversion HB as [|? ? ws s' rest Hws Ls Lr E1 E2]; subst. cbn in Ct. apply andb_prop in Ct. destruct Ct as [Ct1 Ct2].
          replace ((ws ++ space :: s' ++ rest) ++ closeb :: r) with ((ws ++ [space]) ++ s' ++ rest ++ closeb :: r)
            by (rewrite <- !app_assoc; cbn [app]; now rewrite <- !app_assoc).
          rewrite tok_space by (rewrite forallb_app, Hws; reflexivity).
          rewrite (Ht Ct1 s' _ Ls).
          * cbn [flat_map]. rewrite <- app_assoc. f_equal. apply IHt; auto.
          * eapply layouts_start; eauto. reflexivity. }
    destruct B as (body & -> & B1 & B2). cbn [app]. rewrite <- !app_assoc. cbn [app]. rewrite tok_open; auto.
    cbn [toks app]. f_equal. rewrite <- app_assoc. exact B2.
Qed.

(** what parse_leaf makes of the leaves, from left to right *)
Section Build.
Context {S A B : Type}.
Variable pl : S -> pystr -> option (S * B).
Variable show : A -> pystr.
Fixpoint build (st : S) (t : tree pystr A) : option (S * tree pystr B) :=
  match t with
  | Leaf a => match pl st (show a) with Some (st', b) => Some (st', Leaf b) | None => None end
  | Node l ts =>
    match (fix go (st : S) (ts : list (tree pystr A)) : option (S * list (tree pystr B)) :=
       match ts with
       | [] => Some (st, [])
       | t :: r => match build st t with
                   | Some (st', t') => match go st' r with Some (st'', r') => Some (st'', t' :: r') | None => None end
                   | None => None end
       end) st ts with
    | Some (st', ts') => Some (st', Node l ts')
    | None => None
    end
  end.
Fixpoint builds (st : S) (ts : list (tree pystr A)) : option (S * list (tree pystr B)) :=
  match ts with
  | [] => Some (st, [])
  | t :: r => match build st t with
              | Some (st', t') => match builds st' r with Some (st'', r') => Some (st'', t' :: r') | None => None end
              | None => None end
  end.
Lemma build_node : forall st l ts, build st (Node l ts) = match builds st ts with Some (st', ts') => Some (st', Node l ts') | None => None end.
Proof. reflexivity. Qed.
Lemma parse_loop_build : forall t st bottom r lab ch stack,
  parse_loop pl (toks show t ++ r) st bottom ((lab, ch) :: stack) =
  match build st t with
  | Some (st', t') => parse_loop pl r st' bottom ((lab, ch ++ [t']) :: stack)
  | None => PValueError
  end.
Proof.
  intros t. induction t as [a|l ts IH] using tree_ind'; intros st bottom r lab ch stack.
  - cbn. destruct (pl st (show a)) as [[st' b]|]; reflexivity.
  - rewrite build_node. cbn [toks app parse_loop]. rewrite <- app_assoc. cbn [app].
    assert (G : forall ch0 st, parse_loop pl (flat_map (toks show) ts ++ TClose :: r) st bottom ((l, ch0) :: (lab, ch) :: stack) =
      match builds st ts with
      | Some (st', ts') => parse_loop pl r st' bottom ((lab, ch ++ [Node l (ch0 ++ ts')]) :: stack)
      | None => PValueError end).
    { induction IH as [|t ts Ht HF IHt]; intros ch0 st0.
      - cbn. now rewrite app_nil_r.
      - cbn [flat_map builds]. rewrite <- app_assoc, Ht. destruct (build st0 t) as [[st1 t']|]; auto.
        rewrite IHt. destruct (builds st1 ts) as [[st2 ts']|]; auto. now rewrite <- app_assoc. }
    rewrite G. destruct (builds st ts) as [[st' ts']|]; reflexivity.
Qed.
Lemma parse_loop_top : forall l ts st, parse_loop pl (toks show (Node l ts)) st [] [] =
  match build st (Node l ts) with Some (st', t') => POk t' st' | None => PValueError end.
Proof.
  intros l ts st. rewrite build_node. cbn [toks parse_loop].
  assert (G : forall ts ch0 st, parse_loop pl (flat_map (toks show) ts ++ [TClose]) st [] [(l, ch0)] =
      match builds st ts with
      | Some (st', ts') => POk (Node l (ch0 ++ ts')) st'
      | None => PValueError end).
  { clear. induction ts as [|t ts IHt]; intros ch0 st0.
    - cbn. now rewrite app_nil_r.
    - cbn [flat_map builds]. rewrite <- app_assoc, parse_loop_build. destruct (build st0 t) as [[st1 t']|]; auto.
      rewrite IHt. destruct (builds st1 ts) as [[st2 ts']|]; auto. now rewrite <- app_assoc. }
  rewrite G. destruct (builds st ts) as [[st' ts']|]; reflexivity.
Qed.
End Build.

Lemma parse_layout : forall S A B (pl : S -> pystr -> option (S * B)) (show : A -> pystr) l ts s st lead trail,
  clean show (Node l ts) = true -> layout show (Node l ts) s -> forallb isspace lead = true -> forallb isspace trail = true ->
  parse pl (lead ++ s ++ trail) st = match build pl show st (Node l ts) with Some (st', t') => POk t' st' | None => PValueError end.
Proof.
  intros. unfold parse. rewrite tok_space by auto. rewrite (layout_tokens A show (Node l ts)); auto.
  - rewrite <- (app_nil_r trail), tok_space by auto. rewrite tok_nil, app_nil_r. apply parse_loop_top.
  - destruct trail; [exact I|]. cbn in *. apply andb_prop in H2. apply space_not_label. tauto.
Qed.

(** str(t) and t.pprint() are layouts *)
Lemma flat_layout : forall A (show : A -> pystr) t, layout show t (pprint_flat show t).
Proof.
  intros A show t. induction t as [a|l ts IH] using tree_ind'; cbn [pprint_flat]; [constructor|].
  destruct IH as [|t ts Ht HF]; [cbn; apply lay_node0s|].
  cbn [app]. change (openb :: l ++ space :: join [space] (map (pprint_flat show) (t :: ts)) ++ [closeb])
    with (openb :: l ++ (space :: join [space] (map (pprint_flat show) (t :: ts))) ++ [closeb]).
  constructor; [discriminate|].
  cbn [map]. revert t Ht. induction HF as [|u ts Hu HF IHu]; intros t Ht.
  - cbn. rewrite <- (app_nil_r (pprint_flat show t)) at 1. apply (lays_cons show t [] [] (pprint_flat show t) []); auto; constructor.
  - cbn [map]. change (join [space] (pprint_flat show t :: pprint_flat show u :: map (pprint_flat show) ts))
      with (pprint_flat show t ++ (space :: join [space] (pprint_flat show u :: map (pprint_flat show) ts))).
    apply (lays_cons show t (u :: ts) [] (pprint_flat show t) (space :: join [space] (pprint_flat show u :: map (pprint_flat show) ts))); auto.
Qed.
Lemma pprint_layout : forall A (show : A -> pystr) t margin indent, layout show t (pprint show margin indent t).
Proof.
  intros A show t margin. induction t as [a|l ts IH] using tree_ind'; intros indent; cbn [pprint]; [constructor|].
  destruct (_ <? margin); [apply flat_layout|].
  destruct ts as [|t0 ts0]; [apply lay_node0|].
  cbn [app]. apply lay_node; [discriminate|].
  assert (SP : repeat space (indent + 2) = repeat space (indent + 1) ++ [space]).
  { replace (indent + 2) with (S (indent + 1)) by lia. apply repeat_cons. }
  assert (WS : forallb isspace (newline :: repeat space (indent + 1)) = true).
  { cbn. clear. induction (indent + 1); cbn; auto. }
  induction IH as [|t ts Ht HF IHt]; [constructor|]. cbn [flat_map].
  match goal with |- layouts _ _ ((newline :: repeat space _ ++ ?p) ++ ?r) =>
    replace ((newline :: repeat space (indent + 2) ++ p) ++ r) with ((newline :: repeat space (indent + 1)) ++ space :: p ++ r)
      by (rewrite SP; cbn [app]; now rewrite <- !app_assoc) end.
  apply lays_cons; auto.
Qed.
