(** Model of the outside estimates for A* parsing with a PCFG:
    /repo/discodop/estimates.pyx, getpcfgestimates 372-377, pcfginsidesx 402-452,
    pcfgoutsidesx 455-507 (the recursive and LCFRS versions are not modelled).

    Weights are negative log probabilities; they are taken to be natural
    numbers, as in PlcfrsModel.v (i.e. multiples of some unit; rounding and
    probability 0 are not modelled).  The agendas are
    modelled by their contract, proved for the actual data structures as C09-C12:
    pop removes some entry with the smallest value. *)
From Coq Require Import List Bool Arith NArith.
From Verif Require Import McpModel.
Import ListNotations.
Local Open Scope N_scope.
Local Open Scope list_scope.

Definition Nlt_le_dec (a b : N) : {a < b} + {b <= a}.
Proof.
  destruct (a <? b) eqn:E; [left; now apply N.ltb_lt|right; now apply N.ltb_ge].
Defined.

(** ProbRule, without the yield function; rhs2 = 0 for unary rules *)
Record erule := ERule { e_lhs : nat; e_rhs1 : nat; e_rhs2 : nat; e_prob : N }.
Record egrammar := EGrammar {
  g_nonterminals : nat;         (* grammar.nonterminals *)
  g_rules : list erule;         (* phrasal rules *)
  g_lexical : list (nat * N)    (* grammar.lexical: lhs and prob *) }.

Definition isunary (r : erule) : bool := Nat.eqb (e_rhs2 r) 0.
(** grammar.unary[label], .lbinary[label], .rbinary[label], .bylhs[label]: arrays
    of the rules with the given label, closed off by a rule with another label
    (containers, proved as C49). *)
Definition unaryrules (g : egrammar) (l : nat) : list erule :=
  filter (fun r => isunary r && Nat.eqb (e_rhs1 r) l) (g_rules g).
Definition lbinaryrules (g : egrammar) (l : nat) : list erule :=
  filter (fun r => negb (isunary r) && Nat.eqb (e_rhs1 r) l) (g_rules g).
Definition rbinaryrules (g : egrammar) (l : nat) : list erule :=
  filter (fun r => negb (isunary r) && Nat.eqb (e_rhs2 r) l) (g_rules g).
Definition bylhsrules (g : egrammar) (l : nat) : list erule :=
  filter (fun r => Nat.eqb (e_lhs r) l) (g_rules g).

(** items of the inside computation: label and length *)
Definition ikey := (nat * nat)%type.
Definition ikey_eqb (a b : ikey) : bool := Nat.eqb (fst a) (fst b) && Nat.eqb (snd a) (snd b).
(** items of the outside computation: label, words to the left, to the right *)
Definition okey := (nat * nat * nat)%type.
Definition okey_eqb (a b : okey) : bool := ikey_eqb (fst a) (fst b) && Nat.eqb (snd a) (snd b).

Section Agenda.
  Context {K : Type}.
  Variable eqb : K -> K -> bool.
  (** containers.pyx CAgenda.setifbetter *)
  Definition setifbetter (ag : list (K * N)) (kv : K * N) : list (K * N) :=
    match dget eqb (fst kv) ag with
    | Some old => if Nlt_le_dec (snd kv) old then dput eqb (fst kv) (snd kv) ag else ag
    | None => dput eqb (fst kv) (snd kv) ag
    end.
  Definition dremove (k : K) (ag : list (K * N)) : list (K * N) :=
    filter (fun x => negb (eqb (fst x) k)) ag.
  (** some entry with the smallest value is removed *)
  Definition pops (ag : list (K * N)) (k : K) (x : N) (ag' : list (K * N)) : Prop :=
    In (k, x) ag /\ (forall k' x', In (k', x') ag -> x <= x') /\ ag' = dremove k ag.
End Agenda.

Section Inside.
  Variable g : egrammar.
  Variable maxlen : nat.
  (** 424-425, 434-435, 444-445: "for i in range(grammar.nonterminals)" stops
      after as many rules as there are nonterminals *)
  Definition limited (rs : list erule) : list erule := firstn (g_nonterminals g) rs.
  Definition ilook (ins : list (ikey * N)) (l n : nat) : option N := dget ikey_eqb (l, n) ins.
  (** 424-451: the updates of the agenda after item (l, len) with cost x was popped *)
  Definition iupdates (ins : list (ikey * N)) (l len : nat) (x : N) : list (ikey * N) :=
    flat_map (fun r =>
        match ilook ins (e_lhs r) len with
        | Some _ => []
        | None => [((e_lhs r, len), e_prob r + x)]
        end) (limited (unaryrules g l))
    ++ flat_map (fun r => flat_map (fun vec =>
        match ilook ins (e_rhs2 r) vec, ilook ins (e_lhs r) (len + vec) with
        | Some y, None => [((e_lhs r, (len + vec)%nat), e_prob r + x + y)]
        | _, _ => []
        end) (seq 1 (maxlen - len))) (limited (lbinaryrules g l))
    ++ flat_map (fun r => flat_map (fun vec =>
        match ilook ins (e_rhs1 r) vec, ilook ins (e_lhs r) (vec + len) with
        | Some y, None => [((e_lhs r, (vec + len)%nat), e_prob r + y + x)]
        | _, _ => []
        end) (seq 1 (maxlen - len))) (limited (rbinaryrules g l)).
  (** 420-422 *)
  Definition istore (ins : list (ikey * N)) (k : ikey) (x : N) : list (ikey * N) :=
    match dget ikey_eqb k ins with
    | Some old => if Nlt_le_dec x old then dput ikey_eqb k x ins else ins
    | None => dput ikey_eqb k x ins
    end.
  (** 416-451; the loop counts its iterations *)
  Inductive inside_loop : nat -> list (ikey * N) -> list (ikey * N) -> list (ikey * N) -> Prop :=
  | il_empty : forall ins, inside_loop 0 [] ins ins
  | il_step : forall n ag k x ag' ins res,
      pops ikey_eqb ag k x ag' ->
      inside_loop n
        (fold_left (setifbetter ikey_eqb) (iupdates (istore ins k x) (fst k) (snd k) x) ag')
        (istore ins k x) res ->
      inside_loop (S n) ag ins res.
  (** 414-415 *)
  Definition inside_init : list (ikey * N) :=
    fold_left (setifbetter ikey_eqb) (map (fun lp => ((fst lp, 1%nat), snd lp)) (g_lexical g)) [].
  Definition pcfginsidesx (res : list (ikey * N)) : Prop :=
    exists n, inside_loop n inside_init [] res.
End Inside.

Section Outside.
  Variable g : egrammar.
  Variable maxlen : nat.
  Variable ins : list (ikey * N).
  Variable goal : nat.
  Definition otable := list (okey * N).      (* absent: infinity *)
  (** 477-504: the scores considered for item (l, left, right) with cost x *)
  Definition oupdates (l left right : nat) (x : N) : list (okey * N) :=
    flat_map (fun r =>
      if isunary r then [((e_rhs1 r, left, right), e_prob r + x)]
      else
        flat_map (fun sib => match ilook ins (e_rhs2 r) sib with
          | Some y => [((e_rhs1 r, left, (right + sib)%nat), e_prob r + x + y)]
          | None => []
          end) (seq 1 (maxlen - left - right - 1))
        ++ flat_map (fun sib => match ilook ins (e_rhs1 r) sib with
          | Some y => [((e_rhs2 r, (left + sib)%nat, right), e_prob r + y + x)]
          | None => []
          end) (seq 1 (maxlen - left - right - 1))) (bylhsrules g l).
  (** 480-482, 491-493, 500-502 *)
  Definition relax (st : list (okey * N) * otable) (kv : okey * N) : list (okey * N) * otable :=
    let '(ag, out) := st in
    let better := match dget okey_eqb (fst kv) out with
                  | Some cur => if Nlt_le_dec (snd kv) cur then true else false
                  | None => true
                  end in
    if better then (dput okey_eqb (fst kv) (snd kv) ag, dput okey_eqb (fst kv) (snd kv) out)
    else st.
  Inductive outside_loop : nat -> list (okey * N) -> otable -> otable -> Prop :=
  | ol_empty : forall out, outside_loop 0 [] out out
  | ol_step : forall n ag k x ag' out res,
      pops okey_eqb ag k x ag' ->
      (let st := fold_left relax (oupdates (fst (fst k)) (snd (fst k)) (snd k) x) (ag', out) in
       outside_loop n (fst st) (snd st) res) ->
      outside_loop (S n) ag out res.
  Definition pcfgoutsidesx (res : otable) : Prop :=
    exists n, outside_loop n [((goal, 0%nat, 0%nat), 0)] [((goal, 0%nat, 0%nat), 0)] res.
End Outside.
(** 372-377 *)
Definition getpcfgestimates (g : egrammar) (maxlen goal : nat) (res : otable) : Prop :=
  exists ins, pcfginsidesx g maxlen ins /\ pcfgoutsidesx g maxlen ins goal res.
