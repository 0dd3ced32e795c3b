(** Model of /repo/discodop/eval.py transform 763-810, and of its use in
    TreePairResult 346-363.

    Nodes are immutable here; the loop over the phrasal nodes in reversed
    preorder (784-785) is a recursion over the children from right to left,
    before the node itself.  Subtrees that are visited once are not shared.
    None: an exception. *)
From Coq Require Import List Bool Arith.
From Verif Require Import PyStr TreeModel EvalModel.
From Verif Require TreebankModel TransformModel.
Import ListNotations.
Open Scope list_scope.
Open Scope nat_scope.

Record eparam := EParam {
  eq_label : list (pystr * pystr);       (* param['EQ_LABEL'] *)
  eq_word : list (pystr * pystr);        (* param['EQ_WORD'] *)
  delete_label : list pystr;             (* param['DELETE_LABEL'] *)
  delete_word : list pystr;              (* param['DELETE_WORD'] *)
  delete_root_preterms : bool }.         (* param['DELETE_ROOT_PRETERMS'] *)

(** dict.get(x, x) *)
Fixpoint dictmap (d : list (pystr * pystr)) (x : pystr) : pystr :=
  match d with [] => x | (k, v) :: r => if eqs k x then v else dictmap r x end.
(** gpos[k] *)
Fixpoint dictnat (d : list (nat * pystr)) (k : nat) : option pystr :=
  match d with [] => None | (n, v) :: r => if k =? n then Some v else dictnat r k end.
(** list.remove *)
Fixpoint removefirst (k : nat) (l : list nat) : option (list nat) :=
  match l with
  | [] => None
  | x :: r => if x =? k then Some r else option_map (cons x) (removefirst k r)
  end.
(** leafmap[k] for {m: n for n, m in enumerate(leaves)} *)
Fixpoint indexof (k : nat) (l : list nat) : option nat :=
  match l with
  | [] => None
  | x :: r => if x =? k then Some 0 else option_map S (indexof k r)
  end.

Section Transform.
Variable param : eparam.
Variable sent : list pystr.
Variable gpos : list (nat * pystr).
Variable grootpos : list nat.
(** [leaves] and the leaves of [posnodes] *)
Definition tstate := (list nat * list nat)%type.
(** 797-799: is the preterminal with this word removed *)
Definition removed (k : nat) : option bool :=
  match dictnat gpos k with
  | None => None
  | Some tag =>
      if mems tag (delete_label param) then Some true
      else match nth_error sent k with
           | None => None
           | Some w => Some (mems w (delete_word param) || (delete_root_preterms param && memn k grootpos))
           end
  end.
(** 786-805: the children of a node, from right to left *)
Fixpoint childloop (ts : list (tree pystr nat)) (st : tstate) : option (list (tree pystr nat) * tstate) :=
  match ts with
  | [] => Some ([], st)
  | b :: r =>
      match childloop r st with
      | None => None
      | Some (r, (leaves, posnodes)) =>
          match b with
          | Leaf _ => None
          | Node l bs =>
              let l := dictmap (eq_label param) l in
              match bs with
              | [] => Some (r, (leaves, posnodes))
              | Node _ _ :: _ =>
                  if mems l (delete_label param) then Some (bs ++ r, (leaves, posnodes))
                  else Some (Node l bs :: r, (leaves, posnodes))
              | Leaf k :: _ =>
                  match removed k with
                  | None => None
                  | Some true => match removefirst k leaves with None => None | Some leaves => Some (r, (leaves, posnodes)) end
                  | Some false => Some (Node l bs :: r, (leaves, posnodes ++ [k]))
                  end
              end
          end
      end
  end.
(** 784-805 *)
Fixpoint nodeloop (t : tree pystr nat) (st : tstate) : option (tree pystr nat * tstate) :=
  match t with
  | Node l ((Node _ _ :: _) as ts) =>
      match (fix kids (ts : list (tree pystr nat)) (st : tstate) : option (list (tree pystr nat) * tstate) :=
        match ts with
        | [] => Some ([], st)
        | c :: r => match kids r st with
                    | None => None
                    | Some (r, st) => match nodeloop c st with None => None | Some (c, st) => Some (c :: r, st) end
                    end
        end) ts st with
      | None => None
      | Some (ts, st) => match childloop ts st with None => None | Some (ts, st) => Some (Node l ts, st) end
      end
  | _ => Some (t, st)
  end.
(** 812-816: the leaves in posnodes are changed to their new numbers *)
Fixpoint renumber (leaves posnodes : list nat) (t : tree pystr nat) : option (tree pystr nat) :=
  match t with
  | Leaf k => if memn k posnodes then option_map Leaf (indexof k leaves) else Some (Leaf k)
  | Node l ts => option_map (Node l) (allsome (map (renumber leaves posnodes) ts))
  end.
(** 814-816 *)
Fixpoint eqwords (leaves posnodes : list nat) (words : list pystr) : option (list pystr) :=
  match posnodes with
  | [] => Some words
  | k :: r =>
      match indexof k leaves with
      | None => None
      | Some i =>
          match nth_error words i with
          | None => None
          | Some w => eqwords leaves r (firstn i words ++ dictmap (eq_word param) w :: skipn (S i) words)
          end
      end
  end.
(** 763-817: the tree, the words and the POS tags *)
Definition transform (t : tree pystr nat) (tpos : list (nat * pystr)) : option (tree pystr nat * list pystr * list pystr) :=
  match nodeloop t (seq 0 (length sent), []) with
  | None => None
  | Some (t, (leaves, posnodes)) =>
      match allsome (map (nth_error sent) leaves), allsome (map (nth_error tpos) leaves), renumber leaves posnodes t with
      | Some words, Some tags, Some t =>
          option_map (fun words => (t, words, map snd tags)) (eqwords leaves posnodes words)
      | _, _, _ => None
      end
  end.
End Transform.

(** sorted(tree.pos()), for distinct indices *)
Definition sortedpos (t : tree pystr nat) : list (nat * pystr) := TransformModel.sort (fun a b => fst a <=? fst b) (pos t).
(** 352-353 *)
Definition rootpos (t : tree pystr nat) : list nat :=
  match t with
  | Leaf _ => []
  | Node _ ts => flat_map (fun c => match c with Node _ (Leaf k :: _) => [k] | _ => [] end) ts
  end.
(** 346-363: the transformed candidate and gold tree, words and POS tags.
    [alignsent] takes the tags of gpos, which are in the order of the words. *)
Definition treepair (param : eparam) (gtree : tree pystr nat) (gsent : list pystr) (ctree : tree pystr nat) (csent : list pystr)
    : option ((tree pystr nat * list pystr * list pystr) * (tree pystr nat * list pystr * list pystr)) :=
  let gpos := sortedpos gtree in
  match transform param csent (alignsent csent gsent (map snd gpos) 0) (rootpos gtree) ctree (sortedpos ctree),
        transform param gsent gpos (rootpos gtree) gtree gpos with
  | Some c, Some g =>
      if length (snd (fst c)) =? length (snd (fst g)) then
        if TreebankModel.eqll eqs (snd (fst c)) (snd (fst g)) then Some (c, g) else None
      else None
  | _, _ => None
  end.
