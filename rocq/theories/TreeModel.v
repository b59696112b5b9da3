(** Model of parse trees, tree walking, tree visiting and tree printing:
    tree.rs, trees.rs, utils.rs (escape_whitespaces), rule_context.rs and the tree part of
    parser_rule_context.rs.

    Text is a list of Unicode code points ([str.chars()]). *)
From Coq Require Import ZArith List Bool Lia.
From Verif Require Import Outcome.
From Verif Require Export Text.
Import ListNotations.
Local Open Scope Z_scope.
Local Open Scope outcome_scope.


(** tree.rs:127-131 LeafNode with its symbol, reduced to what the tree functions read from it: the
    token type, the token text and the token index; tree.rs:202, 226: TerminalNode and ErrorNode are
    the two instances of LeafNode, here [l_error].
    parser_rule_context.rs:229-240 BaseParserRuleContext: a node of type [r_kind] (the generated
    context type, i.e. what [Tid::self_id] identifies) with its rule index, alternative number and
    children. [n_id] is the identity of the shared node (the Rc pointer).
    [r_plain]: the node has the unlabelled context type of a rule all of whose alternatives are
    labelled, for which the generated code implements the callbacks by the empty defaults
    (tests/gen/visitorcalcparser.rs:444-446).
    Simplification: parents, start and stop tokens are not part of the tree (see [ctx] below for the
    parents) and nobody edits the tree while it is being walked. *)
Inductive node :=
| Leaf (l_id : nat) (l_error : bool) (l_type : Z) (l_text : text) (l_index : Z)
| Rule (r_id : nat) (r_plain : bool) (r_kind : nat) (r_index : Z) (r_alt : Z) (r_children : list node).

Definition n_id (t : node) : nat :=
  match t with Leaf i _ _ _ _ => i | Rule i _ _ _ _ _ => i end.

(** tree.rs:40-42 (leaves, default), parser_rule_context.rs:418-420 *)
Definition get_child_count (t : node) : nat :=
  match t with Leaf _ _ _ _ _ => O | Rule _ _ _ _ _ cs => length cs end.

(** tree.rs:37-39 (leaves, default), parser_rule_context.rs:414-416 *)
Definition get_child (t : node) (i : nat) : option node :=
  match t with Leaf _ _ _ _ _ => None | Rule _ _ _ _ _ cs => nth_error cs i end.

(** tree.rs:43-60: the iterator of [get_children], drained; the closure answers None for good as soon
    as [index] reaches the child count or [get_child] fails (all users stop at the first None). *)
Fixpoint children_from (fuel : nat) (t : node) (index : nat) : list node :=
  match fuel with
  | O => []
  | S fuel' =>
      if (index <? get_child_count t)%nat then
        match get_child t index with
        | Some c => c :: children_from fuel' t (S index)
        | None => []
        end
      else []
  end.
Definition get_children (t : node) : list node := children_from (S (get_child_count t)) t 0.

Definition INVALID_ALT : Z := 0.

(** tree.rs:144-146 (leaves) and rule_context.rs:130-138 (rules; indexing [rule_names] panics when
    out of range; rule indices are usize). *)
Definition get_node_text (t : node) (rule_names : list text) : outcome text :=
  match t with
  | Leaf _ _ _ s _ => Val s
  | Rule _ _ _ i alt _ =>
      let! name := unwrap (if i <? 0 then None else nth_error rule_names (Z.to_nat i)) in
      if negb (alt =? INVALID_ALT) then Val (name ++ [58] ++ isize_to_string alt) else Val name
  end.

(** [fold]/[for] over a list with a panicking body. *)
Fixpoint fold_out {A B} (f : A -> B -> outcome A) (l : list B) (a : A) : outcome A :=
  match l with
  | [] => Val a
  | b :: rest => let! a' := f a b in fold_out f rest a'
  end.

(** trees.rs:12-31; the recursion over the children is fuelled. *)
Fixpoint string_tree (fuel : nat) (t : node) (rule_names : list text) : outcome text :=
  match fuel with
  | O => NoFuel
  | S fuel' =>
      let! nt := get_node_text t rule_names in
      let s := escape_whitespaces nt false in
      if (get_child_count t =? 0)%nat then Val s
      else
        let result := [40] in
        let result := result ++ s in
        let! result :=
          fold_out (fun acc child =>
              let! text := string_tree fuel' child rule_names in
              Val ((acc ++ [32]) ++ text)) (get_children t) result in
        Val (result ++ [41])
  end.

(** parser_rule_context.rs:442-451 (rules), tree.rs:175-177 (leaves) *)
Fixpoint get_text (fuel : nat) (t : node) : outcome text :=
  match fuel with
  | O => NoFuel
  | S fuel' =>
      match t with
      | Leaf _ _ _ s _ => Val s
      | Rule _ _ _ _ _ _ =>
          fold_out (fun result child =>
              let! s := get_text fuel' child in
              Val (result ++ s)) (get_children t) []
      end
  end.

(** A listener: its state type and its callbacks. [l_enter]/[l_exit] are the rule-specific callbacks
    (enter_row, exit_row, ...), dispatched on the context type. tree.rs:398-407 and the generated
    listener trait. *)
Record listener (L : Type) := Listener {
  visit_terminal : node -> L -> L;
  visit_error_node : node -> L -> L;
  enter_every_rule : node -> L -> L;
  exit_every_rule : node -> L -> L;
  enter_rule : node -> L -> L;
  exit_rule : node -> L -> L }.
Arguments Listener {L}.
Arguments visit_terminal {L}.
Arguments visit_error_node {L}.
Arguments enter_every_rule {L}.
Arguments exit_every_rule {L}.
Arguments enter_rule {L}.
Arguments exit_rule {L}.

Section Walk.
  Context {L : Type}.
  Variable K : listener L.

  (** [Listenable::enter]: tree.rs:207-209, 231-233; generated contexts
      (tests/gen/csvparser.rs:257-260); empty default for plain contexts (tree.rs:413). *)
  Definition enter (t : node) (l : L) : L :=
    match t with
    | Leaf _ false _ _ _ => visit_terminal K t l
    | Leaf _ true _ _ _ => visit_error_node K t l
    | Rule _ true _ _ _ _ => l
    | Rule _ false _ _ _ _ => enter_rule K t (enter_every_rule K t l)
    end.

  (** [Listenable::exit]: tree.rs:211-213, 235-237; generated contexts
      (tests/gen/csvparser.rs:261-264); empty default for plain contexts (tree.rs:415). *)
  Definition exit (t : node) (l : L) : L :=
    match t with
    | Leaf _ _ _ _ _ => l
    | Rule _ true _ _ _ _ => l
    | Rule _ false _ _ _ _ => exit_every_rule K t (exit_rule K t l)
    end.

  (** tree.rs:455-463 *)
  Fixpoint walk_inner (fuel : nat) (l : L) (t : node) : outcome L :=
    match fuel with
    | O => NoFuel
    | S fuel' =>
        let l := enter t l in
        let! l := fold_out (fun l child => walk_inner fuel' l child) (get_children t) l in
        Val (exit t l)
    end.
End Walk.

(** A [ParseTreeVisitorCompat] visitor: its state [V] (without the temporary result), the type of
    its results and the methods a user can override. [v_rule] is the rule-specific method
    (visit_row, ...): [None] means that the generated default, [visit_children], is used
    (tests/gen/visitorcalcvisitor.rs:56-58); an override gets the state and the node and says which
    nodes it visits before producing its result from theirs. tree.rs:248-305. *)
Record visitor (V R : Type) := Visitor {
  v_default : R;
  v_terminal : node -> V -> V * R;
  v_error : node -> V -> V * R;
  v_rule : node -> option (V -> V * R);
  v_aggregate : R -> R -> R;
  v_more : node -> R -> bool }.
Arguments Visitor {V R}.
Arguments v_default {V R}.
Arguments v_terminal {V R}.
Arguments v_error {V R}.
Arguments v_rule {V R}.
Arguments v_aggregate {V R}.
Arguments v_more {V R}.

Section Visit.
  Context {V R : Type}.
  Variable K : visitor V R.

  (** The visitor object: the user's state and the temporary result. *)
  Definition vstate := (V * R)%type.

  (** tree.rs:264-267, 278-292, 313-333 and the generated [accept]
      (tests/gen/visitorcalcvisitor.rs:92-95): [visit_node] runs the method of the node and stores its
      result in the temporary; [visit] takes the temporary out, leaving the default.
      A plain context has no [accept]: tree.rs:384-386 panics.
      Simplification: an overriding method of the user visits no children. *)
  Fixpoint visit (fuel : nat) (t : node) (st : vstate) : outcome (vstate * R) :=
    match fuel with
    | O => NoFuel
    | S fuel' =>
        let visit_children (st : vstate) : outcome (vstate * R) :=
          (fix loop (cs : list node) (st : vstate) (result : R) : outcome (vstate * R) :=
             match cs with
             | [] => Val (st, result)
             | c :: rest =>
                 if v_more K c result then
                   let! (st, child_result) := visit fuel' c st in
                   loop rest st (v_aggregate K result child_result)
                 else Val (st, result)
             end) (get_children t) st (v_default K) in
        let! (st, result) :=
          match t with
          | Leaf _ false _ _ _ => let '(v, r) := v_terminal K t (fst st) in Val ((v, snd st), r)
          | Leaf _ true _ _ _ => let '(v, r) := v_error K t (fst st) in Val ((v, snd st), r)
          | Rule _ true _ _ _ _ => Panics
          | Rule _ false _ _ _ _ =>
              match v_rule K t with
              | None => visit_children st
              | Some f => let '(v, r) := f (fst st) in Val ((v, snd st), r)
              end
          end in
        let st := (fst st, result) in
        Val ((fst st, v_default K), snd st)
    end.
End Visit.

(** parser_rule_context.rs:99-106: the terminal children (error nodes are another type, so the
    downcast refuses them) of the given type; the [pos]-th of them. *)
Definition is_terminal (t : node) : option (Z * node) :=
  match t with
  | Leaf _ false ty _ _ => Some (ty, t)
  | _ => None
  end.
Definition filter_map {A B} (f : A -> option B) (l : list A) : list B :=
  flat_map (fun x => match f x with Some y => [y] | None => [] end) l.
Definition get_token (t : node) (ttype : Z) (pos : nat) : option node :=
  nth_error (map snd (filter (fun p => fst p =? ttype) (filter_map is_terminal (get_children t)))) pos.

(** parser_rule_context.rs:108-117 *)
Definition get_tokens (t : node) (ttype : Z) : list node :=
  map snd (filter (fun p => fst p =? ttype) (filter_map is_terminal (get_children t))).

(** parser_rule_context.rs:78-87: children whose type is the requested context type. *)
Definition has_kind (kind : nat) (t : node) : bool :=
  match t with Leaf _ _ _ _ _ => false | Rule _ _ k _ _ _ => Nat.eqb k kind end.
Definition child_of_type (t : node) (kind pos : nat) : option node :=
  nth_error (filter (has_kind kind) (get_children t)) pos.

(** parser_rule_context.rs:90-99 *)
Definition children_of_type (t : node) (kind : nat) : list node :=
  filter (has_kind kind) (get_children t).

(** parser_rule_context.rs:377-383 *)
Definition add_child (t child : node) : node :=
  match t with
  | Leaf _ _ _ _ _ => t
  | Rule i p k x a cs => Rule i p k x a (cs ++ [child])
  end.
Definition remove_last_child (t : node) : node :=
  match t with
  | Leaf _ _ _ _ _ => t
  | Rule i p k x a cs => Rule i p k x a (removelast cs)
  end.

(** A context as seen through its parent links: rule index, invoking state, identity, and what
    [get_parent_ctx] answers (rule_context.rs:217-223: None when there is no parent or the parent has
    been dropped, parents being held weakly). *)
Inductive ctx := Ctx (c_id : nat) (c_rule : Z) (c_invoking : Z) (c_parent : option ctx).
Definition c_id (c : ctx) : nat := match c with Ctx i _ _ _ => i end.
Definition c_rule (c : ctx) : Z := match c with Ctx _ r _ _ => r end.
Definition get_invoking_state (c : ctx) : Z := match c with Ctx _ _ s _ => s end.
Definition get_parent_ctx (c : ctx) : option ctx := match c with Ctx _ _ _ p => p end.

(** rule_context.rs:30-32 *)
Definition is_empty (c : ctx) : bool := get_invoking_state c =? -1.

(** rule_context.rs:43-58, the iterator drained. *)
Fixpoint states_stack (c : ctx) : outcome (list Z) :=
  match c with
  | Ctx _ _ state parent =>
      if state <? 0 then Val []
      else match parent with
           | None => Panics
           | Some p => let! rest := states_stack p in Val (state :: rest)
           end
  end.

(** parser_rule_context.rs:147-180: the loop of [RuleContextExt::to_string]. *)
Fixpoint stack_loop (c : ctx) (rule_names : option (list text)) (stop : option nat) (result : text) : text :=
  match c with
  | Ctx id rule state parent =>
      if match stop with Some z => Nat.eqb z id | None => false end then result
      else
        let result :=
          match rule_names with
          | Some names =>
              (result ++ match (if rule <? 0 then None else nth_error names (Z.to_nat rule)) with
                        | Some n => n
                        | None => isize_to_string rule
                        end) ++ [32]
          | None => if negb (state =? -1) then (result ++ isize_to_string state) ++ [32] else result
          end in
        match parent with
        | Some p => stack_loop p rule_names stop result
        | None => result
        end
  end.

(** parser_rule_context.rs:147-189 *)
Definition rule_stack_string (c : ctx) (rule_names : option (list text)) (stop : option nat) : text :=
  let result := stack_loop c rule_names stop [91] in
  let result := if last result 0 =? 32 then removelast result else result in
  result ++ [93].
