(** Model of visitors whose methods visit other nodes themselves (tree.rs), with
    the temporary place through which results are handed on.  TreeModel.v has
    visitors whose overridden methods visit nothing.

    Simplifications: the methods of the user do not look at the temporary result
    (a field of their struct that [temp_result] must expose) other than through
    [visit]; [temp_result] returns the same place every time; [visit_children] is
    not overridden. *)
From Coq Require Import ZArith List Bool.
From Verif Require Import Outcome TreeModel.
Import ListNotations.
Local Open Scope outcome_scope.

(** A method of the user (visit_row, visit_terminal, ...), as what it does next:
    return a result, or call one of the functions of the visitor on a node and go
    on with what they return.  [V] is the state of the visitor, without the
    temporary, [R] the type of results. *)
Inductive method (V R : Type) : Type :=
| Return (v : V) (r : R)
| Visit (n : node) (v : V) (next : V -> R -> method V R)          (* self.visit(n) *)
| VisitChildren (n : node) (v : V) (next : V -> R -> method V R)  (* self.visit_children(n) *)
| VisitNode (n : node) (v : V) (next : V -> method V R).          (* self.visit_node(n) *)
Arguments Return {V R}.
Arguments Visit {V R}.
Arguments VisitChildren {V R}.
Arguments VisitNode {V R}.

(** tree.rs 248-305, [ParseTreeVisitorCompat], and the generated trait of the
    grammar (tests/gen/visitorcalcvisitor.rs 47-86).  [m_rule n] is [None] where
    the method of the node's type is not overridden. *)
Record mvisitor (V R : Type) : Type := MVisitor {
  m_default : R;
  m_terminal : node -> V -> method V R;
  m_error : node -> V -> method V R;
  m_rule : node -> option (V -> method V R);
  m_aggregate : V -> R -> R -> R;
  m_more : V -> node -> R -> bool
}.
Arguments m_default {V R}.
Arguments m_terminal {V R}.
Arguments m_error {V R}.
Arguments m_rule {V R}.
Arguments m_aggregate {V R}.
Arguments m_more {V R}.

Section Visitor.
  Context {V R : Type}.
  Variable K : mvisitor V R.

  (** The method a node is dispatched to: tree.rs 219-221, 243-245, the
      generated [accept] (templates/Rust.stg 1155-1158) and the generated default
      (tests/gen/visitorcalcvisitor.rs 56-58).  A plain context has no [accept]:
      tree.rs 384-386 panics. *)
  Definition method_of (n : node) (v : V) : option (method V R) :=
    match n with
    | Leaf _ false _ _ _ => Some (m_terminal K n v)
    | Leaf _ true _ _ _ => Some (m_error K n v)
    | Rule _ true _ _ _ _ => None
    | Rule _ false _ _ _ _ =>
        match m_rule K n with
        | Some f => Some (f v)
        | None => Some (VisitChildren n v (fun v r => Return v r))
        end
    end.

  (** [visit_node] on another node *)
  Variable rec : node -> V * R -> outcome (V * R).

  (** tree.rs 278-292, [visit_children]; each [visit] (264-267) takes the
      temporary and leaves the default in it *)
  Fixpoint mloop (cs : list node) (v : V) (temp : R) (result : R) : outcome (V * R * R) :=
    match cs with
    | [] => Val (v, temp, result)
    | c :: rest =>
        if m_more K v c result then
          let! (v, child_result) := rec c (v, temp) in
          mloop rest v (m_default K) (m_aggregate K v result child_result)
        else Val (v, temp, result)
    end.

  (** a method; its [Visit] is tree.rs 264-267 ([mem::take] leaves the default
      in the temporary) *)
  Fixpoint mrun (m : method V R) (temp : R) : outcome (V * R * R) :=
    match m with
    | Return v r => Val (v, temp, r)
    | Visit c v next => let! (v, r) := rec c (v, temp) in mrun (next v r) (m_default K)
    | VisitChildren c v next =>
        let! (v, temp, r) := mloop (get_children c) v temp (m_default K) in mrun (next v r) temp
    | VisitNode c v next => let! (v, temp) := rec c (v, temp) in mrun (next v) temp
    end.
End Visitor.

Section Visits.
  Context {V R : Type}.
  Variable K : mvisitor V R.

  (** tree.rs 313-333, 375-377 and the generated implementation for visitors
      with results (tests/gen/visitorcalcvisitor.rs 88-111): [visit_node] runs the
      method and stores its result in the temporary, [st = (state, temporary)] *)
  Fixpoint mvisit_node (fuel : nat) (n : node) (st : V * R) {struct fuel} : outcome (V * R) :=
    match fuel with
    | O => NoFuel
    | S fuel' =>
        let '(v, temp) := st in
        let! m := unwrap (method_of K n v) in
        let! (v, temp, r) := mrun K (mvisit_node fuel') m temp in
        Val (v, r)
    end.

  (** tree.rs 264-267 *)
  Definition mvisit (fuel : nat) (n : node) (st : V * R) : outcome ((V * R) * R) :=
    let! (v, temp) := mvisit_node fuel n st in Val ((v, m_default K), temp).
End Visits.
