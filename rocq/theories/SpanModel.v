(** Model of the source intervals of parse tree nodes: the indices of the tokens a node
    starts and stops at.  The contexts, and the calls that set their start and stop tokens
    ([enter_rule], [exit_rule], [push_new_recursion_context], ...), are in ParserModel.v.
    No proofs in this file. *)
From Coq Require Import ZArith List.
From Verif Require Import Outcome IntervalSetModel ParserModel.
Import ListNotations.
Local Open Scope Z_scope.
Local Open Scope outcome_scope.

(** parser_rule_context.rs 436-441 *)
Definition rule_interval (c : rctx) : interval := Iv (t_index (x_start c)) (t_index (x_stop c)).
(** tree.rs 170-173 *)
Definition leaf_interval (t : tok) : interval := Iv (t_index t) (t_index t).
(** The trait method, tree.rs 70-72; contexts delegate to the base context,
    parser_rule_context.rs 591-593. *)
Definition get_source_interval (h : heap) (k : kid) : outcome interval :=
  match k with
  | KTerm t | KErr t => Val (leaf_interval t)
  | KRule i => let! c := deref h i in Val (rule_interval c)
  end.
