(** Vocabulary for C79: where error recovery resynchronises. *)
From Coq Require Import ZArith List Bool.
From Verif Require Import Outcome IntervalSetModel IntervalSetSpec AtnModel Ll1Model Ll1Spec ParserModel.
Import ListNotations.
Local Open Scope Z_scope.

(** [stack]: the states from which the rules under way were invoked, the current rule first;
    a context without an invoking state (a negative one) is that of the rule the user called. *)
Inductive invoked_from (h : heap) : nat -> list Z -> Prop :=
| invoked_by_user : forall i c, nth_error h i = Some c -> x_invoking c < 0 -> invoked_from h i []
| invoked_by_orphan : forall i c, nth_error h i = Some c -> 0 <= x_invoking c -> x_parent c = None -> invoked_from h i [x_invoking c]
| invoked_by_rule : forall i c j l, nth_error h i = Some c -> 0 <= x_invoking c -> x_parent c = Some j ->
    invoked_from h j l -> invoked_from h i (x_invoking c :: l).

(** [x] can be the first token of what one of the rules under way continues with *)
Definition can_resume (a : atn) (conts : list Z) (x : Z) : Prop := exists f, In f conts /\ can_start_with a (f, []) x.

(** [r] is what [next_tokens] answers for the state [j], and it is exact (see C47 for when it is) *)
Definition exact_lookahead_set (a : atn) (j : Z) (r : interval_set) : Prop :=
  (exists s n, state_at a j = Some s /\ forall fuel, (n <= fuel)%nat -> next_tokens fuel a s = Val r) /\
  canonical (intervals r) /\
  forall x, contains r x = true <-> can_start_with a (j, []) x \/ (x = TOKEN_EPSILON /\ can_finish a (j, [])).
(** uniting the sets one after the other inserts no range that touches more than two stored ones (see C01) *)
Fixpoint narrow_unions (acc : interval_set) (sets : list interval_set) : Prop :=
  match sets with
  | [] => True
  | s :: sets => narrow_history (intervals acc) (intervals s) /\ narrow_unions (add_set acc s) sets
  end.
