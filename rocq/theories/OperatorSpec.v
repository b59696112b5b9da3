(** Left-recursive rules for operators, as the ANTLR tool rewrites them: a primary
    expression and then a loop of operators, each tested for its level (C100). *)
From Coq Require Import ZArith List Bool.
From Verif Require Import Outcome IntervalSetModel AtnModel AtnSpec Ll1Model Ll1Spec RecSpec.
Import ListNotations.
Local Open Scope Z_scope.

(** Where a state of the grammar is, seen from the loop of the rule: among the tests for
    operators ([Enter]); just before an operator of level [k]; between the end of the loop
    and the end of the rule ([Leave]); between the end of an operand and the loop
    ([Return]); or outside the rule, where the input may go on after an expression. *)
Inductive place : Type := Enter | Operator (k : Z) | Leave | Return | Outside | Elsewhere.

Definition silent (t : transition) : Prop := match t with Epsilon _ _ | Action _ _ _ _ _ => True | _ => False end.
(** a token, a range of tokens or a set of tokens *)
Definition plain_label (t : transition) : Prop := match t with Atom _ _ | Range _ _ _ | SetTr _ _ => True | _ => False end.

Section Operators.
  Variable a : atn.
  (** the loop entry of the rule, the first state of the operators and the first state behind the loop *)
  Variable entry : Z.
  Variable ops : Z.
  Variable out : Z.
  (** the operators and their levels *)
  Variable level : Z -> option Z.
  Variable where_ : Z -> place.

  (** from [i] one comes to the operator state [j], through tests of its level *)
  Inductive offers : Z -> Z -> Prop :=
  | of_here : forall i k, where_ i = Operator k -> offers i i
  | of_epsilon : forall i g o j, leads a i (Epsilon g o) -> offers g j -> offers i j
  | of_test : forall i g k j, leads a i (PrecedenceTr g k) -> offers g j -> offers i j.

  Record operator_loop : Prop := {
    (** the loop: one more operator, or the end *)
    ol_entry : exists s k greedy back o1 o2, state_at a entry = Some s /\ st_type s = DecisionState k greedy (StarLoopEntry back true) /\
      st_trans s = [Epsilon ops o1; Epsilon out o2];
    ol_places : where_ entry = Return /\ where_ ops = Enter /\ where_ out = Leave;
    (** the tests *)
    ol_enter : forall i s t, state_at a i = Some s -> where_ i = Enter -> In t (st_trans s) ->
      (exists g o, t = Epsilon g o /\ where_ g = Enter) \/ (exists g k, t = PrecedenceTr g k /\ where_ g = Operator k);
    ol_enter_state : forall i s, state_at a i = Some s -> where_ i = Enter -> ~ is_stop s /\ st_eps_only s = true;
    (** the operators: tokens of the level tested *)
    ol_operator : forall i s t k, state_at a i = Some s -> where_ i = Operator k -> In t (st_trans s) ->
      plain_label t /\ forall x, symbols t 1 (max_token_type a) x -> level x = Some k;
    ol_operator_state : forall i s k, state_at a i = Some s -> where_ i = Operator k -> ~ is_stop s /\ st_eps_only s = false;
    (** all operators are there *)
    ol_offered : forall x k, level x = Some k -> exists j t, where_ j = Operator k /\ offers ops j /\ leads a j t /\ symbols t 1 (max_token_type a) x;
    (** the end of the rule, and where it returns to: an operand of this rule, called with
        a level of its own, or outside *)
    ol_leave : forall i s t, state_at a i = Some s -> where_ i = Leave -> ~ is_stop s -> In t (st_trans s) -> silent t /\ where_ (get_target t) = Leave;
    ol_end : forall i s t, state_at a i = Some s -> where_ i = Leave -> is_stop s -> In t (st_trans s) -> exists f o, t = Epsilon f o /\
      (where_ f = Outside \/ (where_ f = Return /\ o <> rule_of a entry));
    ol_return : forall i s t, state_at a i = Some s -> where_ i = Return -> i <> entry -> In t (st_trans s) -> silent t /\ where_ (get_target t) = Return;
    ol_return_state : forall i s, state_at a i = Some s -> where_ i = Return -> ~ is_stop s;
    (** outside: no predicates, and nothing that could be an operator *)
    ol_outside : forall i s t, state_at a i = Some s -> where_ i = Outside -> In t (st_trans s) ->
      match t with
      | Epsilon g _ | Action g _ _ _ _ | PrecedenceTr g _ => where_ g = Outside
      | RuleTr g f _ _ => where_ g = Outside /\ where_ f = Outside
      | PredicateTr _ _ _ _ => False
      | t => forall x, symbols t 1 (max_token_type a) x -> level x = None
      end
  }.
End Operators.

(** operators are tokens *)
Definition token_levels (a : atn) (level : Z -> option Z) : Prop := forall x k, level x = Some k -> 1 <= x <= max_token_type a.
