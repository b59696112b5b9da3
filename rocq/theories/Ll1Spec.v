(** Specification vocabulary for C47, C48 and C74: which tokens can come next. *)
From Coq Require Import ZArith List Bool.
From Verif Require Import IntervalSetModel IntervalSetSpec AtnModel AtnSpec.
Import ListNotations.
Local Open Scope Z_scope.

Definition state_at (a : atn) (i : Z) : option atn_state :=
  if i <? 0 then None else nth_error (states a) (Z.to_nat i).
Definition is_stop (s : atn_state) : Prop := st_type s = RuleStopState.

(** ** Moves that consume nothing.  A position is a state and the stack of the
    states at which the rules in progress continue when they are finished. *)
Definition position : Type := (Z * list Z)%type.
Definition is_call (t : transition) : bool := match t with RuleTr _ _ _ _ => true | _ => false end.
Inductive move (a : atn) : position -> position -> Prop :=
| move_epsilon : forall i st s t, state_at a i = Some s -> ~ is_stop s -> In t (st_trans s) ->
    ~ consuming t -> is_call t = false -> move a (i, st) (get_target t, st)
| move_call : forall i st s g f r p, state_at a i = Some s -> ~ is_stop s -> In (RuleTr g f r p) (st_trans s) ->
    move a (i, st) (g, f :: st)
| move_return : forall i f st s, state_at a i = Some s -> is_stop s -> move a (i, f :: st) (f, st).

Inductive reaches (a : atn) (p : position) : position -> Prop :=
| reaches_here : reaches a p p
| reaches_move : forall q r, reaches a p q -> move a q r -> reaches a p r.

(** [x] can label the first consumed symbol on a path from [p] *)
Definition can_start_with (a : atn) (p : position) (x : Z) : Prop :=
  exists i st s t, reaches a p (i, st) /\ state_at a i = Some s /\ ~ is_stop s /\ In t (st_trans s) /\
    symbols t 1 (max_token_type a) x.
(** the rule of [p], and all rules on its stack, can be finished without consuming anything *)
Definition can_finish (a : atn) (p : position) : Prop :=
  exists i s, reaches a p (i, []) /\ state_at a i = Some s /\ is_stop s.

(** ** Which ATNs are considered: states are numbered by their positions, targets
    exist, a transition stays in its rule, labels are canonical sets *)
Definition rule_of (a : atn) (i : Z) : Z := match state_at a i with Some s => st_rule s | None => -1 end.
Definition exists_state (a : atn) (i : Z) : Prop := state_at a i <> None.
Definition well_formed (a : atn) : Prop :=
  Z.of_nat (length (states a)) <= 2147483647 /\
  forall i s, state_at a i = Some s -> st_number s = i /\ (~ is_stop s -> forall t, In t (st_trans s) ->
    exists_state a (get_target t) /\ set_ok t /\
    match t with
    | RuleTr _ f _ _ => exists_state a f /\ rule_of a f = st_rule s
    | _ => rule_of a (get_target t) = st_rule s
    end).

(** a rule that can call itself before anything was consumed (the ANTLR tool
    refuses such grammars) *)
Definition is_rule_start (a : atn) (g : Z) : Prop :=
  exists i s f r p, state_at a i = Some s /\ In (RuleTr g f r p) (st_trans s).
Definition left_recursive (a : atn) (rule : Z) : Prop :=
  exists start i st s g f r p, is_rule_start a start /\ rule_of a start = rule /\ reaches a (start, []) (i, st) /\
    state_at a i = Some s /\ ~ is_stop s /\ In (RuleTr g f r p) (st_trans s) /\ rule_of a g = rule.

(** ** The invocation stack: each invoking state's first transition is the call it
    made, [conts] are the states at which the callers continue *)
Definition returns_to (a : atn) (stack conts : list Z) : Prop :=
  Forall2 (fun invoking f => exists s g r p ts, state_at a invoking = Some s /\ ~ is_stop s /\ st_trans s = RuleTr g f r p :: ts)
    stack conts.

(** ** Restrictions under which interval sets are exact (see C01) *)
(** every label stands for ranges of at most two consecutive token types *)
Definition thin_labels (a : atn) : Prop := forall i s t, state_at a i = Some s -> In t (st_trans s) ->
  match t with
  | Range _ x y => y <= x + 1
  | SetTr _ ss => Forall (fun r => iv_b r <= iv_a r + 1) (intervals ss)
  | NotSet _ _ | Wildcard _ => False
  | _ => True
  end.
(** labels are token types: user types and EOF *)
Definition token_labels (a : atn) : Prop := forall i s t x, state_at a i = Some s -> In t (st_trans s) ->
  symbols t 1 (max_token_type a) x -> -1 <= x.
(** the sets of the stack, merged one after the other, never insert a range touching
    more than two others *)
Fixpoint narrow_merges (acc : interval_set) (sets : list interval_set) : Prop :=
  match sets with
  | [] => True
  | s :: sets => narrow_history (intervals acc) (intervals s) /\
      match remove_one (add_set acc s) TOKEN_EPSILON with Some acc' => narrow_merges acc' sets | None => False end
  end.
