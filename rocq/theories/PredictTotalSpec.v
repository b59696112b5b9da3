(** What it takes for predictions to come back (C85): which grammars, which parsers,
    which DFAs. *)
From Coq Require Import ZArith List Bool Permutation Relations.
From Verif Require Import Outcome IntervalSetModel PredContextModel PredContextSpec SemContextModel ConfigSetModel DfaModel AtnModel AtnSpec Ll1Model Ll1Spec ParserModel PredictModel PredictLLSpec.
From Verif Require Import CharStreamModel TokenStreamModel TokenStreamSpec.
Import ListNotations.
Local Open Scope Z_scope.

(** ** The grammars considered: any, with predicates and left-recursive rules *)

(** a rule stop state has only epsilon transitions, to existing states *)
Definition stops_linked (a : atn) : Prop := forall i s, state_at a i = Some s -> Ll1Spec.is_stop s ->
  forall t, In t (st_trans s) -> exists f o, t = Epsilon f o /\ exists_state a f.
(** a rule has one stop state *)
Definition one_stop (a : atn) : Prop := forall i s j s', state_at a i = Some s -> Ll1Spec.is_stop s ->
  state_at a j = Some s' -> Ll1Spec.is_stop s' -> st_rule s = st_rule s' -> i = j.
(** the loop of a left-recursive rule enters a block of operators first *)
Definition loops_entered (a : atn) : Prop := forall i s n g l, state_at a i = Some s -> st_type s = DecisionState n g (StarLoopEntry l true) ->
  exists t ts d n' g' e k, st_trans s = t :: ts /\ state_at a (get_target t) = Some d /\ st_type d = DecisionState n' g' (BlockStartState e k).
Definition sound_grammar (a : atn) : Prop :=
  well_formed a /\ marked a /\ stops_linked a /\ one_stop a /\ loops_entered a.

(** ** Progress: from a state of the grammar, one cannot come back to it, in the same
    or in an inner invocation, by matching nothing (or nothing but EOF).  So no rule is
    left-recursive (those of the grammar file are rewritten by ANTLR) and nothing that
    matches the empty input is repeated. *)
Definition quiet (a : atn) (p q : position) : Prop := move a p q \/ take a TOKEN_EOF p q.
Definition no_stall (a : atn) : Prop := forall i conts, ~ clos_trans position (quiet a) (i, []) (i, conts).

(** [start] is the state of decision [decision], which belongs to rule [rule] *)
Definition decision_ok (a : atn) (decision start rule : Z) : Prop :=
  vget (decision_to_state a) decision = Some start /\ decision_state_ok a start rule.

(** ** What the simulator is built from: hash functions, iteration orders, the shared context cache *)
Definition orders_ok (order : list nat -> list sem -> list sem) (alt_order : list (list Z) -> list (list Z)) : Prop :=
  (forall at_ l, Permutation (order at_ l) l) /\ (forall l, Permutation (alt_order l) l).
Definition contexts_ok (hash : pctx -> Z) (share : pctx -> pctx) : Prop :=
  (forall x, wf x -> hash x <> 0) /\ (forall x, wf x -> share x = x).

(** ** The DFAs of the decision: new ones, and what predictions of the decision made of them,
    by parsers with any rules in progress, on any token stream with any history *)
Inductive dfa_past (a : atn) (decision start rule : Z) : pdfa -> Prop :=
| past_new : forall prec, dfa_past a decision start rule (dfa_new unit unit prec)
| past_common : forall d order alt_order hash dhash share src ch sfuel e ctx sempred fuel mode precedence (outer : ctx) main stack conts
    input ops clock m r,
    dfa_past a decision start rule d -> orders_ok order alt_order -> contexts_ok hash share ->
    eof_number src e -> (e <= sfuel)%nat -> crun src ch sfuel (with_channel src) ops = Done input ->
    in_progress a main rule stack conts ->
    adaptive_predict (common_seek src ch sfuel) a ctx sempred order alt_order hash dhash share fuel mode precedence outer stack
      decision start d input clock = Val (m, r) ->
    dfa_past a decision start rule (m_dfa m)
| past_unbuffered : forall d order alt_order hash dhash share src e ctx sempred fuel mode precedence (outer : ctx) main stack conts
    input ops clock m r,
    dfa_past a decision start rule d -> orders_ok order alt_order -> contexts_ok hash share ->
    eof_number src e -> trun src new_unbuffered ops = Done input ->
    in_progress a main rule stack conts ->
    adaptive_predict (unbuffered_seek src) a ctx sempred order alt_order hash dhash share fuel mode precedence outer stack
      decision start d input clock = Val (m, r) ->
    dfa_past a decision start rule (m_dfa m).

(** a computation that ends: from some fuel on, it gives one and the same result *)
Definition returns {A} (f : nat -> outcome A) : Prop := exists n r, forall k, (n <= k)%nat -> f k = Val r.
