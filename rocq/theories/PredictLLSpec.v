(** What a prediction should be, said without the simulator: which alternatives of a
    decision can match the whole remaining input (C80). *)
From Coq Require Import ZArith List Bool Permutation.
From Verif Require Import Outcome IntervalSetModel PredContextModel SemContextModel ConfigSetModel DfaModel AtnModel AtnSpec Ll1Model Ll1Spec ParserModel PredictModel.
From Verif Require TokenStreamModel.
Import ListNotations.
Local Open Scope Z_scope.

(** ** Matching: a position is a state and the states at which the rules in progress
    continue ([Ll1Spec]).  Taking a token of type [x]: *)
Inductive take (a : atn) (x : Z) : position -> position -> Prop :=
| take_token : forall i st s t, state_at a i = Some s -> ~ Ll1Spec.is_stop s -> In t (st_trans s) ->
    symbols t 1 (max_token_type a) x -> take a x (i, st) (get_target t, st).
(** going from one position to another by matching exactly the tokens [w] *)
Inductive run (a : atn) : position -> list Z -> position -> Prop :=
| run_here : forall p, run a p [] p
| run_move : forall p q w r, move a p q -> run a q w r -> run a p w r
| run_take : forall p x q w r, take a x p q -> run a q w r -> run a p (x :: w) r.
(** From [p] the tokens [w], followed by [n] of the EOF tokens that a stream repeats
    at its end, are matched up to the end of the outermost rule. *)
Definition completes (a : atn) (n : nat) (p : position) (w : list Z) : Prop :=
  exists i s, run a p (w ++ repeat TOKEN_EOF n) (i, []) /\ state_at a i = Some s /\ Ll1Spec.is_stop s.
(** Alternative [j] of the decision at state [start], entered with the callers
    [conts], can match the remaining input [w] (and [n] times EOF). *)
Definition viable (a : atn) (start : Z) (conts : list Z) (w : list Z) (n : nat) (j : Z) : Prop :=
  exists s t, state_at a start = Some s /\ 1 <= j /\ nth_error (st_trans s) (Z.to_nat (j - 1)) = Some t /\
    completes a n (get_target t, conts) w.

(** ** The grammars considered: no predicates, no left-recursive rules, and a start
    rule [main] that no rule invokes *)
Definition predicate_free (a : atn) : Prop := forall i s, state_at a i = Some s ->
  (forall t, In t (st_trans s) -> match t with PredicateTr _ _ _ _ | PrecedenceTr _ _ => False | _ => True end) /\
  match st_type s with DecisionState _ _ (StarLoopEntry _ true) => False | _ => True end.
(** as the deserializer builds them: a state has either only epsilon transitions, and
    is marked so, or none; a rule stop state has one to wherever its rule may return *)
Definition marked (a : atn) : Prop := forall i s, state_at a i = Some s ->
  (forall t, In t (st_trans s) -> is_epsilon t = st_eps_only s) /\ (st_trans s = [] -> st_eps_only s = false).
Definition calls (a : atn) (caller callee cont : Z) : Prop := exists i s g r p,
  state_at a i = Some s /\ ~ Ll1Spec.is_stop s /\ st_rule s = caller /\ In (RuleTr g cont r p) (st_trans s) /\ rule_of a g = callee.
Definition linked (a : atn) : Prop := forall i s, state_at a i = Some s -> Ll1Spec.is_stop s ->
  (forall t, In t (st_trans s) -> exists f o, t = Epsilon f o /\ exists_state a f) /\
  (forall caller f, calls a caller (st_rule s) f -> exists o, In (Epsilon f o) (st_trans s)).
Definition outermost (a : atn) (main : Z) : Prop :=
  (forall caller f, ~ calls a caller main f) /\
  (forall i s, state_at a i = Some s -> Ll1Spec.is_stop s -> st_rule s = main -> st_trans s = []).
Definition simple_grammar (a : atn) (main : Z) : Prop :=
  well_formed a /\ predicate_free a /\ marked a /\ linked a /\ outermost a main.

(** The rules in progress when rule [rule] runs: the invoking states of its context
    and of its ancestors, innermost first, and where they continue. *)
Inductive in_progress (a : atn) (main : Z) : Z -> list Z -> list Z -> Prop :=
| progress_main : in_progress a main main [-1] []
| progress_call : forall i s g f r p ts stack conts, state_at a i = Some s -> ~ Ll1Spec.is_stop s ->
    st_trans s = RuleTr g f r p :: ts -> in_progress a main (st_rule s) stack conts ->
    in_progress a main (rule_of a g) (i :: stack) (f :: conts).

(** Token types as they occur in a stream, and the restriction under which a wildcard
    matches every one of them (it does not match the largest type, see
    [C80_wildcard_refuted]). *)
Definition token_types (a : atn) (w : list Z) : Prop := Forall (fun x => 1 <= x) w /\
  ((exists i s g, state_at a i = Some s /\ In (Wildcard g) (st_trans s)) -> Forall (fun x => x < max_token_type a) w).

(** The decision state: an ordinary state whose alternatives start with epsilon
    transitions of the same rule. *)
Definition decision_state_ok (a : atn) (start rule : Z) : Prop := exists s, state_at a start = Some s /\
  ~ Ll1Spec.is_stop s /\ st_rule s = rule /\ forall t, In t (st_trans s) -> is_call t = false.

(** DFAs: made for the decision and used by any number of predictions of it, on any
    token streams, in any mode and context. *)
Section History.
  Variable a : atn.
  Variable order : list nat -> list sem -> list sem.
  Variable alt_order : list (list Z) -> list (list Z).
  Variable hash : pctx -> Z.
  Variable dhash : list pconfig -> Z.
  Variable share : pctx -> pctx.
  Variable decision : Z.
  Variable start : Z.
  Inductive dfa_history : pdfa -> Prop :=
  | history_new : dfa_history (dfa_new unit unit false)
  | history_predict : forall d (S : Type) (ts : seek_ops S) (ctx : Type) (sempred : S -> option ctx -> Z -> Z -> bool)
      fuel mode precedence (outer : ctx) outer_stack (input : S) clock m r,
      dfa_history d ->
      adaptive_predict ts a ctx sempred order alt_order hash dhash share fuel mode precedence outer outer_stack decision start d input clock
        = Val (m, r) ->
      dfa_history (m_dfa m).
End History.

(** What a stream holds: the types of the tokens visible from source position [i] on, up to EOF. *)
Inductive visible_types (src : nat -> TokenStreamModel.tok) (on : Z -> Prop) : nat -> list Z -> Prop :=
| vis_eof : forall i, TokenStreamModel.t_type (src i) = TOKEN_EOF -> visible_types src on i []
| vis_hidden : forall i w, TokenStreamModel.t_type (src i) <> TOKEN_EOF -> ~ on (TokenStreamModel.t_channel (src i)) ->
    visible_types src on (Datatypes.S i) w -> visible_types src on i w
| vis_token : forall i w, TokenStreamModel.t_type (src i) <> TOKEN_EOF -> on (TokenStreamModel.t_channel (src i)) ->
    visible_types src on (Datatypes.S i) w -> visible_types src on i (TokenStreamModel.t_type (src i) :: w).
(** what a parser at source position [i] reads: the token there, whatever its channel, and then the visible ones *)
Inductive read_types (src : nat -> TokenStreamModel.tok) (on : Z -> Prop) : nat -> list Z -> Prop :=
| read_eof : forall i, TokenStreamModel.t_type (src i) = TOKEN_EOF -> read_types src on i []
| read_token : forall i w, TokenStreamModel.t_type (src i) <> TOKEN_EOF -> visible_types src on (Datatypes.S i) w ->
    read_types src on i (TokenStreamModel.t_type (src i) :: w).

(** ** A right prediction: alternative [p] can match the remaining input.  Among the
    alternatives that lead to the end of the start rule by matching EOF there, it is
    the first; if there is none, it is the first of those that reach the end of the
    start rule exactly before EOF. *)
Definition right_prediction (a : atn) (start : Z) (conts w : list Z) (p : Z) : Prop :=
  (exists n, viable a start conts w n p) /\
  (forall j n, viable a start conts w (Datatypes.S n) j -> p <= j /\ exists n', viable a start conts w (Datatypes.S n') p) /\
  ((forall j n, ~ viable a start conts w (Datatypes.S n) j) -> forall j, viable a start conts w O j -> p <= j).

(** ** DFAs in general: [DFA::new] for a decision, used by any number of predictions
    of it, by any simulators, on any token streams. *)
Inductive dfa_use (a : atn) (decision start : Z) : pdfa -> Prop :=
| use_new : forall prec, dfa_use a decision start (dfa_new unit unit prec)
| use_predict : forall d (S : Type) (ts : seek_ops S) (ctx : Type) (sempred : S -> option ctx -> Z -> Z -> bool)
    order alt_order hash dhash share fuel mode precedence (outer : ctx) outer_stack (input : S) clock m r,
    dfa_use a decision start d ->
    (forall l, Permutation (alt_order l) l) ->
    adaptive_predict ts a ctx sempred order alt_order hash dhash share fuel mode precedence outer outer_stack decision start d input clock
      = Val (m, r) ->
    dfa_use a decision start (m_dfa m).
