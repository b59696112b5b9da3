(** What generated parsers should do (C86, C87): which generated code is considered, and
    what it is for a token stream to hold a sentence. *)
From Coq Require Import ZArith List Bool Permutation.
From Verif Require Import CharStreamModel TokenStreamModel TokenStreamSpec.
From Verif Require Import Outcome IntervalSetModel PredContextModel PredContextSpec SemContextModel ConfigSetModel DfaModel AtnModel AtnSpec Ll1Model Ll1Spec ParserModel PredictModel PredictSpec PredictLLSpec PredictTotalSpec.
Import ListNotations.
Local Open Scope Z_scope.

(** ** The generated code *)

(** a rule has one start state *)
Definition one_start (a : atn) : Prop := forall g g', is_rule_start a g -> is_rule_start a g' -> rule_of a g = rule_of a g' -> g = g'.

(** What is called when state [i] is reached: [enter_outer_alt], lookahead, and [sync]
    at a state from which [i] is reached within the rule without matching anything (the
    state itself, or the loop-back state in front of it). *)
Inductive plan_for (a : atn) (i : Z) : list call -> Prop :=
| plan_none : plan_for a i []
| plan_state : forall q cs, plan_for a i cs -> plan_for a i (CSetState q :: cs)
| plan_sync : forall q cs, reaches a (q, []) (i, []) -> plan_for a i cs -> plan_for a i (CSetState q :: CSync :: cs)
| plan_look : forall k cs, 1 <= k -> plan_for a i cs -> plan_for a i (CLook k :: cs)
| plan_alt : forall l cs, plan_for a i cs -> plan_for a i (CAlt l :: cs).
Definition plan_ok (a : atn) (plan : Z -> Z -> list call) : Prop := forall from i, plan_for a i (plan from i).

(** Where the ATN branches there is a decision, taken by a lookahead test or by prediction. *)
Definition decisions_ok (a : atn) (switch : Z -> option (Z -> option Z)) : Prop := forall i s, state_at a i = Some s -> ~ Ll1Spec.is_stop s ->
  (exists t, st_trans s = [t]) \/
  ((forall t, In t (st_trans s) -> ~ consuming t /\ is_call t = false) /\
   (switch i <> None \/ exists k greedy b, st_type s = DecisionState k greedy b /\ vget (decision_to_state a) k = Some i)).
(** The lookahead tests of the ANTLR tool: where it uses one, the next token tells which
    alternative can match the rest of the input, whatever rules are in progress. *)
Definition switches_ok (a : atn) (main : Z) (switch : Z -> option (Z -> option Z)) : Prop := forall i f, switch i = Some f ->
  forall stack conts w n j, in_progress a main (rule_of a i) stack conts -> viable a i conts w n j -> f (hd TOKEN_EOF w) = Some j.

(** ** The shared DFAs: one for each decision, used by any number of earlier predictions *)
Definition dfas_ok (a : atn) order alt_order hash dhash share (ds : list pdfa) : Prop :=
  length ds = length (decision_to_state a) /\
  forall k start rule d, decision_ok a k start rule -> vget ds k = Some d ->
    dfa_past a k start rule d /\ dfa_history a order alt_order hash dhash share k start d.

(** ** Error strategies: the default one needs lookahead sets, which are exact only for
    narrow labels (C47); the bail-out one does not *)
Definition strategy_ok (a : atn) (g : strategy) : Prop :=
  match g with Default d => recovering d = false /\ thin_labels a | Bail d => recovering d = false end.

(** ** Streams.  The parser is about to read the tokens [w] and then EOF. *)
Definition ahead (src : nat -> tok) (ch : Z) (sfuel : nat) (s : uts) (w : list Z) : Prop :=
  common_history src ch sfuel s /\ exists c, cur s = Z.of_nat c /\ read_types src (fun k => k = ch) c w.
(** the first token of the input is not hidden (see C19: otherwise looking behind it panics) *)
Definition starts_visible (src : nat -> tok) (ch : Z) : Prop := t_channel (src O) = ch.

(** ** A parser that is not inside a rule *)
Definition outside {S} (p : parser S) : Prop := p_ctx p = None /\ p_state p = -1.

(** ** Soundness (C87).  Nothing is said about the placement of the calls of [sync],
    about the lookahead tests, or about the DFAs. *)
Definition plan_kinds (plan : Z -> Z -> list call) : Prop := forall from i,
  Forall (fun c => match c with CSetState _ | CSync | CLook _ | CAlt _ => True | _ => False end) (plan from i).
(** the lexer produces only token types of the grammar *)
Definition known_types (a : atn) (w : list Z) : Prop := Forall (fun x => x <= max_token_type a) w.
(** From [start] the tokens [u], followed by [k] times EOF, lead to the end of its rule. *)
Definition matches_rule (a : atn) (start : Z) (u : list Z) (k : nat) : Prop :=
  exists stop s, run a (start, []) (u ++ repeat TOKEN_EOF k) (stop, []) /\ state_at a stop = Some s /\ Ll1Spec.is_stop s.
