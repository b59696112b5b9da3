(** What predictions of threads that share DFAs should give (C90). *)
From Coq Require Import ZArith List Bool.
From Verif Require Import Outcome CharStreamModel TokenStreamModel TokenStreamSpec IntervalSetModel PredContextModel SemContextModel ConfigSetModel DfaModel AtnModel Ll1Model ParserModel PredictModel PredictLLSpec PredictTotalSpec.
From Verif Require Import ConcModel ConcSpec ConcPredictModel.
Import ListNotations.
Local Open Scope Z_scope.

(** A request, carried out with a DFA nobody else uses (PredictModel). *)
Definition predict_at_once (a : atn) (decision start : Z) (q : request) (d : pdfa) : answer :=
  adaptive_predict (q_stream q) a (q_ctx q) (q_sempred q) (q_order q) (q_alt_order q) (q_hash q) (q_dhash q) (q_share q) (q_fuel q) (q_mode q)
    (q_precedence q) (q_outer q) (q_stack q) decision start d (q_input q) (q_clock q).

(** Requests as parsers make them: a token stream with any history, and a stack of rule
    invocations, begun with rule [main], with what is left to match in them ([conts]). *)
Inductive proper (a : atn) (main rule : Z) (conts : list Z) (q : request) : Prop :=
| proper_common : forall src ch sfuel e ops,
    q_stream q = common_seek src ch sfuel -> eof_number src e -> (e <= sfuel)%nat -> crun src ch sfuel (with_channel src) ops = Done (q_input q) ->
    in_progress a main rule (q_stack q) conts -> proper a main rule conts q
| proper_unbuffered : forall src e ops,
    q_stream q = unbuffered_seek src -> eof_number src e -> trun src new_unbuffered ops = Done (q_input q) ->
    in_progress a main rule (q_stack q) conts -> proper a main rule conts q.
(** hashing, and the iteration orders it leads to *)
Definition hashing_ok (q : request) : Prop := orders_ok (q_order q) (q_alt_order q) /\ contexts_ok (q_hash q) (q_share q).
Definition same_hashing (q p : request) : Prop :=
  q_order q = q_order p /\ q_alt_order q = q_alt_order p /\ q_hash q = q_hash p /\ q_dhash q = q_dhash p /\ q_share q = q_share p.

(** such a request, with the token types [w] ahead *)
Inductive proper_ahead (a : atn) (main rule : Z) (conts w : list Z) (q : request) : Prop :=
| ahead_common : forall src ch sfuel e ops c,
    q_stream q = common_seek src ch sfuel -> eof_number src e -> (e <= sfuel)%nat -> crun src ch sfuel (with_channel src) ops = Done (q_input q) ->
    in_progress a main rule (q_stack q) conts -> cur (q_input q) = Z.of_nat c -> read_types src (fun k => k = ch) c w -> proper_ahead a main rule conts w q
| ahead_unbuffered : forall src e ops c,
    q_stream q = unbuffered_seek src -> eof_number src e -> trun src new_unbuffered ops = Done (q_input q) ->
    in_progress a main rule (q_stack q) conts -> cur (q_input q) = Z.of_nat c -> read_types src (fun _ => True) c w -> proper_ahead a main rule conts w q.

Section Parsers.
  Variable a : atn.
  (** the start state and the rule of each decision *)
  Variables (start rule : nat -> Z).
  (** what a thread may do with the DFA of decision [k]: predictions, by parsers that
      satisfy [H] *)
  Variable H : request -> Prop.
  Definition prediction_job (k : nat) (j : pjob) : Prop :=
    exists q main conts, proper a main (rule k) conts q /\ H q /\ j = predict_job a (Z.of_nat k) (start k) q.
  (** threads that run any number of parsers, whose listeners may do so too *)
  Definition parsing (t : pthread) : Prop := uses prediction_job t.
End Parsers.
