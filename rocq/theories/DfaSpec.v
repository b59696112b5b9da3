(** Independent vocabulary for C31, C32, C64. *)
From Coq Require Import ZArith List Bool.
From Verif Require Import Outcome PredContextModel SemContextModel ConfigSetModel ConfigSetSpec DfaModel.
Import ListNotations.
Local Open Scope Z_scope.

(** The value most recently stored for a key in a history of (key, value) stores. *)
Fixpoint latest (hist : list (Z * Z)) (k : Z) : option Z :=
  match hist with
  | [] => None
  | (k', v) :: rest =>
      match latest rest k with
      | Some w => Some w
      | None => if k' =? k then Some v else None
      end
  end.

(** Running a history of stores. *)
Fixpoint store_all {S : Type} (store : S -> Z -> Z -> outcome S) (s : S) (hist : list (Z * Z)) : outcome S :=
  match hist with
  | [] => Val s
  | (k, v) :: rest => obindo (store s k v) (fun s' => store_all store s' rest)
  end.

Section Spec.
  Context {X E : Type}.

  (** Equal configuration sets: the same configurations in the same order (up to
      the outer-context depth) and the same summary fields. *)
  Definition same_set (a b : config_set X) : Prop :=
    map lexer_key (configs a) = map lexer_key (configs b) /\ full_ctx a = full_ctx b /\
    unique_alt a = unique_alt b /\ conflicting_alts a = conflicting_alts b /\
    has_semantic_context a = has_semantic_context b /\ dips_into_outer_context a = dips_into_outer_context b.

  (** What a cached state consists of, apart from its outgoing edges. *)
  Definition frozen (st : dfa_state X E) :=
    (d_number st, d_configs st, d_accept st, d_prediction st, d_exec st, d_full st, d_preds st).
End Spec.

Section History.
  Context {X E : Type}.
  Variable x_eqb : X -> X -> bool.
  Variable dhash : list (config X) -> Z.
  Variable share : pctx -> pctx.
  Variable max : Z.

  (** One operation of the parser on a decision's DFA.  The label lists the
      (returned number, submitted configuration set) of a state submission. *)
  Inductive dfa_step : dfa X E -> list (Z * config_set X) -> dfa X E -> Prop :=
  | St_add : forall d st d' r, Forall good_config (configs (d_configs st)) ->
      d_number st <> ERROR_DFA_STATE_REF ->
      p_add_dfastate X x_eqb E dhash share d st = Val (d', r) -> dfa_step d [(r, d_configs st)] d'
  | St_edge : forall d from t to d', p_dfa_add_edge X E max d from t to = Val d' -> dfa_step d [] d'
  | St_prec : forall d p i d', set_precedence_start_state X E d p i = Val d' -> dfa_step d [] d'
  | St_start : forall d i st cs l, is_precedence_dfa d = true -> s0 d = Some i ->
      vget (dfa_states d) i = Some st ->
      vset (dfa_states d) i (DState X E (d_number st) cs (d_edges st) (d_accept st) (d_prediction st) (d_exec st) (d_full st) (d_preds st)) = Some l ->
      dfa_step d [] (with_states X E d l)
  | St_s0 : forall d i, is_precedence_dfa d = false ->
      dfa_step d [] (Dfa X E (dfa_states d) (states_map d) (Some i) false).

  (** A DFA together with everything submitted to it so far. *)
  Inductive dfa_hist : dfa X E -> list (Z * config_set X) -> Prop :=
  | Hi_new : forall prec, dfa_hist (dfa_new X E prec) []
  | Hi_step : forall d l d' o, dfa_hist d l -> dfa_step d o d' -> dfa_hist d' (o ++ l).
End History.
