(** Model of /repo/src/ll1_analyzer.rs and of the lookahead functions of
    /repo/src/atn.rs 72-175.  No proofs in this file.

    Simplifications: states are passed as values and are not shared; [usize] and
    [isize] are [Z]; the hash set [look_busy] and the bit set [called_rule_stack]
    are lists; the memo cell of a state (atn.rs 77) is left out, it stores the
    value the function computes.  Recursion is bounded by fuel. *)
From Coq Require Import ZArith List Bool.
From Verif Require Import Outcome IntervalSetModel SemContextModel PredContextModel DfaModel AtnModel.
From Verif Require ConfigSetModel.
Import ListNotations.
Local Open Scope Z_scope.
Local Open Scope outcome_scope.

(** token.rs *)
Definition TOKEN_INVALID_TYPE : Z := 0.
Definition TOKEN_MIN_USER_TOKEN_TYPE : Z := 1.

(** ll1_analyzer.rs 64 and atn_config.rs 113-127 *)
Definition busy_config (state : Z) (ctx : option pctx) : ConfigSetModel.config unit :=
  ConfigSetModel.Config state 0 ctx NONE 0 false tt.
Definition busy_eqb : ConfigSetModel.config unit -> ConfigSetModel.config unit -> bool :=
  ConfigSetModel.config_eqb unit (fun _ _ => true).

(** the three [&mut] arguments of [look_work] *)
Record work : Type := Work {
  w_look : interval_set;
  w_busy : list (ConfigSetModel.config unit);
  w_called : list Z
}.
Definition with_look (w : work) (l : interval_set) : work := Work l (w_busy w) (w_called w).
Definition with_busy (w : work) (b : list (ConfigSetModel.config unit)) : work := Work (w_look w) b (w_called w).
Definition with_called (w : work) (c : list Z) : work := Work (w_look w) (w_busy w) c.

(** crate bit_set: [contains], [insert], [remove] *)
Definition bit_contains (l : list Z) (r : Z) : bool := existsb (Z.eqb r) l.
Definition bit_insert (l : list Z) (r : Z) : list Z := if bit_contains l r then l else r :: l.
Definition bit_remove (l : list Z) (r : Z) : list Z := filter (fun x => negb (x =? r)) l.

(** [for x in l { w = f(x, w) }] *)
Fixpoint each {A} (f : A -> work -> outcome work) (l : list A) (w : work) : outcome work :=
  match l with
  | [] => Val w
  | x :: l => let! w := f x w in each f l w
  end.

(** [self.atn.states[i]] *)
Definition get_state (a : atn) (i : Z) : outcome atn_state := unwrap (vget (states a) i).

(** what [look_work] does before it looks at the transitions of a state *)
Inductive stop_case : Type := AddAndReturn (token : Z) | Unwind (ctx : pctx) | GoOn.

Definition rec_look : Type := atn_state -> option pctx -> bool -> bool -> work -> outcome work.

(** ll1_analyzer.rs 69-81 *)
Definition at_stop_state (stop_state : option Z) (s : atn_state) (ctx : option pctx) (add_eof : bool) : outcome stop_case :=
  if match stop_state with Some n => st_number s =? n | None => false end then
    match ctx with
    | None => Val (AddAndReturn TOKEN_EPSILON)
    | Some x => let! e := pc_is_empty x in
                Val (if e && add_eof then AddAndReturn TOKEN_EOF else GoOn)
    end
  else Val GoOn.

(** ll1_analyzer.rs 83-95 and 112-116 *)
Definition at_rule_stop (s : atn_state) (ctx : option pctx) (add_eof : bool) : outcome stop_case :=
  match st_type s with
  | RuleStopState =>
      match ctx with
      | None => Val (AddAndReturn TOKEN_EPSILON)
      | Some x => let! e := pc_is_empty x in
                  Val (if e && add_eof then AddAndReturn TOKEN_EOF
                       else if negb (pctx_eqb x EMPTY) then Unwind x
                       else GoOn)
      end
  | _ => Val GoOn
  end.

(** ll1_analyzer.rs 94-112 *)
Definition look_unwind (rec : rec_look) (a : atn) (s : atn_state) (x : pctx) (see_thru_preds add_eof : bool) (w : work)
    : outcome work :=
  let removed := bit_contains (w_called w) (st_rule s) in
  let w := with_called w (bit_remove (w_called w) (st_rule s)) in
  let! w := each (fun i w =>
                    let! r := get_return_state x i in
                    let! s' := get_state a r in
                    let! p := get_parent x i in
                    rec s' p see_thru_preds add_eof w)
                 (seq 0 (pc_length x)) w in
  Val (if removed then with_called w (bit_insert (w_called w) (st_rule s)) else w).

(** ll1_analyzer.rs 118-185, one iteration *)
Definition look_trans (rec : rec_look) (a : atn) (ctx : option pctx) (see_thru_preds add_eof : bool)
    (tr : transition) (w : work) : outcome work :=
  let! target := get_state a (get_target tr) in
  match tr with
  | RuleTr _ follow _ _ =>
      if bit_contains (w_called w) (st_rule target) then Val w
      else
        let new_ctx := Singleton follow ctx in
        let w := with_called w (bit_insert (w_called w) (st_rule target)) in
        let! w := rec target (Some new_ctx) see_thru_preds add_eof w in
        Val (with_called w (bit_remove (w_called w) (st_rule target)))
  | PredicateTr _ _ _ _ | PrecedenceTr _ _ =>
      if see_thru_preds then rec target ctx see_thru_preds add_eof w
      else Val (with_look w (add_one (w_look w) TOKEN_INVALID_TYPE))
  | Wildcard _ =>
      Val (with_look w (add_range (w_look w) TOKEN_MIN_USER_TOKEN_TYPE (max_token_type a)))
  | _ =>
      if is_epsilon tr then rec target ctx see_thru_preds add_eof w
      else match get_label tr with
           | None => Val w
           | Some set =>
               let set := match tr with
                          | NotSet _ _ => complement set TOKEN_MIN_USER_TOKEN_TYPE (max_token_type a)
                          | _ => set
                          end in
               Val (with_look w (add_set (w_look w) set))
           end
  end.

(** ll1_analyzer.rs 52-186 *)
Fixpoint look_work (fuel : nat) (a : atn) (stop_state : option Z) (s : atn_state) (ctx : option pctx)
    (see_thru_preds add_eof : bool) (w : work) : outcome work :=
  match fuel with
  | O => NoFuel
  | S fuel =>
      let c := busy_config (st_number s) ctx in
      if existsb (busy_eqb c) (w_busy w) then Val w
      else
        let w := with_busy w (c :: w_busy w) in
        let! first := at_stop_state stop_state s ctx add_eof in
        let! second := match first with AddAndReturn t => Val first | _ => at_rule_stop s ctx add_eof end in
        match second with
        | AddAndReturn t => Val (with_look w (add_one (w_look w) t))
        | Unwind x => look_unwind (look_work fuel a stop_state) a s x see_thru_preds add_eof w
        | GoOn => each (look_trans (look_work fuel a stop_state) a ctx see_thru_preds add_eof) (st_trans s) w
        end
  end.

(** ll1_analyzer.rs 29-50, after [from_rule_context] *)
Definition look (fuel : nat) (a : atn) (s : atn_state) (stop_state : option Z) (look_ctx : option pctx)
    : outcome interval_set :=
  let! w := look_work fuel a stop_state s look_ctx true true (Work is_new [] []) in
  Val (w_look w).

(** atn.rs 87-94 *)
Definition next_tokens_in_ctx (fuel : nat) (a : atn) (s : atn_state) (ctx : option pctx) : outcome interval_set :=
  look fuel a s None ctx.
(** atn.rs 76-81 *)
Definition next_tokens (fuel : nat) (a : atn) (s : atn_state) : outcome interval_set :=
  let! r := next_tokens_in_ctx fuel a s None in
  Val (IS (intervals r) true).

(** prediction_context.rs 535-540: the follow state of the first transition of the
    invoking state; [None] stands for the panics of line 535-539, and also for the
    cast of a transition that is not a rule transition
    (transition.rs 77-80: [cast] asserts the type) *)
Definition follow_state (a : atn) (invoking : Z) : option Z :=
  match vget (states a) invoking with
  | Some s => match st_trans s with RuleTr _ f _ _ :: _ => Some f | _ => None end
  | None => None
  end.
(** atn.rs 87-94 with [Some(ctx)]: the invoking states of the contexts, the innermost
    first, the outermost (which has no parent) last *)
Definition next_tokens_of_stack (fuel : nat) (a : atn) (s : atn_state) (stack : list Z) : outcome interval_set :=
  let! c := from_rule_context (follow_state a) stack in
  next_tokens_in_ctx fuel a s (Some c).

(** atn.rs 154-167, the loop over the invocation stack *)
Fixpoint expected_loop (fuel : nat) (a : atn) (following expected : interval_set) (states_stack : list Z)
    : outcome (interval_set * interval_set) :=
  match states_stack with
  | [] => Val (following, expected)
  | state :: states_stack =>
      if negb (contains following TOKEN_EPSILON) then Val (following, expected)
      else
        let! invoking_state := get_state a state in
        let! tr := unwrap (nth_error (st_trans invoking_state) 0) in
        let! follow := match tr with RuleTr _ f _ _ => Val f | _ => Panics end in
        let! fs := get_state a follow in
        let! following := next_tokens fuel a fs in
        let! expected := unwrap (remove_one (add_set expected following) TOKEN_EPSILON) in
        expected_loop fuel a following expected states_stack
  end.

(** atn.rs 139-174 *)
Definition get_expected_tokens (fuel : nat) (a : atn) (state_number : Z) (states_stack : list Z) : outcome interval_set :=
  let! s := get_state a state_number in
  let! following := next_tokens fuel a s in
  if negb (contains following TOKEN_EPSILON) then Val following
  else
    let! expected := unwrap (remove_one (add_set is_new following) TOKEN_EPSILON) in
    let! (following, expected) := expected_loop fuel a following expected states_stack in
    Val (if contains following TOKEN_EPSILON then add_one expected TOKEN_EOF else expected).
