(** Model of /repo/src/lexer.rs (BaseLexer), /repo/src/lexer_atn_simulator.rs,
    /repo/src/lexer_action.rs, /repo/src/lexer_action_executor.rs and of the lexer part of
    /repo/src/atn_config.rs.  No proofs in this file.

    Simplifications, valid for the whole file:
    - [isize]/[usize] are [Z]; [x as usize] of a negative number is an index beyond every vector;
    - the code run by generated lexers (embedded actions, predicates, [before_emit]) is given by the
      Section variables [action], [sempred] and [before_emit], functions on the whole lexer state that
      do not panic;
    - the position shared by lexer and simulator ([Rc<LexerPosition>]) is part of the lexer state;
      the simulator's own fields are [sim]; while a match runs, the DFA of the mode is passed
      separately and stored back at the end (locks are not modelled);
    - [lx_errors] records what the error listeners are told, [lx_log] records the matches made (it is
      never read by the model and has no counterpart in the code);
    - loops and recursion are bounded by fuel. *)
From Coq Require Import ZArith List Bool.
From Verif Require Import Outcome CharStreamModel IntervalSetModel PredContextModel SemContextModel
  ConfigSetModel DfaModel AtnModel.
From Verif Require FactoryModel.
Import ListNotations.
Local Open Scope Z_scope.
Local Open Scope outcome_scope.

Definition lift {A} (r : res A) : outcome A := match r with Ok a => Val a | Panic => Panics end.

(** token.rs 15-32, lexer.rs 170-184 *)
Definition TOKEN_INVALID_TYPE : Z := 0.
Definition TOKEN_EOF : Z := -1.
Definition TOKEN_DEFAULT_CHANNEL : Z := 0.
Definition LEXER_DEFAULT_MODE : Z := 0.
Definition LEXER_MORE : Z := -2.
Definition LEXER_SKIP : Z := -3.
(** ['\n' as isize] *)
Definition NEWLINE : Z := 10.

(** lexer_action.rs 14, derived [PartialEq] *)
Fixpoint lexer_action_eqb (a b : lexer_action) : bool :=
  match a, b with
  | LexerChannelAction x, LexerChannelAction y => x =? y
  | LexerCustomAction r i, LexerCustomAction r' i' => (r =? r') && (i =? i')
  | LexerModeAction x, LexerModeAction y => x =? y
  | LexerMoreAction, LexerMoreAction => true
  | LexerPopModeAction, LexerPopModeAction => true
  | LexerPushModeAction x, LexerPushModeAction y => x =? y
  | LexerSkipAction, LexerSkipAction => true
  | LexerTypeAction x, LexerTypeAction y => x =? y
  | LexerIndexedCustomAction o x, LexerIndexedCustomAction o' y => (o =? o') && lexer_action_eqb x y
  | _, _ => false
  end.
Fixpoint lexer_actions_eqb (a b : list lexer_action) : bool :=
  match a, b with
  | [], [] => true
  | x :: a', y :: b' => lexer_action_eqb x y && lexer_actions_eqb a' b'
  | _, _ => false
  end.

(** lexer_action.rs 38-44 *)
Definition is_position_dependent (a : lexer_action) : bool :=
  match a with LexerCustomAction _ _ | LexerIndexedCustomAction _ _ => true | _ => false end.

(** lexer_action_executor.rs 10-14 *)
Record executor : Type := Executor { ex_hash : Z; ex_actions : list lexer_action }.
(** lexer_action_executor.rs 10, derived [PartialEq] *)
Definition executor_eqb (a b : executor) : bool :=
  (ex_hash a =? ex_hash b) && lexer_actions_eqb (ex_actions a) (ex_actions b).

(** atn_config.rs 86-93, [LexerATNConfig]: executor and [passed_through_non_greedy_decision] *)
Record lexer_type : Type := LexerType { lt_exec : option executor; lt_passed : bool }.
(** atn_config.rs 86, derived [PartialEq] *)
Definition lexer_type_eqb (a b : lexer_type) : bool :=
  match lt_exec a, lt_exec b with
  | None, None => true
  | Some x, Some y => executor_eqb x y
  | _, _ => false
  end && Bool.eqb (lt_passed a) (lt_passed b).

Definition lconfig : Type := config lexer_type.
Definition lset : Type := config_set lexer_type.
Definition ldfa : Type := dfa lexer_type executor.
Definition lstate : Type := dfa_state lexer_type executor.

(** What the hash of a configuration sees (atn_config.rs 43-68, lexer_action_executor.rs 16-20):
    neither the outer context depth nor the filter flag, and of the executor only its stored hash. *)
Record hashed : Type := Hashed { h_exec : option Z; h_passed : bool }.
Definition hash_view (c : lconfig) : config hashed :=
  Config (c_state c) (c_alt c) (c_ctx c) (c_sem c) 0 false
    (Hashed (option_map ex_hash (lt_exec (c_type c))) (lt_passed (c_type c))).

(** atn_config.rs 140-151 *)
Definition new_lexer_atnconfig6 (state alt : Z) (ctx : pctx) : lconfig :=
  Config state alt (Some ctx) NONE 0 false (LexerType None false).

(** atn_config.rs 246-261 *)
Definition check_non_greedy_decision (source : lconfig) (target : atn_state) : bool :=
  if lt_passed (c_type source) then true
  else match st_type target with DecisionState _ nongreedy _ => nongreedy | _ => false end.

(** atn_config.rs 163-175 *)
Definition cloned (c : lconfig) (target : atn_state) : lconfig :=
  Config (st_number target) (c_alt c) (c_ctx c) (c_sem c) (c_reach c) (c_pfs c)
    (LexerType (lt_exec (c_type c)) (check_non_greedy_decision c target)).
(** atn_config.rs 177-186 *)
Definition cloned_with_new_ctx (c : lconfig) (target : atn_state) (ctx : option pctx) : lconfig :=
  let n := cloned c target in
  Config (c_state n) (c_alt n) ctx (c_sem n) (c_reach n) (c_pfs n) (c_type n).
(** atn_config.rs 188-203 *)
Definition cloned_with_new_exec (c : lconfig) (target : atn_state) (exec : option executor) : lconfig :=
  let n := cloned c target in
  Config (c_state n) (c_alt n) (c_ctx n) (c_sem n) (c_reach n) (c_pfs n)
    (LexerType exec (lt_passed (c_type n))).

Section Executor.
  (** hash of an action vector (murmur3, an external crate) *)
  Variable actions_hash : list lexer_action -> Z.
  (** lexer_action_executor.rs 23-36 *)
  Definition new_executor (l : list lexer_action) : executor := Executor (actions_hash l) l.
  (** lexer_action_executor.rs 38-47: the stored hash is not updated *)
  Definition new_copy_append (old : option executor) (a : lexer_action) : executor :=
    let n := match old with Some e => e | None => new_executor [] end in
    Executor (ex_hash n) (ex_actions n ++ [a]).
End Executor.
(** lexer_action_executor.rs 49-64 *)
Definition fix_offset (offset : Z) (a : lexer_action) : lexer_action :=
  match a with
  | LexerIndexedCustomAction _ _ => a
  | _ => if is_position_dependent a then LexerIndexedCustomAction offset a else a
  end.
Definition fix_offset_before_match (e : executor) (offset : Z) : executor :=
  Executor (ex_hash e) (map (fix_offset offset) (ex_actions e)).

(** One entry of the log: a call of [match_token] started at an index, ended (after recovery, if it
    failed) at an index, with the token type in force then. *)
Record matched : Type := Matched { m_from : Z; m_to : Z; m_type : Z; m_failed : bool }.

Section Lexer.
  Variable D : input_data.
  (** state of the generated part of the lexer ([recog]) *)
  Variable U : Type.
  Variable a : atn.

  (** lexer.rs 78-111; interpreter, factory and listeners apart *)
  Record lexer : Type := Lexer {
    lx_input : istream;
    lx_line : Z;                 (* current_pos.line *)
    lx_column : Z;               (* current_pos.char_position_in_line *)
    lx_start : Z;                (* token_start_char_index *)
    lx_start_line : Z;
    lx_start_column : Z;
    lx_type : Z;                 (* token_type *)
    lx_token : option FactoryModel.token;
    lx_hit_eof : bool;
    lx_channel : Z;
    lx_mode_stack : list Z;      (* top of the stack last, as in the vector *)
    lx_mode : Z;
    lx_text : option (list Z);
    lx_user : U;
    lx_errors : list (Z * Z * list Z);
    lx_log : list matched
  }.

  Definition with_input (l : lexer) (i : istream) : lexer :=
    Lexer i (lx_line l) (lx_column l) (lx_start l) (lx_start_line l) (lx_start_column l) (lx_type l) (lx_token l)
      (lx_hit_eof l) (lx_channel l) (lx_mode_stack l) (lx_mode l) (lx_text l) (lx_user l) (lx_errors l) (lx_log l).
  Definition with_pos (l : lexer) (line column : Z) : lexer :=
    Lexer (lx_input l) line column (lx_start l) (lx_start_line l) (lx_start_column l) (lx_type l) (lx_token l)
      (lx_hit_eof l) (lx_channel l) (lx_mode_stack l) (lx_mode l) (lx_text l) (lx_user l) (lx_errors l) (lx_log l).
  Definition with_type (l : lexer) (t : Z) : lexer :=
    Lexer (lx_input l) (lx_line l) (lx_column l) (lx_start l) (lx_start_line l) (lx_start_column l) t (lx_token l)
      (lx_hit_eof l) (lx_channel l) (lx_mode_stack l) (lx_mode l) (lx_text l) (lx_user l) (lx_errors l) (lx_log l).
  Definition with_token (l : lexer) (t : option FactoryModel.token) : lexer :=
    Lexer (lx_input l) (lx_line l) (lx_column l) (lx_start l) (lx_start_line l) (lx_start_column l) (lx_type l) t
      (lx_hit_eof l) (lx_channel l) (lx_mode_stack l) (lx_mode l) (lx_text l) (lx_user l) (lx_errors l) (lx_log l).
  Definition with_hit_eof (l : lexer) : lexer :=
    Lexer (lx_input l) (lx_line l) (lx_column l) (lx_start l) (lx_start_line l) (lx_start_column l) (lx_type l) (lx_token l)
      true (lx_channel l) (lx_mode_stack l) (lx_mode l) (lx_text l) (lx_user l) (lx_errors l) (lx_log l).
  Definition with_channel (l : lexer) (c : Z) : lexer :=
    Lexer (lx_input l) (lx_line l) (lx_column l) (lx_start l) (lx_start_line l) (lx_start_column l) (lx_type l) (lx_token l)
      (lx_hit_eof l) c (lx_mode_stack l) (lx_mode l) (lx_text l) (lx_user l) (lx_errors l) (lx_log l).
  Definition with_modes (l : lexer) (st : list Z) (m : Z) : lexer :=
    Lexer (lx_input l) (lx_line l) (lx_column l) (lx_start l) (lx_start_line l) (lx_start_column l) (lx_type l) (lx_token l)
      (lx_hit_eof l) (lx_channel l) st m (lx_text l) (lx_user l) (lx_errors l) (lx_log l).
  Definition with_text (l : lexer) (t : option (list Z)) : lexer :=
    Lexer (lx_input l) (lx_line l) (lx_column l) (lx_start l) (lx_start_line l) (lx_start_column l) (lx_type l) (lx_token l)
      (lx_hit_eof l) (lx_channel l) (lx_mode_stack l) (lx_mode l) t (lx_user l) (lx_errors l) (lx_log l).
  Definition with_user (l : lexer) (u : U) : lexer :=
    Lexer (lx_input l) (lx_line l) (lx_column l) (lx_start l) (lx_start_line l) (lx_start_column l) (lx_type l) (lx_token l)
      (lx_hit_eof l) (lx_channel l) (lx_mode_stack l) (lx_mode l) (lx_text l) u (lx_errors l) (lx_log l).
  Definition with_errors (l : lexer) (e : list (Z * Z * list Z)) : lexer :=
    Lexer (lx_input l) (lx_line l) (lx_column l) (lx_start l) (lx_start_line l) (lx_start_column l) (lx_type l) (lx_token l)
      (lx_hit_eof l) (lx_channel l) (lx_mode_stack l) (lx_mode l) (lx_text l) (lx_user l) e (lx_log l).
  Definition with_log (l : lexer) (g : list matched) : lexer :=
    Lexer (lx_input l) (lx_line l) (lx_column l) (lx_start l) (lx_start_line l) (lx_start_column l) (lx_type l) (lx_token l)
      (lx_hit_eof l) (lx_channel l) (lx_mode_stack l) (lx_mode l) (lx_text l) (lx_user l) (lx_errors l) g.

  (** lexer.rs 273-304 *)
  Definition new_base_lexer (input : istream) (u : U) : lexer :=
    Lexer input 1 0 0 0 0 TOKEN_INVALID_TYPE None false TOKEN_DEFAULT_CHANNEL [] LEXER_DEFAULT_MODE None u [] [].

  (** lexer.rs 230-232 *)
  Definition get_char_index (l : lexer) : Z := is_index (lx_input l).
  (** lexer.rs 391-397; lexer_atn_simulator.rs 107-117 *)
  Definition get_line (l : lexer) : Z := lx_line l.
  Definition get_char_position_in_line (l : lexer) : Z := lx_column l.
  (** lexer_atn_simulator.rs 111-113 *)
  Definition set_char_position_in_line (l : lexer) (column : Z) : lexer := with_pos l (lx_line l) column.
  (** lexer_atn_simulator.rs 119-121, as written *)
  Definition set_line (l : lexer) (line : Z) : lexer := with_pos l (lx_line l) line.
  (** lexer.rs 466-468 *)
  Definition set_channel (l : lexer) (v : Z) : lexer := with_channel l v.
  (** lexer.rs 470-473 *)
  Definition push_mode (l : lexer) (m : Z) : lexer := with_modes l (lx_mode_stack l ++ [lx_mode l]) m.
  (** [Vec::pop] *)
  Fixpoint vec_pop (v : list Z) : option (list Z * Z) :=
    match v with
    | [] => None
    | x :: v' => match vec_pop v' with
                 | None => Some ([], x)
                 | Some (w, y) => Some (x :: w, y)
                 end
    end.
  (** lexer.rs 475-480 *)
  Definition pop_mode (l : lexer) : lexer * option Z :=
    match vec_pop (lx_mode_stack l) with
    | None => (l, None)
    | Some (st, m) => (with_modes l st m, Some m)
    end.
  (** lexer.rs 482-484 *)
  Definition set_type (l : lexer) (t : Z) : lexer := with_type l t.
  (** lexer.rs 486-488 *)
  Definition set_mode (l : lexer) (m : Z) : lexer := with_modes l (lx_mode_stack l) m.
  (** lexer.rs 490-496 *)
  Definition more (l : lexer) : lexer := set_type l LEXER_MORE.
  Definition skip (l : lexer) : lexer := set_type l LEXER_SKIP.
  (** lexer.rs 254-256 *)
  Definition set_text (l : lexer) (t : list Z) : lexer := with_text l (Some t).
  (** lexer.rs 235-251 *)
  Definition lexer_text (l : lexer) : outcome (list Z) :=
    match lx_text l with
    | Some t => Val t
    | None => lift (get_text D (lx_input l) (lx_start l) (get_char_index l - 1))
    end.

  (** recognizer.rs: generated code *)
  Variable action : Z -> Z -> lexer -> lexer.
  Variable sempred : Z -> Z -> lexer -> bool * lexer.
  (** lexer.rs 69-72 *)
  Variable before_emit : lexer -> lexer.

  (** lexer_action.rs 45-64 *)
  Fixpoint execute_action (x : lexer_action) (l : lexer) : lexer :=
    match x with
    | LexerChannelAction c => set_channel l c
    | LexerCustomAction r i => action r i l
    | LexerModeAction m => set_mode l m
    | LexerMoreAction => more l
    | LexerPopModeAction => fst (pop_mode l)
    | LexerPushModeAction m => push_mode l m
    | LexerSkipAction => skip l
    | LexerTypeAction t => set_type l t
    | LexerIndexedCustomAction _ x => execute_action x l
    end.

  (** lexer_action_executor.rs 69-79, the loop; [requires] is [requires_seek] *)
  Fixpoint execute_loop (start_index stop_index : Z) (xs : list lexer_action) (requires : bool) (l : lexer)
      : bool * lexer :=
    match xs with
    | [] => (requires, l)
    | x :: xs =>
        let '(requires, l) :=
          match x with
          | LexerIndexedCustomAction offset _ =>
              (negb (start_index + offset =? stop_index), with_input l (seek (lx_input l) (start_index + offset)))
          | _ => if is_position_dependent x then (false, with_input l (seek (lx_input l) stop_index)) else (requires, l)
          end in
        execute_loop start_index stop_index xs requires (execute_action x l)
    end.
  (** lexer_action_executor.rs 66-83 *)
  Definition execute (e : executor) (l : lexer) (start_index : Z) : lexer :=
    let stop_index := is_index (lx_input l) in
    let '(requires, l) := execute_loop start_index stop_index (ex_actions e) false l in
    if requires then with_input l (seek (lx_input l) stop_index) else l.

  (** lexer_atn_simulator.rs 123-132 *)
  Definition sim_consume (l : lexer) : outcome lexer :=
    let! ch := lift (la D (lx_input l) 1) in
    let l := if ch =? NEWLINE then with_pos l (lx_line l + 1) 0 else with_pos l (lx_line l) (lx_column l + 1) in
    let! i := lift (consume D (lx_input l)) in
    Val (with_input l i).

  (** lexer_atn_simulator.rs 53-57 *)
  Definition recover (l : lexer) : outcome lexer :=
    let! ch := lift (la D (lx_input l) 1) in
    if ch =? EOF then Val l else sim_consume l.

  (** lexer_atn_simulator.rs 604-629 *)
  Definition evaluate_predicate (rule_index pred_index : Z) (speculative : bool) (l : lexer) : outcome (bool * lexer) :=
    if negb speculative then Val (sempred rule_index pred_index l)
    else
      let saved_column := lx_column l in
      let saved_line := lx_line l in
      let index := is_index (lx_input l) in
      let! l := sim_consume l in
      let '(r, l) := sempred rule_index pred_index l in
      let l := with_pos l saved_line saved_column in
      Val (r, with_input l (seek (lx_input l) index)).

  Variable ctx_hash : pctx -> Z.
  Variable actions_hash : list lexer_action -> Z.
  (** hash of a DFA state: of the list of its configurations *)
  Variable configs_hash : list (config hashed) -> Z.

  (** [self.atn.states[i]] *)
  Definition state_of (i : Z) : outcome atn_state := unwrap (vget (states a) i).

  (** atn_config_set.rs 183-185 *)
  Definition add (s : lset) (c : lconfig) : outcome lset :=
    let! (s, _) := add_cached lexer_type lexer_type_eqb ctx_hash s c None in Val s.
  (** atn_config_set.rs 218-220 *)
  Definition set_has_semantic_context (s : lset) (v : bool) : lset :=
    ConfigSet lexer_type (config_lookup s) (configs s) (conflicting_alts s) (dips_into_outer_context s)
      (full_ctx s) v (ConfigSetModel.read_only s) (unique_alt s) (set_hasher s).

  (** lexer_atn_simulator.rs 528-602 *)
  Definition get_epsilon_target (c : lconfig) (t : transition) (cs : lset) (speculative eof : bool) (l : lexer)
      : outcome (option lconfig * lset * lexer) :=
    let! target := state_of (get_target t) in
    match t with
    | Epsilon _ _ => Val (Some (cloned c target), cs, l)
    | RuleTr _ follow _ _ =>
        let! ctx := unwrap (c_ctx c) in
        Val (Some (cloned_with_new_ctx c target (Some (Singleton follow (Some ctx)))), cs, l)
    | PredicateTr _ _ r p =>
        let cs := set_has_semantic_context cs true in
        let! (ok, l) := evaluate_predicate r p speculative l in
        Val (if ok then Some (cloned c target) else None, cs, l)
    | Action _ _ _ i _ =>
        let! outermost := match c_ctx c with None => Val true | Some x => has_empty_path x end in
        if outermost then
          let! x := unwrap (vget (lexer_actions a) i) in
          Val (Some (cloned_with_new_exec c target (Some (new_copy_append actions_hash (lt_exec (c_type c)) x))), cs, l)
        else Val (Some (cloned c target), cs, l)
    | Range _ _ _ | SetTr _ _ | Atom _ _ =>
        if eof then
          let! m := matches t EOF LEXER_MIN_CHAR_VALUE LEXER_MAX_CHAR_VALUE in
          Val (if m then Some (cloned c target) else None, cs, l)
        else Val (None, cs, l)
    | Wildcard _ | NotSet _ _ => Val (None, cs, l)
    | PrecedenceTr _ _ => Panics
    end.

  (** [for i in 0..ctx.length()] of lines 468-483 and [for tr in transitions] of lines 503-523 *)
  Fixpoint closure_each {A} (f : A -> bool * lset * lexer -> outcome (bool * lset * lexer)) (xs : list A)
      (st : bool * lset * lexer) : outcome (bool * lset * lexer) :=
    match xs with
    | [] => Val st
    | x :: xs => let! st := f x st in closure_each f xs st
    end.

  Definition rec_closure : Type := lconfig -> bool * lset * lexer -> outcome (bool * lset * lexer).

  (** lexer_atn_simulator.rs 466-483, one return state *)
  Definition closure_return (rec : rec_closure) (c : lconfig) (ctx : pctx) (i : nat) (st : bool * lset * lexer)
      : outcome (bool * lset * lexer) :=
    let! r := get_return_state ctx i in
    if r =? EMPTY_RETURN_STATE then Val st
    else
      let! new_ctx := get_parent ctx i in
      let! return_state := state_of r in
      rec (cloned_with_new_ctx c return_state new_ctx) st.

  (** lexer_atn_simulator.rs 452-487 *)
  Definition closure_stop (rec : rec_closure) (c : lconfig) (state : atn_state) (st : bool * lset * lexer)
      : outcome (bool * lset * lexer) :=
    let '(reached, cs, l) := st in
    let! empty_path := match c_ctx c with None => Val true | Some x => has_empty_path x end in
    let! empty := match c_ctx c with None => Val true | Some x => pc_is_empty x end in
    if empty_path && empty then
      let! cs := add cs c in Val (true, cs, l)
    else
      let! (reached, cs) :=
        if empty_path then let! cs := add cs (cloned_with_new_ctx c state (Some EMPTY)) in Val (true, cs)
        else Val (reached, cs) in
      match c_ctx c with
      | Some ctx => if empty then Val (reached, cs, l)
                    else closure_each (closure_return rec c ctx) (seq 0 (pc_length ctx)) (reached, cs, l)
      | None => Val (reached, cs, l)
      end.

  (** lexer_atn_simulator.rs 503-523, one transition *)
  Definition closure_trans (rec : rec_closure) (c : lconfig) (speculative eof : bool) (t : transition)
      (st : bool * lset * lexer) : outcome (bool * lset * lexer) :=
    let '(reached, cs, l) := st in
    let! (c', cs, l) := get_epsilon_target c t cs speculative eof l in
    match c' with
    | Some c' => rec c' (reached, cs, l)
    | None => Val (reached, cs, l)
    end.

  (** lexer_atn_simulator.rs 437-526 *)
  Fixpoint closure (fuel : nat) (speculative eof : bool) (c : lconfig) (st : bool * lset * lexer)
      : outcome (bool * lset * lexer) :=
    match fuel with
    | O => NoFuel
    | S fuel =>
        let! state := state_of (c_state c) in
        match st_type state with
        | RuleStopState => closure_stop (closure fuel speculative eof) c state st
        | _ =>
            let '(reached, cs, l) := st in
            let! cs := if negb (st_eps_only state) && (negb reached || negb (lt_passed (c_type c))) then add cs c else Val cs in
            closure_each (closure_trans (closure fuel speculative eof) c speculative eof) (st_trans state) (reached, cs, l)
        end
    end.

  (** lexer_atn_simulator.rs 424-432 *)
  Fixpoint start_loop (fuel : nat) (ts : list transition) (i : Z) (cs : lset) (l : lexer) : outcome (lset * lexer) :=
    match ts with
    | [] => Val (cs, l)
    | t :: ts =>
        let! (_, cs, l) := closure fuel false false (new_lexer_atnconfig6 (get_target t) (i + 1) EMPTY) (false, cs, l) in
        start_loop fuel ts (i + 1) cs l
    end.
  (** lexer_atn_simulator.rs 416-435 *)
  Definition compute_start_state (fuel : nat) (p : atn_state) (l : lexer) : outcome (lset * lexer) :=
    start_loop fuel (st_trans p) 0 (new_ordered lexer_type) l.

  (** lexer_atn_simulator.rs 342-362; the result says whether the loop was left by [break] *)
  Fixpoint reach_trans (fuel : nat) (start_index t : Z) (c : lconfig) (reached : bool) (ts : list transition) (cs : lset) (l : lexer)
      : outcome (bool * lset * lexer) :=
    match ts with
    | [] => Val (false, cs, l)
    | tr :: ts =>
        let! target := get_reachable_target tr t in
        match target with
        | Some target =>
            let exec := option_map (fun e => fix_offset_before_match e (is_index (lx_input l) - start_index)) (lt_exec (c_type c)) in
            let! target := state_of target in
            let! (hit, cs, l) := closure fuel true (t =? EOF) (cloned_with_new_exec c target exec) (reached, cs, l) in
            if hit then Val (true, cs, l) else reach_trans fuel start_index t c reached ts cs l
        | None => reach_trans fuel start_index t c reached ts cs l
        end
    end.
  (** lexer_atn_simulator.rs 330-363 *)
  Fixpoint reach_loop (fuel : nat) (start_index t : Z) (cl : list lconfig) (skip_alt : Z) (cs : lset) (l : lexer) : outcome (lset * lexer) :=
    match cl with
    | [] => Val (cs, l)
    | c :: cl =>
        let reached := c_alt c =? skip_alt in
        if reached && lt_passed (c_type c) then reach_loop fuel start_index t cl skip_alt cs l
        else
          let! state := state_of (c_state c) in
          let! (hit, cs, l) := reach_trans fuel start_index t c reached (st_trans state) cs l in
          reach_loop fuel start_index t cl (if hit then c_alt c else skip_alt) cs l
    end.
  (** lexer_atn_simulator.rs 319-364 *)
  Definition get_reachable_config_set (fuel : nat) (start_index : Z) (cl : list lconfig) (t : Z) (l : lexer) : outcome (lset * lexer) :=
    reach_loop fuel start_index t cl 0 (new_ordered lexer_type) l.

  (** lexer_atn_simulator.rs 670-684 *)
  Fixpoint first_stop (cs : list lconfig) : outcome (option lconfig) :=
    match cs with
    | [] => Val None
    | c :: cs =>
        let! s := state_of (c_state c) in
        match st_type s with RuleStopState => Val (Some c) | _ => first_stop cs end
    end.
  (** lexer_atn_simulator.rs 664-712.  The DFA state found is the first one with the same hash. *)
  Definition l_add_dfastate (d : ldfa) (cs : lset) : outcome (ldfa * Z) :=
    if has_semantic_context cs then Panics
    else
      let! found := first_stop (configs cs) in
      let! (accept, prediction, exec) :=
        match found with
        | Some c =>
            let! s := state_of (c_state c) in
            let! p := unwrap (vget (rule_to_token_type a) (st_rule s)) in
            Val (true, p, lt_exec (c_type c))
        | None => Val (false, 0, None)
        end in
      let n := Z.of_nat (length (dfa_states d)) in
      let key := configs_hash (map hash_view (configs cs)) in
      match map_get (states_map d) key with
      | Some b => let! i := unwrap (hd_error b) in Val (d, i)
      | None =>
          let st := DState lexer_type executor n (set_read_only lexer_type cs true) [] accept prediction exec false [] in
          Val (Dfa lexer_type executor (dfa_states d ++ [st]) (map_push (states_map d) key n) (s0 d) (is_precedence_dfa d), n)
      end.

  (** lexer_atn_simulator.rs 651-662 on a state of the DFA *)
  Definition l_dfa_add_edge (d : ldfa) (from t to : Z) : outcome ldfa :=
    let! st := unwrap (vget (dfa_states d) from) in
    let! es := l_add_edge (d_edges st) t to in
    let! states := unwrap (vset (dfa_states d) from (with_edges lexer_type executor st es)) in
    Val (with_states lexer_type executor d states).

  (** lexer_atn_simulator.rs 280-317 *)
  Definition compute_target_state (fuel : nat) (start_index : Z) (d : ldfa) (s t : Z) (l : lexer) : outcome (ldfa * Z * lexer) :=
    let! st := unwrap (vget (dfa_states d) s) in
    let! (reach, l) := get_reachable_config_set fuel start_index (configs (d_configs st)) t l in
    match configs reach with
    | [] =>
        let! d := if negb (has_semantic_context reach) then l_dfa_add_edge d s t ERROR_DFA_STATE_REF else Val d in
        Val (d, ERROR_DFA_STATE_REF, l)
    | _ :: _ =>
        let suppress_edge := has_semantic_context reach in
        let! (d, to) := l_add_dfastate d (set_has_semantic_context reach false) in
        let! d := if negb suppress_edge then l_dfa_add_edge d s t to else Val d in
        Val (d, to, l)
    end.

  (** lexer_atn_simulator.rs 730-735 *)
  Record sim_state : Type := SimState { sa_index : Z; sa_line : Z; sa_column : Z; sa_state : option Z }.
  (** lexer_atn_simulator.rs 747-752 *)
  Definition sim_reset (p : sim_state) : sim_state := SimState (sa_index p) (sa_line p) (sa_column p) None.

  (** lexer_atn_simulator.rs 631-649 *)
  Definition capture_sim_state (d : ldfa) (l : lexer) (s : Z) (p : sim_state) : outcome (bool * sim_state) :=
    let! st := unwrap (vget (dfa_states d) s) in
    Val (if d_accept st then (true, SimState (is_index (lx_input l)) (lx_line l) (lx_column l) (Some s))
         else (false, p)).

  (** lexer_atn_simulator.rs 264-277 *)
  Definition get_existing_target_state (d : ldfa) (s t : Z) : outcome (option Z) :=
    let! st := unwrap (vget (dfa_states d) s) in Val (l_get_edge (d_edges st) t).

  (** lexer_atn_simulator.rs 233-257, the loop of [exec_atn] *)
  Fixpoint exec_loop (fuel : nat) (n : nat) (start_index : Z) (d : ldfa) (s symbol : Z) (p : sim_state) (l : lexer)
      : outcome (Z * ldfa * sim_state * lexer) :=
    match n with
    | O => NoFuel
    | S n =>
        let! existing := get_existing_target_state d s symbol in
        let! (d, target, l) :=
          match existing with
          | Some t => Val (d, t, l)
          | None => compute_target_state fuel start_index d s symbol l
          end in
        if target =? ERROR_DFA_STATE_REF then Val (symbol, d, p, l)
        else
          let! l := if symbol =? EOF then Val l else sim_consume l in
          let! (captured, p) := capture_sim_state d l target p in
          if captured && (symbol =? EOF) then Val (symbol, d, p, l)
          else
            let! symbol := lift (la D (lx_input l) 1) in
            exec_loop fuel n start_index d target symbol p l
    end.

  (** errors.rs: what [match_token] fails with *)
  Inductive lexer_error : Type := LexerNoAltError (start_index : Z) | IllegalStateError.
  Definition match_result : Type := (Z + lexer_error)%type.

  (** lexer_atn_simulator.rs 408-414 *)
  Definition accept (p : sim_state) (l : lexer) : lexer :=
    with_pos (with_input l (seek (lx_input l) (sa_index p))) (sa_line p) (sa_column p).

  (** lexer_atn_simulator.rs 373-406 *)
  Definition fail_or_accept (start_index t : Z) (d : ldfa) (p : sim_state) (l : lexer) : outcome (match_result * lexer) :=
    match sa_state p with
    | Some s =>
        let l := accept p l in
        let! st := unwrap (vget (dfa_states d) s) in
        let l := match d_exec st with Some e => execute e l start_index | None => l end in
        Val (inl (d_prediction st), l)
    | None =>
        if (t =? EOF) && (is_index (lx_input l) =? start_index) then Val (inl TOKEN_EOF, l)
        else Val (inr (LexerNoAltError start_index), l)
    end.

  (** lexer_atn_simulator.rs 220-261 *)
  Definition exec_atn (fuel : nat) (start_index : Z) (ds0 : Z) (d : ldfa) (p : sim_state) (l : lexer)
      : outcome (match_result * ldfa * sim_state * lexer) :=
    let! (_, p) := capture_sim_state d l ds0 p in
    let! symbol := lift (la D (lx_input l) 1) in
    let! (symbol, d, p, l) := exec_loop fuel fuel start_index d ds0 symbol p l in
    let! (r, l) := fail_or_accept start_index symbol d p l in
    Val (r, d, p, l).

  (** lexer_atn_simulator.rs 188-218 *)
  Definition match_atn (fuel : nat) (start_index mode : Z) (d : ldfa) (p : sim_state) (l : lexer)
      : outcome (match_result * ldfa * sim_state * lexer) :=
    match vget (mode_to_start_state a) mode with
    | None => Val (inr IllegalStateError, d, p, l)
    | Some start_state =>
        let! st := state_of start_state in
        let! (s0_closure, l) := compute_start_state fuel st l in
        let suppress_edge := has_semantic_context s0_closure in
        let! (d, next_state) := l_add_dfastate d (set_has_semantic_context s0_closure false) in
        let d := if suppress_edge then d
                 else Dfa lexer_type executor (dfa_states d) (states_map d) (Some next_state) (is_precedence_dfa d) in
        exec_atn fuel start_index next_state d p l
    end.

  (** lexer_atn_simulator.rs 62-71; [start_index] is set at the start of each match *)
  Record sim : Type := Sim { sm_prev_accept : sim_state; sm_dfas : list ldfa }.
  (** lexer_atn_simulator.rs 162-182, 738-745 and the DFAs made by generated lexers: one fresh
      DFA per mode *)
  Definition new_sim : sim :=
    Sim (SimState (-1) 0 (-1) None) (map (fun _ => dfa_new lexer_type executor false) (mode_to_start_state a)).

  (** lexer_atn_simulator.rs 78-105 *)
  Definition match_token (fuel : nat) (mode : Z) (l : lexer) (s : sim) : outcome (match_result * lexer * sim) :=
    let start_index := is_index (lx_input l) in
    let p := sim_reset (sm_prev_accept s) in
    match vget (sm_dfas s) mode with
    | None => Val (inr IllegalStateError, l, Sim p (sm_dfas s))
    | Some d =>
        let! (r, d, p, l) :=
          match s0 d with
          | None => match_atn fuel start_index mode d p l
          | Some q => exec_atn fuel start_index q d p l
          end in
        let! dfas := unwrap (vset (sm_dfas s) mode d) in
        Val (r, l, Sim p dfas)
    end.

  (** lexer.rs 424-452 *)
  Definition notify_listeners (l : lexer) : outcome lexer :=
    let! text := lift (get_text D (lx_input l) (lx_start l) (get_char_index l)) in
    Val (with_errors l (lx_errors l ++ [(lx_start_line l, lx_start_column l, text)])).

  (** lexer.rs 195-213 *)
  Definition emit (l : lexer) : outcome lexer :=
    let l := before_emit l in
    let stop := get_char_index l - 1 in
    let! t := lift (FactoryModel.create D (Some (lx_input l)) (lx_type l) (lx_text l) (lx_channel l) (lx_start l) stop
                      (lx_start_line l) (lx_start_column l)) in
    Val (with_token (with_text l None) (Some t)).
  (** lexer.rs 215-227 *)
  Definition emit_eof (l : lexer) : outcome lexer :=
    let! t := lift (FactoryModel.create D None EOF None TOKEN_DEFAULT_CHANNEL (get_char_index l) (get_char_index l - 1)
                      (get_line l) (get_char_position_in_line l)) in
    Val (with_token l (Some t)).

  (** lexer.rs 334-344 *)
  Definition start_token (l : lexer) : lexer :=
    Lexer (lx_input l) (lx_line l) (lx_column l) (is_index (lx_input l)) (lx_line l) (lx_column l) (lx_type l) None
      (lx_hit_eof l) TOKEN_DEFAULT_CHANNEL (lx_mode_stack l) (lx_mode l) None (lx_user l) (lx_errors l) (lx_log l).

  (** lexer.rs 346-380; [false]: [continue 'outer], [true]: [break] *)
  Fixpoint inner_loop (fuel : nat) (n : nat) (l : lexer) (s : sim) : outcome (bool * lexer * sim) :=
    match n with
    | O => NoFuel
    | S n =>
        let from := is_index (lx_input l) in
        let l := with_type l TOKEN_INVALID_TYPE in
        let! (r, l, s) := match_token fuel (lx_mode l) l s in
        let! (ttype, l) :=
          match r with
          | inl t => Val (t, l)
          | inr _ => let! l := notify_listeners l in let! l := recover l in Val (LEXER_SKIP, l)
          end in
        let! c := lift (la D (lx_input l) 1) in
        let l := if c =? EOF then with_hit_eof l else l in
        let l := if lx_type l =? TOKEN_INVALID_TYPE then with_type l ttype else l in
        let l := with_log l (lx_log l ++ [Matched from (is_index (lx_input l)) (lx_type l)
                   (match r with inl _ => false | inr _ => true end)]) in
        if lx_type l =? LEXER_SKIP then Val (false, l, s)
        else if lx_type l =? LEXER_MORE then inner_loop fuel n l s
        else Val (true, l, s)
    end.

  (** lexer.rs 325-389 *)
  Fixpoint outer_loop (fuel : nat) (n : nat) (l : lexer) (s : sim) : outcome (lexer * sim) :=
    match n with
    | O => NoFuel
    | S n =>
        if lx_hit_eof l then let! l := emit_eof l in Val (l, s)
        else
          let l := start_token l in
          let! (broke, l, s) := inner_loop fuel fuel l s in
          if negb broke then outer_loop fuel n l s
          else match lx_token l with
               | None => let! l := emit l in Val (l, s)
               | Some _ => outer_loop fuel n l s
               end
    end.
  Definition next_token (fuel : nat) (l : lexer) (s : sim) : outcome (FactoryModel.token * lexer * sim) :=
    let! (l, s) := outer_loop fuel fuel l s in
    let! t := unwrap (lx_token l) in
    Val (t, with_token l None, s).

  (** [k] calls of [next_token] *)
  Fixpoint next_tokens (fuel : nat) (k : nat) (l : lexer) (s : sim) : outcome (list FactoryModel.token * lexer * sim) :=
    match k with
    | O => Val ([], l, s)
    | S k => let! (t, l, s) := next_token fuel l s in
             let! (ts, l, s) := next_tokens fuel k l s in
             Val (t :: ts, l, s)
    end.
End Lexer.
