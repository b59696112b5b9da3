(** Model of /repo/src/parser_atn_simulator.rs: the prediction of an alternative
    from the lookahead, with its DFA cache.  No proofs in this file.

    Simplifications.  The model follows one thread: the lock around the DFA of a
    decision (97-124) is left out (see ConcPredictModel).  [isize]/[usize] are [Z].  Recursions and loops
    are bounded by [fuel].  User predicates are a pure oracle that sees the token
    stream as it is when they are called.  The error of [no_viable_alt] (1386-1400)
    is the pair of tokens put into it.  Reports to error listeners are appended to
    a list, without the configuration set they also receive; so are the indices of
    the stream at which predicates were evaluated, which the code does not record.
    [HashSet<ATNConfig>] is a list searched with the equality of the keys. *)
From Coq Require Import ZArith List Bool.
From Verif Require Import Outcome IntervalSetModel PredContextModel SemContextModel ConfigSetModel DfaModel AtnModel Ll1Model ParserModel.
From Verif Require TokenStreamModel.
Import ListNotations.
Local Open Scope Z_scope.
Local Open Scope outcome_scope.

(** ** Token streams: what prediction needs besides [stream_ops] (int_stream.rs 36-70) *)
Record seek_ops (S : Type) := SeekOps {
  k_base : stream_ops S;
  k_seek : S -> Z -> outcome S;
  k_mark : S -> S * Z;
  k_release : S -> Z -> outcome S
}.
Arguments SeekOps {S}. Arguments k_base {S}. Arguments k_seek {S}. Arguments k_mark {S}. Arguments k_release {S}.
(** common_token_stream.rs 39-54 (marks are not counted) *)
Definition common_seek (src : nat -> tok) (channel : Z) (fuel : nat) : seek_ops TokenStreamModel.uts :=
  SeekOps (common_stream src channel fuel)
    (fun s i => of_out (TokenStreamModel.cseek src s i))
    (fun s => (s, 0))
    (fun s _ => Val s).
(** token_stream.rs 231-287 *)
Definition unbuffered_seek (src : nat -> tok) : seek_ops TokenStreamModel.uts :=
  SeekOps (unbuffered_stream src)
    (fun s i => of_out (TokenStreamModel.tseek src s i))
    TokenStreamModel.tmark
    (fun s m => of_out (TokenStreamModel.trelease s m)).

Definition pconfig : Type := config unit.
Definition pset : Type := config_set unit.
Definition pstate : Type := dfa_state unit unit.
Definition pdfa : Type := dfa unit unit.
Definition unit_eqb (_ _ : unit) : bool := true.
Definition pconfig_eqb : pconfig -> pconfig -> bool := config_eqb unit unit_eqb.

(** ** Configurations (atn_config.rs 113-203, without the lexer's fields) *)
Definition new_config (state alt : Z) (ctx : option pctx) : pconfig := Config state alt ctx NONE 0 false tt.
Definition new_with_semantic (state alt : Z) (ctx : option pctx) (s : sem) : pconfig := Config state alt ctx s 0 false tt.
Definition pcloned (c : pconfig) (target : atn_state) : pconfig :=
  Config (st_number target) (c_alt c) (c_ctx c) (c_sem c) (c_reach c) (c_pfs c) (c_type c).
Definition pcloned_with_new_ctx (c : pconfig) (target : atn_state) (x : option pctx) : pconfig :=
  Config (st_number target) (c_alt c) x (c_sem c) (c_reach c) (c_pfs c) (c_type c).
Definition pcloned_with_new_semantic (c : pconfig) (target : atn_state) (s : sem) : pconfig :=
  Config (st_number target) (c_alt c) (c_ctx c) s (c_reach c) (c_pfs c) (c_type c).
Definition set_reaches (c : pconfig) (n : Z) : pconfig :=
  Config (c_state c) (c_alt c) (c_ctx c) (c_sem c) n (c_pfs c) (c_type c).
Definition set_suppressed (c : pconfig) : pconfig :=
  Config (c_state c) (c_alt c) (c_ctx c) (c_sem c) (c_reach c) true (c_type c).
(** atn_config_set.rs 206-232 *)
Definition set_unique_alt (s : pset) (v : Z) : pset :=
  ConfigSet unit (config_lookup s) (configs s) (conflicting_alts s) (dips_into_outer_context s)
    (full_ctx s) (has_semantic_context s) (ConfigSetModel.read_only s) v (set_hasher s).
Definition set_conflicting_alts (s : pset) (v : list Z) : pset :=
  ConfigSet unit (config_lookup s) (configs s) v (dips_into_outer_context s)
    (full_ctx s) (has_semantic_context s) (ConfigSetModel.read_only s) (unique_alt s) (set_hasher s).
Definition set_dips_into_outer_context (s : pset) (v : bool) : pset :=
  ConfigSet unit (config_lookup s) (configs s) (conflicting_alts s) v
    (full_ctx s) (has_semantic_context s) (ConfigSetModel.read_only s) (unique_alt s) (set_hasher s).
Definition set_items (s : pset) (l : list pconfig) : pset :=
  ConfigSet unit (config_lookup s) l (conflicting_alts s) (dips_into_outer_context s)
    (full_ctx s) (has_semantic_context s) (ConfigSetModel.read_only s) (unique_alt s) (set_hasher s).

(** is a rule stop state *)
Definition is_stop (s : atn_state) : bool := match st_type s with RuleStopState => true | _ => false end.
Definition has_no {A} (l : list A) : bool := match l with [] => true | _ => false end.
(** atn.rs / atn_state.rs 9: [ATNSTATE_BLOCK_END] *)
Definition ATNSTATE_BLOCK_END : Z := 8.

(** What error listeners are told (error_listener.rs 40-90) *)
Inductive report : Type :=
| AttemptingFullContext (start stop : Z) (alts : list Z)
| ContextSensitivity (start stop prediction : Z)
| Ambiguity (start stop : Z) (exact : bool) (alts : list Z).

(** ** The mutable state of one prediction ([Local], 83-98) *)
Record sim (S : Type) : Type := Sim {
  m_input : S;
  m_dfa : pdfa;
  m_cache : cache;                (* merge_cache *)
  m_clock : nat;                  (* number of semantic contexts combined so far *)
  m_evals : list Z;               (* stream index at each predicate evaluation *)
  m_reports : list report
}.
Arguments Sim {S}. Arguments m_input {S}. Arguments m_dfa {S}. Arguments m_cache {S}. Arguments m_clock {S}.
Arguments m_evals {S}. Arguments m_reports {S}.

(** [Result<isize, ANTLRError>]: an alternative, or the start and offending token *)
Inductive presult : Type := Predicted (alt : Z) | NoViableAlt (start offending : tok).

Section Predict.
  Context {S : Type}.
  Variable ts : seek_ops S.
  Variable a : atn.
  (** the rule context handed to predicates *)
  Variable ctx : Type.
  (** recognizer.rs 26-36: user predicates, seeing the stream *)
  Variable sempred : S -> option ctx -> Z -> Z -> bool.
  (** iteration orders of hash sets and hash maps *)
  Variable order : list nat -> list sem -> list sem.
  Variable alt_order : list (list Z) -> list (list Z).
  (** hash functions and the shared context cache, as in the configuration and DFA models *)
  Variable hash : pctx -> Z.
  Variable dhash : list pconfig -> Z.
  Variable share : pctx -> pctx.
  Variable fuel : nat.
  (** the simulator and the fixed part of [Local]: mode (80), start index (81), the
      parser's precedence, its rule context, and the invoking states of that context
      and its ancestors *)
  Variable mode : pmode.
  Variable start_index : Z.
  Variable precedence : Z.
  Variable outer : ctx.
  Variable outer_stack : list Z.
  (** the number of the decision and the start state of its DFA (dfa.rs 38-57) *)
  Variable decision : Z.
  Variable atn_start_state : Z.

  Notation sim := (sim S).

  Definition with_sim_input (m : sim) (s : S) : sim :=
    Sim s (m_dfa m) (m_cache m) (m_clock m) (m_evals m) (m_reports m).
  Definition with_dfa (m : sim) (d : pdfa) : sim :=
    Sim (m_input m) d (m_cache m) (m_clock m) (m_evals m) (m_reports m).
  Definition with_cache (m : sim) (k : cache) : sim :=
    Sim (m_input m) (m_dfa m) k (m_clock m) (m_evals m) (m_reports m).
  Definition tick (m : sim) : sim :=
    Sim (m_input m) (m_dfa m) (m_cache m) (Datatypes.S (m_clock m)) (m_evals m) (m_reports m).
  Definition with_report (m : sim) (r : report) : sim :=
    Sim (m_input m) (m_dfa m) (m_cache m) (m_clock m) (m_evals m) (m_reports m ++ [r]).

  Definition index (m : sim) : Z := s_index (k_base ts) (m_input m).
  Definition sim_lt (m : sim) (k : Z) : outcome (sim * option tok) :=
    let! (s, t) := s_lt (k_base ts) (m_input m) k in Val (with_sim_input m s, t).
  (** common_token_stream.rs 32-36, token_stream.rs 224-228 *)
  Definition sim_la (m : sim) (k : Z) : outcome (sim * Z) :=
    let! (m, t) := sim_lt m k in
    Val (m, match t with Some t => t_type t | None => TOKEN_INVALID_TYPE end).
  Definition sim_consume (m : sim) : outcome sim :=
    let! s := s_consume (k_base ts) (m_input m) in Val (with_sim_input m s).
  Definition sim_seek (m : sim) (i : Z) : outcome sim :=
    let! s := k_seek ts (m_input m) i in Val (with_sim_input m s).

  (** [configs.add_cached(c, Some(local.merge_cache))] *)
  Definition add_to (m : sim) (s : pset) (c : pconfig) : outcome (sim * pset) :=
    let! (s, k) := add_cached unit unit_eqb hash s c (Some (m_cache m)) in
    Val (match k with Some k => with_cache m k | None => m end, s).
  (** [configs.add(c)] *)
  Definition add_plain (s : pset) (c : pconfig) : outcome pset :=
    let! (s, _) := add_cached unit unit_eqb hash s c None in Val s.

  (** 934-942, [eval_predicate] *)
  Definition eval_predicate (m : sim) (p : sem) : sim * bool :=
    (Sim (m_input m) (m_dfa m) (m_cache m) (m_clock m) (m_evals m ++ [index m]) (m_reports m),
     evaluate ctx (sempred (m_input m)) precedence outer p).

  (** 1386-1400, [no_viable_alt] *)
  Definition no_viable_alt (m : sim) : outcome (sim * presult) :=
    let! start_token := s_get (k_base ts) (m_input m) start_index in
    let! (m, o) := sim_lt m 1 in
    let! offending := unwrap o in
    Val (m, NoViableAlt start_token offending).

  (** ** Closure *)

  (** 1246-1249 *)
  Definition action_transition (c : pconfig) (target : atn_state) : pconfig := pcloned c target.

  (** 1250-1285 and 1287-1322: both transitions, once it is decided whether the
      predicate is [collected]; [p] is the transition's predicate *)
  Definition predicate_step (m : sim) (c : pconfig) (target : atn_state) (p : sem) (collected full : bool)
      : outcome (sim * option pconfig) :=
    if collected then
      if full then
        let curr_pos := index m in
        let! m := sim_seek m start_index in
        let '(m, succeeds) := eval_predicate m p in
        let! m := sim_seek m curr_pos in
        Val (m, if succeeds : bool then Some (pcloned c target) else None)
      else
        let s := sem_and order [m_clock m] (Some (c_sem c)) (Some p) in
        Val (tick m, Some (pcloned_with_new_semantic c target s))
    else Val (m, Some (pcloned c target)).

  (** 1324-1331 *)
  Definition rule_transition (c : pconfig) (target : atn_state) (follow : Z) : outcome pconfig :=
    let! x := unwrap (c_ctx c) in
    Val (pcloned_with_new_ctx c target (Some (Singleton follow (Some x)))).

  (** 1196-1244, [get_epsilon_target] *)
  Definition get_epsilon_target (m : sim) (c : pconfig) (t : transition)
      (collect_predicates in_context full treat_eof : bool) : outcome (sim * option pconfig) :=
    match t with
    | Epsilon g _ => let! target := get_state a g in Val (m, Some (pcloned c target))
    | RuleTr g follow _ _ =>
        let! target := get_state a g in
        let! c := rule_transition c target follow in
        Val (m, Some c)
    | PredicateTr g dep r p =>
        let! target := get_state a g in
        predicate_step m c target (Predicate r p dep) (collect_predicates && (negb dep || (dep && in_context))) full
    | Action g _ _ _ _ => let! target := get_state a g in Val (m, Some (action_transition c target))
    | PrecedenceTr g n =>
        let! target := get_state a g in
        predicate_step m c target (Precedence n) (collect_predicates && in_context) full
    | Atom _ _ | SetTr _ _ | Range _ _ _ =>
        let! e := if treat_eof then matches t TOKEN_EOF 0 1 else Val false in
        if e : bool then let! target := get_state a (get_target t) in Val (m, Some (pcloned c target))
        else Val (m, None)
    | NotSet _ _ | Wildcard _ => Val (m, None)
    end.

  (** 1148-1164: the state is the entry of a precedence loop and the stack is known *)
  Definition is_loop_entry (s : atn_state) : bool :=
    match st_type s with DecisionState _ _ (StarLoopEntry _ p) => p | _ => false end.
  (** [(0..ctx_len)] with a test on each return state that may also panic *)
  Fixpoint all_returns (f : atn_state -> outcome bool) (x : pctx) (l : list nat) : outcome bool :=
    match l with
    | [] => Val true
    | i :: l =>
        let! r := get_return_state x i in
        let! s := get_state a r in
        let! b := f s in
        if b : bool then all_returns f x l else Val false
    end.
  (** 1190-1220: the return state leads back to the loop *)
  Definition returns_to_loop (entry : atn_state) (block_end : Z) (r : atn_state) : outcome bool :=
    match st_trans r with
    | [t] =>
        if negb (is_epsilon t) then Val false
        else
          let! target := get_state a (get_target t) in
          if (st_type_id r =? ATNSTATE_BLOCK_END) && (st_number target =? st_number entry) then Val true
          else if st_number r =? block_end then Val true
          else if st_number target =? block_end then Val true
          else Val ((st_type_id target =? ATNSTATE_BLOCK_END) &&
                    match st_trans target with
                    | [t'] => is_epsilon t' && (get_target t' =? st_number entry)
                    | _ => false
                    end)
    | _ => Val false
    end.
  (** 1148-1227, [can_drop_loop_entry_edge_in_left_recursive_rule].  The pointer
      comparison of 1200 compares state numbers (states are at the index of their number). *)
  Definition can_drop_loop_entry_edge (c : pconfig) : outcome bool :=
    let! s := get_state a (c_state c) in
    if negb (is_loop_entry s) then Val false
    else
      let! x := unwrap (c_ctx c) in
      let! e := pc_is_empty x in
      if e : bool then Val false
      else
        let! h := has_empty_path x in
        if h : bool then Val false
        else
          let is := seq 0 (pc_length x) in
          let! same_rule := all_returns (fun r => Val (st_rule r =? st_rule s)) x is in
          if negb same_rule then Val false
          else
            let! t := unwrap (nth_error (st_trans s) 0) in
            let! d := get_state a (get_target t) in
            let! block_end := match st_type d with
                              | DecisionState _ _ (BlockStartState e _) => Val e
                              | _ => Panics
                              end in
            all_returns (returns_to_loop s block_end) x is.

  (** [closure_busy.insert(c)]: false if it is there *)
  Definition busy_has (b : list pconfig) (c : pconfig) : bool := existsb (pconfig_eqb c) b.

  (** the [&mut] arguments of the closure functions: prediction state, result, busy set *)
  Definition cwork : Type := (sim * pset * list pconfig)%type.
  Definition rec_closure : Type := pconfig -> bool -> Z -> cwork -> outcome cwork.

  (** 1090-1112: the rest of one iteration, for a configuration at a rule stop state *)
  Definition leave_decision_rule (t : transition) (c : pconfig) (m : sim) : outcome pconfig :=
    let! c := if is_precedence_dfa (m_dfa m) then
                let! o := match t with Epsilon _ o => Val o | _ => Panics end in
                let! s := get_state a atn_start_state in
                Val (if o =? st_rule s then set_suppressed c else c)
              else Val c in
    Val (set_reaches c (c_reach c + 1)).

  (** 1064-1142, one iteration of the loop of [closure_work].  The depth counter
      reaches [isize::min_value()] in no run the fuel allows, so the assertion of
      1106 is left out. *)
  Definition closure_edge (rec : rec_closure) (config : pconfig) (p : atn_state) (collect full : bool) (depth : Z) (treat_eof : bool)
      (first : bool) (t : transition) (w : cwork) : outcome cwork :=
    let! drop := if first then can_drop_loop_entry_edge config else Val false in
    if drop : bool then Val w
    else
      let '(m, cs, busy) := w in
      let continue_collecting := match t with Action _ _ _ _ _ => false | _ => collect end in
      let! (m, o) := get_epsilon_target m config t continue_collecting (depth =? 0) full treat_eof in
      match o with
      | None => Val (m, cs, busy)
      | Some c =>
          if is_stop p then
            if full then Panics
            else
              let! c := leave_decision_rule t c m in
              if busy_has busy c then Val (m, cs, busy)
              else rec c continue_collecting (depth - 1) (m, set_dips_into_outer_context cs true, c :: busy)
          else
            if negb (is_epsilon t) && busy_has busy c then Val (m, cs, busy)
            else
              let busy := if is_epsilon t then busy else c :: busy in
              let depth := match t with RuleTr _ _ _ _ => if depth >=? 0 then depth + 1 else depth | _ => depth end in
              rec c continue_collecting depth (m, cs, busy)
      end.
  Fixpoint closure_edges (rec : rec_closure) (config : pconfig) (p : atn_state) (collect full : bool) (depth : Z) (treat_eof : bool)
      (first : bool) (l : list transition) (w : cwork) : outcome cwork :=
    match l with
    | [] => Val w
    | t :: l =>
        let! w := closure_edge rec config p collect full depth treat_eof first t w in
        closure_edges rec config p collect full depth treat_eof false l w
    end.
  (** 1045-1145, [closure_work] *)
  Definition closure_work (rec : rec_closure) (config : pconfig) (collect full : bool) (depth : Z) (treat_eof : bool) (w : cwork)
      : outcome cwork :=
    let! p := get_state a (c_state config) in
    let! w := if st_eps_only p then Val w
              else let '(m, cs, busy) := w in
                   let! (m, cs) := add_to m cs config in Val (m, cs, busy) in
    closure_edges rec config p collect full depth treat_eof true (st_trans p) w.

  (** 994-1027: one return state of the context of a configuration at a rule stop state *)
  Fixpoint return_to (rec : rec_closure) (config : pconfig) (x : pctx) (collect : bool) (depth : Z) (l : list nat) (w : cwork)
      : outcome cwork :=
    match l with
    | [] => Val w
    | i :: l =>
        let! r := get_return_state x i in
        if r =? EMPTY_RETURN_STATE then
          if negb (Nat.eqb i (pc_length x - 1)) then Panics
          else return_to rec config x collect depth l w
        else
          let! p := get_parent x i in
          let c := set_reaches (new_with_semantic r (c_alt config) p (c_sem config)) (c_reach config) in
          let! w := rec c collect (depth - 1) w in
          return_to rec config x collect depth l w
    end.

  (** 960-1043, [closure_checking_stop_state] *)
  Fixpoint closure_checking_stop_state (n : nat) (full treat_eof : bool) (config : pconfig) (collect : bool) (depth : Z) (w : cwork)
      : outcome cwork :=
    match n with
    | O => NoFuel
    | Datatypes.S n =>
        let rec := closure_checking_stop_state n full treat_eof in
        let work w := closure_work rec config collect full depth treat_eof w in
        let! s := get_state a (c_state config) in
        if is_stop s then
          let! x := unwrap (c_ctx config) in
          let! e := pc_is_empty x in
          if negb e then
            let! last := match pc_length x with
                         | O => Panics
                         | Datatypes.S i => get_return_state x i
                         end in
            let! w := if last =? EMPTY_RETURN_STATE then
                        if full then
                          let '(m, cs, busy) := w in
                          let! (m, cs) := add_to m cs (pcloned_with_new_ctx config s (Some EMPTY)) in
                          Val (m, cs, busy)
                        else work w
                      else Val w in
            return_to rec config x collect depth (seq 0 (pc_length x)) w
          else if full then
            let '(m, cs, busy) := w in
            let! (m, cs) := add_to m cs config in
            Val (m, cs, busy)
          else work w
        else work w
    end.

  (** 944-958, [closure] *)
  Definition closure (config : pconfig) (collect full treat_eof : bool) (w : cwork) : outcome cwork :=
    let! w := closure_checking_stop_state fuel full treat_eof config collect 0 w in
    let '(_, cs, _) := w in
    if full && dips_into_outer_context cs then Panics else Val w.

  (** ** Start state and reach set *)

  (** 684-717, [compute_start_state] *)
  Fixpoint start_loop (x : pctx) (full : bool) (i : Z) (l : list transition) (m : sim) (cs : pset) : outcome (sim * pset) :=
    match l with
    | [] => Val (m, cs)
    | t :: l =>
        let! target := get_state a (get_target t) in
        let! (m, cs, _) := closure (new_config (st_number target) i (Some x)) true full false (m, cs, []) in
        start_loop x full (i + 1) l m cs
    end.
  Definition compute_start_state (s : Z) (x : pctx) (full : bool) (m : sim) : outcome (sim * pset) :=
    let! st := get_state a s in
    start_loop x full 1 (st_trans st) m (new_base_config_set unit full).

  (** 772-777 *)
  Definition get_reachable_target (t : transition) (ttype : Z) : outcome (option Z) :=
    let! r := matches t ttype 0 (max_token_type a) in
    Val (if r : bool then Some (get_target t) else None).

  (** 559-567 *)
  Fixpoint reach_trans (c : pconfig) (t : Z) (l : list transition) (m : sim) (cs : pset) : outcome (sim * pset) :=
    match l with
    | [] => Val (m, cs)
    | tr :: l =>
        let! o := get_reachable_target tr t in
        let! (m, cs) := match o with
                        | None => Val (m, cs)
                        | Some g => let! target := get_state a g in add_to m cs (pcloned c target)
                        end in
        reach_trans c t l m cs
    end.
  (** 547-568: the configurations after [t], and the ones at rule stop states *)
  Fixpoint reach_step (t : Z) (full : bool) (l : list pconfig) (m : sim) (cs : pset) (skipped : list pconfig)
      : outcome (sim * pset * list pconfig) :=
    match l with
    | [] => Val (m, cs, skipped)
    | c :: l =>
        let! s := get_state a (c_state c) in
        if is_stop s then
          let! x := unwrap (c_ctx c) in
          let! e := pc_is_empty x in
          if negb e then Panics
          else reach_step t full l m cs (if full || (t =? TOKEN_EOF) then skipped ++ [c] else skipped)
        else
          let! (m, cs) := reach_trans c t (st_trans s) m cs in
          reach_step t full l m cs skipped
    end.

  (** 621-639 *)
  Fixpoint has_config_in_rule_stop_state (l : list pconfig) : outcome bool :=
    match l with
    | [] => Val false
    | c :: l => let! s := get_state a (c_state c) in
                if is_stop s then Val true else has_config_in_rule_stop_state l
    end.
  Fixpoint all_configs_in_rule_stop_state (l : list pconfig) : outcome bool :=
    match l with
    | [] => Val true
    | c :: l => let! s := get_state a (c_state c) in
                if is_stop s then all_configs_in_rule_stop_state l else Val false
    end.

  (** 641-682, [remove_all_configs_not_in_rule_stop_state] *)
  Fixpoint remove_loop (look_to_end : bool) (l : list pconfig) (m : sim) (cs : pset) : outcome (sim * pset) :=
    match l with
    | [] => Val (m, cs)
    | c :: l =>
        let! s := get_state a (c_state c) in
        let! (m, cs) :=
          if is_stop s then add_to m cs c
          else if look_to_end && st_eps_only s then
            let! next := next_tokens fuel a s in
            if contains next TOKEN_EPSILON then
              let! e := unwrap (vget (rule_to_stop_state a) (st_rule s)) in
              let! es := get_state a e in
              add_to m cs (pcloned c es)
            else Val (m, cs)
          else Val (m, cs) in
        remove_loop look_to_end l m cs
    end.
  Definition remove_all_configs_not_in_rule_stop_state (cs : pset) (look_to_end : bool) (m : sim) : outcome (sim * pset) :=
    let! all := all_configs_in_rule_stop_state (configs cs) in
    if all : bool then Val (m, cs)
    else remove_loop look_to_end (configs cs) m (new_base_config_set unit (full_ctx cs)).

  (** 580-597 *)
  Fixpoint close_all (full treat_eof : bool) (l : list pconfig) (w : cwork) : outcome cwork :=
    match l with
    | [] => Val w
    | c :: l => let! w := closure c false full treat_eof w in close_all full treat_eof l w
    end.
  (** [for c in l { reach.add_cached(c, ..) }] *)
  Fixpoint add_each (l : list pconfig) (m : sim) (cs : pset) : outcome (sim * pset) :=
    match l with
    | [] => Val (m, cs)
    | c :: l => let! (m, cs) := add_to m cs c in add_each l m cs
    end.

  (** 533-619, [compute_reach_set] *)
  Definition compute_reach_set (from : list pconfig) (t : Z) (full : bool) (m : sim) : outcome (sim * option pset) :=
    let! (m, intermediate, skipped) := reach_step t full from m (new_base_config_set unit full) [] in
    let look_to_end := has_no skipped && negb (t =? TOKEN_EOF) &&
                       (Nat.eqb (length (configs intermediate)) 1 ||
                        negb (get_unique_alt unit (configs intermediate) =? INVALID_ALT)) in
    let! (m, reach) := if look_to_end then Val (m, intermediate)
                       else let! (m, reach, _) := close_all full (t =? TOKEN_EOF) (configs intermediate)
                                                    (m, new_base_config_set unit full, []) in
                            Val (m, reach) in
    let! (m, reach) := if t =? TOKEN_EOF then remove_all_configs_not_in_rule_stop_state reach look_to_end m
                       else Val (m, reach) in
    let! add := if has_no skipped then Val false
                else if negb full then Val true
                else let! h := has_config_in_rule_stop_state (configs reach) in Val (negb h) in
    let! (m, reach) := if add : bool then add_each skipped m reach else Val (m, reach) in
    Val (m, if has_no (configs reach) then None else Some reach).

  (** ** Precedence filter (719-770) *)

  (** [HashMap::insert] on states_from_alt1 *)
  Fixpoint map_insert (mp : list (Z * option pctx)) (k : Z) (v : option pctx) : list (Z * option pctx) :=
    match mp with
    | [] => [(k, v)]
    | (k', v') :: mp => if k' =? k then (k, v) :: mp else (k', v') :: map_insert mp k v
    end.
  Fixpoint map_find (mp : list (Z * option pctx)) (k : Z) : option (option pctx) :=
    match mp with
    | [] => None
    | (k', v') :: mp => if k' =? k then Some v' else map_find mp k
    end.
  (** 729-756 *)
  Fixpoint filter_alt1 (l : list pconfig) (mp : list (Z * option pctx)) (m : sim) (cs : pset)
      : outcome (sim * pset * list (Z * option pctx)) :=
    match l with
    | [] => Val (m, cs, mp)
    | c :: l =>
        if negb (c_alt c =? 1) then filter_alt1 l mp m cs
        else
          let r := eval_precedence precedence order [m_clock m] (c_sem c) in
          let m := tick m in
          match r with
          | None => filter_alt1 l mp m cs
          | Some u =>
              let mp := map_insert mp (c_state c) (c_ctx c) in
              let! (m, cs) := add_to m cs (if negb (sem_eqb u (c_sem c))
                                           then new_with_semantic (c_state c) (c_alt c) (c_ctx c) u else c) in
              filter_alt1 l mp m cs
          end
    end.
  (** 758-768 *)
  Fixpoint filter_others (l : list pconfig) (mp : list (Z * option pctx)) (cs : pset) : outcome pset :=
    match l with
    | [] => Val cs
    | c :: l =>
        if c_alt c =? 1 then filter_others l mp cs
        else if negb (c_pfs c) && match map_find mp (c_state c) with
                                  | Some x => opt_pctx_eqb x (c_ctx c)
                                  | None => false
                                  end
        then filter_others l mp cs
        else let! cs := add_plain cs c in filter_others l mp cs
    end.
  Definition apply_precedence_filter (cs : pset) (m : sim) : outcome (sim * pset) :=
    let! (m, out, mp) := filter_alt1 (configs cs) [] m (new_base_config_set unit (full_ctx cs)) in
    let! out := filter_others (configs cs) mp out in
    Val (m, out).

  (** ** Predicates of a decided DFA state *)

  (** 779-797: [alt_to_pred], as the list of its entries, index 0 first *)
  Fixpoint collect_preds (ambig : list Z) (l : list pconfig) (m : sim) (v : list (option sem)) : outcome (sim * list (option sem)) :=
    match l with
    | [] => Val (m, v)
    | c :: l =>
        if existsb (Z.eqb (c_alt c)) ambig then
          let! old := unwrap (vget v (c_alt c)) in
          let! v := unwrap (vset v (c_alt c) (Some (sem_or order [m_clock m] old (Some (c_sem c))))) in
          collect_preds ambig l (tick m) v
        else collect_preds ambig l m v
    end.
  (** 779-815, [get_preds_for_ambig_alts] *)
  Definition get_preds_for_ambig_alts (ambig : list Z) (cs : list pconfig) (nalts : nat) (m : sim) : outcome (sim * option (list sem)) :=
    let! (m, v) := collect_preds ambig cs m (repeat None (Datatypes.S nalts)) in
    let v := map (fun o => match o with Some s => s | None => NONE end) v in
    Val (m, if forallb (fun s => sem_eqb s NONE) v then None else Some v).

  (** 817-840, [get_predicate_predictions] *)
  Fixpoint pair_preds (ambig : list Z) (i : Z) (l : list sem) : list (Z * sem) :=
    match l with
    | [] => []
    | p :: l => if existsb (Z.eqb i) ambig then (i, p) :: pair_preds ambig (i + 1) l else pair_preds ambig (i + 1) l
    end.
  Definition get_predicate_predictions (ambig : list Z) (alt_to_pred : list sem) : list (Z * sem) :=
    let l := skipn 1 alt_to_pred in
    if forallb (fun s => sem_eqb s NONE) l then [] else pair_preds ambig 1 l.

  (** 905-932, [eval_semantic_context] with [complete = true], as it is always called *)
  Fixpoint eval_semantic_context (m : sim) (preds : list (Z * sem)) (acc : list Z) : sim * list Z :=
    match preds with
    | [] => (m, acc)
    | (alt, p) :: l =>
        if sem_eqb p NONE then eval_semantic_context m l (bs_insert alt acc)
        else
          let '(m, r) := eval_predicate m p in
          eval_semantic_context m l (if r : bool then bs_insert alt acc else acc)
    end.

  (** 436-457, [predicate_dfa_state] *)
  Definition predicate_dfa_state (st : pstate) (nalts : nat) (m : sim) : outcome (sim * pstate) :=
    let alts := get_conflicting_alts_or_unique_alt unit (d_configs st) in
    let! (m, o) := get_preds_for_ambig_alts alts (configs (d_configs st)) nalts m in
    Val (m, match o with
            | Some v => DState unit unit (d_number st) (d_configs st) (d_edges st) (d_accept st) INVALID_ALT (d_exec st) (d_full st)
                          (get_predicate_predictions alts v)
            | None => DState unit unit (d_number st) (d_configs st) (d_edges st) (d_accept st)
                        (match alts with x :: _ => x | [] => 0 end) (d_exec st) (d_full st) (d_preds st)
            end).

  (** 865-887, [split_according_to_semantic_validity] *)
  Fixpoint split_validity (l : list pconfig) (m : sim) (ok bad : pset) : outcome (sim * pset * pset) :=
    match l with
    | [] => Val (m, ok, bad)
    | c :: l =>
        if negb (sem_eqb (c_sem c) NONE) then
          let '(m, r) := eval_predicate m (c_sem c) in
          if r : bool then let! ok := add_plain ok c in split_validity l m ok bad
          else let! bad := add_plain bad c in split_validity l m ok bad
        else let! ok := add_plain ok c in split_validity l m ok bad
    end.
  (** 889-903, [get_alt_that_finished_decision_entry_rule] *)
  Fixpoint finished_alts (l : list pconfig) (alts : interval_set) : outcome interval_set :=
    match l with
    | [] => Val alts
    | c :: l =>
        let! e := match c_ctx c with Some x => has_empty_path x | None => Val false end in
        let! s := get_state a (c_state c) in
        finished_alts l (if (c_reach c >? 0) || (is_stop s && e) then add_one alts (c_alt c) else alts)
    end.
  Definition get_alt_that_finished_decision_entry_rule (cs : pset) : outcome Z :=
    let! alts := finished_alts (configs cs) is_new in
    Val (match get_min alts with Some x => x | None => INVALID_ALT end).
  (** 842-863 *)
  Definition get_syn_valid_or_sem_invalid_alt (cs : pset) (m : sim) : outcome (sim * Z) :=
    let! (m, ok, bad) := split_validity (configs cs) m (new_base_config_set unit (full_ctx cs)) (new_base_config_set unit (full_ctx cs)) in
    let! alt := get_alt_that_finished_decision_entry_rule ok in
    if negb (alt =? INVALID_ALT) then Val (m, alt)
    else if has_no (configs bad) then Val (m, INVALID_ALT)
    else let! alt := get_alt_that_finished_decision_entry_rule bad in Val (m, alt).

  (** ** The DFA *)
  Definition add_state (m : sim) (st : pstate) : outcome (sim * Z) :=
    let! (d, r) := p_add_dfastate unit unit_eqb unit dhash share (m_dfa m) st in Val (with_dfa m d, r).
  Definition add_edge (m : sim) (from t to : Z) : outcome sim :=
    let! d := p_dfa_add_edge unit unit (max_token_type a) (m_dfa m) from t to in Val (with_dfa m d).
  Definition dfa_get (m : sim) (i : Z) : outcome pstate := unwrap (vget (dfa_states (m_dfa m)) i).
  (** 361-373 *)
  Definition get_existing_target_state (m : sim) (previous t : Z) : outcome (option Z) :=
    let! st := dfa_get m previous in Val (p_get_edge (d_edges st) t).

  (** 400-419: the new state for a reach set *)
  Definition decide_state (reach : pset) : outcome pstate :=
    let st := new_dfastate unit unit 0 reach in
    let predicted := get_unique_alt unit (configs reach) in
    if negb (predicted =? INVALID_ALT) then
      Val (DState unit unit 0 (set_unique_alt reach predicted) [] true predicted None false [])
    else
      let! all := all_configs_in_rule_stop_state (configs reach) in
      let! conflict := if all : bool then Val true
                       else has_sll_conflict_terminating_prediction unit unit_eqb hash alt_order tt mode reach in
      if conflict : bool then
        let! alts := get_conflicting_alts unit alt_order (configs reach) in
        let! first := unwrap (hd_error alts) in
        Val (DState unit unit 0 (set_conflicting_alts reach alts) [] true first None true [])
      else Val st.

  (** 375-434, [compute_target_state] *)
  Definition compute_target_state (previous t : Z) (m : sim) : outcome (sim * Z) :=
    let! prev := dfa_get m previous in
    let! (m, reach) := compute_reach_set (configs (d_configs prev)) t false m in
    match reach with
    | None => let! m := add_edge m previous t ERROR_DFA_STATE_REF in Val (m, ERROR_DFA_STATE_REF)
    | Some reach =>
        let! st := decide_state reach in
        let! (m, st) :=
          if d_accept st && has_semantic_context (d_configs st) then
            let! ds := unwrap (vget (decision_to_state a) decision) in
            let! s := get_state a ds in
            let! (m, st) := predicate_dfa_state st (length (st_trans s)) m in
            Val (m, if has_no (d_preds st) then st
                    else DState unit unit (d_number st) (d_configs st) (d_edges st) (d_accept st) INVALID_ALT (d_exec st) (d_full st) (d_preds st))
          else Val (m, st) in
        let! (m, r) := add_state m st in
        let! m := add_edge m previous t r in
        Val (m, r)
    end.

  Definition is_sll (x : pmode) : bool := match x with SLL => true | _ => false end.
  Definition is_exact (x : pmode) : bool := match x with LL_EXACT_AMBIG_DETECTION => true | _ => false end.

  (** ** Full-context prediction (459-531) *)

  (** 520-530: what ends the loop *)
  Definition finish_full (m : sim) (prev : pset) (predicted : Z) (exact : bool) : sim * presult :=
    if negb (unique_alt prev =? INVALID_ALT) then
      (with_report m (ContextSensitivity start_index (index m) predicted), Predicted predicted)
    else (with_report m (Ambiguity start_index (index m) exact (set_get_alts unit (configs prev))), Predicted predicted).

  Fixpoint full_loop (n : nat) (prev : pset) (t : Z) (m : sim) : outcome (sim * presult) :=
    match n with
    | O => NoFuel
    | Datatypes.S n =>
        let! (m, reach) := compute_reach_set (configs prev) t true m in
        match reach with
        | None =>
            let! m := sim_seek m start_index in
            let! (m, alt) := get_syn_valid_or_sem_invalid_alt prev m in
            if negb (alt =? INVALID_ALT) then Val (m, Predicted alt) else no_viable_alt m
        | Some prev =>
            let! subsets := get_conflicting_alt_subsets unit alt_order (configs prev) in
            let prev := set_unique_alt prev (get_unique_alt unit (configs prev)) in
            if negb (unique_alt prev =? INVALID_ALT) then Val (finish_full m prev (unique_alt prev) false)
            else
              let! predicted :=
                if negb (is_exact mode) then get_single_viable_alt subsets
                else if all_subsets_conflict subsets && all_subsets_equal subsets then get_single_viable_alt subsets
                else Val INVALID_ALT in
              let stop := if negb (is_exact mode) then negb (predicted =? INVALID_ALT)
                          else all_subsets_conflict subsets && all_subsets_equal subsets in
              if stop then Val (finish_full m prev predicted (is_exact mode))
              else
                let! (m, t) := if negb (t =? TOKEN_EOF) then let! m := sim_consume m in sim_la m 1 else Val (m, t) in
                full_loop n prev t m
        end
    end.
  Definition exec_atn_with_full_context (s0 : pset) (m : sim) : outcome (sim * presult) :=
    let! m := sim_seek m start_index in
    let! (m, t) := sim_la m 1 in
    full_loop fuel s0 t m.

  (** ** SLL prediction with the DFA (239-359) *)

  (** 265-283: no edge *)
  Definition on_error (previous : Z) (m : sim) : outcome (sim * presult) :=
    let! prev := dfa_get m previous in
    let! (m, err) := no_viable_alt m in
    let! m := sim_seek m start_index in
    let! (m, alt) := get_syn_valid_or_sem_invalid_alt (d_configs prev) m in
    Val (m, if negb (alt =? INVALID_ALT) then Predicted alt else err).

  (** 286-327: the conflict needs the whole stack *)
  Definition on_conflict (st : pstate) (m : sim) : outcome (sim * presult) :=
    let! (m, r) :=
      match d_preds st with
      | [] => Val (m, inr (conflicting_alts (d_configs st)))
      | _ :: _ =>
          let conflict_index := index m in
          let! m := if negb (conflict_index =? start_index) then sim_seek m start_index else Val m in
          let '(m, alts) := eval_semantic_context m (d_preds st) [] in
          match alts with
          | [x] => Val (m, inl x)
          | _ => let! m := if negb (conflict_index =? start_index) then sim_seek m conflict_index else Val m in
                 Val (m, inr alts)
          end
      end in
    match r with
    | inl x => Val (m, Predicted x)
    | inr alts =>
        let m := with_report m (AttemptingFullContext start_index (index m) alts) in
        let! x := from_rule_context (follow_state a) outer_stack in
        let! (m, s0) := compute_start_state atn_start_state x true m in
        exec_atn_with_full_context s0 m
    end.

  (** 329-348: an accept state *)
  Definition on_accept (st : pstate) (m : sim) : outcome (sim * presult) :=
    match d_preds st with
    | [] => Val (m, Predicted (d_prediction st))
    | _ :: _ =>
        let stop_index := index m in
        let! m := sim_seek m start_index in
        let '(m, alts) := eval_semantic_context m (d_preds st) [] in
        match alts with
        | [] => no_viable_alt m
        | [x] => Val (m, Predicted x)
        | x :: _ => Val (with_report m (Ambiguity start_index stop_index false alts), Predicted x)
        end
    end.

  Fixpoint exec_loop (n : nat) (previous token : Z) (m : sim) : outcome (sim * presult) :=
    match n with
    | O => NoFuel
    | Datatypes.S n =>
        let! known := get_existing_target_state m previous token in
        let! (m, d) := match known with
                       | Some d => Val (m, d)
                       | None => compute_target_state previous token m
                       end in
        if d =? ERROR_DFA_STATE_REF then on_error previous m
        else
          let! st := dfa_get m d in
          if d_full st && negb (is_sll mode) then on_conflict st m
          else if d_accept st then on_accept st m
          else
            let! (m, token) := if negb (token =? TOKEN_EOF) then let! m := sim_consume m in sim_la m 1
                               else Val (m, token) in
            exec_loop n d token m
    end.
  (** 239-359, [exec_atn] *)
  Definition exec_atn (s0 : Z) (m : sim) : outcome (sim * presult) :=
    let! (m, token) := sim_la m 1 in
    exec_loop fuel s0 token m.

  (** 191-227: the start state of the DFA, made if it is missing *)
  Definition set_dfa_s0 (d : pdfa) (i : Z) : pdfa := Dfa unit unit (dfa_states d) (states_map d) (Some i) (is_precedence_dfa d).
  Definition set_configs_of (d : pdfa) (i : Z) (cs : pset) : outcome pdfa :=
    let! st := unwrap (vget (dfa_states d) i) in
    let st := DState unit unit (d_number st) cs (d_edges st) (d_accept st) (d_prediction st) (d_exec st) (d_full st) (d_preds st) in
    let! l := unwrap (vset (dfa_states d) i st) in
    Val (with_states unit unit d l).
  Definition make_start (m : sim) : outcome (sim * Z) :=
    let! (m, s0_closure) := compute_start_state atn_start_state EMPTY false m in
    if is_precedence_dfa (m_dfa m) then
      let! first := unwrap (s0 (m_dfa m)) in
      let! (m, filtered) := apply_precedence_filter s0_closure m in
      let! d := set_configs_of (m_dfa m) first s0_closure in
      let! (m, r) := add_state (with_dfa m d) (new_dfastate unit unit 0 filtered) in
      let! d := set_precedence_start_state unit unit (m_dfa m) precedence r in
      Val (with_dfa m d, r)
    else
      let! (m, r) := add_state m (new_dfastate unit unit 0 s0_closure) in
      Val (with_dfa m (set_dfa_s0 (m_dfa m) r), r).
  Definition start_state (m : sim) : outcome (sim * Z) :=
    let! known := if is_precedence_dfa (m_dfa m) then get_precedence_start_state unit unit (m_dfa m) precedence
                  else Val (s0 (m_dfa m)) in
    match known with
    | Some r => Val (m, r)
    | None => make_start m
    end.
End Predict.

(** ** 160-237, [adaptive_predict] *)
Section Adaptive.
  Context {S : Type}.
  Variable ts : seek_ops S.
  Variable a : atn.
  Variable ctx : Type.
  Variable sempred : S -> option ctx -> Z -> Z -> bool.
  Variable order : list nat -> list sem -> list sem.
  Variable alt_order : list (list Z) -> list (list Z).
  Variable hash : pctx -> Z.
  Variable dhash : list pconfig -> Z.
  Variable share : pctx -> pctx.
  Variable fuel : nat.
  Variable mode : pmode.

  (** The parser's part: stream, precedence and contexts; the simulator's part: the
      DFA of the decision.  The last component of the result tells what was
      evaluated and reported. *)
  Definition adaptive_predict (precedence : Z) (outer : ctx) (outer_stack : list Z) (decision : Z) (atn_start_state : Z)
      (d : pdfa) (input : S) (clock : nat) : outcome (sim S * presult) :=
    let start_index := s_index (k_base ts) input in
    let '(input, mk) := k_mark ts input in
    let m := Sim input d [] clock [] [] in
    let! (m, s0) := start_state ts a ctx sempred order hash dhash share fuel start_index precedence outer atn_start_state m in
    let! (m, r) := exec_atn ts a ctx sempred order alt_order hash dhash share fuel mode start_index precedence outer outer_stack
                     decision atn_start_state s0 m in
    match r with
    | NoViableAlt _ _ => Val (m, r)
    | Predicted alt =>
        let! m := sim_seek ts m start_index in
        let! input := k_release ts (m_input m) mk in
        Val (with_sim_input m input, Predicted alt)
    end.
End Adaptive.
