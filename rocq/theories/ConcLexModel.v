(** Model of lexers that share the DFAs of their modes with those of other threads
    (lexer_atn_simulator.rs 78-107, 188-317, 373-406; lexer.rs 316-389): the pieces of
    LexerModel, with each access to the DFA going to the shared one.

    Simplifications, besides those of LexerModel and ConcModel: when a change of the DFA
    panics half-way, the model leaves the DFA as it was; semantic predicates, which are
    evaluated with the guard held too, are functions (no lexing in them). *)
From Coq Require Import ZArith List Bool.
From Verif Require Import Outcome CharStreamModel IntervalSetModel PredContextModel SemContextModel ConfigSetModel DfaModel AtnModel LexerModel ConcModel.
From Verif Require FactoryModel.
Import ListNotations.
Local Open Scope Z_scope.
Local Open Scope outcome_scope.

(** actions that run code of the user (lexer_action.rs 45-64) *)
Fixpoint runs_code (x : lexer_action) : bool :=
  match x with LexerCustomAction _ _ => true | LexerIndexedCustomAction _ x => runs_code x | _ => false end.
Definition custom (e : executor) : bool := existsb runs_code (ex_actions e).

Section LexThreads.
  Variable D : input_data.
  Variable U : Type.
  Variable a : atn.
  Variable action : Z -> Z -> lexer U -> lexer U.
  Variable sempred : Z -> Z -> lexer U -> bool * lexer U.
  Variable before_emit : lexer U -> lexer U.
  Variable ctx_hash : pctx -> Z.
  Variable actions_hash : list lexer_action -> Z.
  Variable configs_hash : list (config hashed) -> Z.
  Notation lexer := (lexer U).

  (** what [match_token] answers: the result, and the simulator's [prev_accept] and the lexer as they are then *)
  Definition lanswer : Type := outcome (match_result * sim_state * lexer).
  (** what a thread comes to: tokens, and the lexer as it is then *)
  Definition lvalue : Type := outcome (list FactoryModel.token * lexer).
  Definition ljob : Type := job ldfa lanswer lvalue.
  Definition lthread : Type := thread ldfa lanswer lvalue.
  (** what the actions of an executor do, with the guard held, when some of them run code
      of the user: from where the token starts, on the lexer; gives the lexer *)
  Variable code : executor -> Z -> lexer -> lthread.

  (** a panic unwinds through the match; the guard is dropped *)
  Definition give {A} (o : outcome A) (k : A -> ljob) : ljob :=
    match o with Val x => k x | Panics => Answer Panics | NoFuel => Answer NoFuel end.
  (** a change of the DFA, under the write guard, with what it gives besides *)
  Definition grow (w : ldfa -> outcome (ldfa * Z)) (k : Z -> ljob) : ljob :=
    Grow (fun d => match w d with Val (d, _) => d | _ => d end) (fun d => give (w d) (fun x => k (snd x))).

  (** lexer_atn_simulator.rs 373-406 *)
  Definition fail_job (start_index t : Z) (p : sim_state) (l : lexer) : ljob :=
    match sa_state p with
    | Some s =>
        Peek (fun d => give (unwrap (vget (dfa_states d) s)) (fun st =>
          let l := accept U p l in
          match d_exec st with
          | Some e =>
              if custom e then Callback (code e start_index l) (fun v => give v (fun x => Answer (Val (inl (d_prediction st), p, snd x))))
              else Answer (Val (inl (d_prediction st), p, execute U action e l start_index))
          | None => Answer (Val (inl (d_prediction st), p, l))
          end))
    | None =>
        Answer (Val (if (t =? EOF) && (is_index (lx_input U l) =? start_index) then inl TOKEN_EOF else inr (LexerNoAltError start_index), p, l))
    end.

  (** lexer_atn_simulator.rs 296-316: under the write guard *)
  Definition target_write (s t : Z) (reach : lset) (d : ldfa) : outcome (ldfa * Z) :=
    match configs reach with
    | [] =>
        let! d := if negb (has_semantic_context reach) then l_dfa_add_edge d s t ERROR_DFA_STATE_REF else Val d in
        Val (d, ERROR_DFA_STATE_REF)
    | _ :: _ =>
        let! (d, to) := l_add_dfastate a configs_hash d (set_has_semantic_context reach false) in
        let! d := if negb (has_semantic_context reach) then l_dfa_add_edge d s t to else Val d in
        Val (d, to)
    end.
  (** lexer_atn_simulator.rs 233-260, one round *)
  Definition round_job (rec : Z -> Z -> sim_state -> lexer -> ljob) (start_index symbol : Z) (p : sim_state) (l : lexer) (target : Z) : ljob :=
    if target =? ERROR_DFA_STATE_REF then fail_job start_index symbol p l
    else
      give (if symbol =? EOF then Val l else sim_consume D U l) (fun l =>
        Peek (fun d => give (capture_sim_state U d l target p) (fun '(captured, p) =>
          if captured && (symbol =? EOF) then fail_job start_index symbol p l
          else give (lift (la D (lx_input U l) 1)) (fun symbol => rec target symbol p l)))).
  Fixpoint exec_job (fuel n : nat) (start_index s symbol : Z) (p : sim_state) (l : lexer) : ljob :=
    match n with
    | O => Answer NoFuel
    | S n =>
        Peek (fun d => give (get_existing_target_state d s symbol) (fun existing =>
          match existing with
          | Some t => round_job (exec_job fuel n start_index) start_index symbol p l t
          | None =>
              (* 280-295: the configurations are read through the upgradable guard *)
              give (unwrap (vget (dfa_states d) s)) (fun st =>
                give (get_reachable_config_set D U a sempred ctx_hash actions_hash fuel start_index (configs (d_configs st)) symbol l) (fun '(reach, l) =>
                  grow (target_write s symbol reach) (round_job (exec_job fuel n start_index) start_index symbol p l)))
          end))
    end.
  (** lexer_atn_simulator.rs 220-232 *)
  Definition enter_job (fuel : nat) (start_index ds0 : Z) (p : sim_state) (l : lexer) : ljob :=
    Peek (fun d => give (capture_sim_state U d l ds0 p) (fun '(_, p) =>
      give (lift (la D (lx_input U l) 1)) (fun symbol => exec_job fuel fuel start_index ds0 symbol p l))).
  (** lexer_atn_simulator.rs 205-212: under the write guard *)
  Definition start_write (s0_closure : lset) (d : ldfa) : outcome (ldfa * Z) :=
    let! (d, next_state) := l_add_dfastate a configs_hash d (set_has_semantic_context s0_closure false) in
    Val (if has_semantic_context s0_closure then d
         else Dfa lexer_type executor (dfa_states d) (states_map d) (Some next_state) (is_precedence_dfa d), next_state).
  (** lexer_atn_simulator.rs 94-101, 188-218, from the point where the guard is taken *)
  Definition match_job (fuel : nat) (mode : Z) (l : lexer) (p : sim_state) : ljob :=
    let start_index := is_index (lx_input U l) in
    let p := sim_reset p in
    Peek (fun d =>
      match s0 d with
      | Some q => enter_job fuel start_index q p l
      | None =>
          match vget (mode_to_start_state a) mode with
          | None => Answer (Val (inr IllegalStateError, p, l))
          | Some start_state =>
              give (state_of a start_state) (fun st =>
                give (compute_start_state D U a sempred ctx_hash actions_hash fuel st l) (fun '(s0_closure, l) =>
                  grow (start_write s0_closure) (fun next_state => enter_job fuel start_index next_state p l)))
          end
      end).

  (** ** Threads that lex *)
  (** a panic ends the thread *)
  Definition live {A} (o : outcome A) (k : A -> lthread) : lthread :=
    match o with Val x => k x | Panics => Stop Panics | NoFuel => Stop NoFuel end.
  (** lexer_atn_simulator.rs 78-107; there is one DFA per mode (generated code) *)
  Definition match_thread (fuel : nat) (mode : Z) (l : lexer) (p : sim_state) (k : match_result * sim_state * lexer -> lthread) : lthread :=
    match vget (mode_to_start_state a) mode with
    | None => k (inr IllegalStateError, sim_reset p, l)
    | Some _ => Predict (Z.to_nat mode) (match_job fuel mode l p) (fun o => live o k)
    end.
  (** lexer.rs 346-380 *)
  Fixpoint inner_thread (fuel n : nat) (l : lexer) (p : sim_state) (k : bool -> lexer -> sim_state -> lthread) : lthread :=
    match n with
    | O => Stop NoFuel
    | S n =>
        let from := is_index (lx_input U l) in
        let l := with_type U l TOKEN_INVALID_TYPE in
        match_thread fuel (lx_mode U l) l p (fun '(r, p, l) =>
          live (match r with
                | inl t => Val (t, l)
                | inr _ => let! l := notify_listeners D U l in let! l := recover D U l in Val (LEXER_SKIP, l)
                end) (fun '(ttype, l) =>
            live (lift (la D (lx_input U l) 1)) (fun c =>
              let l := if c =? EOF then with_hit_eof U l else l in
              let l := if lx_type U l =? TOKEN_INVALID_TYPE then with_type U l ttype else l in
              let l := with_log U l (lx_log U l ++ [Matched from (is_index (lx_input U l)) (lx_type U l)
                         (match r with inl _ => false | inr _ => true end)]) in
              if lx_type U l =? LEXER_SKIP then k false l p
              else if lx_type U l =? LEXER_MORE then inner_thread fuel n l p k
              else k true l p)))
    end.
  (** lexer.rs 325-389 *)
  Fixpoint outer_thread (fuel n : nat) (l : lexer) (p : sim_state) (k : lexer -> sim_state -> lthread) : lthread :=
    match n with
    | O => Stop NoFuel
    | S n =>
        if lx_hit_eof U l then live (emit_eof D U l) (fun l => k l p)
        else
          inner_thread fuel fuel (start_token U l) p (fun broke l p =>
            if negb broke then outer_thread fuel n l p k
            else match lx_token U l with
                 | None => live (emit D U before_emit l) (fun l => k l p)
                 | Some _ => outer_thread fuel n l p k
                 end)
    end.
  (** [n] calls of [next_token] *)
  Fixpoint tokens_thread (fuel n : nat) (l : lexer) (p : sim_state) (k : list FactoryModel.token -> lexer -> sim_state -> lthread) : lthread :=
    match n with
    | O => k [] l p
    | S n =>
        outer_thread fuel fuel l p (fun l p =>
          live (unwrap (lx_token U l)) (fun t =>
            tokens_thread fuel n (with_token U l None) p (fun ts => k (t :: ts))))
    end.
  (** a thread that makes a lexer and calls [next_token] [n] times *)
  Definition lexer_thread (fuel n : nat) (input : istream) (u : U) : lthread :=
    tokens_thread fuel n (new_base_lexer U input u) (sm_prev_accept (new_sim a)) (fun ts l _ => Stop (Val (ts, l))).
  (** generated code: fresh DFAs, one per mode *)
  Definition new_dfas (_ : nat) : ldfa := dfa_new lexer_type executor false.
End LexThreads.
