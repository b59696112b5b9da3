(** Model of /repo/src/transition.rs, /repo/src/atn_state.rs and the data of
    /repo/src/atn.rs, shared by the deserializer, lookahead and simulator models.

    Simplifications, valid for the whole file: [isize]/[usize] are [Z]; the memo
    cell [next_tokens_within_rule] of a state is not modelled (it only caches the
    result of a function of the immutable ATN, atn.rs 124-139). *)
From Coq Require Import ZArith List Bool.
From Verif Require Import Outcome IntervalSetModel SemContextModel.
Import ListNotations.
Local Open Scope Z_scope.
Local Open Scope outcome_scope.

(** transition.rs 79-368: the ten transition structs *)
Inductive transition : Type :=
| Atom (target label : Z)
| RuleTr (target follow_state rule_index precedence : Z)
| Epsilon (target outermost_precedence_return : Z)
| Range (target start stop : Z)
| Action (target : Z) (is_ctx_dependent : bool) (rule_index action_index pred_index : Z)
| SetTr (target : Z) (set : interval_set)
| NotSet (target : Z) (set : interval_set)
| Wildcard (target : Z)
| PredicateTr (target : Z) (is_ctx_dependent : bool) (rule_index pred_index : Z)
| PrecedenceTr (target precedence : Z).

(** transition.rs, [get_target] of each struct *)
Definition get_target (t : transition) : Z :=
  match t with
  | Atom g _ | RuleTr g _ _ _ | Epsilon g _ | Range g _ _ | Action g _ _ _ _ | SetTr g _
  | NotSet g _ | Wildcard g | PredicateTr g _ _ _ | PrecedenceTr g _ => g
  end.

(** transition.rs 54-56 (default), 125-127, 153-155, 208-210, 323-325, 357-359 *)
Definition is_epsilon (t : transition) : bool :=
  match t with
  | RuleTr _ _ _ _ | Epsilon _ _ | Action _ _ _ _ _ | PredicateTr _ _ _ _ | PrecedenceTr _ _ => true
  | Atom _ _ | Range _ _ _ | SetTr _ _ | NotSet _ _ | Wildcard _ => false
  end.

(** transition.rs 57-59 (default), 95-99, 181-185, 233-235, 260-262 *)
Definition get_label (t : transition) : option interval_set :=
  match t with
  | Atom _ l => Some (add_one is_new l)
  | Range _ a b => Some (add_range is_new a b)
  | SetTr _ s | NotSet _ s => Some s
  | _ => None
  end.

(** transition.rs 105-107, 133-135, 161-163, 191-193, 216-218, 241-243, 268-270,
    300-302 (strict comparisons, as written), 331-333, 365-367 *)
Definition matches (t : transition) (symbol min_vocab_symbol max_vocab_symbol : Z) : outcome bool :=
  match t with
  | Atom _ l => Val (symbol =? l)
  | RuleTr _ _ _ _ => Panics
  | Epsilon _ _ => Val false
  | Range _ a b => Val ((symbol >=? a) && (symbol <=? b))
  | Action _ _ _ _ _ => Val false
  | SetTr _ s => Val (contains s symbol)
  | NotSet _ s => Val ((symbol >=? min_vocab_symbol) && (symbol <=? max_vocab_symbol) && negb (contains s symbol))
  | Wildcard _ => Val ((symbol <? max_vocab_symbol) && (symbol >? min_vocab_symbol))
  | PredicateTr _ _ _ _ => Val false
  | PrecedenceTr _ _ => Val false
  end.

(** transition.rs 62-64 (default), 335-341, 369-371 *)
Definition get_predicate (t : transition) : option sem :=
  match t with
  | PredicateTr _ d r p => Some (Predicate r p d)
  | PrecedenceTr _ n => Some (Precedence n)
  | _ => None
  end.

(** lexer.rs 186-187 *)
Definition LEXER_MIN_CHAR_VALUE : Z := 0.
Definition LEXER_MAX_CHAR_VALUE : Z := 1114111.

(** transition.rs 65-71 *)
Definition get_reachable_target (t : transition) (symbol : Z) : outcome (option Z) :=
  let! m := matches t symbol LEXER_MIN_CHAR_VALUE LEXER_MAX_CHAR_VALUE in
  Val (if m then Some (get_target t) else None).

(** interval_set.rs 93-98, derived [PartialEq] *)
Fixpoint ivs_eqb (x y : list interval) : bool :=
  match x, y with
  | [], [] => true
  | a :: x', b :: y' => iv_eqb a b && ivs_eqb x' y'
  | _, _ => false
  end.
Definition is_eqb (s t : interval_set) : bool :=
  ivs_eqb (intervals s) (intervals t) && Bool.eqb (read_only s) (read_only t).

(** atn_state.rs 60-65 *)
Inductive block_start : Type := BasicBlockStart | StarBlockStart | PlusBlockStart (loop_back : Z).
(** atn_state.rs 46-58 *)
Inductive decision_state : Type :=
| StarLoopEntry (loop_back_state : Z) (is_precedence : bool)
| TokenStartState
| PlusLoopBack
| BlockStartState (end_state : Z) (en : block_start).
(** atn_state.rs 26-44 *)
Inductive state_type : Type :=
| RuleStartState (stop_state : Z) (is_left_recursive : bool)
| RuleStopState
| BlockEndState (s : Z)
| LoopEndState (s : Z)
| StarLoopbackState
| BasicState
| DecisionState (decision : Z) (nongreedy : bool) (state : decision_state)
| InvalidState.

(** atn_state.rs 91-107 *)
Record atn_state : Type := AState {
  st_rule : Z;             (* rule_index *)
  st_number : Z;           (* state_number *)
  st_type_id : Z;          (* state_type_id *)
  st_type : state_type;
  st_trans : list transition;
  st_eps_only : bool       (* epsilon_only_transitions *)
}.

(** atn_state.rs 109-121 *)
Definition new_base_atnstate : atn_state := AState 0 0 0 InvalidState [] false.

(** atn_state.rs 174-189: is the transition already there? *)
Definition same_transition (existing trans : transition) : bool :=
  (get_target existing =? get_target trans) &&
  (match get_label existing, get_label trans with
   | Some a, Some b => is_eqb a b
   | _, _ => false
   end || (is_epsilon existing && is_epsilon trans)).

(** atn_state.rs 167-193 *)
Definition add_transition (s : atn_state) (t : transition) : atn_state :=
  let flag := match st_trans s with
              | [] => is_epsilon t
              | _ :: _ => st_eps_only s && is_epsilon t
              end in
  let ts := if existsb (fun e => same_transition e t) (st_trans s) then st_trans s else st_trans s ++ [t] in
  AState (st_rule s) (st_number s) (st_type_id s) (st_type s) ts flag.

(** lexer_action.rs 13-32 *)
Inductive lexer_action : Type :=
| LexerChannelAction (channel : Z)
| LexerCustomAction (rule_index action_index : Z)
| LexerModeAction (mode : Z)
| LexerMoreAction
| LexerPopModeAction
| LexerPushModeAction (mode : Z)
| LexerSkipAction
| LexerTypeAction (type : Z)
| LexerIndexedCustomAction (offset : Z) (action : lexer_action).

(** atn_type.rs *)
Inductive atn_type : Type := LEXER | PARSER.

(** atn.rs 22-47; [rule_to_stop_state] is a field of the struct, the memo and
    [decision_to_dfa] are not part of it *)
Record atn : Type := Atn {
  decision_to_state : list Z;
  grammar_type : atn_type;
  lexer_actions : list lexer_action;
  max_token_type : Z;
  mode_to_start_state : list Z;
  rule_to_start_state : list Z;
  rule_to_stop_state : list Z;
  rule_to_token_type : list Z;
  states : list atn_state
}.
