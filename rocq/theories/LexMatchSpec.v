(** Specification vocabulary for C33, C34, C35 and C37: what a lexer rule matches. *)
From Coq Require Import ZArith List Bool.
From Verif Require Import IntervalSetSpec AtnModel AtnSpec Ll1Spec DfaModel ConfigSetModel LexerModel.
Import ListNotations.
Local Open Scope Z_scope.

(** the [i]-th element *)
Definition item {A} (l : list A) (i : Z) : option A := if i <? 0 then None else nth_error l (Z.to_nat i).

(** ** What a rule matches.  A position (Ll1Spec) is a state and the stack of the states at which the
    rules in progress continue.  A quiet step consumes nothing; the action it passes counts only
    outside every called rule (this is how ANTLR defines it: actions of fragment rules are ignored). *)
Inductive quiet_step (a : atn) : position -> list lexer_action -> position -> Prop :=
| step_epsilon : forall i st s g n, state_at a i = Some s -> ~ is_stop s -> In (Epsilon g n) (st_trans s) ->
    quiet_step a (i, st) [] (g, st)
| step_call : forall i st s g f r p, state_at a i = Some s -> ~ is_stop s -> In (RuleTr g f r p) (st_trans s) ->
    quiet_step a (i, st) [] (g, f :: st)
| step_return : forall i f st s, state_at a i = Some s -> is_stop s -> quiet_step a (i, f :: st) [] (f, st)
| step_action : forall i s g d r k p x, state_at a i = Some s -> ~ is_stop s -> In (Action g d r k p) (st_trans s) ->
    item (lexer_actions a) k = Some x -> quiet_step a (i, []) [x] (g, [])
| step_inner_action : forall i f st s g d r k p, state_at a i = Some s -> ~ is_stop s -> In (Action g d r k p) (st_trans s) ->
    quiet_step a (i, f :: st) [] (g, f :: st).
(** consuming the character [c] *)
Inductive char_step (a : atn) : position -> Z -> position -> Prop :=
| step_char : forall i st s t c, state_at a i = Some s -> ~ is_stop s -> In t (st_trans s) -> symbols t 0 1114111 c ->
    char_step a (i, st) c (get_target t, st).
(** [run a p text actions q]: going from [p] to [q] consumes [text] and passes [actions] *)
Inductive run (a : atn) (p : position) : list Z -> list lexer_action -> position -> Prop :=
| run_start : run a p [] [] p
| run_quiet : forall w xs q ys r, run a p w xs q -> quiet_step a q ys r -> run a p w (xs ++ ys) r
| run_char : forall w xs q c r, run a p w xs q -> char_step a q c r -> run a p (w ++ [c]) xs r.

(** the [k]-th rule of a mode, in the order of declaration, begins at state [q] *)
Definition rule_begins (a : atn) (mode : Z) (k : nat) (q : Z) : Prop :=
  exists m s t, item (mode_to_start_state a) mode = Some m /\ state_at a m = Some s /\
    nth_error (st_trans s) k = Some t /\ q = get_target t.
(** it matches [text], passing [actions] *)
Definition rule_matches_with (a : atn) (mode : Z) (k : nat) (text : list Z) (actions : list lexer_action) : Prop :=
  exists q i s, rule_begins a mode k q /\ run a (q, []) text actions (i, []) /\ state_at a i = Some s /\ is_stop s.
Definition rule_matches (a : atn) (mode : Z) (k : nat) (text : list Z) : Prop :=
  exists xs, rule_matches_with a mode k text xs.
(** the token type declared for it *)
Definition rule_has_type (a : atn) (mode : Z) (k : nat) (ty : Z) : Prop :=
  exists q, rule_begins a mode k q /\ item (rule_to_token_type a) (rule_of a q) = Some ty.

(** ** Longest match, first rule *)
Definition longest_match (a : atn) (mode : Z) (rest : list Z) (n : nat) : Prop :=
  (n <= length rest)%nat /\ (exists k, rule_matches a mode k (firstn n rest)) /\
  forall n' k, (n < n' <= length rest)%nat -> ~ rule_matches a mode k (firstn n' rest).
Definition nothing_matches (a : atn) (mode : Z) (rest : list Z) : Prop :=
  forall n k, (n <= length rest)%nat -> ~ rule_matches a mode k (firstn n rest).
Definition first_rule (a : atn) (mode : Z) (text : list Z) (k : nat) : Prop :=
  rule_matches a mode k text /\ forall k', (k' < k)%nat -> ~ rule_matches a mode k' text.

(** ** Which ATNs are considered *)
Definition only_epsilon (ts : list transition) : Prop := forall t, In t ts -> exists g n, t = Epsilon g n.
(** a state either has transitions that consume nothing, or at most one transition, and knows which;
    a stop state has only epsilon transitions *)
Definition shaped (s : atn_state) : Prop :=
  (is_stop s /\ only_epsilon (st_trans s)) \/
  (~ is_stop s /\ st_eps_only s = true /\ forall t, In t (st_trans s) -> ~ consuming t) \/
  (~ is_stop s /\ st_eps_only s = false /\ (st_trans s = [] \/ exists t, st_trans s = [t] /\ consuming t)).
(** states numbered by their positions; targets, continuations and actions exist; labels are
    canonical sets without EOF; no predicates *)
Definition lexer_formed (a : atn) : Prop :=
  Z.of_nat (length (states a)) <= 2147483647 /\
  (forall m, In m (mode_to_start_state a) -> exists_state a m /\ forall s, state_at a m = Some s -> ~ is_stop s) /\
  (forall i s, state_at a i = Some s -> st_number s = i /\ shaped s /\ forall t, In t (st_trans s) ->
    exists_state a (get_target t) /\ set_ok t /\ ~ symbols t 0 1114111 (-1) /\
    match t with
    | RuleTr _ f _ _ => exists_state a f
    | Action _ _ _ k _ => item (lexer_actions a) k <> None
    | PredicateTr _ _ _ _ | PrecedenceTr _ _ => False
    | _ => True
    end).
(** transitions stay in their rule, except those from the start states of the modes, and every rule
    has a token type *)
Definition rules_apart (a : atn) : Prop :=
  (forall i s t, state_at a i = Some s -> ~ is_stop s -> In t (st_trans s) -> ~ In (get_target t) (mode_to_start_state a) /\
    match t with
    | RuleTr _ f _ _ => ~ In f (mode_to_start_state a) /\ (~ In i (mode_to_start_state a) -> rule_of a f = st_rule s)
    | _ => ~ In i (mode_to_start_state a) -> rule_of a (get_target t) = st_rule s
    end) /\
  (forall i s, state_at a i = Some s -> is_stop s -> item (rule_to_token_type a) (st_rule s) <> None).
Definition greedy (a : atn) : Prop :=
  forall i s, state_at a i = Some s -> match st_type s with DecisionState _ nongreedy _ => nongreedy = false | _ => True end.
(** a decision that prefers to go on with what follows its block ([*?], [+?], [??]) *)
Definition nongreedy_state (s : atn_state) : Prop :=
  match st_type s with DecisionState _ nongreedy _ => nongreedy = true | _ => False end.
Definition nongreedy_at (a : atn) (p : position) : Prop := exists s, state_at a (fst p) = Some s /\ nongreedy_state s.
(** a rule that never comes to such a decision, in itself or in what it calls *)
Definition greedy_rule (a : atn) (mode : Z) (k : nat) : Prop :=
  forall q w xs p, rule_begins a mode k q -> run a (q, []) w xs p -> ~ nongreedy_at a p.
(** no infinite sequence of steps that consume nothing *)
Definition settles (a : atn) : Prop :=
  forall i, exists_state a i -> Acc (fun q p => exists xs, quiet_step a p xs q) (i, []).
(** no rule matches the empty text *)
Definition no_empty_match (a : atn) : Prop := forall mode k, ~ rule_matches a mode k [].
(** the characters a wildcard accepts in this code (see C46) *)
Definition ordinary_char (c : Z) : Prop := 0 < c < 1114111.
(** whatever a rule matches, it passes the same actions *)
Definition one_action_list (a : atn) : Prop :=
  forall m k w xs w' xs', rule_matches_with a m k w xs -> rule_matches_with a m k w' xs' -> xs = xs'.
(** actions that do not depend on the position *)
Definition no_custom_actions (a : atn) : Prop :=
  forall x, In x (lexer_actions a) -> is_position_dependent x = false.

(** ** The shared cache *)
Section Cache.
  Variable D : CharStreamModel.input_data.
  Variable U : Type.
  Variable a : atn.
  Variable action : Z -> Z -> lexer U -> lexer U.
  Variable sempred : Z -> Z -> lexer U -> bool * lexer U.
  Variable ctx_hash : PredContextModel.pctx -> Z.
  Variable actions_hash : list lexer_action -> Z.
  Variable configs_hash : list (config hashed) -> Z.

  (** the caches that can arise: any matches were made before, in any modes, by lexers in any state *)
  Inductive warmed : sim -> Prop :=
  | warmed_new : warmed (new_sim a)
  | warmed_match : forall fuel mode l s r l' s', warmed s ->
      match_token D U a action sempred ctx_hash actions_hash configs_hash fuel mode l s = Outcome.Val (r, l', s') -> warmed s'.

  (** the configuration lists that lexing can build *)
  Inductive built : list lconfig -> Prop :=
  | built_start : forall fuel m ms s l cs l', item (mode_to_start_state a) m = Some ms -> state_at a ms = Some s ->
      compute_start_state D U a sempred ctx_hash actions_hash fuel s l = Outcome.Val (cs, l') -> built (configs cs)
  | built_step : forall fuel start cl t l cs l', built cl ->
      get_reachable_config_set D U a sempred ctx_hash actions_hash fuel start cl t l = Outcome.Val (cs, l') -> built (configs cs).
  (** two of them with the same hash look the same *)
  Definition no_collisions : Prop := forall x y, built x -> built y ->
    configs_hash (map hash_view x) = configs_hash (map hash_view y) -> map hash_view x = map hash_view y.
  (** the number of cached states fits a machine word *)
  Definition cache_fits (s : sim) : Prop :=
    forall d, In d (sm_dfas s) -> Z.of_nat (length (dfa_states d)) < 2 ^ 64 - 1.
End Cache.

(** ** The end-of-input type (-1) belongs to no rule, and no command or embedded code gives it to a token *)
Fixpoint gives_eof (x : lexer_action) : bool :=
  match x with LexerTypeAction t => t =? -1 | LexerIndexedCustomAction _ y => gives_eof y | _ => false end.
Definition eof_reserved {U} (a : atn) (action : Z -> Z -> lexer U -> lexer U) (before_emit : lexer U -> lexer U) : Prop :=
  (forall ty, In ty (rule_to_token_type a) -> ty <> -1) /\
  (forall x, In x (lexer_actions a) -> gives_eof x = false) /\
  (forall r i l, lx_type U (action r i l) = -1 -> lx_type U l = -1) /\
  (forall l, lx_type U (before_emit l) = -1 -> lx_type U l = -1).
