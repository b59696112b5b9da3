(** Generated parsers (templates/Rust.stg; e.g. tests/gen/csvparser.rs, tests/gen/labelsparser.rs).

    The body of a generated rule function follows the ATN of the rule state by state:
    for a transition labelled with tokens it calls [match_token], [match_wildcard] or the
    generated set test, for a rule transition the function of that rule, and where the
    ATN branches it asks a generated lookahead test or [adaptive_predict].  [walk] is
    such a body.  What the ATN does not tell is a parameter: the calls of [set_state],
    [sync] and [enter_outer_alt] in between ([plan]) and the lookahead tests ([switch]).

    Not modelled: rule functions of left-recursive rules (their contexts are in
    [ParserModel], [CRec]), predicates, actions, arguments and return values. *)
From Coq Require Import ZArith List Bool.
From Verif Require Import Outcome IntervalSetModel PredContextModel SemContextModel ConfigSetModel DfaModel AtnModel Ll1Model ParserModel PredictModel.
Import ListNotations.
Local Open Scope Z_scope.
Local Open Scope outcome_scope.

Section Gen.
  Context {S : Type}.
  Variable ts : seek_ops S.
  Variable a : atn.
  Variable names : naming.
  (** the simulator: see [PredictModel] *)
  Variable sempred : S -> option nat -> Z -> Z -> bool.
  Variable order : list nat -> list sem -> list sem.
  Variable alt_order : list (list Z) -> list (list Z).
  Variable hash : pctx -> Z.
  Variable dhash : list pconfig -> Z.
  Variable share : pctx -> pctx.
  Variable clock : S -> nat.
  Variable mode : pmode.
  (** [plan from to]: the calls made when the state [to] is reached from the state [from] *)
  Variable plan : Z -> Z -> list call.
  (** the alternative a generated lookahead test at a state chooses for the next token
      type; [None]: the decision is made by [adaptive_predict] *)
  Variable switch : Z -> option (Z -> option Z).
  (** rules whose context type has no listener callbacks *)
  Variable plain : Z -> bool.

  (** How a rule body ends.  [Full]: the DFA of a decision has got 2^64 - 1 states and
      the next state could not be told from the error state (dfa.rs, dfa_state.rs;
      memory is exhausted long before). *)
  Inductive ending : Type := Ended | Raised (e : perr) | Full.

  (** errors.rs 157-170, from a generated lookahead test
      (e.g. tests/gen/labelsparser.rs 1101-1103) *)
  Definition no_alt_here (p : parser S) : outcome perr :=
    let! b := base_error_new (k_base ts) p in
    let! t := get_current_token (k_base ts) p in
    Val (NoAltError b t).
  (** errors.rs 171-187, from [adaptive_predict] *)
  Definition no_alt_full (p : parser S) (start offending : tok) : outcome perr :=
    let! st := stack_of p in
    Val (NoAltError (BaseErr offending (p_state p) st) start).

  (** The transition taken at a state, or the error raised there. *)
  Inductive choice : Type := Go (t : transition) | Stuck (e : perr) | DfaFull.
  Definition alternative (s : atn_state) (j : Z) : outcome transition :=
    if j <? 1 then Panics else unwrap (nth_error (st_trans s) (Z.to_nat (j - 1))).

  (** templates/Rust.stg 661-724, LL1AltBlock, LL1OptionalBlock, LL1StarBlockSingleAlt,
      LL1PlusBlockSingleAlt (lookahead tests), and 726-786, AltBlock, OptionalBlock,
      StarBlock, PlusBlock ([adaptive_predict], e.g. tests/gen/labelsparser.rs 1130).
      parser_atn_simulator.rs 160-237 uses the DFA of the decision, and the parser's
      precedence, context and stream. *)
  Definition choose (n : nat) (i : Z) (s : atn_state) (p : parser S) (ds : list pdfa) : outcome (parser S * list pdfa * choice) :=
    match st_trans s with
    | [t] => Val (p, ds, Go t)
    | _ =>
        match switch i with
        | Some f =>
            let! (p, x) := la (k_base ts) p 1 in
            match f x with
            | Some j => let! t := alternative s j in Val (p, ds, Go t)
            | None => let! e := no_alt_here p in Val (p, ds, Stuck e)
            end
        | None =>
            match st_type s with
            | DecisionState k _ _ =>
                let! d := unwrap (vget ds k) in
                let! c := get_ctx p in
                let! stack := ancestors (Datatypes.S (length (p_heap p))) (p_heap p) c in
                let! (m, r) := adaptive_predict ts a nat sempred order alt_order hash dhash share n mode (get_precedence p) c stack
                                 k i d (p_input p) (clock (p_input p)) in
                let p := with_input p (m_input m) in
                let! ds := unwrap (vset ds k (m_dfa m)) in
                if ERROR_DFA_STATE_REF <=? Z.of_nat (length (dfa_states (m_dfa m))) then Val (p, ds, DfaFull)
                else
                  match r with
                  | Predicted j => let! t := alternative s j in Val (p, ds, Go t)
                  | NoViableAlt t0 t1 => let! e := no_alt_full p t0 t1 in Val (p, ds, Stuck e)
                  end
            | _ => Panics
            end
        end
    end.

  (** templates/Rust.stg 844-860, MatchSet and MatchNotSet: the membership test on
      la(1); the tool writes out the members *)
  Definition in_set (s : interval_set) (x : Z) : bool := existsb (fun r => (iv_a r <=? x) && (x <=? iv_b r)) (intervals s).
  Definition set_test (t : transition) (x : Z) : bool :=
    match t with
    | Range _ l h => (l <=? x) && (x <=? h)
    | SetTr _ s => in_set s x
    | NotSet _ s => (x >? 0) && negb (in_set s x)
    | _ => false
    end.

  (** templates/Rust.stg 830-865: the call generated for a transition labelled with tokens *)
  Definition match_label (n : nat) (t : transition) (g : strategy) (p : parser S) : outcome (strategy * parser S * option perr) :=
    match t with
    | Atom _ x =>
        let! (g, p, r) := match_token (k_base ts) a names n g p x in
        Val (g, p, match r with inl _ => None | inr e => Some e end)
    | Wildcard _ =>
        let! (g, p, r) := match_wildcard (k_base ts) a names n g p in
        Val (g, p, match r with inl _ => None | inr e => Some e end)
    | Range _ _ _ | SetTr _ _ | NotSet _ _ => match_set (k_base ts) a names n (set_test t) g p
    | _ => Panics
    end.

  (** A rule function around its body (templates/Rust.stg 531-581, e.g.
      tests/gen/csvparser.rs 334-392). *)
  Definition rule_function (n : nat) (body : strategy -> parser S -> list pdfa -> frame -> outcome (strategy * parser S * list pdfa * frame * ending))
      (rule start : Z) (g : strategy) (p : parser S) (ds : list pdfa) : outcome (strategy * parser S * list pdfa * ending) :=
    let parent := p_ctx p in
    let st := p_state p in
    let '(p, c) := alloc p (new_parser_ctx parent st rule 0 (plain rule)) in
    let! p := enter_rule (k_base ts) p c start in
    let! (g, p, ds, _, r) := body g p ds (Frame c parent st start rule) in
    match r with
    | Full => Val (g, p, ds, Full)
    | _ =>
        let! (g, p, r) := catch (k_base ts) a names n g p (match r with Raised e => Some e | _ => None end) in
        match r with
        | Some e => Val (g, p, ds, Raised e)
        | None => let! p := exit_rule (k_base ts) p in Val (g, p, ds, Ended)
        end
    end.

  (** The body of a rule function, from state [i] of its rule, reached from [from]
      (templates/Rust.stg 641-659, 824-828). *)
  Fixpoint walk (n : nat) (from i : Z) (g : strategy) (p : parser S) (ds : list pdfa) (f : frame)
      : outcome (strategy * parser S * list pdfa * frame * ending) :=
    match n with
    | O => NoFuel
    | Datatypes.S n =>
        let! (g, p, f, r) := run_calls (k_base ts) a names n (plan from i) g p f in
        match r with
        | Some e => Val (g, p, ds, f, Raised e)
        | None =>
            let! s := get_state a i in
            match st_type s with
            | RuleStopState => Val (g, p, ds, f, Ended)
            | _ =>
                let! (p, ds, c) := choose n i s p ds in
                match c with
                | Stuck e => Val (g, p, ds, f, Raised e)
                | DfaFull => Val (g, p, ds, f, Full)
                | Go t =>
                    match t with
                    | RuleTr start follow rule _ =>
                        let! (g, p, ds, r) := rule_function n (walk n (-1) start) rule start g (set_state p i) ds in
                        match r with
                        | Ended => walk n i follow g p ds f
                        | r => Val (g, p, ds, f, r)
                        end
                    | Atom target _ | Wildcard target | Range target _ _ | SetTr target _ | NotSet target _ =>
                        let! (g, p, r) := match_label n t g (set_state p i) in
                        match r with
                        | None => walk n i target g p ds f
                        | Some e => Val (g, p, ds, f, Raised e)
                        end
                    | Epsilon target _ | Action target _ _ _ _ => walk n i target g p ds f
                    | PredicateTr _ _ _ _ | PrecedenceTr _ _ => Panics
                    end
                end
            end
        end
    end.

  (** The function of a start rule, called by the user (templates/Rust.stg 531-581). *)
  Definition parse (n : nat) (rule start : Z) (g : strategy) (p : parser S) (ds : list pdfa) : outcome (strategy * parser S * list pdfa * ending) :=
    rule_function n (walk n (-1) start) rule start g p ds.
End Gen.
