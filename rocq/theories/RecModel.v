(** Generated parsers with left-recursive rules and predicates (templates/Rust.stg;
    e.g. tests/gen/simplelrparser.rs, tests/gen/labelsparser.rs).

    As [GenModel]: the body of a rule function follows the ATN of the rule.  Added here:
    rule functions of left-recursive rules, which carry a precedence, and the tests
    generated for precedence predicates and for the predicates of the grammar.

    Simplified: a predicate of the grammar is a function of the parser and of the local
    variables of the rule function ([pred]) and changes nothing; embedded actions do
    nothing.  Not modelled: arguments and return values. *)
From Coq Require Import ZArith List Bool.
From Verif Require Import Outcome IntervalSetModel PredContextModel SemContextModel ConfigSetModel DfaModel AtnModel Ll1Model ParserModel PredictModel GenModel.
Import ListNotations.
Local Open Scope Z_scope.
Local Open Scope outcome_scope.

Section Rec.
  Context {S : Type}.
  Variable ts : seek_ops S.
  Variable a : atn.
  Variable names : naming.
  (** the simulator: see [PredictModel] *)
  Variable sempred : S -> option nat -> Z -> Z -> bool.
  Variable order : list nat -> list sem -> list sem.
  Variable alt_order : list (list Z) -> list (list Z).
  Variable hash : pctx -> Z.
  Variable dhash : list pconfig -> Z.
  Variable share : pctx -> pctx.
  Variable clock : S -> nat.
  Variable mode : pmode.
  (** see [GenModel]; in left-recursive rules [plan] also has the calls that keep the
      contexts (templates/Rust.stg 1179-1228) *)
  Variable plan : Z -> Z -> list call.
  Variable switch : Z -> option (Z -> option Z).
  Variable plain : Z -> bool.
  (** the rules that are left-recursive *)
  Variable recursive : Z -> bool.
  (** the predicates of the grammar (rule, number), their texts and fail messages *)
  Variable pred : parser S -> frame -> Z -> Z -> bool.
  Variable pred_text : Z -> Z -> text.
  Variable pred_message : Z -> Z -> option text.
  (** for the loops inside one call of the runtime *)
  Variable fuel : nat.

  (** A left-recursive rule function around its body (templates/Rust.stg 583-640, e.g.
      tests/gen/simplelrparser.rs 423-488). *)
  Definition rec_function (body : strategy -> parser S -> list pdfa -> frame -> outcome (strategy * parser S * list pdfa * frame * ending))
      (rule start prec : Z) (g : strategy) (p : parser S) (ds : list pdfa) : outcome (strategy * parser S * list pdfa * ending) :=
    let parent := p_ctx p in
    let st := p_state p in
    let '(p, c) := alloc p (new_parser_ctx parent st rule 0 (plain rule)) in
    let! p := enter_recursion_rule (k_base ts) p c start prec in
    let! (g, p, ds, _, r) := body g p ds (Frame c parent st start rule) in
    match r with
    | Full => Val (g, p, ds, Full)
    | _ =>
        let! (g, p, r) := catch (k_base ts) a names fuel g p (match r with Raised e => Some e | _ => None end) in
        match r with
        | Some e => Val (g, p, ds, Raised e)
        | None => let! p := unroll_recursion_context (k_base ts) p parent in Val (g, p, ds, Ended)
        end
    end.

  (** templates/Rust.stg 600, 824-828: the function of a rule; a left-recursive one is
      called with a precedence *)
  Definition invoke (body : strategy -> parser S -> list pdfa -> frame -> outcome (strategy * parser S * list pdfa * frame * ending))
      (rule start prec : Z) (g : strategy) (p : parser S) (ds : list pdfa) : outcome (strategy * parser S * list pdfa * ending) :=
    if recursive rule then rec_function body rule start prec g p ds
    else rule_function ts a names plain fuel body rule start g p ds.

  (** templates/Rust.stg 874-880, SemPred: [None] if the predicate holds *)
  Definition predicate (t : transition) (p : parser S) (f : frame) : outcome (option perr) :=
    match t with
    | PrecedenceTr _ k =>
        if precpred p k then Val None
        else let! e := failed_predicate (k_base ts) a p (Some (precpred_text k)) None in Val (Some e)
    | PredicateTr _ _ r k =>
        if pred p f r k then Val None
        else let! e := failed_predicate (k_base ts) a p (Some (pred_text r k)) (pred_message r k) in Val (Some e)
    | _ => Panics
    end.

  (** The body of a rule function, from state [i] of its rule, reached from [from]
      (templates/Rust.stg 641-659, 824-828, 874-880). *)
  Fixpoint walk (n : nat) (from i : Z) (g : strategy) (p : parser S) (ds : list pdfa) (f : frame)
      : outcome (strategy * parser S * list pdfa * frame * ending) :=
    match n with
    | O => NoFuel
    | Datatypes.S n =>
        let! (g, p, f, r) := run_calls (k_base ts) a names fuel (plan from i) g p f in
        match r with
        | Some e => Val (g, p, ds, f, Raised e)
        | None =>
            let! s := get_state a i in
            match st_type s with
            | RuleStopState => Val (g, p, ds, f, Ended)
            | _ =>
                let! (p, ds, c) := choose ts a sempred order alt_order hash dhash share clock mode switch fuel i s p ds in
                match c with
                | Stuck e => Val (g, p, ds, f, Raised e)
                | DfaFull => Val (g, p, ds, f, Full)
                | Go t =>
                    match t with
                    | RuleTr start follow rule prec =>
                        let! (g, p, ds, r) := invoke (walk n (-1) start) rule start prec g (set_state p i) ds in
                        match r with
                        | Ended => walk n i follow g p ds f
                        | r => Val (g, p, ds, f, r)
                        end
                    | Atom target _ | Wildcard target | Range target _ _ | SetTr target _ | NotSet target _ =>
                        let! (g, p, r) := match_label ts a names fuel t g (set_state p i) in
                        match r with
                        | None => walk n i target g p ds f
                        | Some e => Val (g, p, ds, f, Raised e)
                        end
                    | Epsilon target _ | Action target _ _ _ _ => walk n i target g p ds f
                    | PredicateTr target _ _ _ | PrecedenceTr target _ =>
                        let p := set_state p i in
                        let! r := predicate t p f in
                        match r with
                        | None => walk n i target g p ds f
                        | Some e => Val (g, p, ds, f, Raised e)
                        end
                    end
                end
            end
        end
    end.

  (** The function of a start rule, called by the user (templates/Rust.stg 531-581,
      597-601: a left-recursive one begins with precedence 0). *)
  Definition parse (n : nat) (rule start : Z) (g : strategy) (p : parser S) (ds : list pdfa) : outcome (strategy * parser S * list pdfa * ending) :=
    invoke (walk n (-1) start) rule start 0 g p ds.
End Rec.
