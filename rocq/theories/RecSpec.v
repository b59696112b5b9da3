(** What generated parsers with left-recursive rules and predicates should do (C93, C94). *)
From Coq Require Import ZArith List Bool.
From Verif Require Import CharStreamModel TokenStreamModel TokenStreamSpec.
From Verif Require Import Outcome IntervalSetModel IntervalSetSpec PredContextModel AtnModel AtnSpec Ll1Model Ll1Spec ParserModel PredictSpec.
From Verif Require ParserSpec.
Import ListNotations.
Local Open Scope Z_scope.

(** A stream that has been used in any way and now stands at a token of its channel, or
    at its start. *)
Definition at_token (src : nat -> tok) (ch : Z) (sfuel : nat) (s : uts) : Prop :=
  common_history src ch sfuel s /\ exists c, cur s = Z.of_nat c /\ (c = O \/ visible src ch c).

Section Along.
  Variable a : atn.
  Variable plan : Z -> Z -> list call.
  Variable plain : Z -> bool.
  Variable recursive : Z -> bool.

  (** ** Histories of calls that follow the ATN (C93) *)

  (** deciding which way to go looks ahead, if it does anything *)
  Definition looks (l : list call) : Prop := l = [] \/ exists k, 1 <= k /\ l = [CLook k].
  (** the call that matches a label *)
  Definition matches_label (t : transition) (c : call) : Prop :=
    match t with
    | Atom _ x => c = CMatch x
    | Wildcard _ => c = CWildcard
    | Range _ l h => exists b, c = CMatchSet b /\ forall x, b x = true <-> l <= x <= h
    | SetTr _ s => exists b, c = CMatchSet b /\ forall x, b x = true <-> member x (intervals s)
    | NotSet _ s => exists b, c = CMatchSet b /\ forall x, b x = true <-> 0 < x /\ ~ member x (intervals s)
    | _ => False
    end.
  (** the call of a rule function *)
  Definition calls_rule (rule start prec : Z) (body : list call) : call :=
    if recursive rule then CRec rule start prec (plain rule) body else CRule rule start (plain rule) body.
  (** the state [i] has the transition [t] *)
  Definition leads (i : Z) (t : transition) : Prop := exists s, state_at a i = Some s /\ ~ is_stop s /\ In t (st_trans s).

  (** [along from i b cs]: the calls [cs] follow the ATN of a rule from the state [i],
      which was reached from [from]; to the end of the rule if [b] is [true], otherwise to
      some point where the body was left because of an error. *)
  Inductive along : Z -> Z -> bool -> list call -> Prop :=
  | al_end : forall from i s, state_at a i = Some s -> is_stop s -> along from i true (plan from i)
  | al_left : forall from i, along from i false (plan from i)
  | al_stuck : forall from i l e, looks l -> along from i false (plan from i ++ l ++ [CRaise e])
  | al_token : forall from i b t l c cs, leads i t -> looks l -> matches_label t c -> along i (get_target t) b cs ->
      along from i b (plan from i ++ l ++ CSetState i :: c :: cs)
  | al_epsilon : forall from i b t l cs, leads i t -> match t with Epsilon _ _ | Action _ _ _ _ _ => True | _ => False end -> looks l ->
      along i (get_target t) b cs -> along from i b (plan from i ++ l ++ cs)
  | al_precedence : forall from i b g k l cs, leads i (PrecedenceTr g k) -> looks l -> along i g b cs ->
      along from i b (plan from i ++ l ++ CSetState i :: CPrec k :: cs)
  | al_predicate : forall from i b g d r k l cs, leads i (PredicateTr g d r k) -> looks l -> along i g b cs ->
      along from i b (plan from i ++ l ++ CSetState i :: cs)
  | al_refused : forall from i g d r k l e, leads i (PredicateTr g d r k) -> looks l ->
      along from i false (plan from i ++ l ++ [CSetState i; CRaise e])
  | al_rule : forall from i b b' g follow rule prec l body cs, leads i (RuleTr g follow rule prec) -> looks l ->
      along (-1) g b' body -> along i follow b cs ->
      along from i b (plan from i ++ l ++ CSetState i :: calls_rule rule g prec body :: cs).

  (** The calls between the matches are of the kinds that occur in rules of each sort
      ([ParserSpec.generated]). *)
  Definition plan_fits : Prop := forall from i, Forall (ParserSpec.generated (recursive (rule_of a i))) (plan from i).
  (** a rule transition leads to the rule it names *)
  Definition named_rules : Prop := forall i g follow rule prec, leads i (RuleTr g follow rule prec) -> rule_of a g = rule.

  (** ** Sentences, with operator precedences (C94) *)
  (** the predicates of the grammar that can hold *)
  Variable holds : Z -> Z -> Prop.

  (** [derives q i u j]: in a rule called with precedence [q], the token types [u] lead
      from the state [i] to the state [j] of that rule.  An operator of level [k] is
      allowed if [q <= k]. *)
  Inductive derives : Z -> Z -> list Z -> Z -> Prop :=
  | de_here : forall q i, derives q i [] i
  | de_token : forall q i t x u j, leads i t -> symbols t 1 (max_token_type a) x -> derives q (get_target t) u j -> derives q i (x :: u) j
  | de_epsilon : forall q i t u j, leads i t -> match t with Epsilon _ _ | Action _ _ _ _ _ => True | _ => False end ->
      derives q (get_target t) u j -> derives q i u j
  | de_precedence : forall q i g k u j, leads i (PrecedenceTr g k) -> q <= k -> derives q g u j -> derives q i u j
  | de_predicate : forall q i g d r k u j, leads i (PredicateTr g d r k) -> holds r k -> derives q g u j -> derives q i u j
  | de_rule : forall q i g follow rule prec v stop s u j, leads i (RuleTr g follow rule prec) ->
      derives (if recursive rule then prec else q) g v stop -> state_at a stop = Some s -> is_stop s ->
      derives q follow u j -> derives q i (v ++ u) j.
End Along.

(** The calls a generated parser makes between matches and rule calls; those in the last
    line only in left-recursive rules. *)
Definition rec_plan_kinds (plan : Z -> Z -> list call) : Prop := forall from i,
  Forall (fun c => match c with
                   | CSetState _ | CSync | CLook _ | CAlt _ => True
                   | CLabel _ | CSetStop | CExitEvent | CNext _ _ => True
                   | _ => False end) (plan from i).
