(** Derivation trees: the trees generated parsers should build for valid input (C95). *)
From Coq Require Import ZArith List Bool.
From Verif Require Import Outcome IntervalSetModel PredContextModel AtnModel AtnSpec Ll1Model Ll1Spec ParserModel.
From Verif Require Import ParserSpec RecSpec.
Import ListNotations.
Local Open Scope Z_scope.

Section Builds.
  Variable a : atn.
  Variable plan : Z -> Z -> list call.
  Variable recursive : Z -> bool.
  Variable holds : Z -> Z -> Prop.

  (** What the calls between matches make of the node under construction ([content]: its
      label and its children): a label is given, or, in a left-recursive rule, the node
      becomes the first child of a new one. *)
  Definition after (rule : Z) (x : content) (c : call) : content :=
    match c with
    | CAlt (Some k) | CLabel k => (k, snd x)
    | CNext k _ => (k, [Node rule (fst x) (snd x)])
    | _ => x
    end.
  Definition planned (rule : Z) (cs : list call) (x : content) : content := fold_left (after rule) cs x.
  Definition with_kid (x : content) (t : tree) : content := (fst x, snd x ++ [t]).

  (** [builds q rule from i x u y]: in [rule], called with precedence [q], at the state [i]
      (reached from [from]) with the node [x], the tokens [u] lead to the end of the rule,
      where the node is [y].  Every token becomes a leaf, every rule call a child. *)
  Inductive builds : Z -> Z -> Z -> Z -> content -> list tok -> content -> Prop :=
  | bu_end : forall q rule from i s x, state_at a i = Some s -> Ll1Spec.is_stop s ->
      builds q rule from i x [] (planned rule (plan from i) x)
  | bu_token : forall q rule from i t x k u y, leads a i t -> symbols t 1 (max_token_type a) (t_type k) ->
      builds q rule i (get_target t) (with_kid (planned rule (plan from i) x) (Leaf k)) u y -> builds q rule from i x (k :: u) y
  | bu_epsilon : forall q rule from i t x u y, leads a i t -> match t with Epsilon _ _ | Action _ _ _ _ _ => True | _ => False end ->
      builds q rule i (get_target t) (planned rule (plan from i) x) u y -> builds q rule from i x u y
  | bu_precedence : forall q rule from i g k x u y, leads a i (PrecedenceTr g k) -> q <= k ->
      builds q rule i g (planned rule (plan from i) x) u y -> builds q rule from i x u y
  | bu_predicate : forall q rule from i g d r k x u y, leads a i (PredicateTr g d r k) -> holds r k ->
      builds q rule i g (planned rule (plan from i) x) u y -> builds q rule from i x u y
  | bu_rule : forall q rule from i g follow r prec x v z u y, leads a i (RuleTr g follow r prec) ->
      builds (if recursive r then prec else q) r (-1) g (0%nat, []) v z ->
      builds q rule i follow (with_kid (planned rule (plan from i) x) (Node r (fst z) (snd z))) u y ->
      builds q rule from i x (v ++ u) y.

  (** a derivation tree of the rule for the tokens [u] *)
  Definition derivation (q rule start : Z) (u : list tok) (t : tree) : Prop :=
    exists y, builds q rule (-1) start (0%nat, []) u y /\ t = Node rule (fst y) (snd y).
End Builds.
