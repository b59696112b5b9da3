(** A parser generated from a grammar with a left-recursive rule, used to show that the
    hypotheses of C93 and C94 are met. *)
From Coq Require Import ZArith List Bool Lia.
From Verif Require Import CharStreamModel TokenStreamModel TokenStreamSpec.
From Verif Require Import Outcome IntervalSetModel PredContextModel SemContextModel ConfigSetModel DfaModel AtnModel AtnSpec Ll1Model Ll1Spec ParserModel PredictModel.
From Verif Require Import GenModel ParserDemo PredictDemo PredictLLDemo PredictTotalDemo GenDemo RecModel.
Import ListNotations.
Local Open Scope Z_scope.

(** [expr_atn]: tokens NUM = 1, '+' = 2, '*' = 3,
      rule 0   s : e EOF ;
      rule 1   e : e '*' e | e '+' e | {p}? NUM | NUM ;
    The calls the tool generates (cf. tests/gen/simplelrparser.rs 431-474). *)
Definition expr_plan (from i : Z) : list call :=
  if i =? 2 then [CAlt None]
  else if i =? 7 then [CAlt None; CSetState 7; CSync]
  else if i =? 13 then (if from =? 12 then [CSetStop; CSetState 13; CSync] else [CSetState 22; CSync])
  else if i =? 14 then [CExitEvent; CSetState 14; CSync]
  else if (i =? 15) || (i =? 17) then [CNext 0 false]
  else [].
Definition expr_dfas : list pdfa := [dfa_new unit unit false; dfa_new unit unit false; dfa_new unit unit true].
Definition sum : list tok := map tk [1; 2; 1; 3; 1].
(** the first alternative for numbers is allowed by the predicate, or not *)
Notation expr_parse ok l := (RecModel.parse (common_seek (source l) 0 50) expr_atn demo_names (fun _ _ _ _ => ok) plain_order plain_alts one_hash no_dhash no_share
  (fun _ => 0%nat) LL expr_plan no_switch (fun _ => false) (Z.eqb 1) (fun _ _ _ _ => ok) (fun _ _ => lit "p") (fun _ _ => None) 100 100 0 0 (Default new_dstrategy) (fresh l) expr_dfas).
(** number of notices, precedence stack, cursor, contexts: rule, parent, children *)
Definition summary (o : outcome (strategy * parser uts * list pdfa * ending)) := match o with
  | Val (_, p, _, Ended) => Some (length (p_notices p), p_prec p, cur (p_input p),
      map (fun c => (x_rule c, x_parent c, map (fun k => match k with KTerm t => (0, t_type t) | KErr t => (1, t_type t) | KRule i => (2, Z.of_nat i) end) (x_children c))) (p_heap p))
  | _ => None
  end.
Lemma summary_ended o k pr c h : summary o = Some (k, pr, c, h) -> exists g p ds, o = Val (g, p, ds, Ended) /\ length (p_notices p) = k /\ cur (p_input p) = c.
Proof. destruct o as [[[[g p] ds] r]| |]; try discriminate. destruct r; try discriminate. intros H. injection H as <- <- <- _. exists g, p, ds. auto. Qed.
Lemma expr_trees : forall ok, summary (expr_parse ok sum) = Some (0%nat, [0], 5,
  [(0, None, [(2, 2); (0, -1)]); (1, Some 2%nat, [(0, 1)]); (1, Some 0%nat, [(2, 1); (0, 2); (2, 4)]);
   (1, Some 4%nat, [(0, 1)]); (1, Some 2%nat, [(2, 3); (0, 3); (2, 5)]); (1, Some 4%nat, [(0, 1)])]).
Proof. intros []; vm_compute; reflexivity. Qed.
