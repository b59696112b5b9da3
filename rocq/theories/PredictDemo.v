(** A small grammar used to show that the hypotheses of the prediction theorems are met.

    Tokens A = 1, B = 2, C = 3, D = 4.
      rule 0   s : r EOF ;
      rule 1   r : A B | A C | {p}? D A | D A ;        (decision 0, state 7)  *)
From Coq Require Import ZArith List Bool.
From Verif Require Import Outcome IntervalSetModel AtnModel TokenStreamModel TokenStreamSpec.
From Verif Require Import PredContextModel SemContextModel ConfigSetModel DfaModel Ll1Model ParserModel ParserDemo PredictModel.
Import ListNotations.
Local Open Scope Z_scope.

(** a state whose flag "only epsilon transitions" is the one the deserializer computes *)
Definition sst (rule number id : Z) (k : state_type) (ts : list transition) : atn_state :=
  AState rule number id k ts (match ts with [] => false | _ => forallb is_epsilon ts end).
Definition alts_atn : atn := Atn [7] PARSER [] 4 [] [0; 5] [1; 6] [] [
  sst 0 0 2 (RuleStartState 1 false) [Epsilon 2 (-1)];
  sst 0 1 7 RuleStopState [];
  sst 0 2 1 BasicState [RuleTr 5 3 1 0];
  sst 0 3 1 BasicState [Atom 4 (-1)];
  sst 0 4 1 BasicState [Epsilon 1 (-1)];
  sst 1 5 2 (RuleStartState 6 false) [Epsilon 7 (-1)];
  sst 1 6 7 RuleStopState [Epsilon 3 (-1)];
  sst 1 7 3 (DecisionState 0 false (BlockStartState 16 BasicBlockStart)) [Epsilon 8 (-1); Epsilon 10 (-1); Epsilon 12 (-1); Epsilon 15 (-1)];
  sst 1 8 1 BasicState [Atom 9 1];
  sst 1 9 1 BasicState [Atom 16 2];
  sst 1 10 1 BasicState [Atom 11 1];
  sst 1 11 1 BasicState [Atom 16 3];
  sst 1 12 1 BasicState [PredicateTr 13 false 1 0];
  sst 1 13 1 BasicState [Atom 14 4];
  sst 1 14 1 BasicState [Atom 16 1];
  sst 1 15 1 BasicState [Atom 17 4];
  sst 1 16 8 (BlockEndState 7) [Epsilon 6 (-1)];
  sst 1 17 1 BasicState [Atom 16 1]].

(** hash sets are visited in order, nothing is hashed apart *)
Definition plain_order (_ : list nat) (l : list sem) : list sem := l.
Definition plain_alts (l : list (list Z)) : list (list Z) := l.
Definition no_hash (_ : pctx) : Z := 0.
Definition no_dhash (_ : list pconfig) : Z := 0.
Definition no_share (c : pctx) : pctx := c.
Notation predict a ts answer mode stack decision start d input :=
  (adaptive_predict ts a unit (fun _ _ _ _ => answer) plain_order plain_alts no_hash no_dhash no_share 100 mode 0 tt stack decision start d input 0%nat).
