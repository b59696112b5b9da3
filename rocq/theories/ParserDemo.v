(** A small parser used to show that the hypotheses of the parser theorems are met.

    Tokens A = 1, B = 2, C = 3, D = 4, INT = 5, PLUS = 6.
      rule 0   s : x B EOF ;
      rule 1   x : (C | D) A ;
      rule 2   w : A | C ;
      rule 3   e : e PLUS e # Add | INT # Int ; *)
From Coq Require Import ZArith List Bool.
From Verif Require Import Outcome IntervalSetModel AtnModel Ll1Model TokenStreamModel TokenStreamSpec ParserModel ParserSpec.
Import ListNotations.
Local Open Scope Z_scope.

Definition st (rule number id : Z) (k : state_type) (ts : list transition) : atn_state := AState rule number id k ts false.
Definition demo_atn : atn := Atn [12; 17] PARSER [] 6 [] [0; 6; 10; 15] [1; 7; 11; 16] [] [
  st 0 0 2 (RuleStartState 1 false) [Epsilon 2 (-1)];
  st 0 1 7 RuleStopState [];
  st 0 2 1 BasicState [RuleTr 6 3 1 0];
  st 0 3 1 BasicState [Atom 4 2];
  st 0 4 1 BasicState [Atom 5 (-1)];
  st 0 5 1 BasicState [Epsilon 1 (-1)];
  st 1 6 2 (RuleStartState 7 false) [Epsilon 8 (-1)];
  st 1 7 7 RuleStopState [Epsilon 3 (-1)];
  st 1 8 1 BasicState [SetTr 9 (IS [Iv 3 4] true)];
  st 1 9 1 BasicState [Atom 7 1];
  st 2 10 2 (RuleStartState 11 false) [Epsilon 12 (-1)];
  st 2 11 7 RuleStopState [];
  st 2 12 3 (DecisionState 0 false (BlockStartState 14 BasicBlockStart)) [Epsilon 13 (-1); Epsilon 13 (-1)];
  st 2 13 1 BasicState [Atom 14 1];
  st 2 14 8 (BlockEndState 12) [Epsilon 11 (-1)];
  st 3 15 2 (RuleStartState 16 true) [Epsilon 17 (-1)];
  st 3 16 7 RuleStopState [];
  st 3 17 1 BasicState [Atom 18 5];
  st 3 18 1 BasicState [Epsilon 16 (-1)]].

Definition demo_names : naming :=
  Naming (fun ty => nth (Z.to_nat ty) [lit "<INVALID>"; lit "A"; lit "B"; lit "'c'"; lit "D"; lit "INT"; lit "'+'"] [])
    [lit "s"; lit "x"; lit "w"; lit "e"] (fun _ => lit "user error").
Definition tk (ty : Z) : tok := Tok ty 0 [] (-1) 1 0.
Definition hidden (ty : Z) : tok := Tok ty 1 [] (-1) 1 0.
Definition source (l : list tok) : nat -> tok := src_of l (tk (-1)).
Notation stream l := (common_stream (source l) 0 50).
Notation fresh l := (new_base_parser (with_channel (source l))).
Notation run l c g p := (run_call (stream l) demo_atn demo_names 50 c g p (Frame 0 None (-1) 0 0)).

(** The histories of the rule functions. *)
Definition inner_rule : call := CRule 1 6 false [CAlt None; CSetState 8; CMatchSet (fun t => (t =? 3) || (t =? 4)); CSetState 9; CMatch 1].
Definition s_rule : call := CRule 0 0 false [CAlt None; CSetState 2; inner_rule; CSetState 3; CMatch 2; CSetState 4; CMatch (-1)].
Definition w_rule : call := CRule 2 10 false [CSetState 12; CSync; CAlt None; CSetState 13; CMatch 1].
(** INT PLUS INT PLUS INT, the second operand read by a nested call *)
Definition operand : call := CRec 3 15 2 true [CAlt None; CSetState 17; CMatch 5; CSetStop].
Definition e_body : list call :=
  [CAlt None; CSetState 17; CMatch 5; CSetStop; CSetState 17;
   CExitEvent; CNext 1 false; CSetState 18; CPrec 1; CMatch 6; operand; CSetState 17;
   CExitEvent; CNext 2 false; CSetState 18; CPrec 1; CMatch 6; operand; CSetState 17].
Definition e_rule : call := CRec 3 15 0 false e_body.
Definition e_labelled : call := CRec 3 15 0 true
  [CAlt None; CLabel 1; CSetState 17; CMatch 5; CSetStop; CSetState 17;
   CExitEvent; CNext 2 false; CSetState 18; CPrec 1; CMatch 6; operand; CSetState 17].
