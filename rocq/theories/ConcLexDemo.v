(** Threads to try the properties of lexers with shared DFAs on: two lexers of the keyword
    grammar (LexMatchProps), and a lexer with an action that lexes. *)
From Coq Require Import ZArith List Bool Lia.
From Verif Require Import Outcome CharStreamModel PredContextModel ConfigSetModel DfaModel AtnModel LexerModel LexMatchSpec.
From Verif Require Import LexerProps LexMatchProps.
From Verif Require Import ConcModel ConcSpec ConcDemo ConcLexModel ConcLexSpec.
From Verif Require FactoryModel.
Import ListNotations.
Local Open Scope Z_scope.

(** ** "if ifx#" and "x if", five and four tokens *)
Definition kw_code : executor -> Z -> lexer unit -> lthread unit := at_once unit no_action.
Definition kw_thread (n : nat) (text : list Z) : lthread unit :=
  lexer_thread slice_data unit kw_atn no_action no_sempred no_hook (fun _ => 0) (fun _ => 0) ideal_hash kw_code 40 n (stream_new text) tt.
Definition other_text : list Z := [120; 32; 105; 102].
Definition two : list (lthread unit) := [kw_thread 5 kw_text; kw_thread 4 other_text].
Definition two_end := schedule (round_robin 2 150) (start ConcLexModel.new_dfas two).
Definition types (c : ctl ldfa (lanswer unit) (lvalue unit)) : option (list Z) :=
  match c with Run (Stop (Val (ts, _))) [] => Some (map FactoryModel.token_type ts) | _ => None end.
Lemma two_types : map types (threads two_end) = [Some [1; 2; -1; -1; -1]; Some [2; 1; -1; -1]].
Proof. vm_compute. reflexivity. Qed.
Lemma two_states : Z.of_nat (length (dfa_states (dfas two_end 0))) = 6.
Proof. vm_compute. reflexivity. Qed.

(** ** A : 'a' {code} ; *)
Definition act_atn : atn := Atn [0] LEXER [LexerCustomAction 0 0] 1 [0] [1] [2] [1]
  [ st 0 0 (DecisionState 0 false TokenStartState) [Epsilon 1 (-1)];
    st 0 1 (RuleStartState 2 false) [Epsilon 3 (-1)];
    st 0 2 RuleStopState [];
    st 0 3 BasicState [Atom 4 97];
    st 0 4 BasicState [Action 2 false 0 0 0] ].
Notation act_match code := (match_job slice_data unit act_atn no_action no_sempred (fun _ => 0) (fun _ => 0) ideal_hash code 40 0 (new_base_lexer unit (stream_new [97]) tt) (sm_prev_accept (new_sim act_atn))).
(** the code lexes another "a", with a lexer of its own *)
Definition act_code (_ : executor) (_ : Z) (_ : lexer unit) : lthread unit :=
  Predict 0 (act_match (at_once unit no_action)) (fun _ => Stop (Val ([], new_base_lexer unit (stream_new [97]) tt))).
Definition act_thread : lthread unit := Predict 0 (act_match act_code) (fun _ => Stop Panics).
