(** What lexers of threads that share DFAs should see (C92). *)
From Coq Require Import ZArith List Bool.
From Verif Require Import Outcome CharStreamModel PredContextModel ConfigSetModel DfaModel AtnModel LexerModel LexMatchSpec ConcModel ConcSpec ConcLexModel.
Import ListNotations.
Local Open Scope Z_scope.

Section Lexers.
  Variable D : input_data.
  Variable U : Type.
  Variable a : atn.
  Variable action : Z -> Z -> lexer U -> lexer U.
  Variable sempred : Z -> Z -> lexer U -> bool * lexer U.
  Variable ctx_hash : pctx -> Z.
  Variable actions_hash : list lexer_action -> Z.
  Variable configs_hash : list (config hashed) -> Z.
  Variable code : executor -> Z -> lexer U -> lthread U.

  (** what a thread may do with the DFA of mode [k]: matches in this mode, by lexers in any
      state, reading any text, from any place *)
  Definition lexing_job (k : nat) (j : ljob U) : Prop :=
    item (mode_to_start_state a) (Z.of_nat k) <> None /\
    exists fuel l p, j = match_job D U a action sempred ctx_hash actions_hash configs_hash code fuel (Z.of_nat k) l p.
  Definition lexing (t : lthread U) : Prop := uses lexing_job t.
  (** the number of states of each DFA fits a machine word *)
  Definition all_fit (s : sys ldfa (lanswer U) (lvalue U)) : Prop :=
    forall k, Z.of_nat (length (dfa_states (dfas s k))) < 2 ^ 64 - 1.
  (** some thread has matched in mode [k], from the lexer [l] on, with this answer *)
  Definition has_matched (s : sys ldfa (lanswer U) (lvalue U)) (k : nat) (l : lexer U) (r : lanswer U) : Prop :=
    exists es i later fuel p,
      on k (trace s) = es ++ [Began i k (match_job D U a action sempred ctx_hash actions_hash configs_hash code fuel (Z.of_nat k) l p); Ended i k r] ++ later.
  (** actions that do what they do at once, without lexing in them *)
  Definition at_once (e : executor) (start_index : Z) (l : lexer U) : lthread U := Stop (Val ([], execute U action e l start_index)).
End Lexers.
