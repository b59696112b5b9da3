(** What a lexer's console says about a text (C107). *)
From Coq Require Import ZArith List Bool.
From Verif Require Import Text TreeSpec CharStreamModel AtnModel LexerModel LexerSpec ErrorListenerModel ErrorListenerSpec MunchSpec.
Import ListNotations.
Local Open Scope Z_scope.

(** [complains raw cs pos display s printed]: what the console prints about the stretch [s] of the text [cs], which
    matches no rule: line and column at which the stretch begins, and its text *)
Definition complains (raw cs : list Z) (pos : nat -> Z) (display : list Z -> text) (s : stretch) (printed : text) : Prop :=
  exists column, column_after (firstn (s_from s) cs) column /\
    line_about (line_after (firstn (s_from s) cs)) column
      (lit "token recognition error at: '" ++ display (sub_list raw (pos (s_from s)) (pos (s_to s))) ++ lit "'") printed.
(** one line: a line break at the end and nowhere else *)
Definition one_printed_line (s : text) : Prop := exists l, s = l ++ [10] /\ ~ In 10 l.
(** [tiles k ss e]: the stretches [ss] lie side by side from character [k] to character [e], leaving nothing out *)
Fixpoint tiles (k : nat) (ss : list stretch) (e : nat) : Prop :=
  match ss with
  | [] => k = e
  | s :: ss => s_from s = k /\ (k <= s_to s)%nat /\ tiles (s_to s) ss e
  end.
(** no rule and no command makes an end-of-input token *)
Definition eof_reserved (a : atn) : Prop :=
  (forall ty, In ty (rule_to_token_type a) -> ty <> -1) /\ (forall ty, In (LexerTypeAction ty) (lexer_actions a) -> ty <> -1).
