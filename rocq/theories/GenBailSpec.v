(** What generated parsers with the bail-out strategy should do (C88). *)
From Coq Require Import ZArith List.
From Verif Require Import IntervalSetModel AtnModel Ll1Spec GenSpec.
Import ListNotations.
Local Open Scope Z_scope.

(** The lookahead tests name alternatives of the state, right or wrong. *)
Definition tests_in_range (a : atn) (switch : Z -> option (Z -> option Z)) : Prop := forall i s f x j,
  state_at a i = Some s -> switch i = Some f -> f x = Some j -> 1 <= j <= Z.of_nat (length (st_trans s)).

(** The rule ends with EOF, as start rules usually do: each of its sentences reads EOF. *)
Definition reads_eof (a : atn) (start : Z) : Prop := forall u k, ~ In TOKEN_EOF u -> matches_rule a start u k -> k <> O.
