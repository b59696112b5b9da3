(** Vocabulary for DFA dumps. *)
From Coq Require Import ZArith List Bool.
From Verif Require Import Outcome Text ConfigSetModel DfaModel DumpModel TreeSpec.
Import ListNotations.
Local Open Scope Z_scope.

Section Dump.
  Context {X E : Type}.

  (** What the cache knows: from state [i] on token type [t] (on character [t]) to state [j]; that an input is
      an error is not listed. *)
  Definition cached (get : list Z -> Z -> option Z) (d : dfa X E) (i : nat) (t j : Z) : Prop :=
    exists st, nth_error (dfa_states d) i = Some st /\ get (d_edges st) t = Some j /\ j <> ERROR_DFA_STATE_REF.

  (** The name of a state: [s], its number counted from 0, marked as accepting by [:] and [=>], its alternative,
      as needing full context by [^]. *)
  Definition state_name (st : dfa_state X E) (s : text) : Prop :=
    exists n, decimal_of n (d_number st - 1) /\
      if d_accept st then
        d_preds st = [] /\ exists p, decimal_of p (d_prediction st) /\
          s = lit ":s" ++ n ++ (if d_full st then lit "^" else []) ++ lit "=>" ++ p
      else s = lit "s" ++ n ++ (if d_full st then lit "^" else []).

  Definition line_of (label : Z -> text) (d : dfa X E) (tr : nat * Z * Z) (s : text) : Prop :=
    let '(i, t, j) := tr in
    exists st st' a b, nth_error (dfa_states d) i = Some st /\ nth_error (dfa_states d) (Z.to_nat j) = Some st' /\
      state_name st a /\ state_name st' b /\ s = a ++ lit "-" ++ label t ++ lit "->" ++ b ++ [10].

  Definition listed_before (x y : nat * Z * Z) : Prop :=
    let '(i, t, _) := x in let '(i', t', _) := y in (i < i')%nat \/ (i = i' /\ t < t').

  (** the states an accepting one with predicates is not among *)
  Definition nameable (st : dfa_state X E) : Prop := d_accept st = false \/ d_preds st = [].
End Dump.
