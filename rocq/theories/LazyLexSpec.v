(** The tokens a lexer grammar with non-greedy rules gives for a text (C106). *)
From Coq Require Import ZArith List Bool.
From Verif Require Import AtnModel LexMatchSpec MunchSpec LazySpec.
Import ListNotations.
Local Open Scope Z_scope.

(** Which text and which rule: one that [token_of] allows; for an opening, characters as few as possible,
    and a closing, the shortest text. *)
Definition lazy_munch (a : atn) (mode : Z) (rest : list Z) (n rule : nat) : Prop :=
  token_of a mode rest n rule /\ (delimited a mode rule -> shortest a mode rest n rule).
(** The first [n] tokens of the text, as in C98, but with this choice *)
Definition lexes_lazily (a : atn) (cs : list Z) (n : nat) (ss : list stretch) : Prop := lexes_by (lazy_munch a) a cs n ss.

(** every rule is greedy, or of that form *)
Definition greedy_or_delimited (a : atn) : Prop := forall mode k, greedy_rule a mode k \/ delimited a mode k.
