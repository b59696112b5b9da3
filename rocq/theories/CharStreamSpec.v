(** Specification vocabulary for character streams. *)
From Coq Require Import ZArith List Bool.
From Verif Require Import CharStreamModel.
Import ListNotations.
Open Scope Z_scope.

(** Unicode scalar values. *)
Definition valid_char (c : Z) : Prop := 0 <= c < 1114112 /\ ~ (55296 <= c <= 57343).

(** UTF-8 encoding of one character (RFC 3629). *)
Definition encode (c : Z) : list Z :=
  if c <? 128 then [c]
  else if c <? 2048 then [192 + c / 64; 128 + c mod 64]
  else if c <? 65536 then [224 + c / 4096; 128 + (c / 64) mod 64; 128 + c mod 64]
  else [240 + c / 262144; 128 + (c / 4096) mod 64; 128 + (c / 64) mod 64; 128 + c mod 64].

Definition encode_all (cs : list Z) : list Z := flat_map encode cs.

(** Byte position of the k-th character of a text. *)
Definition byte_pos (cs : list Z) (k : nat) : Z := zlen (encode_all (firstn k cs)).

(** The symbol at (possibly out of range) position j of a text; EOF outside. *)
Definition symbol_at (l : list Z) (j : Z) : Z :=
  match zget l j with Some c => c | None => EOF end.

(** What la(k), k <> 0, must return at position i of the text. *)
Definition la_spec (l : list Z) (i k : Z) : Z :=
  if 0 <? k then symbol_at l (i + k - 1) else symbol_at l (i + k).
