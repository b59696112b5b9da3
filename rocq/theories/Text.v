(** Text, and the two functions of the library that print and escape it.  Text is a list of Unicode
    code points ([str.chars()]).  No proofs in this file. *)
From Coq Require Import ZArith List Bool.
From Coq Require String Ascii.
Export String.StringSyntax.
Import ListNotations.
Local Open Scope Z_scope.

Notation text := (list Z).
(** a string literal (ASCII only) *)
Definition lit (s : String.string) : text := map (fun c => Z.of_N (Ascii.N_of_ascii c)) (String.list_ascii_of_string s).
Arguments lit s%string_scope : simpl never.

(** utils.rs:5-16: one character of [escape_whitespaces]. *)
Definition escape_char (escape_spaces : bool) (ch : Z) : text :=
  if (ch =? 32) && escape_spaces then [183]
  else if ch =? 9 then [92; 116]
  else if ch =? 10 then [92; 110]
  else if ch =? 13 then [92; 114]
  else [ch].

(** utils.rs:5-16 *)
Definition escape_whitespaces (data : text) (escape_spaces : bool) : text :=
  fold_left (fun res ch => res ++ escape_char escape_spaces ch) data [].

(** [isize::to_string] for a nonnegative number: decimal digits, least significant last. *)
Fixpoint digits (fuel : nat) (n : Z) : text :=
  match fuel with
  | O => []
  | S f => if n <? 10 then [48 + n] else digits f (n / 10) ++ [48 + n mod 10]
  end.
(** [isize::to_string] *)
Definition isize_to_string (n : Z) : text :=
  let m := Z.abs n in
  (if n <? 0 then [45] else []) ++ digits (S (Z.to_nat (Z.log2 m))) m.
