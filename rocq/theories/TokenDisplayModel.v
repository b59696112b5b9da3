(** Model of the printing and copying of tokens (token.rs).  No proofs in this file. *)
From Coq Require Import ZArith List Bool.
From Verif Require Import Text CharStreamModel FactoryModel.
Import ListNotations.
Local Open Scope Z_scope.

(** [str::replace] with a pattern of one character; used at token.rs:131-133. *)
Definition replace (c : Z) (by_ : text) (s : text) : text := flat_map (fun x => if x =? c then by_ else [x]) s.

(** token.rs:124-153 ([Display::fmt]; the text of the token is a [str], so [tk_text] is a list of code points). *)
Definition display (t : token) : text :=
  let txt := if token_type t =? EOF then lit "<EOF>" else tk_text t in
  let txt := replace 10 (lit "\n") txt in
  let txt := replace 13 (lit "\r") txt in
  let txt := replace 9 (lit "\t") txt in
  lit "[@" ++ isize_to_string (token_index t) ++ lit "," ++ isize_to_string (start t) ++ lit ":" ++ isize_to_string (stop t) ++
  lit "='" ++ txt ++ lit "',<" ++ isize_to_string (token_type t) ++ lit ">" ++
  (if channel t >? 0 then isize_to_string (channel t) else []) ++ lit "," ++
  isize_to_string (line t) ++ lit ":" ++ isize_to_string (column t) ++ lit "]".

(** token.rs:105-122 ([Clone]) *)
Definition clone (t : token) : token :=
  Token (token_type t) (channel t) (start t) (stop t) (token_index t) (line t) (column t) (tk_text t) false.
(** token.rs:207-219 ([to_owned] of [GenericToken]) *)
Definition to_owned (t : token) : token :=
  Token (token_type t) (channel t) (start t) (stop t) (token_index t) (line t) (column t) (tk_text t) (read_only t).
(** token.rs:66-78 ([to_owned] as the trait [Token] provides it, for other kinds of tokens); [get_text] is
    what the token answers. *)
Definition default_to_owned (t : token) : token :=
  Token (token_type t) (channel t) (start t) (stop t) (token_index t) (line t) (column t) (token_get_text t) true.
(** token.rs:203-205 *)
Definition set_token_index (t : token) (v : Z) : token :=
  Token (token_type t) (channel t) (start t) (stop t) v (line t) (column t) (tk_text t) (read_only t).
