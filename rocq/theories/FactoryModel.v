(** Model of token_factory.rs and of the token accessors of token.rs that depend on the token type. *)
From Coq Require Import ZArith List Bool.
From Verif Require Import CharStreamModel.
Import ListNotations.
Local Open Scope Z_scope.

(** token.rs:92-103 GenericToken; the text is kept as a vector of code units of the input. *)
Record token := Token {
  token_type : Z; channel : Z; start : Z; stop : Z; token_index : Z; line : Z; column : Z;
  tk_text : list Z; read_only : bool }.

(** "<EOF>" and "<invalid>" *)
Definition eof_text : list Z := [60; 69; 79; 70; 62].
Definition invalid_text : list Z := [60; 105; 110; 118; 97; 108; 105; 100; 62].

Section Create.
  Variable D : input_data.

  (** token_factory.rs:101-137 (CommonTokenFactory::create) and 162-198 (OwningTokenFactory::create,
      same code); 279-298 (ArenaFactory::create) stores the result of either in an arena. *)
  Definition create (source : option istream) (ttype : Z) (text : option (list Z))
      (channel start stop line column : Z) : res token :=
    bind (match text, source with
          | Some t, _ => Ok t
          | None, Some x =>
              if (stop >=? size x) || (start >=? size x) then Ok eof_text
              else get_text D x start stop
          | None, None => Ok []
          end) (fun text =>
    Ok (Token ttype channel start stop (-1) line column text false)).
End Create.

(** token_factory.rs:21-42, 139-141, 200-202; cloning (token.rs:105-124) clears [read_only]. *)
Definition create_invalid : token := Token 0 0 (-1) (-1) (-1) (-1) (-1) invalid_text false.

(** token.rs:187-193 *)
Definition token_get_text (t : token) : list Z :=
  if token_type t =? EOF then eof_text else tk_text t.
