(** Vocabulary of C67. *)
From Coq Require Import ZArith List Bool.
From Verif Require Import CharStreamModel CharStreamSpec FactoryModel.
Import ListNotations.
Local Open Scope Z_scope.

(** The token records exactly the data it was given and has no index yet. *)
Definition records (t : token) (ty ch a b ln col : Z) (s : list Z) : Prop :=
  token_type t = ty /\ channel t = ch /\ start t = a /\ stop t = b /\ line t = ln /\ column t = col /\
  token_index t = -1 /\ tk_text t = s.

(** The characters at positions i, ..., j of a text (none when j = i - 1). *)
Definition piece (cs : list Z) (i j : Z) : list Z :=
  firstn (Z.to_nat (j + 1 - i)) (skipn (Z.to_nat i) cs).
