(** Independent vocabulary for C28-C30: what a predicate tree means, and which
    trees are built from precedence predicates with the public combinators. *)
From Coq Require Import ZArith List Bool Permutation.
From Verif Require Import SemContextModel.
Import ListNotations.
Local Open Scope Z_scope.

Section Meaning.
  Variable ctx : Type.
  (** outcome of user predicate (rule, index), given the context if it asks for it *)
  Variable user : option ctx -> Z -> Z -> bool.
  (** current precedence level of the parser *)
  Variable cur : Z.
  Variable outer : ctx.

  (** The truth of a predicate tree. *)
  Inductive holds : sem -> Prop :=
  | H_user : forall r p, user None r p = true -> holds (Predicate r p false)
  | H_user_ctx : forall r p, user (Some outer) r p = true -> holds (Predicate r p true)
  | H_prec : forall n, cur <= n -> holds (Precedence n)
  | H_and : forall ops, (forall s, In s ops -> holds s) -> holds (And ops)
  | H_or : forall ops s, In s ops -> holds s -> holds (Or ops).
End Meaning.

(** The generated recognizer accepts the "no predicate" marker (rule -1, index -1). *)
Definition none_is_true {ctx} (user : option ctx -> Z -> Z -> bool) : Prop :=
  user None (-1) (-1) = true.

(** Every conversion of a hash set to a vector only reorders it. *)
Definition reorders (order : list nat -> list sem -> list sem) : Prop :=
  forall a l, Permutation (order a l) l.

(** A tree all of whose leaves are precedence predicates. *)
Inductive prec_only : sem -> Prop :=
| PO_prec : forall n, prec_only (Precedence n)
| PO_and : forall ops, (forall s, In s ops -> prec_only s) -> prec_only (And ops)
| PO_or : forall ops, (forall s, In s ops -> prec_only s) -> prec_only (Or ops).

(** Contexts obtained from precedence predicates by [and] / [or], in any nesting,
    with absent operands allowed, for any hash-set iteration orders. *)
Inductive built (order : list nat -> list sem -> list sem) : sem -> Prop :=
| B_prec : forall n, built order (Precedence n)
| B_and : forall at_ a b, built_opt order a -> built_opt order b -> built order (sem_and order at_ a b)
| B_or : forall at_ a b, built_opt order a -> built_opt order b -> built order (sem_or order at_ a b)
with built_opt (order : list nat -> list sem -> list sem) : option sem -> Prop :=
| B_none : built_opt order None
| B_some : forall s, built order s -> built_opt order (Some s).

Scheme built_mut := Induction for built Sort Prop
with built_opt_mut := Induction for built_opt Sort Prop.
