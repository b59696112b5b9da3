(** Results of modelled Rust code: a value, a panic (explicit [panic!], failed
    [assert!], [unwrap] of [None], index out of bounds), or "the fuel of a
    modelled loop ran out", which every theorem excludes or treats separately. *)
Inductive outcome (A : Type) : Type :=
| Val (a : A)
| Panics
| NoFuel.
Arguments Val {A} _.
Arguments Panics {A}.
Arguments NoFuel {A}.

Definition obindo {A B} (x : outcome A) (f : A -> outcome B) : outcome B :=
  match x with
  | Val a => f a
  | Panics => Panics
  | NoFuel => NoFuel
  end.

Declare Scope outcome_scope.
Delimit Scope outcome_scope with outcome.
Notation "'let!' x := a 'in' b" := (obindo a (fun x => b))
  (at level 200, x pattern, a at level 100, b at level 200) : outcome_scope.

(** [Option::unwrap] *)
Definition unwrap {A} (o : option A) : outcome A :=
  match o with Some a => Val a | None => Panics end.
