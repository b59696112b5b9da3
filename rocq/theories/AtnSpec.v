(** Specification vocabulary for ATN transitions (C45, C46, C73). *)
From Coq Require Import ZArith List Bool Sorted.
From Verif Require Import IntervalSetModel IntervalSetSpec AtnModel.
Import ListNotations.
Local Open Scope Z_scope.

(** A transition either consumes a symbol or it does not. *)
Definition consuming (t : transition) : Prop :=
  match t with
  | Atom _ _ | Range _ _ _ | SetTr _ _ | NotSet _ _ | Wildcard _ => True
  | _ => False
  end.

(** The symbols a transition can be taken on, in a vocabulary [lo..=hi]. *)
Definition symbols (t : transition) (lo hi x : Z) : Prop :=
  match t with
  | Atom _ l => x = l
  | Range _ a b => a <= x <= b
  | SetTr _ s => member x (intervals s)
  | NotSet _ s => lo <= x <= hi /\ ~ member x (intervals s)
  | Wildcard _ => lo <= x <= hi
  | _ => False
  end.

(** The set attached to a transition is in canonical form. *)
Definition set_ok (t : transition) : Prop :=
  match t with SetTr _ s | NotSet _ s => canonical (intervals s) | _ => True end.

(** The label of a transition, as the set it is written with. *)
Definition label (t : transition) : option interval_set :=
  match t with
  | Atom _ l => Some (IS [Iv l l] false)
  | Range _ a b => Some (IS (if a <=? b then [Iv a b] else []) false)
  | SetTr _ s | NotSet _ s => Some s
  | _ => None
  end.

(** Two transitions that count as equal: same target, and the same label or both
    not consuming. *)
Definition equal (a b : transition) : Prop :=
  get_target a = get_target b /\
  ((label a <> None /\ label a = label b) \/ (~ consuming a /\ ~ consuming b)).

(** The positions of a sequence that hold no repetition of an earlier element. *)
Definition first_at (ts : list transition) (n : nat) : Prop :=
  exists t, nth_error ts n = Some t /\
    forall m u, (m < n)%nat -> nth_error ts m = Some u -> ~ equal u t.

(** [l] is the sequence [ts] without repetitions, in order of first insertion. *)
Definition without_repetitions (ts l : list transition) : Prop :=
  exists ns, StronglySorted lt ns /\ (forall n, In n ns <-> first_at ts n) /\
    Forall2 (fun n t => nth_error ts n = Some t) ns l.

(** What following a transition means: where it leads, the symbols it can be taken
    on, and, for one that consumes nothing, the transition itself (the invoked
    rule, predicate or action). *)
Definition does_as_much (have want : transition) (lo hi : Z) : Prop :=
  get_target have = get_target want /\
  (consuming want -> forall x, symbols want lo hi x -> symbols have lo hi x) /\
  (~ consuming want -> have = want).

(** A set-labelled and a not-set-labelled transition. *)
Definition is_not_set (t : transition) : bool := match t with NotSet _ _ => true | _ => false end.
