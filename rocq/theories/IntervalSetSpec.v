(** Specification vocabulary for interval sets: independent of the algorithms. *)
From Coq Require Import ZArith List Sorted.
From Verif Require Import IntervalSetModel.
Import ListNotations.
Open Scope Z_scope.

(** The integers a range stands for. *)
Definition in_range (x : Z) (r : interval) : Prop := iv_a r <= x <= iv_b r.

(** x belongs to (the union of) a list of ranges. *)
Definition member (x : Z) (l : list interval) : Prop := exists r, In r l /\ in_range x r.

(** Strictly ascending with a gap of at least one integer between neighbours. *)
Definition gap (r q : interval) : Prop := iv_b r + 1 < iv_a q.

(** Canonical representation: non-empty ranges, ascending, disjoint and non-adjacent. *)
Definition canonical (l : list interval) : Prop :=
  Forall (fun r => iv_a r <= iv_b r) l /\ StronglySorted gap l.

(** Ranges requested by an insertion history. *)
Definition op_ranges (o : ins_op) : list interval :=
  match o with
  | InsOne v => [Iv v v]
  | InsRange l h => [Iv l h]
  | InsSet s => intervals s
  end.

(** Ascending list of integers lo, lo+1, ..., (n of them). *)
Fixpoint zseq (lo : Z) (n : nat) : list Z :=
  match n with O => [] | S k => lo :: zseq (lo + 1) k end.

(** All members of a list of ranges in the order of the ranges. *)
Definition enum (l : list interval) : list Z :=
  flat_map (fun r => zseq (iv_a r) (Z.to_nat (iv_b r - iv_a r + 1))) l.

(** How many stored ranges a new range overlaps or is adjacent to. *)
Definition touched (added : interval) (l : list interval) : nat :=
  length (filter (touches added) l).

(** A history in which every inserted range touches at most two stored ranges. *)
Fixpoint narrow_history (l : list interval) (rs : list interval) : Prop :=
  match rs with
  | [] => True
  | r :: rs' => (touched r l <= 2)%nat /\ narrow_history (add_interval_l r l) rs'
  end.

(** Texts joined with a separator. *)
Fixpoint join (sep : text) (l : list text) : text :=
  match l with
  | [] => []
  | [x] => x
  | x :: rest => x ++ sep ++ join sep rest
  end.
