(** Vocabulary for the start and stop tokens of the nodes of a parse tree. *)
From Coq Require Import ZArith List Bool.
From Verif Require Import Outcome IntervalSetModel TokenStreamModel TokenStreamSpec ParserModel ParserSpec.
Import ListNotations.
Local Open Scope Z_scope.

(** A leaf whose token was read from the input: neither end of input nor conjured. *)
Definition was_read (t : tok) : bool := negb (t_type t =? -1) && negb (t_index t =? -1).
Definition read_leaves (T : tree) : list tok := filter was_read (leaves T).
Definition matches_eof (T : tree) : Prop := exists t, In t (leaves T) /\ t_type t = -1.

(** [below h k k']: the node [k'] is [k] or one of its descendants *)
Inductive below (h : heap) : kid -> kid -> Prop :=
| b_self : forall k, below h k k
| b_child : forall i c k k', nth_error h i = Some c -> In k (x_children c) -> below h k k' -> below h (KRule i) k'.

(** The context [c] of the tree [T] covers what was read there: it starts at the first token
    read and stops at the last one, or else at the end of input ([the_end]), which then was
    matched in [T]. *)
Definition covers (the_end : tok -> Prop) (c : rctx) (T : tree) : Prop :=
  forall first rest, read_leaves T = first :: rest ->
    x_start c = first /\ (x_stop c = last rest first \/ the_end (x_stop c) /\ matches_eof T).

(** What looking at a token stream means: [past s] are the tokens consumed so far and
    [now s] is the one at the cursor, for the states that satisfy [Inv]; the tokens that
    mark the end of input satisfy [the_end]. *)
Record looking {S} (ts : stream_ops S) (Inv : S -> Prop) (past : S -> list tok) (now : S -> tok) (the_end : tok -> Prop) : Prop := Looking {
  lk_lt : forall s s' t, Inv s -> s_lt ts s 1 = Val (s', t) -> t = Some (now s);
  lk_get : forall s t, Inv s -> s_get ts s (s_index ts s) = Val t -> t = now s;
  lk_back : forall s s' t l x, Inv s -> s_lt ts s (-1) = Val (s', t) -> past s = l ++ [x] -> t = Some x;
  lk_same : forall s r, Inv s -> Inv r -> past r = past s -> now r = now s;
  lk_next : forall s r x more, Inv s -> Inv r -> past r = past s ++ x :: more -> x = now s /\ t_type (now s) <> -1;
  lk_real : forall s, Inv s -> Forall (fun t => was_read t = true) (past s);
  lk_end : forall s, Inv s -> t_type (now s) = -1 -> the_end (now s)
}.
