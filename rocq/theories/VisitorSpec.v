(** What a visitor's methods say, without any temporary place: the reference for
    C104. *)
From Coq Require Import ZArith List Bool.
From Verif Require Import TreeModel TreeSpec VisitorModel.
Import ListNotations.

Section Says.
  Context {V R : Type}.
  Variable K : mvisitor V R.

  (** [says n v v' r]: visiting the node [n] in state [v] ends in state [v'] with
      the result [r]; [does m v' r]: the rest [m] of a method does;
      [gathers cs v a v' r]: the children [cs], visited from the left to the right
      with the aggregate [a] so far, until one is not to be visited. *)
  Inductive says : node -> V -> V -> R -> Prop :=
  | Says_terminal : forall i ty s x v v' r, does (m_terminal K (Leaf i false ty s x) v) v' r ->
      says (Leaf i false ty s x) v v' r
  | Says_error : forall i ty s x v v' r, does (m_error K (Leaf i true ty s x) v) v' r ->
      says (Leaf i true ty s x) v v' r
  | Says_rule : forall i k x a cs v v' r f, m_rule K (Rule i false k x a cs) = Some f -> does (f v) v' r ->
      says (Rule i false k x a cs) v v' r
  | Says_default : forall i k x a cs v v' r, m_rule K (Rule i false k x a cs) = None ->
      gathers cs v (m_default K) v' r ->
      says (Rule i false k x a cs) v v' r
  with does : method V R -> V -> R -> Prop :=
  | Does_return : forall v r, does (Return v r) v r
  | Does_visit : forall n v next v1 r1 v' r, says n v v1 r1 -> does (next v1 r1) v' r ->
      does (Visit n v next) v' r
  | Does_children : forall n v next v1 r1 v' r, gathers (kids n) v (m_default K) v1 r1 ->
      does (next v1 r1) v' r -> does (VisitChildren n v next) v' r
  | Does_node : forall n v next v1 r1 v' r, says n v v1 r1 -> does (next v1) v' r ->
      does (VisitNode n v next) v' r
  with gathers : list node -> V -> R -> V -> R -> Prop :=
  | Gathers_end : forall v a, gathers [] v a v a
  | Gathers_stop : forall c cs v a, m_more K v c a = false -> gathers (c :: cs) v a v a
  | Gathers_next : forall c cs v a v1 r1 v' r, m_more K v c a = true -> says c v v1 r1 ->
      gathers cs v1 (m_aggregate K v1 a r1) v' r -> gathers (c :: cs) v a v' r.
End Says.

(** A node strictly below another. *)
Definition below (c n : node) : Prop := exists k, In k (kids n) /\ within k c.

(** A method for the node [n] that visits nothing but nodes below it (the
    children of [n] itself are). *)
Inductive looks_down {V R : Type} (n : node) : method V R -> Prop :=
| LD_return : forall v r, looks_down n (Return v r)
| LD_visit : forall c v next, below c n -> (forall v r, looks_down n (next v r)) -> looks_down n (Visit c v next)
| LD_children : forall c v next, c = n \/ below c n -> (forall v r, looks_down n (next v r)) ->
    looks_down n (VisitChildren c v next)
| LD_node : forall c v next, below c n -> (forall v, looks_down n (next v)) -> looks_down n (VisitNode c v next).

(** A visitor with such methods only. *)
Definition descends {V R : Type} (K : mvisitor V R) : Prop :=
  (forall n v, looks_down n (m_terminal K n v)) /\
  (forall n v, looks_down n (m_error K n v)) /\
  (forall n f v, m_rule K n = Some f -> looks_down n (f v)).

(** The value of a tree, from those of its leaves and a function that combines
    the values of the children of a rule node. *)
Fixpoint value {R : Type} (leaf : node -> R) (combine : node -> list R -> R) (t : node) : R :=
  match t with
  | Leaf _ _ _ _ _ => leaf t
  | Rule _ _ _ _ _ cs => combine t (map (value leaf combine) cs)
  end.

(** The method that visits the nodes [cs] one after the other, by [self.visit],
    and returns the combination of their results. *)
Fixpoint visiting {R : Type} (combine : list R -> R) (cs : list node) (results : list R) (v : unit) : method unit R :=
  match cs with
  | [] => Return v (combine results)
  | c :: rest => Visit c v (fun v r => visiting combine rest (results ++ [r]) v)
  end.
