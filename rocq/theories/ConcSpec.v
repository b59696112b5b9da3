(** What threads that share DFAs should see (C90, C91). *)
From Coq Require Import List Arith Bool.
From Verif Require Import ConcModel.
Import ListNotations.

Section Spec.
  Context {D R V : Type}.
  Notation job := (job D R V). Notation thread := (thread D R V). Notation event := (event D R V).

  (** ** One prediction by itself: it finds the DFA [d], leaves [d'] behind and answers
      [r].  What user code answers is up to the user. *)
  Inductive alone : job -> D -> D -> R -> Prop :=
  | alone_answer : forall r d, alone (Answer r) d d r
  | alone_peek : forall f d d' r, alone (f d) d d' r -> alone (Peek f) d d' r
  | alone_shared : forall f d d' r, alone (f d) d d' r -> alone (Shared f) d d' r
  | alone_grow : forall g f d d' r, alone (f d) (g d) d' r -> alone (Grow g f) d d' r
  | alone_callback : forall t f v d d' r, alone (f v) d d' r -> alone (Callback t f) d d' r.

  (** ** One prediction after the other, on the DFA of decision [k]: each finds the DFA
      as the one before has left it. *)
  Inductive one_by_one (k : nat) : D -> list event -> D -> Prop :=
  | none_at_all : forall d, one_by_one k d [] d
  | one_more : forall d es d1 i j d2 r, one_by_one k d es d1 -> alone j d1 d2 r -> one_by_one k d (es ++ [Began i k j; Ended i k r]) d2.
  Definition about (k : nat) (e : event) : bool := match e with Began _ x _ | Ended _ x _ => x =? k end.

  (** what has happened to it *)
  Definition on (k : nat) (tr : list event) : list event := filter (about k) tr.

  (** ** User code in predictions: the predictions it makes are on DFAs of higher rank
      (say, of a parser for another grammar). *)
  Fixpoint ranked_job (rank : nat -> nat) (b : nat) (j : job) : Prop :=
    match j with
    | Answer _ => True
    | Peek f | Shared f => forall d, ranked_job rank b (f d)
    | Grow _ f => forall d, ranked_job rank b (f d)
    | Callback t f => ranked_thread rank b t /\ forall v, ranked_job rank b (f v)
    end
  with ranked_thread (rank : nat -> nat) (b : nat) (t : thread) : Prop :=
    match t with
    | Stop _ => True
    | Predict k j c => b <= rank k /\ ranked_job rank (S (rank k)) j /\ forall r, ranked_thread rank b (c r)
    | Dump _ t => ranked_thread rank b t
    end.
  (** no user code at all, or none that makes predictions, is a special case *)
  Definition ranked (rank : nat -> nat) (t : thread) : Prop := ranked_thread rank 0 t.

  (** ** The user code that a prediction calls first, if any, when it finds the DFA [d] *)
  Fixpoint first_call (j : job) (d : D) : option thread :=
    match j with
    | Answer _ => None
    | Peek f | Shared f => first_call (f d) d
    | Grow g f => first_call (f d) (g d)
    | Callback t _ => Some t
    end.

  (** ** What threads do with DFAs: all the predictions they make, and those made by user
      code in them, are jobs that [P] allows. *)
  Fixpoint job_uses (P : nat -> job -> Prop) (j : job) : Prop :=
    match j with
    | Answer _ => True
    | Peek f | Shared f => forall d, job_uses P (f d)
    | Grow _ f => forall d, job_uses P (f d)
    | Callback t f => uses P t /\ forall v, job_uses P (f v)
    end
  with uses (P : nat -> job -> Prop) (t : thread) : Prop :=
    match t with
    | Stop _ => True
    | Predict k j c => P k j /\ job_uses P j /\ forall r, uses P (c r)
    | Dump _ t => uses P t
    end.

  (** ** Who may change the DFA of decision [k], and who may look at it *)
  Definition may_change (k : nat) (c : ctl D R V) : Prop :=
    match c with Inside x (Writing _ _) _ _ | Inside x (Written _) _ _ => x = k | _ => False end.
  Definition may_look (k : nat) (c : ctl D R V) : Prop :=
    match c with
    | Inside x _ _ st => x = k \/ In k (map (fun s => fst (fst s)) st)
    | Dumping x _ st => x = k \/ In k (map (fun s => fst (fst s)) st)
    | Run _ st => In k (map (fun s => fst (fst s)) st)
    end.

  (** ** What a thread may come to, if a prediction [j] on decision [k] may answer all that
      [Q k j] allows *)
  Inductive may_stop (Q : nat -> job -> R -> Prop) : thread -> V -> Prop :=
  | stop_here : forall v, may_stop Q (Stop v) v
  | stop_after : forall k j c r v, Q k j r -> may_stop Q (c r) v -> may_stop Q (Predict k j c) v
  | stop_dumped : forall k t v, may_stop Q t v -> may_stop Q (Dump k t) v.

  (** ** Stuck for ever: threads are left, and none of them can go on *)
  Definition deadlock (s : sys D R V) : Prop := ~ finished s /\ forall s', ~ step s s'.
End Spec.
