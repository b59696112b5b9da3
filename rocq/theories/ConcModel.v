(** Model of the sharing of DFAs between threads: one lock for the DFA of each decision
    (atn_simulator.rs 16-20), taken by predictions (parser_atn_simulator.rs 90-123,
    160-237, 375-434), by lexers (lexer_atn_simulator.rs 78-107, 188-219, 281-318,
    375-407) and by [dump_dfa] (parser.rs 663-680).

    Simplifications: threads run one operation at a time, in any order (sequential
    consistency: the locks order all accesses to DFAs); what a thread computes between
    two operations on locks or DFAs is a function of what it has read; DFAs are numbered,
    those of all recognizers together.  The cache of contexts has a lock of its own,
    never held while another one is waited for (prediction_context.rs 605, 623, 644). *)
From Coq Require Import List Arith Bool.
Import ListNotations.

(** ** parking_lot 0.11, [RwLock] *)
Inductive hold : Type :=
| Free
| Upgradable (i : nat)     (* thread [i] has an [RwLockUpgradableReadGuard] *)
| Upgrading (i : nat)      (* thread [i] waits in [RwLockUpgradableReadGuard::upgrade]; no new readers *)
| Writer (i : nat).        (* thread [i] has an [RwLockWriteGuard] *)
Record lock : Type := Lock { l_hold : hold; l_readers : list nat }.
Definition unlocked : lock := Lock Free [].
(** Each operation of thread [i]; [None]: it has to wait.  (A thread without the guard
    an operation needs cannot call it: the guard is its receiver.) *)
Definition l_read (i : nat) (l : lock) : option lock :=
  match l_hold l with
  | Free | Upgradable _ => Some (Lock (l_hold l) (i :: l_readers l))
  | Upgrading _ | Writer _ => None
  end.
Definition l_drop_read (i : nat) (l : lock) : option lock :=
  if existsb (Nat.eqb i) (l_readers l)
  then Some (Lock (l_hold l) (let fix drop r := match r with [] => [] | x :: r => if i =? x then r else x :: drop r end in drop (l_readers l)))
  else None.
Definition l_upgradable_read (i : nat) (l : lock) : option lock :=
  match l_hold l with Free => Some (Lock (Upgradable i) (l_readers l)) | _ => None end.
(** [upgrade] first shuts new readers out, then waits for those that are in *)
Definition l_upgrade (i : nat) (l : lock) : option lock :=
  match l_hold l with Upgradable x => if i =? x then Some (Lock (Upgrading i) (l_readers l)) else None | _ => None end.
Definition l_upgraded (i : nat) (l : lock) : option lock :=
  match l_hold l, l_readers l with Upgrading x, [] => if i =? x then Some (Lock (Writer i) []) else None | _, _ => None end.
Definition l_downgrade (i : nat) (l : lock) : option lock :=
  match l_hold l with Writer x => if i =? x then Some (Lock (Upgradable i) (l_readers l)) else None | _ => None end.
Definition l_drop_upgradable (i : nat) (l : lock) : option lock :=
  match l_hold l with Upgradable x => if i =? x then Some (Lock Free (l_readers l)) else None | _ => None end.

Section Conc.
  (** DFAs, what a prediction answers, what user code answers *)
  Variables D R V : Type.

  (** What a prediction does after taking the upgradable guard of its decision
      (parser_atn_simulator.rs 171-173, lexer_atn_simulator.rs 94), and what a thread
      does: predictions and dumps. *)
  Inductive job : Type :=
  | Answer (r : R)                                   (* the guard is dropped on return *)
  | Peek (f : D -> job)                              (* look at the DFA through the guard *)
  | Shared (f : D -> job)                            (* 385-388: a second, plain read guard *)
  | Grow (g : D -> D) (f : D -> job)                 (* upgrade_lock (109), change, downgrade_lock (113) *)
  | Callback (t : thread) (f : V -> job)             (* user code, called with the guard held: predicates,
                                                        error listeners (294, 337, 517, 527), lexer actions
                                                        (lexer_atn_simulator.rs 391) *)
  with thread : Type :=
  | Stop (v : V)
  | Predict (k : nat) (j : job) (c : R -> thread)
  | Dump (k : nat) (t : thread).                     (* parser.rs 668-677 *)

  (** ** Where a thread is *)
  Inductive phase : Type :=
  | Held (j : job)                                   (* the upgradable guard *)
  | Reading (f : D -> job)                           (* and a plain one *)
  | Waiting (g : D -> D) (f : D -> job)              (* in [upgrade] *)
  | Writing (g : D -> D) (f : D -> job)              (* the write guard, before the change *)
  | Written (j : job).                               (* and after it *)
  (** predictions that have called user code, innermost first *)
  Definition suspended : Type := list (nat * (V -> job) * (R -> thread)).
  Inductive ctl : Type :=
  | Run (t : thread) (st : suspended)
  | Inside (k : nat) (ph : phase) (c : R -> thread) (st : suspended)
  | Dumping (k : nat) (t : thread) (st : suspended).

  (** ** The whole: locks, DFAs, threads, and what has happened *)
  Inductive event : Type :=
  | Began (i k : nat) (j : job)
  | Ended (i k : nat) (r : R).
  Record sys : Type := Sys { locks : nat -> lock; dfas : nat -> D; threads : list ctl; trace : list event }.
  Definition upd {A} (f : nat -> A) (k : nat) (x : A) (n : nat) : A := if n =? k then x else f n.
  Fixpoint put {A} (l : list A) (i : nat) (x : A) : list A :=
    match l, i with
    | [], _ => []
    | _ :: l, O => x :: l
    | y :: l, S i => y :: put l i x
    end.

  (** One step of thread [i]. *)
  Inductive move (i : nat) (L : nat -> lock) (d : nat -> D) : ctl -> (nat -> lock) -> (nat -> D) -> list event -> ctl -> Prop :=
  | m_acquire : forall k j c st l, l_upgradable_read i (L k) = Some l ->
      move i L d (Run (Predict k j c) st) (upd L k l) d [Began i k j] (Inside k (Held j) c st)
  | m_peek : forall k f c st,
      move i L d (Inside k (Held (Peek f)) c st) L d [] (Inside k (Held (f (d k))) c st)
  | m_read : forall k f c st l, l_read i (L k) = Some l ->
      move i L d (Inside k (Held (Shared f)) c st) (upd L k l) d [] (Inside k (Reading f) c st)
  | m_read_done : forall k f c st l, l_drop_read i (L k) = Some l ->
      move i L d (Inside k (Reading f) c st) (upd L k l) d [] (Inside k (Held (f (d k))) c st)
  | m_upgrade : forall k g f c st l, l_upgrade i (L k) = Some l ->
      move i L d (Inside k (Held (Grow g f)) c st) (upd L k l) d [] (Inside k (Waiting g f) c st)
  | m_upgraded : forall k g f c st l, l_upgraded i (L k) = Some l ->
      move i L d (Inside k (Waiting g f) c st) (upd L k l) d [] (Inside k (Writing g f) c st)
  | m_write : forall k g f c st,
      move i L d (Inside k (Writing g f) c st) L (upd d k (g (d k))) [] (Inside k (Written (f (d k))) c st)
  | m_downgrade : forall k j c st l, l_downgrade i (L k) = Some l ->
      move i L d (Inside k (Written j) c st) (upd L k l) d [] (Inside k (Held j) c st)
  | m_call : forall k t f c st,
      move i L d (Inside k (Held (Callback t f)) c st) L d [] (Run t ((k, f, c) :: st))
  | m_return : forall v k f c st,
      move i L d (Run (Stop v) ((k, f, c) :: st)) L d [] (Inside k (Held (f v)) c st)
  | m_release : forall k r c st l, l_drop_upgradable i (L k) = Some l ->
      move i L d (Inside k (Held (Answer r)) c st) (upd L k l) d [Ended i k r] (Run (c r) st)
  | m_dump : forall k t st l, l_read i (L k) = Some l ->
      move i L d (Run (Dump k t) st) (upd L k l) d [] (Dumping k t st)
  | m_dumped : forall k t st l, l_drop_read i (L k) = Some l ->
      move i L d (Dumping k t st) (upd L k l) d [] (Run t st).
  Inductive step : sys -> sys -> Prop :=
  | step_of : forall L d ts tr i c L' d' e c', nth_error ts i = Some c -> move i L d c L' d' e c' ->
      step (Sys L d ts tr) (Sys L' d' (put ts i c') (tr ++ e)).
  Inductive steps : sys -> sys -> Prop :=
  | steps_none : forall s, steps s s
  | steps_more : forall s1 s2 s3, steps s1 s2 -> step s2 s3 -> steps s1 s3.

  (** threads about to start, sharing DFAs nobody uses *)
  Definition start (d : nat -> D) (ts : list thread) : sys := Sys (fun _ => unlocked) d (map (fun t => Run t []) ts) [].
  Definition finished (s : sys) : Prop := forall c, In c (threads s) -> exists v, c = Run (Stop v) [].
End Conc.
Arguments Answer {D R V}. Arguments Peek {D R V}. Arguments Shared {D R V}. Arguments Grow {D R V}. Arguments Callback {D R V}.
Arguments Stop {D R V}. Arguments Predict {D R V}. Arguments Dump {D R V}.
Arguments Held {D R V}. Arguments Reading {D R V}. Arguments Waiting {D R V}. Arguments Writing {D R V}. Arguments Written {D R V}.
Arguments Run {D R V}. Arguments Inside {D R V}. Arguments Dumping {D R V}. Arguments Began {D R V}. Arguments Ended {D R V}.
Arguments Sys {D R V}. Arguments locks {D R V}. Arguments dfas {D R V}. Arguments threads {D R V}. Arguments trace {D R V}.
Arguments move {D R V}. Arguments step {D R V}. Arguments steps {D R V}. Arguments start {D R V}. Arguments finished {D R V}.
