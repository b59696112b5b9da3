(** Vocabulary for error listeners. *)
From Coq Require Import ZArith List Bool.
From Verif Require Import Outcome Text AtnModel TokenStreamModel ParserModel PredictModel ErrorListenerModel TreeSpec.
Import ListNotations.
Local Open Scope Z_scope.

(** The user's own listeners among those registered, in order; the consoles; the diagnostic listeners that do
    not ignore a report: those told to listen for exact ambiguities only ignore the inexact ones. *)
Definition own_ids (ls : list elistener) : list nat := flat_map (fun l => match l with OwnListener id => [id] | _ => [] end) ls.
Definition consoles (ls : list elistener) : nat := length (filter (fun l => match l with ConsoleErrorListener => true | _ => false end) ls).
Definition interested (r : report) (l : elistener) : bool :=
  match l, r with
  | DiagnosticErrorListener true, Ambiguity _ _ false _ => false
  | DiagnosticErrorListener _, _ => true
  | _, _ => false
  end.
Definition diagnosticians (r : report) (ls : list elistener) : nat := length (filter (interested r) ls).

(** [calls] are calls to each of the listeners [ids], in order. *)
Definition each (ids : list nat) (c : told_call) : list (nat * told_call) := map (fun id => (id, c)) ids.
Definition is_report (c : nat * told_call) : bool := match snd c with ToldReport _ => true | _ => false end.
Definition is_error (c : nat * told_call) : bool := negb (is_report c).
Fixpoint times {A} (n : nat) (l : list A) : list A := match n with O => [] | S n => l ++ times n l end.

(** What a console prints about an error. *)
Definition line_about (line column : Z) (message printed : text) : Prop :=
  exists l c, decimal_of l line /\ decimal_of c column /\
    printed = lit "line " ++ l ++ lit ":" ++ c ++ lit " " ++ message ++ [10].

(** Registering and removing. *)
Inductive listener_op : Type := AddListener (l : elistener) | RemoveAll.
Definition do_op (w : world) (o : listener_op) : world :=
  match o with AddListener l => add_error_listener w l | RemoveAll => remove_error_listeners w end.
(** the listeners added since the last removal, preceded by the console if there was none *)
Inductive registered : list listener_op -> list elistener -> Prop :=
| reg_start : registered [] [ConsoleErrorListener]
| reg_add : forall h ls l, registered h ls -> registered (h ++ [AddListener l]) (ls ++ [l])
| reg_remove : forall h, registered (h ++ [RemoveAll]) [].
