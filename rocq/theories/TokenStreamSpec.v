(** Specification vocabulary for token streams. *)
From Coq Require Import ZArith List Bool.
From Verif Require Import CharStreamModel TokenStreamModel.
Import ListNotations.
Open Scope Z_scope.

(** Source token number n, carrying its position in the source as token_index. *)
Definition tok_at (src : nat -> tok) (n : nat) : tok := set_index (src n) (Z.of_nat n).
Definition is_eof (src : nat -> tok) (n : nat) : Prop := t_type (src n) = TOKEN_EOF.
(** Nothing before number n is EOF. *)
Definition no_eof_before (src : nat -> tok) (n : nat) : Prop := forall m, (m < n)%nat -> ~ is_eof src m.
(** n is the number of the (first) EOF token. *)
Definition eof_number (src : nat -> tok) (n : nat) : Prop := is_eof src n /\ no_eof_before src n.

(** A finite list of tokens followed by EOF tokens forever. *)
Definition src_of (ts : list tok) (e : tok) (n : nat) : tok := nth n ts e.

(** Tokens a parser sees on [channel]: those on it, and EOF. *)
Definition visible (src : nat -> tok) (channel : Z) (n : nat) : Prop :=
  t_channel (src n) = channel \/ is_eof src n.
(** j is the first visible token number at or after i. *)
Definition first_visible (src : nat -> tok) (channel : Z) (i j : nat) : Prop :=
  (i <= j)%nat /\ visible src channel j /\ forall m, (i <= m < j)%nat -> ~ visible src channel m.
(** j is the k-th visible token from position i on, counting i itself as the first; EOF repeats. *)
Inductive kth_visible (src : nat -> tok) (channel : Z) (i : nat) : nat -> nat -> Prop :=
| kv_one : kth_visible src channel i 1 i
| kv_eof : forall k j, kth_visible src channel i k j -> is_eof src j -> kth_visible src channel i (S k) j
| kv_next : forall k j j', kth_visible src channel i k j -> ~ is_eof src j ->
    first_visible src channel (S j) j' -> kth_visible src channel i (S k) j'.
(** j is the last on-channel token before i. *)
Definition prev_on_channel (src : nat -> tok) (channel : Z) (i j : nat) : Prop :=
  (j < i)%nat /\ t_channel (src j) = channel /\ forall m, (j < m < i)%nat -> t_channel (src m) <> channel.
(** j is the k-th on-channel token before i. *)
Inductive kth_back (src : nat -> tok) (channel : Z) (i : nat) : nat -> nat -> Prop :=
| kb_one : forall j, prev_on_channel src channel i j -> kth_back src channel i 1 j
| kb_next : forall k j j', kth_back src channel i k j -> prev_on_channel src channel j j' ->
    kth_back src channel i (S k) j'.

(** Markers stay pinned: during the history [ops] the number of held markers never drops below [lvl]. *)
Fixpoint keeps (src : nat -> tok) (lvl : Z) (s : uts) (ops : list top) : Prop :=
  match ops with
  | [] => True
  | o :: r => match tstep src s o with
              | Done s' => lvl <= markers s' /\ keeps src lvl s' r
              | _ => True
              end
  end.

(** Typical use of a parser's token stream: read lt(1), consume, until EOF. *)
Fixpoint visit (src : nat -> tok) (ch : Z) (fuel : nat) (n : nat) (s : uts) : out (list tok) :=
  match n with
  | O => OutOfFuel
  | S n' =>
      do r <- clt src ch fuel s 1; let '(s, t) := r in
      match t with
      | None => Crash
      | Some t => if t_type t =? TOKEN_EOF then Done [t]
                  else do s <- cconsume src ch fuel s; do ts <- visit src ch fuel n' s; Done (t :: ts)
      end
  end.
