(** Specification vocabulary for C105: what a lexer with non-greedy decisions may leave out. *)
From Coq Require Import ZArith List Bool.
From Verif Require Import AtnModel AtnSpec Ll1Spec LexMatchSpec.
Import ListNotations.

(** [matches_within a mode rest k n]: rule [k] matches some prefix of [rest] of at most [n] characters *)
Definition matches_within (a : atn) (mode : Z) (rest : list Z) (k n : nat) : Prop :=
  exists n', (n' <= n)%nat /\ rule_matches a mode k (firstn n' rest).

(** The first [n] characters of [rest] are a text of rule [k].  If a rule matches more, it is a
    non-greedy one, and it matches that much or less, too.  If an earlier rule matches the same, it is a
    non-greedy one, and it matches less, too. *)
Definition token_of (a : atn) (mode : Z) (rest : list Z) (n k : nat) : Prop :=
  (n <= length rest)%nat /\ rule_matches a mode k (firstn n rest) /\
  (forall n' k', (n < n' <= length rest)%nat -> rule_matches a mode k' (firstn n' rest) ->
     ~ greedy_rule a mode k' /\ matches_within a mode rest k' n) /\
  (forall k', (k' < k)%nat -> rule_matches a mode k' (firstn n rest) ->
     ~ greedy_rule a mode k' /\ exists n', (n' < n)%nat /\ rule_matches a mode k' (firstn n' rest)).

(** ** Rules like  '/*' .*? '*' '/' : an opening, any number of characters of a set, as few as possible, a
    closing.  The opening and the closing are sequences of characters or sets, without choices. *)
(** [leads a i j]: from [i] there is nothing to do but to come to [j] *)
Inductive leads (a : atn) : Z -> Z -> Prop :=
| leads_here : forall i, leads a i i
| leads_on : forall i s g n j, state_at a i = Some s -> ~ is_stop s -> st_trans s = [Epsilon g n] -> leads a g j -> leads a i j.
(** ... or to the end of the rule, maybe past commands *)
Inductive finishes (a : atn) : Z -> Prop :=
| finishes_here : forall i s, state_at a i = Some s -> is_stop s -> finishes a i
| finishes_on : forall i s g n, state_at a i = Some s -> ~ is_stop s -> st_trans s = [Epsilon g n] -> finishes a g -> finishes a i
| finishes_action : forall i s g d r k p, state_at a i = Some s -> ~ is_stop s -> st_trans s = [Action g d r k p] -> finishes a g -> finishes a i.
(** nothing to do but to read a character *)
Definition reads_one (a : atn) (i : Z) (t : transition) : Prop :=
  exists s, state_at a i = Some s /\ ~ is_stop s /\ st_trans s = [t] /\ consuming t.
(** exactly [n] + 1 characters, then the rule ends *)
Inductive closing (a : atn) : nat -> Z -> Prop :=
| closing_last : forall i t, reads_one a i t -> finishes a (get_target t) -> closing a 0 i
| closing_more : forall n i t j, reads_one a i t -> leads a (get_target t) j -> closing a n j -> closing a (S n) i.
(** some characters, then the decision [e] *)
Inductive opening (a : atn) (e : Z) : Z -> Prop :=
| opening_last : forall i t, reads_one a i t -> leads a (get_target t) e -> opening a e i
| opening_more : forall i t j, reads_one a i t -> leads a (get_target t) j -> opening a e j -> opening a e i.
Definition delimited (a : atn) (mode : Z) (k : nat) : Prop :=
  exists q o e s x nx y ny close n body t,
    rule_begins a mode k q /\ leads a q o /\ opening a e o /\
    state_at a e = Some s /\ nongreedy_state s /\ st_trans s = [Epsilon x nx; Epsilon y ny] /\
    leads a x close /\ closing a n close /\
    leads a y body /\ reads_one a body t /\ leads a (get_target t) e.
(** the first [n] characters are the shortest text of rule [k] here *)
Definition shortest (a : atn) (mode : Z) (rest : list Z) (n k : nat) : Prop :=
  forall n', (n' < n)%nat -> ~ rule_matches a mode k (firstn n' rest).
