(** What prediction is about, said without the simulator. *)
From Coq Require Import ZArith List Bool.
From Verif Require Import Outcome IntervalSetModel CharStreamModel TokenStreamModel TokenStreamSpec.
From Verif Require Import PredContextModel SemContextModel ConfigSetModel DfaModel AtnModel Ll1Model ParserModel PredictModel.
From Verif Require SemContextSpec ConfigSetSpec.
Import ListNotations.
Local Open Scope Z_scope.

(** ** Streams *)
(** Two states of a token stream look the same to a parser that reads on: the same
    position, and the same token [k] places ahead, for every [k]. *)
Definition same_ahead {S} (ts : stream_ops S) (s s' : S) : Prop :=
  s_index ts s' = s_index ts s /\
  forall k, 1 <= k -> exists s1 s1' t, s_lt ts s k = Val (s1, t) /\ s_lt ts s' k = Val (s1', t).
(** The stream between two operations of a parser: any history of operations on a new stream. *)
Definition common_history (src : nat -> tok) (ch : Z) (fuel : nat) (s : uts) : Prop :=
  exists ops, crun src ch fuel (with_channel src) ops = Done s.
Definition unbuffered_history (src : nat -> tok) (s : uts) : Prop :=
  exists ops, trun src new_unbuffered ops = Done s.

(** ** Precedence filter *)
(** A predicate tree that the precedence level [cur] alone already refutes. *)
Inductive dead (cur : Z) : sem -> Prop :=
| dead_prec : forall n, n < cur -> dead cur (Precedence n)
| dead_and : forall ops s, In s ops -> dead cur s -> dead cur (And ops).
(** A configuration of alternative 1 that survives at precedence [cur]. *)
Definition survives (cur : Z) (cs : list pconfig) (c : pconfig) : Prop :=
  In c cs /\ c_alt c = 1 /\ ~ dead cur (c_sem c).
(** Same state and same stacks as a survivor: the loop body already covers it. *)
Definition subsumed (cur : Z) (cs : list pconfig) (c : pconfig) : Prop :=
  exists s, survives cur cs s /\ c_state s = c_state c /\ c_ctx s = c_ctx c.
(** The last survivor in each state. *)
Definition last_survivor (cur : Z) (cs : list pconfig) (s : pconfig) : Prop :=
  exists l1 l2, cs = l1 ++ s :: l2 /\ survives cur cs s /\
    forall s', In s' l2 -> c_state s' = c_state s -> c_alt s' = 1 -> dead cur (c_sem s').
(** [k] is [c] with its predicate simplified at precedence [cur]: it says the same, for all
    user predicates. *)
Definition simplified (cur : Z) (c k : pconfig) : Prop :=
  c_state k = c_state c /\ c_alt k = c_alt c /\ c_ctx k = c_ctx c /\
  forall ctx (user : option ctx -> Z -> Z -> bool) outer, user None (-1) (-1) = true ->
    (SemContextSpec.holds ctx user cur outer (c_sem k) <-> SemContextSpec.holds ctx user cur outer (c_sem c)).
(** The output set holds exactly the configurations [kept], merged as sets merge them. *)
Definition holds_exactly (full : bool) (kept : list pconfig) (out : list pconfig) : Prop :=
  ConfigSetSpec.first_occ (map ConfigSetSpec.parser_key kept) (map ConfigSetSpec.parser_key out) /\
  forall e, In e out -> ConfigSetSpec.entry_for (negb full) (fun c => ConfigSetSpec.parser_key c = ConfigSetSpec.parser_key e) kept e.
(** [kept] is what the filter should keep of [cs], [covered] saying which configurations
    of other alternatives are redundant. *)
Definition filtered (cur : Z) (covered : pconfig -> Prop) (cs kept : list pconfig) : Prop :=
  (forall k, In k kept -> (exists c, survives cur cs c /\ simplified cur c k) \/
                          (In k cs /\ c_alt k <> 1 /\ (c_pfs k = true \/ ~ covered k))) /\
  (forall c, survives cur cs c -> exists k, In k kept /\ simplified cur c k) /\
  (forall c, In c cs -> c_alt c <> 1 -> c_pfs c = true \/ ~ covered c -> In c kept).

(** ** Predicates of conflicting alternatives *)
Section Alternatives.
  Variable ctx : Type.
  Variable user : option ctx -> Z -> Z -> bool.
  Variable cur : Z.
  Variable outer : ctx.
  (** Alternative [x] is allowed: one of its configurations carries a predicate that holds. *)
  Definition allowed (cs : list pconfig) (x : Z) : Prop :=
    exists c, In c cs /\ c_alt c = x /\ SemContextSpec.holds ctx user cur outer (c_sem c).
End Alternatives.
