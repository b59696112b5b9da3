(** Independent vocabulary for C26-C27. *)
From Coq Require Import ZArith List Bool Sorted.
From Verif Require Import Outcome PredContextModel PredContextSpec SemContextModel ConfigSetModel.
Import ListNotations.
Local Open Scope Z_scope.

(** [first_occ l f]: [f] lists the elements of [l] without repetition, in the
    order of their first occurrence. *)
Inductive first_occ {K : Type} : list K -> list K -> Prop :=
| FO_nil : first_occ [] []
| FO_seen : forall l f x, first_occ l f -> In x l -> first_occ (l ++ [x]) f
| FO_new : forall l f x, first_occ l f -> ~ In x l -> first_occ (l ++ [x]) (f ++ [x]).

Section Spec.
  Context {X : Type}.

  (** A configuration with a well-formed call stack context. *)
  Definition good_config (c : config X) : Prop := exists x, c_ctx c = Some x /\ wf x.

  (** Parser sets: state, alternative, predicate. *)
  Definition parser_key (c : config X) : Z * Z * sem := (c_state c, c_alt c, c_sem c).

  (** Lexer sets: everything except how far the configuration dips into the caller. *)
  Definition lexer_key (c : config X) : Z * Z * option pctx * sem * bool * X :=
    (c_state c, c_alt c, c_ctx c, c_sem c, c_pfs c, c_type c).

  (** [entry_for wild same cs e]: the entry [e] stands for exactly the members of [cs]
      selected by [same]: the union of their stacks, the largest outer-context
      depth, and the disjunction of their flags. *)
  Definition entry_for (wild : bool) (same : config X -> Prop) (cs : list (config X)) (e : config X) : Prop :=
    (exists x, c_ctx e = Some x /\ wf x /\
       forall st, stands wild x st <->
         exists c y, In c cs /\ same c /\ c_ctx c = Some y /\ stands wild y st) /\
    (forall c, In c cs -> same c -> c_reach c <= c_reach e) /\
    (exists c, In c cs /\ same c /\ c_reach c = c_reach e) /\
    (c_pfs e = true <-> exists c, In c cs /\ same c /\ c_pfs c = true).

  (** [alt_of cs g a]: some configuration in state and with stacks [g] has alternative [a]. *)
  Definition alt_of (cs : list (config X)) (g : Z * pctx) (a : Z) : Prop :=
    exists c, In c cs /\ c_state c = fst g /\ c_ctx c = Some (snd g) /\ c_alt c = a.
  Definition group (cs : list (config X)) (g : Z * pctx) : Prop := exists a, alt_of cs g a.

  (** two or more alternatives / exactly one *)
  Definition ambiguous (P : Z -> Prop) : Prop := exists a b, P a /\ P b /\ a <> b.
  Definition least (P : Z -> Prop) (a : Z) : Prop := P a /\ forall b, P b -> a <= b.

  (** Some state is reached by exactly one alternative. *)
  Definition some_state_decided (cs : list (config X)) : Prop :=
    exists st a, (exists c, In c cs /\ c_state c = st) /\
      forall c, In c cs -> c_state c = st -> c_alt c = a.
End Spec.

(** A bit set holds exactly the numbers satisfying [P], ascending. *)
Definition is_set (l : list Z) (P : Z -> Prop) : Prop :=
  StronglySorted Z.lt l /\ forall a, In a l <-> P a.
