(** Vocabulary of the claims about token names. *)
From Coq Require Import ZArith List Bool.
From Verif Require Import TreeModel TreeSpec VocabModel.
Import ListNotations.
Local Open Scope Z_scope.

(** The table has the entry [s] for token type [t]. *)
Definition entry (table : list (option text)) (t : Z) (s : text) : Prop :=
  exists n, t = Z.of_nat n /\ nth_error table n = Some (Some s).
Definition no_entry (table : list (option text)) (t : Z) : Prop := forall s, ~ entry table t s.

(** The tables fit into memory: Rust vectors have at most isize::MAX elements. *)
Definition fits (v : vocabulary) : Prop :=
  Z.of_nat (length (literal_names v)) < 2 ^ 63 /\ Z.of_nat (length (symbolic_names v)) < 2 ^ 63 /\
  Z.of_nat (length (display_names v)) < 2 ^ 63.
Definition is_isize (t : Z) : Prop := - 2 ^ 63 <= t < 2 ^ 63.

(** "EOF" *)
Definition eof_name : text := [69; 79; 70].

Inductive literal_is (v : vocabulary) (t : Z) : option text -> Prop :=
| lit_some s : entry (literal_names v) t s -> literal_is v t (Some s)
| lit_none : no_entry (literal_names v) t -> literal_is v t None.

Inductive symbolic_is (v : vocabulary) (t : Z) : option text -> Prop :=
| sym_eof : t = -1 -> symbolic_is v t (Some eof_name)
| sym_some s : t <> -1 -> entry (symbolic_names v) t s -> symbolic_is v t (Some s)
| sym_none : t <> -1 -> no_entry (symbolic_names v) t -> symbolic_is v t None.

Inductive display_is (v : vocabulary) (t : Z) : text -> Prop :=
| disp_explicit s : entry (display_names v) t s -> display_is v t s
| disp_literal s : no_entry (display_names v) t -> literal_is v t (Some s) -> display_is v t s
| disp_symbolic s : no_entry (display_names v) t -> literal_is v t None -> symbolic_is v t (Some s) -> display_is v t s
| disp_number s : no_entry (display_names v) t -> literal_is v t None -> symbolic_is v t None ->
    decimal_of s t -> display_is v t s.
