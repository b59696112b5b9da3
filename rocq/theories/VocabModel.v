(** Model of vocabulary.rs. Text is a list of code points. *)
From Coq Require Import ZArith List Bool.
From Verif Require Import TreeModel.
Import ListNotations.
Local Open Scope Z_scope.

(** vocabulary.rs:19-25 *)
Record vocabulary := Vocab {
  literal_names : list (option text);
  symbolic_names : list (option text);
  display_names : list (option text);
  max_token_type : Z }.

Definition len {A} (l : list A) : Z := Z.of_nat (length l).

(** vocabulary.rs:36-55: [display_names] is an optional iterator. *)
Definition vocab_new (lits syms : list (option text)) (disp : option (list (option text))) : vocabulary :=
  let disp := match disp with Some d => d | None => [] end in
  Vocab lits syms disp (Z.max (len lits) (Z.max (len syms) (len disp)) - 1).

(** [v[i] = None] *)
Definition clear {A} (l : list (option A)) (i : nat) : list (option A) :=
  firstn i l ++ match skipn i l with [] => [] | _ :: r => None :: r end.

Section FromNames.
  (** [char::is_uppercase] *)
  Variable is_uppercase : Z -> bool.

  (** vocabulary.rs:62-79: one iteration of the loop. *)
  Definition split_name (st : list (option text) * list (option text)) (i : nat) (tn : option text)
    : list (option text) * list (option text) :=
    let '(lits, syms) := st in
    match tn with
    | None => (lits, syms)
    | Some [] => (clear lits i, clear syms i)
    | Some (c :: _) =>
        if c =? 39 then (lits, clear syms i)
        else if is_uppercase c then (clear lits i, syms)
        else (clear lits i, clear syms i)
    end.
  (** vocabulary.rs:62-79: the loop [for (i, tn) in token_names.iter().enumerate()]. *)
  Fixpoint split_names (st : list (option text) * list (option text)) (i : nat) (names : list (option text)) :=
    match names with
    | [] => st
    | tn :: rest => split_names (split_name st i tn) (S i) rest
    end.

  (** vocabulary.rs:57-86 *)
  Definition from_token_names (names : list (option text)) : vocabulary :=
    let '(lits, syms) := split_names (names, names) 0 names in
    vocab_new lits syms (Some names).
End FromNames.

(** [token_type as usize] for a 64-bit isize, and [slice.get]. *)
Definition as_usize (t : Z) : Z := t mod 2 ^ 64.
Definition get {A} (l : list A) (i : Z) : option A :=
  if i <? len l then nth_error l (Z.to_nat i) else None.
Definition flatten {A} (o : option (option A)) : option A := match o with Some x => x | None => None end.

(** vocabulary.rs:94-98 *)
Definition get_literal_name (v : vocabulary) (t : Z) : option text :=
  flatten (get (literal_names v) (as_usize t)).

(** vocabulary.rs:100-107 *)
Definition get_symbolic_name (v : vocabulary) (t : Z) : option text :=
  if t =? -1 then Some [69; 79; 70]
  else flatten (get (symbolic_names v) (as_usize t)).

(** vocabulary.rs:109-117 *)
Definition get_display_name (v : vocabulary) (t : Z) : text :=
  match flatten (get (display_names v) (as_usize t)) with
  | Some x => x
  | None =>
      match get_literal_name v t with
      | Some x => x
      | None => match get_symbolic_name v t with Some x => x | None => isize_to_string t end
      end
  end.
