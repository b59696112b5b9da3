(** Vocabulary for error messages: how tokens and sets of tokens are shown, and what an
    error listener may be told. *)
From Coq Require Import ZArith List Bool.
From Verif Require Import Outcome IntervalSetModel AtnModel Ll1Model TokenStreamModel ParserModel.
Import ListNotations.
Local Open Scope Z_scope.

(** Tab, line feed and carriage return are shown as \t, \n, \r; everything else as it is. *)
Definition shown (s : text) : text :=
  flat_map (fun c => if c =? 9 then lit "\t" else if c =? 10 then lit "\n" else if c =? 13 then lit "\r" else [c]) s.
(** A token is shown as its text, the end of input as <EOF>. *)
Definition quoted (t : tok) : text := lit "'" ++ shown (if t_type t =? -1 then lit "<EOF>" else t_text t) ++ lit "'".
(** The name of a token type: that of the vocabulary; the end of input and "nothing" have names of their own. *)
Definition name_of (names : naming) (ty : Z) : text :=
  if ty =? -1 then lit "<EOF>" else if ty =? -2 then lit "<EPSILON>" else display_name names ty.
Fixpoint separated (sep : text) (l : list text) : text :=
  match l with
  | [] => []
  | [x] => x
  | x :: l => x ++ sep ++ separated sep l
  end.
(** Several token types, in the given order. *)
Definition choice_of (names : naming) (types : list Z) : text :=
  match types with
  | [] => lit "{}"
  | [x] => name_of names x
  | _ => lit "{" ++ separated (lit ", ") (map (name_of names) types) ++ lit "}"
  end.

(** No line break. *)
Definition one_line (s : text) : Prop := ~ In 10 s /\ ~ In 13 s.

(** ** What is told
    [told q n]: [n] is a proper notice to send when the parser is in state [q]; [ahead] lists the tokens
    that lie ahead, the current one first. *)
Section Told.
  Context {S : Type} (ts : stream_ops S) (a : atn) (names : naming) (fuel : nat) (ahead : S -> list tok).

  (** the token told is the current one *)
  Definition current (q : parser S) (t : tok) : Prop := exists l, ahead (p_input q) = t :: l.

  Inductive told (q : parser S) : notice -> Prop :=
  | told_extraneous : forall t expecting, current q t -> get_expected_tokens a fuel q = Val expecting ->
      told q (Notice t (lit "extraneous input " ++ quoted t ++ lit " expecting " ++ to_token_string (display_name names) expecting) None)
  | told_missing : forall t expecting, current q t -> get_expected_tokens a fuel q = Val expecting ->
      told q (Notice t (lit "missing " ++ to_token_string (display_name names) expecting ++ lit " at " ++ quoted t) None)
  (* a mismatch noticed at the current token, in the state and with the invoking states kept in the error *)
  | told_mismatch : forall b expecting, current q (e_token b) ->
      Ll1Model.get_expected_tokens fuel a (e_state b) (e_stack b) = Val expecting ->
      told q (Notice (e_token b)
        (lit "mismatched input " ++ quoted (e_token b) ++ lit " expecting " ++ to_token_string (display_name names) expecting)
        (Some (InputMismatchError b)))
  (* no alternative: from where the decision started to where it failed *)
  | told_no_alternative : forall b start t input, s_get ts (p_input q) (t_index (e_token b)) = Val t ->
      (if t_type start =? -1 then input = lit "<EOF>"
       else s_text ts (p_input q) (t_index start) (t_index (e_token b)) = Val input) ->
      told q (Notice t (lit "no viable alternative at input '" ++ input ++ lit "'") (Some (NoAltError b start)))
  | told_predicate : forall b r i message predicate t c rule, s_get ts (p_input q) (t_index (e_token b)) = Val t ->
      (exists i, p_ctx q = Some i /\ nth_error (p_heap q) i = Some c) -> 0 <= x_rule c ->
      nth_error (rule_names names) (Z.to_nat (x_rule c)) = Some rule ->
      told q (Notice t (lit "rule " ++ rule ++ lit " " ++ message) (Some (PredicateError b r i message predicate)))
  (* errors of the user's own *)
  | told_other : forall e t, current q t -> get_offending_token e = None ->
      told q (Notice t (debug_text names e) (Some e)).
End Told.

(** The rule bodies do not make up mismatch errors: those come from matching and synchronising only. *)
Fixpoint no_mismatch (c : call) : Prop :=
  match c with
  | CRaise (InputMismatchError _) => False
  | CRule _ _ _ body | CRec _ _ _ _ body =>
      (fix all (l : list call) : Prop := match l with [] => True | c :: l => no_mismatch c /\ all l end) body
  | _ => True
  end.
