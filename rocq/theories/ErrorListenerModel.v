(** Model of src/error_listener.rs and of the functions through which recognizers reach error listeners
    (src/parser.rs 319-351 and 414, src/lexer.rs 262-284 and 424-452, src/parser_atn_simulator.rs 1462-1517).

    - What the built-in console listener prints to standard error is accumulated in [w_stderr]; what
      listeners written by the user are told is accumulated in [w_heard], in the order of the calls.
      A user's listener is assumed only to take note (one that notifies listeners again from within
      [syntax_error] would be called for ever).
    - Listeners get shared references: they cannot change the parser, except for the counter of syntax
      errors, which [notify_error_listeners] increments.
    - The configuration set and the DFA that listeners get are left out (DiagnosticErrorListener reads the
      decision number and the start state of the DFA, given here as arguments). *)
From Coq Require Import ZArith List Bool.
From Verif Require Import Outcome Text AtnModel Ll1Model TokenStreamModel ParserModel PredictModel.
Import ListNotations.
Local Open Scope Z_scope.
Local Open Scope outcome_scope.

(** error_listener.rs 26-34: arguments of [syntax_error]; the parser always gives a token, the lexer none *)
Record syntax_error : Type := SyntaxError {
  se_token : option tok; se_line : Z; se_column : Z; se_message : text; se_error : option perr
}.
Inductive told_call : Type := ToldError (e : syntax_error) | ToldReport (r : report).

(** error_listener.rs 80-81, 201-203, and the user's own, told apart by a number *)
Inductive elistener : Type := ConsoleErrorListener | DiagnosticErrorListener (exact_only : bool) | OwnListener (id : nat).

Record world : Type := World {
  w_listeners : list elistener;                (* error_listeners: parser.rs 148, lexer.rs 92 *)
  w_stderr : text;
  w_heard : list (nat * told_call)
}.
Definition print (w : world) (s : text) : world := World (w_listeners w) (w_stderr w ++ s) (w_heard w).
Definition hear (w : world) (id : nat) (c : told_call) : world := World (w_listeners w) (w_stderr w) (w_heard w ++ [(id, c)]).

(** parser.rs 414, lexer.rs 284 *)
Definition new_world : world := World [ConsoleErrorListener] [] [].
(** parser.rs 319-321, lexer.rs 263-265 *)
Definition add_error_listener (w : world) (l : elistener) : world := World (w_listeners w ++ [l]) (w_stderr w) (w_heard w).
(** parser.rs 323-325, lexer.rs 268-270 *)
Definition remove_error_listeners (w : world) : world := World [] (w_stderr w) (w_heard w).

(** error_listener.rs 93: [eprintln!("line {}:{} {}", line, column, msg)] *)
Definition console_line (line column : Z) (msg : text) : text :=
  lit "line " ++ isize_to_string line ++ lit ":" ++ isize_to_string column ++ lit " " ++ msg ++ [10].

(** error_listener.rs 84-95; DiagnosticErrorListener has the default method, which does nothing (26-35) *)
Definition on_syntax_error (e : syntax_error) (w : world) (l : elistener) : world :=
  match l with
  | ConsoleErrorListener => print w (console_line (se_line e) (se_column e) (se_message e))
  | DiagnosticErrorListener _ => w
  | OwnListener id => hear w id (ToldError e)
  end.
(** the loops of parser.rs 341-343 and lexer.rs 442-451, and error_listener.rs 112-114 *)
Definition tell_all (w : world) (e : syntax_error) : world := fold_left (on_syntax_error e) (w_listeners w) w.

Section Parser.
  Context {S : Type} (ts : stream_ops S) (a : atn) (names : naming).

  (** parser.rs 327-344 *)
  Definition notify (p : parser S) (w : world) (msg : text) (offending : option Z) (e : option perr) : outcome (parser S * world) :=
    let! t := match offending with
              | None => get_current_token ts p
              | Some x => s_get ts (p_input p) x
              end in
    Val (with_notice p (Notice t msg e), tell_all w (SyntaxError (Some t) (t_line t) (t_column t) msg e)).

  (** error_listener.rs 211-221 *)
  Definition get_decision_description (decision start_state : Z) : outcome text :=
    let! s := get_state a start_state in
    match nth_error (rule_names names) (Z.to_nat (st_rule s)) with
    | Some name => Val (isize_to_string decision ++ lit " (" ++ name ++ lit ")")
    | None => Val (isize_to_string decision)
    end.

  (** [{:?}] of a BitSet: its members in ascending order *)
  Fixpoint numbers (l : list Z) : text :=
    match l with
    | [] => []
    | [x] => isize_to_string x
    | x :: l => isize_to_string x ++ lit ", " ++ numbers l
    end.
  Definition bitset_debug (l : list Z) : text := lit "{" ++ numbers l ++ lit "}".

  (** error_listener.rs 255-263, 277-283, 297-303 *)
  Definition diagnosis (p : parser S) (decision start_state : Z) (r : report) : outcome text :=
    let! d := get_decision_description decision start_state in
    match r with
    | Ambiguity start stop _ alts =>
        let! s := s_text ts (p_input p) start stop in
        Val (lit "reportAmbiguity d=" ++ d ++ lit ": ambigAlts=" ++ bitset_debug alts ++ lit ", input='" ++ s ++ lit "'")
    | AttemptingFullContext start stop _ =>
        let! s := s_text ts (p_input p) start stop in
        Val (lit "reportAttemptingFullContext d=" ++ d ++ lit ", input='" ++ s ++ lit "'")
    | ContextSensitivity start stop _ =>
        let! s := s_text ts (p_input p) start stop in
        Val (lit "reportContextSensitivity d=" ++ d ++ lit ", input='" ++ s ++ lit "'")
    end.

  (** error_listener.rs 252-254 *)
  Definition ignores (exact_only : bool) (r : report) : bool :=
    match r with Ambiguity _ _ exact _ => exact_only && negb exact | _ => false end.
  (** the methods of one listener: error_listener.rs 242-306; the console has the default ones *)
  Definition on_report (decision start_state : Z) (r : report) (p : parser S) (w : world) (l : elistener) : outcome (parser S * world) :=
    match l with
    | ConsoleErrorListener => Val (p, w)
    | DiagnosticErrorListener exact_only =>
        if ignores exact_only r then Val (p, w)
        else
          let! msg := diagnosis p decision start_state r in
          notify p w msg None None
    | OwnListener id => Val (p, hear w id (ToldReport r))
    end.
  (** error_listener.rs 117-178: the loops of ProxyErrorListener, called by parser_atn_simulator.rs 1462-1517 *)
  Fixpoint dispatch_to (ls : list elistener) (decision start_state : Z) (r : report) (p : parser S) (w : world) : outcome (parser S * world) :=
    match ls with
    | [] => Val (p, w)
    | l :: ls =>
        let! (p, w) := on_report decision start_state r p w l in
        dispatch_to ls decision start_state r p w
    end.
  Definition dispatch_report (decision start_state : Z) (r : report) (p : parser S) (w : world) : outcome (parser S * world) :=
    dispatch_to (w_listeners w) decision start_state r p w.
End Parser.

(** lexer.rs 424-452: a lexer's error, with the text as displayed *)
Definition lexer_message (shown : text) : text := lit "token recognition error at: '" ++ shown ++ lit "'".
Definition notify_listeners (w : world) (line column : Z) (shown : text) : world :=
  tell_all w (SyntaxError None line column (lexer_message shown) None).
(** char_stream.rs 88-92: [to_display] of a slice; what is no character is replaced.  The text of a string is itself (160-162). *)
Definition display_slice (l : list Z) : text :=
  map (fun x => if ((0 <=? x) && (x <? 55296)) || ((57344 <=? x) && (x <? 1114112)) then x else 65533) l.
(** all the errors of a lexer, oldest first ([lx_errors]), told to the listeners *)
Definition told_of_lexer (display : list Z -> text) (errors : list (Z * Z * list Z)) (w : world) : world :=
  fold_left (fun w e => let '(line, column, raw) := e in notify_listeners w line column (display raw)) errors w.
