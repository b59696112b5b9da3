(** Model of the parser driver: /repo/src/parser.rs (BaseParser),
    /repo/src/error_strategy.rs, the errors of /repo/src/errors.rs and the way a
    generated parser calls them (/repo/templates/Rust.stg 545-660, 1180-1235;
    e.g. /repo/tests/gen/csvparser.rs 326-382, /repo/tests/gen/simplelrparser.rs 410-487).
    No proofs in this file.

    Simplifications.  Rule contexts live in a heap (a list indexed by address) and
    are never freed: [Rc] keeps alive whatever a generated function still uses, and
    the [Weak] parent link of a context is taken to be upgradable.  [isize] is [Z].
    The lexer error of errors.rs cannot occur in a parser and is left out. *)
From Coq Require Import ZArith List Bool.
From Verif Require Import Outcome IntervalSetModel DfaModel AtnModel Ll1Model.
From Verif Require TokenStreamModel.
Import ListNotations.
Local Open Scope Z_scope.
Local Open Scope outcome_scope.

Notation tok := TokenStreamModel.tok.
Notation Tok := TokenStreamModel.Tok.
Notation t_type := TokenStreamModel.t_type.
Notation t_index := TokenStreamModel.t_index.
Notation t_line := TokenStreamModel.t_line.
Notation t_column := TokenStreamModel.t_column.

(** token_factory.rs 26-47: the token [create_invalid] returns *)
Definition invalid_tok : tok := Tok 0 0 (lit "<invalid>") (-1) (-1) (-1).

(** ** Token streams (token_stream.rs 24-50, int_stream.rs): the operations the
    parser uses.  [lt] may buffer tokens, so it returns the stream. *)
Record stream_ops (S : Type) := StreamOps {
  s_lt : S -> Z -> outcome (S * option tok);
  s_get : S -> Z -> outcome tok;
  s_index : S -> Z;
  s_consume : S -> outcome S;
  s_text : S -> Z -> Z -> outcome (list Z)
}.
Arguments s_lt {S}. Arguments s_get {S}. Arguments s_index {S}. Arguments s_consume {S}. Arguments s_text {S}.

(** The two result types of the models agree. *)
Definition of_out {A} (r : TokenStreamModel.out A) : outcome A :=
  match r with
  | TokenStreamModel.Done a => Val a
  | TokenStreamModel.Crash => Panics
  | TokenStreamModel.OutOfFuel => NoFuel
  end.
(** common_token_stream.rs 22-100: the stream parsers normally use. *)
Definition common_stream (src : nat -> tok) (channel : Z) (fuel : nat) : stream_ops TokenStreamModel.uts :=
  StreamOps _ (fun s k => of_out (TokenStreamModel.clt src channel fuel s k))
    (fun s i => of_out (TokenStreamModel.get s i))
    (fun s => TokenStreamModel.cur s)
    (fun s => of_out (TokenStreamModel.cconsume src channel fuel s))
    (fun s i j => of_out (TokenStreamModel.get_text_from_interval s i j)).
(** token_stream.rs 96-260: the unbuffered stream. *)
Definition unbuffered_stream (src : nat -> tok) : stream_ops TokenStreamModel.uts :=
  StreamOps _ (fun s k => of_out (TokenStreamModel.lt src s k))
    (fun s i => of_out (TokenStreamModel.get s i))
    (fun s => TokenStreamModel.cur s)
    (fun s => of_out (TokenStreamModel.tconsume src s))
    (fun s i j => of_out (TokenStreamModel.get_text_from_interval s i j)).

(** ** Rule contexts (parser_rule_context.rs 190-260, rule_context.rs 130-150) *)
Inductive kid : Type :=
| KRule (i : nat)       (* a rule context, by address *)
| KTerm (t : tok)       (* a terminal node *)
| KErr (t : tok).       (* an error node *)
Record rctx : Type := RCtx {
  x_parent : option nat;
  x_invoking : Z;
  x_rule : Z;
  x_kind : nat;         (* which alternative label the context type stands for, 0 = none *)
  x_plain : bool;       (* context type of a rule with labelled alternatives: no listener callbacks *)
  x_start : tok;
  x_stop : tok;
  x_children : list kid
}.
(** parser_rule_context.rs 456-468 *)
Definition new_parser_ctx (parent : option nat) (invoking rule : Z) (kind : nat) (plain : bool) : rctx :=
  RCtx parent invoking rule kind plain invalid_tok invalid_tok [].
(** parser_rule_context.rs 469-484 *)
Definition copy_from (c : rctx) (kind : nat) (plain : bool) : rctx :=
  RCtx (x_parent c) (x_invoking c) (x_rule c) kind plain (x_start c) (x_stop c) (x_children c).
(** rule_context.rs 230-232 *)
Definition set_parent (p : option nat) (c : rctx) : rctx :=
  RCtx p (x_invoking c) (x_rule c) (x_kind c) (x_plain c) (x_start c) (x_stop c) (x_children c).
Definition set_invoking_state (s : Z) (c : rctx) : rctx :=
  RCtx (x_parent c) s (x_rule c) (x_kind c) (x_plain c) (x_start c) (x_stop c) (x_children c).
(** parser_rule_context.rs 329-331, 347-349 *)
Definition or_invalid (t : option tok) : tok := match t with Some t => t | None => invalid_tok end.
Definition set_start (t : option tok) (c : rctx) : rctx :=
  RCtx (x_parent c) (x_invoking c) (x_rule c) (x_kind c) (x_plain c) (or_invalid t) (x_stop c) (x_children c).
Definition set_stop (t : option tok) (c : rctx) : rctx :=
  RCtx (x_parent c) (x_invoking c) (x_rule c) (x_kind c) (x_plain c) (x_start c) (or_invalid t) (x_children c).
(** parser_rule_context.rs 380-386 *)
Definition set_children (l : list kid) (c : rctx) : rctx :=
  RCtx (x_parent c) (x_invoking c) (x_rule c) (x_kind c) (x_plain c) (x_start c) (x_stop c) l.
Definition add_child (k : kid) (c : rctx) : rctx := set_children (x_children c ++ [k]) c.
Definition remove_last_child (c : rctx) : rctx := set_children (removelast (x_children c)) c.

Definition heap := list rctx.
Definition deref (h : heap) (i : nat) : outcome rctx := unwrap (nth_error h i).
Fixpoint update (h : heap) (i : nat) (f : rctx -> rctx) : heap :=
  match h, i with
  | [], _ => []
  | c :: h, O => f c :: h
  | c :: h, S i => c :: update h i f
  end.

(** rule_context.rs 43-58: the iterator over the invoking states from a context
    outwards, up to the first negative one.  The result is what the iterator yields
    and whether it then ends; [false]: the next call panics, because there is no
    parent.  [n] bounds the length of the parent chain. *)
Fixpoint states_iter (n : nat) (h : heap) (i : nat) : outcome (list Z * bool) :=
  match n with
  | O => NoFuel
  | S n =>
      let! c := deref h i in
      if x_invoking c <? 0 then Val ([], true)
      else
        match x_parent c with
        | None => Val ([], false)
        | Some j => let! (r, ends) := states_iter n h j in Val (x_invoking c :: r, ends)
        end
  end.
(** the iterator run to its end ([collect]) *)
Definition states_stack (n : nat) (h : heap) (i : nat) : outcome (list Z) :=
  let! (r, ends) := states_iter n h i in
  if (ends : bool) then Val r else Panics.
(** The invoking states of a context and of all its ancestors (what
    prediction_context.rs 520-543 walks over). *)
Fixpoint ancestors (n : nat) (h : heap) (i : nat) : outcome (list Z) :=
  match n with
  | O => NoFuel
  | S n =>
      let! c := deref h i in
      match x_parent c with
      | None => Val [x_invoking c]
      | Some j => let! r := ancestors n h j in Val (x_invoking c :: r)
      end
  end.

(** ** Errors (errors.rs 20-61, 116-125) *)
Record base_error : Type := BaseErr { e_token : tok; e_state : Z; e_stack : list Z }.
Inductive perr : Type :=
| NoAltError (b : base_error) (start : tok)
| InputMismatchError (b : base_error)
| PredicateError (b : base_error) (rule_index predicate_index : Z) (message predicate : text)
| IllegalStateError
| OtherError
| FallThrough (cause : option perr).   (* Some e: a ParseCancelledError around e *)
(** errors.rs 96-106 *)
Definition get_offending_token (e : perr) : option tok :=
  match e with
  | NoAltError b _ | InputMismatchError b | PredicateError b _ _ _ _ => Some (e_token b)
  | _ => None
  end.

(** ** The parser (parser.rs 110-152) *)
(** A parse listener: the address of its box and the listener itself (a name). *)
Record plistener : Type := PListener { l_addr : Z; l_name : nat }.
Inductive event : Type :=
| EnterRule (i : nat)
| ExitRule (i : nat)
| VisitTerminal (t : tok)
| VisitError (t : tok).
(** What an error listener is told: the offending token, the message, and the error, if any.  Line
    and column are those of the token (parser.rs 338-339). *)
Record notice : Type := Notice { n_token : tok; n_message : text; n_error : option perr }.

Record parser (S : Type) : Type := Parser {
  p_ctx : option nat;
  p_build : bool;                       (* build_parse_trees *)
  p_eof : bool;                         (* matched_eof *)
  p_state : Z;
  p_input : S;
  p_prec : list Z;                      (* precedence_stack, the top last *)
  p_listeners : list plistener;
  p_errors : Z;                         (* _syntax_errors *)
  p_heap : heap;
  p_events : list (plistener * event);  (* every call made to a parse listener so far *)
  p_notices : list notice               (* every call made to each error listener so far *)
}.
Arguments Parser {S}. Arguments p_ctx {S}. Arguments p_build {S}. Arguments p_eof {S}. Arguments p_state {S}.
Arguments p_input {S}. Arguments p_prec {S}. Arguments p_listeners {S}. Arguments p_errors {S}.
Arguments p_heap {S}. Arguments p_events {S}. Arguments p_notices {S}.

(** error_strategy.rs 140-146 *)
Record dstrategy : Type := DStrategy {
  recovering : bool;                    (* error_recovery_mode *)
  last_index : Z;
  last_states : option interval_set;
  nt_state : Z;
  nt_ctx : option nat
}.
(** error_strategy.rs 161-169 *)
Definition new_dstrategy : dstrategy := DStrategy false (-1) None (-1) None.
Inductive strategy : Type := Default (d : dstrategy) | Bail (d : dstrategy).

(** The names a generated parser knows: of tokens (vocabulary.rs, [get_display_name]) and of rules
    (recognizer.rs, [get_rule_names]); and how errors of the user's own types are rendered
    (errors.rs 79-83, [Debug]). *)
Record naming : Type := Naming { display_name : Z -> text; rule_names : list text; debug_text : perr -> text }.

(** token.rs 191-197 *)
Definition tok_text (t : tok) : text := if t_type t =? TOKEN_EOF then lit "<EOF>" else TokenStreamModel.t_text t.
(** error_strategy.rs 356-363 *)
Definition get_token_error_display (t : tok) : text := lit "'" ++ escape_whitespaces (tok_text t) false ++ lit "'".

Section Parser.
  Context {S : Type}.
  Variable ts : stream_ops S.
  Variable a : atn.
  Variable names : naming.
  (** bounds the lookahead computation and the resynchronisation loop *)
  Variable fuel : nat.

  Definition with_ctx (p : parser S) (c : option nat) : parser S :=
    Parser c (p_build p) (p_eof p) (p_state p) (p_input p) (p_prec p) (p_listeners p) (p_errors p) (p_heap p) (p_events p) (p_notices p).
  Definition with_eof (p : parser S) : parser S :=
    Parser (p_ctx p) (p_build p) true (p_state p) (p_input p) (p_prec p) (p_listeners p) (p_errors p) (p_heap p) (p_events p) (p_notices p).
  (** parser.rs 365-368 *)
  Definition set_state (p : parser S) (v : Z) : parser S :=
    Parser (p_ctx p) (p_build p) (p_eof p) v (p_input p) (p_prec p) (p_listeners p) (p_errors p) (p_heap p) (p_events p) (p_notices p).
  Definition with_input (p : parser S) (s : S) : parser S :=
    Parser (p_ctx p) (p_build p) (p_eof p) (p_state p) s (p_prec p) (p_listeners p) (p_errors p) (p_heap p) (p_events p) (p_notices p).
  Definition with_prec (p : parser S) (l : list Z) : parser S :=
    Parser (p_ctx p) (p_build p) (p_eof p) (p_state p) (p_input p) l (p_listeners p) (p_errors p) (p_heap p) (p_events p) (p_notices p).
  Definition with_listeners (p : parser S) (l : list plistener) : parser S :=
    Parser (p_ctx p) (p_build p) (p_eof p) (p_state p) (p_input p) (p_prec p) l (p_errors p) (p_heap p) (p_events p) (p_notices p).
  Definition with_heap (p : parser S) (h : heap) : parser S :=
    Parser (p_ctx p) (p_build p) (p_eof p) (p_state p) (p_input p) (p_prec p) (p_listeners p) (p_errors p) h (p_events p) (p_notices p).
  Definition with_events (p : parser S) (l : list (plistener * event)) : parser S :=
    Parser (p_ctx p) (p_build p) (p_eof p) (p_state p) (p_input p) (p_prec p) (p_listeners p) (p_errors p) (p_heap p) l (p_notices p).
  Definition with_notice (p : parser S) (n : notice) : parser S :=
    Parser (p_ctx p) (p_build p) (p_eof p) (p_state p) (p_input p) (p_prec p) (p_listeners p) (p_errors p + 1) (p_heap p) (p_events p)
      (p_notices p ++ [n]).

  (** parser.rs 403-418 *)
  Definition new_base_parser (input : S) : parser S :=
    Parser None true false (-1) input [0] [] 0 [] [] [].

  (** [self.ctx.as_ref().unwrap()] *)
  Definition get_ctx (p : parser S) : outcome nat := unwrap (p_ctx p).
  (** a method of a context with inner mutability *)
  Definition modify (p : parser S) (i : nat) (f : rctx -> rctx) : parser S :=
    with_heap p (update (p_heap p) i f).
  (** [Ext::new(..)] *)
  Definition alloc (p : parser S) (c : rctx) : parser S * nat :=
    (with_heap p (p_heap p ++ [c]), length (p_heap p)).

  (** [for listener in ls { listener.event(..) }] *)
  Definition deliver (p : parser S) (ls : list plistener) (e : event) : parser S :=
    with_events p (p_events p ++ map (fun l => (l, e)) ls).

  Definition lt (p : parser S) (k : Z) : outcome (parser S * option tok) :=
    let! (s, t) := s_lt ts (p_input p) k in Val (with_input p s, t).
  (** common_token_stream.rs 32-36, token_stream.rs 224-228 *)
  Definition la (p : parser S) (k : Z) : outcome (parser S * Z) :=
    let! (p, t) := lt p k in
    Val (p, match t with Some t => t_type t | None => TOKEN_INVALID_TYPE end).

  (** parser.rs 307-310 *)
  Definition get_current_token (p : parser S) : outcome tok :=
    s_get ts (p_input p) (s_index ts (p_input p)).

  (** parser.rs 264-291; [rec] is the error strategy's [in_error_recovery_mode] *)
  Definition consume (rec : bool) (p : parser S) : outcome (parser S) :=
    let! o := get_current_token p in
    let! p := if t_type o =? TOKEN_EOF then Val p
              else let! s := s_consume ts (p_input p) in Val (with_input p s) in
    if p_build p || negb (match p_listeners p with [] => true | _ => false end) then
      let! c := get_ctx p in
      Val (if rec then deliver (modify p c (add_child (KErr o))) (p_listeners p) (VisitError o)
           else deliver (modify p c (add_child (KTerm o))) (p_listeners p) (VisitTerminal o))
    else Val p.

  (** parser.rs 356-358 and 293-297 *)
  Definition get_precedence (p : parser S) : Z := last (p_prec p) (-1).
  Definition precpred (p : parser S) (precedence : Z) : bool := precedence >=? get_precedence p.

  Definition stack_of (p : parser S) : outcome (list Z) :=
    let! c := get_ctx p in states_stack (Datatypes.S (length (p_heap p))) (p_heap p) c.
  (** atn.rs 139-174 over an iterator that panics after [yielded]: the loop of atn.rs 154-167
      asks for the next state before it looks whether it is still needed, so the result is a
      value only if the last of the yielded states is not needed any more *)
  Definition expected_cut (state : Z) (yielded : list Z) : outcome interval_set :=
    let! s := get_state a state in
    let! following := next_tokens fuel a s in
    if negb (contains following TOKEN_EPSILON) then Val following
    else
      match yielded with
      | [] => Panics
      | _ =>
          let! expected := unwrap (remove_one (add_set is_new following) TOKEN_EPSILON) in
          let! (following, expected) := expected_loop fuel a following expected (removelast yielded) in
          if contains following TOKEN_EPSILON then Panics else Val expected
      end.
  (** parser.rs 312-317 *)
  Definition get_expected_tokens (p : parser S) : outcome interval_set :=
    let! c := get_ctx p in
    let! (st, ends) := states_iter (Datatypes.S (length (p_heap p))) (p_heap p) c in
    if (ends : bool) then Ll1Model.get_expected_tokens fuel a (p_state p) st
    else expected_cut (p_state p) st.

  (** parser.rs 327-344 *)
  Definition notify_error_listeners (p : parser S) (message : text) (offending : option Z) (e : option perr) : outcome (parser S) :=
    let! t := match offending with
              | None => get_current_token p
              | Some x => s_get ts (p_input p) x
              end in
    Val (with_notice p (Notice t message e)).

  (** parser.rs 477-485, 488-498, 501-503 *)
  Definition add_parse_listener (p : parser S) (l : plistener) : parser S * Z :=
    (with_listeners p (p_listeners p ++ [l]), l_addr l).
  Fixpoint remove_addr (id : Z) (ls : list plistener) : outcome (plistener * list plistener) :=
    match ls with
    | [] => Panics
    | l :: ls => if l_addr l =? id then Val (l, ls)
                 else let! (x, r) := remove_addr id ls in Val (x, l :: r)
    end.
  Definition remove_parse_listener (p : parser S) (id : Z) : outcome (parser S * plistener) :=
    let! (l, r) := remove_addr id (p_listeners p) in Val (with_listeners p r, l).
  Definition remove_parse_listeners (p : parser S) : parser S := with_listeners p [].

  (** parser.rs 505-519; the callbacks of a plain context do nothing *)
  Definition trigger_enter_rule_event (p : parser S) : outcome (parser S) :=
    let! i := get_ctx p in
    let! c := deref (p_heap p) i in
    Val (if x_plain c then p else deliver p (p_listeners p) (EnterRule i)).
  Definition trigger_exit_rule_event (p : parser S) : outcome (parser S) :=
    let! i := get_ctx p in
    let! c := deref (p_heap p) i in
    Val (if x_plain c then p else deliver p (rev (p_listeners p)) (ExitRule i)).

  (** parser.rs 532-538 *)
  Definition add_context_to_parse_tree (p : parser S) : outcome (parser S) :=
    let! i := get_ctx p in
    let! c := deref (p_heap p) i in
    Val (match x_parent c with Some j => modify p j (add_child (KRule i)) | None => p end).

  (** parser.rs 541-549 *)
  Definition enter_rule (p : parser S) (local : nat) (state : Z) : outcome (parser S) :=
    let p := set_state p state in
    let! (p, t) := lt p 1 in
    let p := modify p local (set_start t) in
    let p := with_ctx p (Some local) in
    if p_build p then add_context_to_parse_tree p else Val p.

  (** parser.rs 552-569 *)
  Definition exit_rule (p : parser S) : outcome (parser S) :=
    let! i := get_ctx p in
    let! (p, t) := lt p (if p_eof p then 1 else -1) in
    let p := modify p i (set_stop t) in
    let! p := trigger_exit_rule_event p in
    let! c := deref (p_heap p) i in
    Val (with_ctx (set_state p (x_invoking c)) (x_parent c)).

  (** parser.rs 573-589 ([set_alt_number] does nothing: rule_context.rs 124) *)
  Definition enter_outer_alt (p : parser S) (new_ctx : option nat) : outcome (parser S) :=
    let! p := match new_ctx with
              | None => Val p
              | Some n =>
                  let! i := get_ctx p in
                  let! c := deref (p_heap p) i in
                  let p := if p_build p && negb (Nat.eqb n i)
                           then match x_parent c with
                                | Some j => modify (modify p j remove_last_child) j (add_child (KRule n))
                                | None => p
                                end
                           else p in
                  Val (with_ctx p (Some n))
              end in
    trigger_enter_rule_event p.

  (** parser.rs 591-603 *)
  Definition enter_recursion_rule (p : parser S) (local : nat) (state precedence : Z) : outcome (parser S) :=
    let p := set_state p state in
    let p := with_prec p (p_prec p ++ [precedence]) in
    let! (p, t) := lt p 1 in
    Val (with_ctx (modify p local (set_start t)) (Some local)).

  (** parser.rs 605-624 *)
  Definition push_new_recursion_context (p : parser S) (local : nat) (state : Z) : outcome (parser S) :=
    let! prev := get_ctx p in
    let p := modify p prev (set_parent (Some local)) in
    let p := modify p prev (set_invoking_state state) in
    let! (p, t) := lt p (-1) in
    let p := modify p prev (set_stop t) in
    let! c := deref (p_heap p) prev in
    let p := modify p local (set_start (Some (x_start c))) in
    let p := with_ctx p (Some local) in
    let p := if p_build p then modify p local (add_child (KRule prev)) else p in
    trigger_enter_rule_event p.

  (** [Option<Rc<_>>] compared by address *)
  Definition same_ctx (x y : option nat) : bool :=
    match x, y with
    | Some i, Some j => Nat.eqb i j
    | None, None => true
    | _, _ => false
    end.
  (** parser.rs 630-635; [n] bounds the length of the parent chain *)
  Fixpoint unroll_loop (n : nat) (p : parser S) (parent : option nat) : outcome (parser S) :=
    if same_ctx (p_ctx p) parent then Val p
    else
      match n with
      | O => NoFuel
      | Datatypes.S n =>
          let! p := trigger_exit_rule_event p in
          let! i := get_ctx p in
          let! c := deref (p_heap p) i in
          unroll_loop n (with_ctx p (x_parent c)) parent
      end.
  (** parser.rs 626-648 *)
  Definition unroll_recursion_context (p : parser S) (parent : option nat) : outcome (parser S) :=
    let p := with_prec p (removelast (p_prec p)) in
    let! ret := get_ctx p in
    let! (p, t) := lt p (-1) in
    let p := modify p ret (set_stop t) in
    let! p := match p_listeners p with
              | [] => Val (with_ctx p parent)
              | _ => unroll_loop (length (p_heap p)) p parent
              end in
    let p := modify p ret (set_parent (p_ctx p)) in
    Val (match p_ctx p with
         | Some i => if p_build p then modify p i (add_child (KRule ret)) else p
         | None => p
         end).

  (** ** Errors made from the parser (errors.rs 136-145, 160-190, 197-214, 229-263) *)
  Definition base_error_new (p : parser S) : outcome base_error :=
    let! t := get_current_token p in
    let! st := stack_of p in
    Val (BaseErr t (p_state p) st).
  Definition mismatch_with_state (p : parser S) (state : Z) (ctx : nat) : outcome perr :=
    let! b := base_error_new p in
    let! st := states_stack (Datatypes.S (length (p_heap p))) (p_heap p) ctx in
    Val (InputMismatchError (BaseErr (e_token b) state st)).

  (** errors.rs 229-263; [predicate] and [msg] are what generated code passes (Rust.stg 877-881) *)
  Definition failed_predicate (p : parser S) (predicate msg : option text) : outcome perr :=
    let! st := get_state a (p_state p) in
    let! tr := unwrap (nth_error (st_trans st) 0) in
    let '(rule, pred) := match tr with PredicateTr _ _ r i => (r, i) | _ => (0, 0) end in
    let! b := base_error_new p in
    Val (PredicateError b rule pred
      (match msg with
       | Some m => m
       | None => lit "failed predicate: " ++ match predicate with Some x => x | None => lit "None" end
       end)
      (match predicate with Some x => x | None => [] end)).
  (** Rust.stg 877-881 for a precedence predicate, e.g. tests/gen/labelsparser.rs 1149-1153 *)
  Definition precpred_text (n : Z) : text := lit "recog.precpred(None, " ++ isize_to_string n ++ lit ")".

  (** ** DefaultErrorStrategy (error_strategy.rs 159-399) *)
  Definition begin_error_condition (d : dstrategy) : dstrategy :=
    DStrategy true (last_index d) (last_states d) (nt_state d) (nt_ctx d).
  Definition end_error_condition (d : dstrategy) : dstrategy :=
    DStrategy false (-1) None (nt_state d) (nt_ctx d).

  (** error_strategy.rs 187-228, 516-521 *)
  Definition message_of (p : parser S) (e : perr) : outcome text :=
    match e with
    | NoAltError b start =>
        let! input := if t_type start =? TOKEN_EOF then Val (lit "<EOF>")
                      else s_text ts (p_input p) (t_index start) (t_index (e_token b)) in
        Val (lit "no viable alternative at input '" ++ input ++ lit "'")
    | InputMismatchError b =>
        let! expected := Ll1Model.get_expected_tokens fuel a (e_state b) (e_stack b) in
        Val (lit "mismatched input " ++ get_token_error_display (e_token b) ++
             lit " expecting " ++ to_token_string (display_name names) expected)
    | PredicateError b _ _ message _ =>
        let! i := get_ctx p in
        let! c := deref (p_heap p) i in
        let! rule := if x_rule c <? 0 then Panics else unwrap (nth_error (rule_names names) (Z.to_nat (x_rule c))) in
        Val (lit "rule " ++ rule ++ lit " " ++ message)
    | _ => Val (debug_text names e)
    end.

  (** error_strategy.rs 230-268: the two messages *)
  Definition unwanted_message (expecting : interval_set) (t : tok) : text :=
    lit "extraneous input " ++ get_token_error_display t ++ lit " expecting " ++ to_token_string (display_name names) expecting.
  Definition missing_message (expecting : interval_set) (t : tok) : text :=
    lit "missing " ++ to_token_string (display_name names) expecting ++ lit " at " ++ get_token_error_display t.
  (** error_strategy.rs 230-246 and 248-268 differ in the message only *)
  Definition report_token (message : interval_set -> tok -> text) (d : dstrategy) (p : parser S) : outcome (dstrategy * parser S) :=
    if recovering d then Val (d, p)
    else
      let d := begin_error_condition d in
      let! expecting := get_expected_tokens p in
      let! t := get_current_token p in
      let! p := notify_error_listeners p (message expecting t) (Some (t_index t)) None in
      Val (d, p).
  Definition report_unwanted_token := report_token unwanted_message.
  Definition report_missing_token := report_token missing_message.

  (** error_strategy.rs 270-292 *)
  Definition single_token_insertion (d : dstrategy) (p : parser S) : outcome (dstrategy * parser S * bool) :=
    let! (p, current) := la p 1 in
    let! st := get_state a (p_state p) in
    let! tr := unwrap (nth_error (st_trans st) 0) in
    let! next := get_state a (get_target tr) in
    let! c := get_ctx p in
    let! stack := ancestors (Datatypes.S (length (p_heap p))) (p_heap p) c in
    let! expect_at_ll2 := next_tokens_of_stack fuel a next stack in
    if contains expect_at_ll2 current then
      let! (d, p) := report_missing_token d p in Val (d, p, true)
    else Val (d, p, false).

  (** error_strategy.rs 527-530 *)
  Definition d_report_match (d : dstrategy) : dstrategy := end_error_condition d.

  (** error_strategy.rs 294-309 *)
  Definition single_token_deletion (d : dstrategy) (p : parser S) : outcome (dstrategy * parser S * option tok) :=
    let! (p, next) := la p 2 in
    let! expecting := get_expected_tokens p in
    if contains expecting next then
      let! (d, p) := report_unwanted_token d p in
      let! p := consume (recovering d) p in
      let d := d_report_match d in
      let! t := get_current_token p in
      Val (d, p, Some t)
    else Val (d, p, None).

  Definition missing_eof_text : text := lit "<missing EOF>".
  Definition missing_text (name : text) : text := lit "<missing " ++ name ++ lit ">".
  (** error_strategy.rs 311-347; token_factory.rs 126-136: a created token has index -1 *)
  Definition get_missing_symbol (p : parser S) : outcome tok :=
    let! expected := get_expected_tokens p in
    let ty := match get_min expected with Some x => x | None => TOKEN_INVALID_TYPE end in
    let text := if ty =? TOKEN_EOF then missing_eof_text else missing_text (display_name names ty) in
    let! curr := get_current_token p in
    let! curr := if t_type curr =? TOKEN_EOF
                 then s_get ts (p_input p) (Z.max (s_index ts (p_input p) - 1) 0)
                 else Val curr in
    Val (Tok ty 0 text (-1) (t_line curr) (t_column curr)).

  (** error_strategy.rs 365-386 *)
  Fixpoint recovery_loop (n : nat) (h : heap) (ctx : option nat) (set : interval_set) : outcome interval_set :=
    match ctx with
    | None => Val set
    | Some i =>
        match n with
        | O => NoFuel
        | Datatypes.S n =>
            let! c := deref h i in
            if x_invoking c <? 0 then Val set
            else
              let! st := get_state a (x_invoking c) in
              let! tr := unwrap (nth_error (st_trans st) 0) in
              let! follow := match tr with RuleTr _ f _ _ => Val f | _ => Panics end in
              let! fs := get_state a follow in
              let! follow := next_tokens fuel a fs in
              recovery_loop n h (x_parent c) (add_set set follow)
        end
    end.
  Definition get_error_recovery_set (p : parser S) : outcome interval_set :=
    let! c := get_ctx p in
    let! set := recovery_loop (Datatypes.S (length (p_heap p))) (p_heap p) (Some c) is_new in
    unwrap (remove_one set TOKEN_EPSILON).

  (** error_strategy.rs 388-398 *)
  Fixpoint consume_loop (n : nat) (rec : bool) (set : interval_set) (p : parser S) (ttype : Z) : outcome (parser S) :=
    if negb (ttype =? TOKEN_EOF) && negb (contains set ttype) then
      match n with
      | O => NoFuel
      | Datatypes.S n =>
          let! p := consume rec p in
          let! (p, ttype) := la p 1 in
          consume_loop n rec set p ttype
      end
    else Val p.
  Definition consume_until (d : dstrategy) (p : parser S) (set : interval_set) : outcome (parser S) :=
    let! (p, ttype) := la p 1 in
    consume_loop fuel (recovering d) set p ttype.

  (** error_strategy.rs 406-436 *)
  Definition d_recover_inline (d : dstrategy) (p : parser S) : outcome (dstrategy * parser S * (tok + perr)) :=
    let! (d, p, t) := single_token_deletion d p in
    match t with
    | Some t => let! p := consume (recovering d) p in Val (d, p, inl t)
    | None =>
        let! (d, p, b) := single_token_insertion d p in
        if (b : bool) then let! t := get_missing_symbol p in Val (d, p, inl t)
        else
          let! e := match nt_ctx d with
                    | Some c => mismatch_with_state p (nt_state d) c
                    | None => let! b := base_error_new p in Val (InputMismatchError b)
                    end in
          Val (d, p, inr e)
    end.

  (** error_strategy.rs 438-457 *)
  Definition d_recover (d : dstrategy) (p : parser S) : outcome (dstrategy * parser S) :=
    let! p := if (last_index d =? s_index ts (p_input p))
                 && match last_states d with Some x => contains x (p_state p) | None => false end
              then consume (recovering d) p else Val p in
    let d := DStrategy (recovering d) (s_index ts (p_input p))
               (Some (add_one (match last_states d with Some x => x | None => is_new end) (p_state p)))
               (nt_state d) (nt_ctx d) in
    let! follow := get_error_recovery_set p in
    let! p := consume_until d p follow in
    Val (d, p).

  (** atn_state.rs 8-21: the state type ids [sync] distinguishes *)
  Inductive sync_kind := SyncDelete | SyncLoop | SyncPanic.
  Definition sync_case (id : Z) : sync_kind :=
    if (id =? 3) || (id =? 4) || (id =? 5) || (id =? 10) then SyncDelete
    else if (id =? 11) || (id =? 9) then SyncLoop
    else SyncPanic.

  (** error_strategy.rs 459-505 *)
  Definition d_sync (d : dstrategy) (p : parser S) : outcome (dstrategy * parser S * option perr) :=
    if recovering d then Val (d, p, None)
    else
      let! (p, next) := la p 1 in
      let! st := get_state a (p_state p) in
      let! nt := next_tokens fuel a st in
      if contains nt next then Val (DStrategy (recovering d) (last_index d) (last_states d) (-1) None, p, None)
      else if contains nt TOKEN_EPSILON then
        match nt_ctx d with
        | None => let! c := get_ctx p in
                  Val (DStrategy (recovering d) (last_index d) (last_states d) (p_state p) (Some c), p, None)
        | Some _ => Val (d, p, None)
        end
      else
        match sync_case (st_type_id st) with
        | SyncDelete =>
            let! (d, p, t) := single_token_deletion d p in
            match t with
            | None => let! b := base_error_new p in Val (d, p, Some (InputMismatchError b))
            | Some _ => Val (d, p, None)
            end
        | SyncLoop =>
            let! (d, p) := report_unwanted_token d p in
            let! expecting := get_expected_tokens p in
            let! more := get_error_recovery_set p in
            let! p := consume_until d p (add_set expecting more) in
            Val (d, p, None)
        | SyncPanic => Panics
        end.

  (** error_strategy.rs 511-525 *)
  Definition d_report_error (d : dstrategy) (p : parser S) (e : perr) : outcome (dstrategy * parser S) :=
    if recovering d then Val (d, p)
    else
      let d := begin_error_condition d in
      let! msg := message_of p e in
      let! p := notify_error_listeners p msg (option_map t_index (get_offending_token e)) (Some e) in
      Val (d, p).

  (** ** The ErrorStrategy trait: default (error_strategy.rs 401-531) and bail-out (607-646) *)
  Definition in_error_recovery_mode (g : strategy) : bool :=
    match g with Default d | Bail d => recovering d end.
  Definition report_match (g : strategy) : strategy :=
    match g with Default d => Default (d_report_match d) | Bail d => Bail d end.
  Definition report_error (g : strategy) (p : parser S) (e : perr) : outcome (strategy * parser S) :=
    match g with
    | Default d => let! (d, p) := d_report_error d p e in Val (Default d, p)
    | Bail d => let! (d, p) := d_report_error d p e in Val (Bail d, p)
    end.
  Definition reset (g : strategy) : strategy :=
    match g with Default d => Default (end_error_condition d) | Bail d => Bail (end_error_condition d) end.
  (** error_strategy.rs 573-587: the loop only calls [set_exception] on the context and
      its ancestors, which does nothing (parser_rule_context.rs 326) *)
  Definition process_error (p : parser S) (e : perr) : outcome perr :=
    let! c := get_ctx p in Val (FallThrough (Some e)).
  Definition recover_inline (g : strategy) (p : parser S) : outcome (strategy * parser S * (tok + perr)) :=
    match g with
    | Default d => let! (d, p, r) := d_recover_inline d p in Val (Default d, p, r)
    | Bail d =>
        let! b := base_error_new p in
        let! e := process_error p (InputMismatchError b) in
        Val (Bail d, p, inr e)
    end.
  Definition recover (g : strategy) (p : parser S) (e : perr) : outcome (strategy * parser S * option perr) :=
    match g with
    | Default d => let! (d, p) := d_recover d p in Val (Default d, p, None)
    | Bail d => let! e := process_error p e in Val (Bail d, p, Some e)
    end.
  Definition sync (g : strategy) (p : parser S) : outcome (strategy * parser S * option perr) :=
    match g with
    | Default d => let! (d, p, r) := d_sync d p in Val (Default d, p, r)
    | Bail d => Val (Bail d, p, None)
    end.

  (** ** Matching (parser.rs 424-446, 450-469) *)
  (** adding the error node of a conjured token: 437-442, 460-465 *)
  Definition add_missing (p : parser S) (t : tok) : outcome (parser S) :=
    if p_build p && (t_index t =? -1) then
      let! c := get_ctx p in Val (modify p c (add_child (KErr t)))
    else Val p.
  Definition match_token (g : strategy) (p : parser S) (ttype : Z) : outcome (strategy * parser S * (tok + perr)) :=
    let! t := get_current_token p in
    if t_type t =? ttype then
      let p := if ttype =? TOKEN_EOF then with_eof p else p in
      let g := report_match g in
      let! p := consume (in_error_recovery_mode g) p in
      Val (g, p, inl t)
    else
      let! (g, p, r) := recover_inline g p in
      match r with
      | inl t => let! p := add_missing p t in Val (g, p, inl t)
      | inr e => Val (g, p, inr e)
      end.
  Definition match_wildcard (g : strategy) (p : parser S) : outcome (strategy * parser S * (tok + perr)) :=
    let! t := get_current_token p in
    if t_type t >? 0 then
      let g := report_match g in
      let! p := consume (in_error_recovery_mode g) p in
      Val (g, p, inl t)
    else
      let! (g, p, r) := recover_inline g p in
      match r with
      | inl t => let! p := add_missing p t in Val (g, p, inl t)
      | inr e => Val (g, p, inr e)
      end.
  (** Rust.stg, template MatchSet (generated: e.g. tests/gen/visitorcalcparser.rs 818-835);
      [inset] is the generated membership test on la(1) *)
  Definition match_set (inset : Z -> bool) (g : strategy) (p : parser S) : outcome (strategy * parser S * option perr) :=
    let! (p, ty) := la p 1 in
    if inset ty then
      let! (p, ty) := la p 1 in
      let p := if ty =? TOKEN_EOF then with_eof p else p in
      let g := report_match g in
      let! p := consume (in_error_recovery_mode g) p in
      Val (g, p, None)
    else
      let! (g, p, r) := recover_inline g p in
      Val (g, p, match r with inl _ => None | inr e => Some e end).

  (** ** Generated rule functions

      A generated rule function decides, by looking ahead and predicting, which calls
      it makes.  A [call] tree is one such history: the calls in the order in which
      they are made.  Lookahead and prediction only buffer tokens ([CLook]); a failed
      prediction is [CRaise]. *)
  Inductive call : Type :=
  | CSetState (s : Z)
  | CLook (k : Z)                                    (* recog.base.input.la(k) *)
  | CSync
  | CMatch (ttype : Z)
  | CWildcard
  | CMatchSet (inset : Z -> bool)
  | CPrec (precedence : Z)                           (* if !precpred(..) { Err(FailedPredicateError::new(..))? } *)
  | CRaise (e : perr)                                (* any other error raised in the rule body *)
  | CAlt (label : option nat)                        (* enter_outer_alt(None | Some(copy)) *)
  | CLabel (kind : nat)                              (* relabelled primary of a left-recursive rule *)
  | CSetStop                                         (* recog.ctx.set_stop(recog.input.lt(-1)) *)
  | CExitEvent                                       (* recog.trigger_exit_rule_event() *)
  | CNext (kind : nat) (plain : bool)                (* push_new_recursion_context *)
  | CRule (rule start : Z) (plain : bool) (body : list call)
  | CRec (rule start prec : Z) (plain : bool) (body : list call).

  (** the local variables of a generated rule function *)
  Record frame : Type := Frame {
    f_local : nat;             (* _localctx *)
    f_parent : option nat;     (* _parentctx *)
    f_parent_state : Z;        (* _parentState *)
    f_start : Z;               (* _startState *)
    f_rule : Z
  }.
  Definition set_local (f : frame) (i : nat) : frame :=
    Frame i (f_parent f) (f_parent_state f) (f_start f) (f_rule f).

  Definition step := (strategy * parser S * frame * option perr)%type.
  Definition no_tok (f : frame) (r : outcome (strategy * parser S * (tok + perr))) : outcome step :=
    let! (g, p, r) := r in Val (g, p, f, match r with inl _ => None | inr e => Some e end).
  Definition no_result (f : frame) (r : outcome (strategy * parser S * option perr)) : outcome step :=
    let! (g, p, r) := r in Val (g, p, f, r).

  (** e.g. simplelrparser.rs 474-482: what follows the body of a rule function *)
  Definition catch (g : strategy) (p : parser S) (r : option perr) : outcome (strategy * parser S * option perr) :=
    match r with
    | None => Val (g, p, None)
    | Some (FallThrough c) => Val (g, p, Some (FallThrough c))
    | Some e =>
        let! (g, p) := report_error g p e in
        recover g p e
    end.

  Fixpoint run_call (c : call) (g : strategy) (p : parser S) (f : frame) {struct c} : outcome step :=
    let fix run_calls (cs : list call) (g : strategy) (p : parser S) (f : frame) {struct cs} : outcome step :=
      match cs with
      | [] => Val (g, p, f, None)
      | c :: cs =>
          let! (g, p, f, r) := run_call c g p f in
          match r with
          | None => run_calls cs g p f
          | Some e => Val (g, p, f, Some e)
          end
      end in
    match c with
    | CSetState s => Val (g, set_state p s, f, None)
    | CLook k => let! (p, _) := la p k in Val (g, p, f, None)
    | CSync => no_result f (sync g p)
    | CMatch ty => no_tok f (match_token g p ty)
    | CWildcard => no_tok f (match_wildcard g p)
    | CMatchSet inset => no_result f (match_set inset g p)
    | CPrec n => if precpred p n then Val (g, p, f, None)
                 else let! e := failed_predicate p (Some (precpred_text n)) None in Val (g, p, f, Some e)
    | CRaise e => Val (g, p, f, Some e)
    | CAlt None => let! p := enter_outer_alt p None in Val (g, p, f, None)
    | CAlt (Some k) =>
        let! c := deref (p_heap p) (f_local f) in
        let '(p, i) := alloc p (copy_from c k false) in
        let! p := enter_outer_alt p (Some i) in
        Val (g, p, set_local f i, None)
    | CLabel k =>
        let! c := deref (p_heap p) (f_local f) in
        let '(p, i) := alloc p (copy_from c k false) in
        Val (g, with_ctx p (Some i), set_local f i, None)
    | CSetStop =>
        let! (p, t) := lt p (-1) in
        let! i := get_ctx p in
        Val (g, modify p i (set_stop t), f, None)
    | CExitEvent => let! p := trigger_exit_rule_event p in Val (g, p, f, None)
    | CNext k pl =>
        let '(p, i) := alloc p (new_parser_ctx (f_parent f) (f_parent_state f) (f_rule f) k pl) in
        let! p := push_new_recursion_context p i (f_start f) in
        Val (g, p, set_local f i, None)
    | CRule rule start pl body =>
        let parent := p_ctx p in
        let st := p_state p in
        let '(p, i) := alloc p (new_parser_ctx parent st rule 0 pl) in
        let! p := enter_rule p i start in
        let! (g, p, _, r) := run_calls body g p (Frame i parent st start rule) in
        let! (g, p, r) := catch g p r in
        match r with
        | Some e => Val (g, p, f, Some e)
        | None => let! p := exit_rule p in Val (g, p, f, None)
        end
    | CRec rule start prec pl body =>
        let parent := p_ctx p in
        let st := p_state p in
        let '(p, i) := alloc p (new_parser_ctx parent st rule 0 pl) in
        let! p := enter_recursion_rule p i start prec in
        let! (g, p, _, r) := run_calls body g p (Frame i parent st start rule) in
        let! (g, p, r) := catch g p r in
        match r with
        | Some e => Val (g, p, f, Some e)
        | None => let! p := unroll_recursion_context p parent in Val (g, p, f, None)
        end
    end.

  Fixpoint run_calls (cs : list call) (g : strategy) (p : parser S) (f : frame) {struct cs} : outcome step :=
    match cs with
    | [] => Val (g, p, f, None)
    | c :: cs =>
        let! (g, p, f, r) := run_call c g p f in
        match r with
        | None => run_calls cs g p f
        | Some e => Val (g, p, f, Some e)
        end
    end.
End Parser.
