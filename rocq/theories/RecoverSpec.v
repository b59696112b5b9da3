(** Vocabulary for error recovery: what lies ahead in a token stream, what an operation of
    the error strategy did to the tree. *)
From Coq Require Import ZArith List Bool.
From Verif Require Import Outcome IntervalSetModel AtnModel Ll1Model TokenStreamModel TokenStreamSpec ParserModel ParserSpec.
Import ListNotations.
Local Open Scope Z_scope.

(** the type of the end-of-input token *)
Notation EOF_TYPE := IntervalSetModel.TOKEN_EOF.

(** ** The input ahead

    [ahead s]: the tokens from the current one to the end-of-input token, for the states
    that satisfy [Inv]. *)
Definition ends_at_eof (l : list tok) : Prop :=
  exists before e, l = before ++ [e] /\ t_type e = EOF_TYPE /\ Forall (fun t => t_type t <> EOF_TYPE) before.
Record input {S} (ts : stream_ops S) (Inv : S -> Prop) (ahead : S -> list tok) : Prop := Input {
  in_ends : forall s, Inv s -> ends_at_eof (ahead s);
  (* the current token can be had by position, and by its own index *)
  in_get : forall s t l, Inv s -> ahead s = t :: l ->
    s_get ts s (s_index ts s) = Val t /\ s_get ts s (t_index t) = Val t;
  in_before : forall s, Inv s -> exists t, s_get ts s (Z.max (s_index ts s - 1) 0) = Val t;
  (* looking at the next two tokens; the end of input repeats *)
  in_look1 : forall s t l, Inv s -> ahead s = t :: l -> exists s', s_lt ts s 1 = Val (s', Some t);
  in_look2 : forall s t l, Inv s -> ahead s = t :: l -> exists s', s_lt ts s 2 = Val (s', Some (hd t l));
  (* looking does not move *)
  in_lt : forall s k s' t, Inv s -> s_lt ts s k = Val (s', t) -> Inv s' /\ ahead s' = ahead s /\ s_index ts s' = s_index ts s;
  in_consume : forall s t u l, Inv s -> ahead s = t :: u :: l ->
    exists s', s_consume ts s = Val s' /\ Inv s' /\ ahead s' = u :: l /\ s_index ts s < s_index ts s'
}.

(** What is ahead in a CommonTokenStream at token number [n], the end of input being number [e]. *)
Definition tokens_from (src : nat -> tok) (channel : Z) (e n : nat) : list tok :=
  map (TokenStreamSpec.tok_at src) (filter (seen_b src channel) (seq n (S e - n))).

(** ** Effects on the tree *)
(** The current context of [p], if there is one, got the children [ks]; nothing else has changed in the contexts. *)
Definition grew {S} (ks : list kid) (p p' : parser S) : Prop :=
  p_ctx p' = p_ctx p /\ length (p_heap p') = length (p_heap p) /\
  forall j c, nth_error (p_heap p) j = Some c ->
    nth_error (p_heap p') j = Some (set_children (x_children c ++ if same_ctx (p_ctx p) (Some j) then ks else []) c).
(** Nodes are made if trees are built or somebody listens. *)
Definition if_shown {S} (p : parser S) (ks : list kid) : list kid :=
  if p_build p || negb (match p_listeners p with [] => true | _ => false end) then ks else [].
(** There is a current context. *)
Definition has_ctx {S} (p : parser S) : Prop := exists i c, p_ctx p = Some i /\ nth_error (p_heap p) i = Some c.

(** The tokens that can follow if the token expected now is missing: those that can follow
    the first transition of the current state, in the rules under way (C47, C48). *)
Definition after_missing {S} (a : atn) (fuel : nat) (p : parser S) : outcome interval_set :=
  (let! c := unwrap (p_ctx p) in
   let! st := get_state a (p_state p) in
   let! tr := unwrap (nth_error (st_trans st) 0) in
   let! next := get_state a (get_target tr) in
   let! invoking := ancestors (Datatypes.S (length (p_heap p))) (p_heap p) c in
   next_tokens_of_stack fuel a next invoking)%outcome.

(** ** Strategies in use *)
(** The states in which recovery was started since the last match. *)
Definition recorded (d : dstrategy) (l : list Z) : Prop :=
  match last_states d with None => l = [] | Some x => x = fold_left add_one l is_new end.
Definition reachable_strategy (d : dstrategy) : Prop := exists l, recorded d l.

(** The input is at position [i], not at the end of input. *)
Definition at_token {S} (ts : stream_ops S) (Inv : S -> Prop) (ahead : S -> list tok) (i : Z) (p : parser S) : Prop :=
  Inv (p_input p) /\ s_index ts (p_input p) = i /\ exists t u l, ahead (p_input p) = t :: u :: l.
(** Operations of the default strategy at one position [i] that do not match anything: the
    list collects the parser states in which [recover] was called. *)
Inductive stuck {S} (ts : stream_ops S) (a : atn) (names : naming) (fuel : nat) (Inv : S -> Prop) (ahead : S -> list tok) (i : Z) :
    dstrategy -> list Z -> dstrategy -> Prop :=
| k_done : forall d, stuck ts a names fuel Inv ahead i d [] d
| k_recover : forall d p d1 p1 l d', at_token ts Inv ahead i p -> s_index ts (p_input p1) = i ->
    d_recover ts a fuel d p = Val (d1, p1) -> stuck ts a names fuel Inv ahead i d1 l d' ->
    stuck ts a names fuel Inv ahead i d (p_state p :: l) d'
| k_sync : forall d p d1 p1 r l d', at_token ts Inv ahead i p -> s_index ts (p_input p1) = i ->
    d_sync ts a names fuel d p = Val (d1, p1, r) -> stuck ts a names fuel Inv ahead i d1 l d' -> stuck ts a names fuel Inv ahead i d l d'
| k_report : forall d p e d1 p1 l d', d_report_error ts a names fuel d p e = Val (d1, p1) ->
    stuck ts a names fuel Inv ahead i d1 l d' -> stuck ts a names fuel Inv ahead i d l d'
| k_mismatch : forall d p d1 p1 e l d', d_recover_inline ts a names fuel d p = Val (d1, p1, inr e) ->
    stuck ts a names fuel Inv ahead i d1 l d' -> stuck ts a names fuel Inv ahead i d l d'.

(** A stretch of parsing in which no token of the input is matched: the strategy is used, a
    match fails or is satisfied by a token that is not in the input, and anything else may
    happen to the parser that does not notify error listeners. *)
Inductive unmatched {S} (ts : stream_ops S) (a : atn) (names : naming) (fuel : nat) (Inv : S -> Prop) (ahead : S -> list tok) :
    strategy -> parser S -> strategy -> parser S -> Prop :=
| u_refl : forall g p, unmatched ts a names fuel Inv ahead g p g p
| u_other : forall g p q g' p', p_notices q = p_notices p -> unmatched ts a names fuel Inv ahead g q g' p' ->
    unmatched ts a names fuel Inv ahead g p g' p'
| u_report : forall g p e g1 p1 g' p', report_error ts a names fuel g p e = Val (g1, p1) ->
    unmatched ts a names fuel Inv ahead g1 p1 g' p' -> unmatched ts a names fuel Inv ahead g p g' p'
| u_recover : forall g p e g1 p1 r g' p', recover ts a fuel g p e = Val (g1, p1, r) ->
    unmatched ts a names fuel Inv ahead g1 p1 g' p' -> unmatched ts a names fuel Inv ahead g p g' p'
| u_sync : forall g p g1 p1 r g' p', sync ts a names fuel g p = Val (g1, p1, r) ->
    unmatched ts a names fuel Inv ahead g1 p1 g' p' -> unmatched ts a names fuel Inv ahead g p g' p'
(* matches that fail *)
| u_token : forall g p ty g1 p1 e g' p', match_token ts a names fuel g p ty = Val (g1, p1, inr e) ->
    unmatched ts a names fuel Inv ahead g1 p1 g' p' -> unmatched ts a names fuel Inv ahead g p g' p'
| u_wildcard : forall g p g1 p1 e g' p', match_wildcard ts a names fuel g p = Val (g1, p1, inr e) ->
    unmatched ts a names fuel Inv ahead g1 p1 g' p' -> unmatched ts a names fuel Inv ahead g p g' p'
| u_set : forall inset g p g1 p1 e g' p', match_set ts a names fuel inset g p = Val (g1, p1, Some e) ->
    unmatched ts a names fuel Inv ahead g1 p1 g' p' -> unmatched ts a names fuel Inv ahead g p g' p'
(* matches that succeed without moving in the input, before its end *)
| u_no_token : forall i g p ty g1 p1 m g' p', at_token ts Inv ahead i p -> match_token ts a names fuel g p ty = Val (g1, p1, inl m) ->
    s_index ts (p_input p1) = i ->
    unmatched ts a names fuel Inv ahead g1 p1 g' p' -> unmatched ts a names fuel Inv ahead g p g' p'
| u_no_wildcard : forall i g p g1 p1 m g' p', at_token ts Inv ahead i p -> match_wildcard ts a names fuel g p = Val (g1, p1, inl m) ->
    s_index ts (p_input p1) = i ->
    unmatched ts a names fuel Inv ahead g1 p1 g' p' -> unmatched ts a names fuel Inv ahead g p g' p'
| u_no_set : forall i inset g p g1 p1 g' p', at_token ts Inv ahead i p -> match_set ts a names fuel inset g p = Val (g1, p1, None) ->
    s_index ts (p_input p1) = i ->
    unmatched ts a names fuel Inv ahead g1 p1 g' p' -> unmatched ts a names fuel Inv ahead g p g' p'.
(** notices sent by [report_error]; the others are sent for unwanted and missing tokens *)
Definition by_report_error (n : notice) : bool := match n_error n with Some _ => true | None => false end.

(** ** Cancellation *)
Definition is_fall_through (e : perr) : bool := match e with FallThrough _ => true | _ => false end.
(** the rule bodies do not raise cancellations of their own *)
Fixpoint no_fall_through (c : call) : Prop :=
  match c with
  | CRaise e => is_fall_through e = false
  | CRule _ _ _ body | CRec _ _ _ _ body =>
      (fix all (l : list call) : Prop := match l with [] => True | c :: l => no_fall_through c /\ all l end) body
  | _ => True
  end.
