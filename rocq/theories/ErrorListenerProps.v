(** Property theorem C83 (src/error_listener.rs, src/parser.rs 319-351, src/lexer.rs 424-452). *)
From Coq Require Import ZArith List Bool Lia.
From Verif Require Import Outcome Text AtnModel Ll1Model CharStreamModel TokenStreamModel TokenStreamSpec CommonTokenStreamProofs TreeSpec IntervalSetModel LexerModel LexerSpec LexerProps.
From Verif Require Import ParserModel RecoverSpec RecoverProofs ParserSpec ParserStreamProofs ParserDemo DfaModel ConfigSetModel PredictModel PredictSpec PredictLLSpec PredictLLDemo PredictLLProps MessageSpec MessageProofs MessageProps.
From Verif Require Import ErrorListenerModel ErrorListenerSpec ErrorListenerProofs.
Import ListNotations.
Local Open Scope Z_scope.

(** ** C83 *)
(** Which listeners there are: a console at first, then what was added since the last removal. *)
Theorem C83_registered : forall h, exists ls, registered h ls /\ w_listeners (fold_left do_op h new_world) = ls.
Proof. intros h. destruct (registered_exists h) as [ls R]. exists ls. split; auto. now apply ops_registered. Qed.
Print Assumptions C83_registered.

(** A syntax error is counted and told to every listener, once, in the order of registration, with the place
    of the offending token; each console prints one line about it. *)
Theorem C83_error_told : forall S (ts : stream_ops S) p w msg off e p' w',
  notify ts p w msg off e = Val (p', w') ->
  exists t printed,
    match off with None => get_current_token ts p = Val t | Some x => s_get ts (p_input p) x = Val t end /\
    notify_error_listeners ts p msg off e = Val p' /\ p_errors p' = p_errors p + 1 /\ p_notices p' = p_notices p ++ [Notice t msg e] /\
    w_listeners w' = w_listeners w /\
    w_heard w' = w_heard w ++ each (own_ids (w_listeners w)) (ToldError (SyntaxError (Some t) (t_line t) (t_column t) msg e)) /\
    line_about (t_line t) (t_column t) msg printed /\ w_stderr w' = w_stderr w ++ times (consoles (w_listeners w)) printed.
Proof.
  intros S ts p w msg off e p' w' H. apply notify_ok in H as (t & T & -> & ->). exists t, (console_line (t_line t) (t_column t) msg).
  destruct (tell_all_ok w (SyntaxError (Some t) (t_line t) (t_column t) msg e)) as (X & Y & Z).
  split; [exact T|]. split; [unfold notify_error_listeners; destruct off; rewrite T; reflexivity|]. repeat (split; [first [reflexivity|assumption]|]).
  split; [apply console_about|exact Z].
Qed.
Print Assumptions C83_error_told.

(** A report of the prediction is told to every listener of the user's, once, in order; every diagnostic
    listener interested in it has everybody told of it as a syntax error at the current token. *)
Theorem C83_report_told : forall S (ts : stream_ops S) a names d s r p w p' w',
  dispatch_report ts a names d s r p w = Val (p', w') ->
  let k := diagnosticians r (w_listeners w) in
  w_listeners w' = w_listeners w /\ p_input p' = p_input p /\ p_errors p' = p_errors p + Z.of_nat k /\
  exists t msg printed new, (k <> O -> get_current_token ts p = Val t /\ diagnosis ts a names p d s r = Val msg) /\
    p_notices p' = p_notices p ++ repeat (Notice t msg None) k /\ line_about (t_line t) (t_column t) msg printed /\
    w_heard w' = w_heard w ++ new /\ filter is_report new = each (own_ids (w_listeners w)) (ToldReport r) /\
    filter is_error new = times k (each (own_ids (w_listeners w)) (ToldError (SyntaxError (Some t) (t_line t) (t_column t) msg None))) /\
    w_stderr w' = w_stderr w ++ times k (times (consoles (w_listeners w)) printed).
Proof.
  intros S ts a names d s r p w p' w' H. apply dispatch_ok in H as (A & B & C & t & m & D & F & new & G & K & L & M).
  cbn zeta. repeat (split; [assumption|]). exists t, m, (console_line (t_line t) (t_column t) m), new. repeat (split; [assumption|]).
  split; [apply console_about|]. auto.
Qed.
Print Assumptions C83_report_told.

(** What it says: the decision, its rule, the alternatives in question and the input, hidden tokens included. *)
Definition start_of (r : report) : Z := match r with Ambiguity i _ _ _ | AttemptingFullContext i _ _ | ContextSensitivity i _ _ => i end.
Definition stop_of (r : report) : Z := match r with Ambiguity _ j _ _ | AttemptingFullContext _ j _ | ContextSensitivity _ j _ => j end.
Inductive listed : list Z -> text -> Prop :=
| listed_none : listed [] []
| listed_one : forall x s, decimal_of s x -> listed [x] s
| listed_more : forall x y l s u, decimal_of s x -> listed (y :: l) u -> listed (x :: y :: l) (s ++ lit ", " ++ u).
Inductive headline (d rule : text) : report -> text -> Prop :=
| head_ambiguity : forall i j x alts s, listed alts s ->
    headline d rule (Ambiguity i j x alts) (lit "reportAmbiguity d=" ++ d ++ lit " (" ++ rule ++ lit "): ambigAlts={" ++ s ++ lit "}, input='")
| head_full : forall i j alts,
    headline d rule (AttemptingFullContext i j alts) (lit "reportAttemptingFullContext d=" ++ d ++ lit " (" ++ rule ++ lit "), input='")
| head_context : forall i j alt,
    headline d rule (ContextSensitivity i j alt) (lit "reportContextSensitivity d=" ++ d ++ lit " (" ++ rule ++ lit "), input='").
Lemma numbers_listed : forall l, listed l (numbers l).
Proof.
  induction l as [|x l IH]; [constructor|]. destruct l as [|y l]; [constructor; apply TreeProofs.isize_to_string_ok|].
  exact (listed_more x y l _ _ (TreeProofs.isize_to_string_ok x) IH).
Qed.
Theorem C83_diagnosis : forall src ch fs a names (p : parser uts) d s st rule r i j,
  reading src ch (p_input p) -> start_of r = Z.of_nat i -> stop_of r = Z.of_nat j -> (i <= j)%nat -> Z.of_nat j < tsize (p_input p) ->
  get_state a s = Val st -> nth_error (rule_names names) (Z.to_nat (st_rule st)) = Some rule ->
  exists dd h, decimal_of dd d /\ headline dd rule r h /\
    diagnosis (common_stream src ch fs) a names p d s r =
    Val (h ++ concat (map (fun k => TokenStreamModel.t_text (src k)) (seq i (if t_type (src j) =? EOF_TYPE then j - i else Datatypes.S (j - i)))) ++ lit "'").
Proof.
  intros src ch fs a names p d s st rule r i j (n & c & R & _) Ei Ej Hij Hj Es Er.
  assert (Hn : (j < n)%nat).
  { destruct R as [R _]. unfold tsize in Hj. rewrite (TokenStreamProofs.r_toks _ _ _ _ R), TokenStreamProofs.zlen_map_seq in Hj. lia. }
  pose proof (common_text src n (p_input p) i j R Hij Hn) as X.
  exists (isize_to_string d). unfold diagnosis, get_decision_description. rewrite Es. cbn [obindo]. rewrite Er. cbn [obindo].
  destruct r as [i0 j0 alts|i0 j0 alt|i0 j0 x alts]; cbn [start_of stop_of] in Ei, Ej; subst i0 j0; cbn [s_text common_stream]; rewrite X; cbn [of_out obindo].
  - eexists. split; [apply TreeProofs.isize_to_string_ok|]. split; [apply head_full|]. now rewrite <- !app_assoc.
  - eexists. split; [apply TreeProofs.isize_to_string_ok|]. split; [apply head_context|]. now rewrite <- !app_assoc.
  - eexists. split; [apply TreeProofs.isize_to_string_ok|]. split; [apply head_ambiguity, numbers_listed|]. unfold bitset_debug.
    rewrite <- !app_assoc. reflexivity.
Qed.
Print Assumptions C83_diagnosis.

(** A lexer tells of every piece of input it drops (C38), once, in the order of the input, with the place
    where the piece starts. *)
Theorem C83_lexer_told : forall display errors w,
  exists printed, Forall2 (fun e s => let '(line, column, raw) := e in
      line_about line column (lit "token recognition error at: '" ++ display raw ++ lit "'") s) errors printed /\
    let w' := told_of_lexer display errors w in
    w_stderr w' = w_stderr w ++ concat (map (times (consoles (w_listeners w))) printed) /\
    w_heard w' = w_heard w ++ concat (map (fun e => let '(line, column, raw) := e in
      each (own_ids (w_listeners w)) (ToldError (SyntaxError None line column (lit "token recognition error at: '" ++ display raw ++ lit "'") None))) errors).
Proof.
  intros display errors w. exists (map (fun e => let '(line, column, raw) := e in console_line line column (lexer_message (display raw))) errors). split.
  - induction errors as [|[[line column] raw] es IH]; constructor; auto. apply console_about.
  - destruct (lexer_told display errors w) as (_ & B & C). cbn zeta. rewrite B, C. split; [|reflexivity]. do 2 f_equal.
    rewrite map_map. apply map_ext. intros [[line column] raw]. reflexivity.
Qed.
Print Assumptions C83_lexer_told.

(** The number of syntax errors does not count syntax errors only: with a diagnostic listener, a prediction
    that succeeds on a valid input adds to it. *)
Definition diagnosed (m : sim uts) (w : world) : outcome (parser uts * world) :=
  fold_left (fun o r => obindo o (fun '(p, w) => dispatch_report (common_stream dab 0 50) caller_atn demo_names 1 12 r p w))
    (m_reports m) (Val (new_base_parser (m_input m), w)).
Theorem C83_errors_only_refuted : exists m n p w,
  llpredict caller_atn (common_seek dab 0 50) LL [8; -1] 1 12 (dfa_new unit unit false) (stream_at dab [CConsume]) = Val (m, Predicted 2) /\
  viable caller_atn 12 [15] [1; 2] n 2 /\
  diagnosed m (add_error_listener new_world (DiagnosticErrorListener false)) = Val (p, w) /\ p_errors p > 0.
Proof.
  destruct (llpredict caller_atn (common_seek dab 0 50) LL [8; -1] 1 12 (dfa_new unit unit false) (stream_at dab [CConsume])) as [[m r]| |] eqn:E;
    [|vm_compute in E; discriminate..].
  exists m, 1%nat. destruct (diagnosed m (add_error_listener new_world (DiagnosticErrorListener false))) as [[p w]| |] eqn:D.
  - exists p, w. vm_compute in E. apply val_inj in E. injection E as <- <-. split; [reflexivity|]. split; [apply ab_viable|]. split; [reflexivity|].
    vm_compute in D. apply val_inj in D. injection D as <- <-. reflexivity.
  - vm_compute in E. apply val_inj in E. injection E as <- <-. vm_compute in D. discriminate.
  - vm_compute in E. apply val_inj in E. injection E as <- <-. vm_compute in D. discriminate.
Qed.
Print Assumptions C83_errors_only_refuted.
Definition out_of {S} (o : outcome (parser S * world)) : option (Z * text * list (nat * told_call)) :=
  match o with Val (p, w) => Some (p_errors p, w_stderr w, w_heard w) | _ => None end.
Definition seen (l : list tok) : parser uts := match la (stream l) (fresh l) 2 with Val (p, _) => p | _ => fresh l end.
Definition two : list tok := [token 1 (lit "a"); token 2 (lit "b")].
Definition all_kinds : world :=
  fold_left do_op [RemoveAll; AddListener (DiagnosticErrorListener true); AddListener (OwnListener 7); AddListener ConsoleErrorListener;
                   AddListener (DiagnosticErrorListener false); AddListener (OwnListener 8)] new_world.
Example C83_nonvacuous :
  reading (source two) 0 (p_input (fresh two)) /\ 1 < tsize (p_input (seen two)) /\
  out_of (dispatch_report (stream two) demo_atn demo_names 3 12 (Ambiguity 0 1 false [1; 2]) (seen two) all_kinds) =
    (let message := lit "reportAmbiguity d=3 (w): ambigAlts={1, 2}, input='ab'" in
     let e := ToldError (SyntaxError (Some (tok_at (source two) 0)) 1 0 message None) in
     let r := ToldReport (Ambiguity 0 1 false [1; 2]) in
     Some (1, lit "line 1:0 " ++ message ++ [10], [(7%nat, r); (7%nat, e); (8%nat, e); (8%nat, r)])) /\
  out_of (notify (stream two) (seen two) all_kinds (lit "hm") (Some 1) None) =
    (let e := ToldError (SyntaxError (Some (tok_at (source two) 1)) 1 0 (lit "hm") None) in
     Some (1, lit "line 1:0 hm" ++ [10], [(7%nat, e); (8%nat, e)])) /\
  match demo_run slice_data [97; 10; 34; 34; 98; 99; 49; 100] no_action 4 with
  | Val (_, l, _) => w_stderr (told_of_lexer display_slice (lx_errors unit l) new_world) = lit "line 2:4 token recognition error at: '1'" ++ [10]
  | _ => False
  end.
Proof. split; [apply start_reading|]. split; [reflexivity|]. split; [vm_compute; reflexivity|]. split; vm_compute; reflexivity. Qed.
