(** C96: the start and stop tokens, and so the source intervals, of the nodes of parse trees.

    [covers the_end c T] (SpanSpec.v): a context whose tree contains tokens read from the input
    starts at the first of them and stops at the last of them, or at the end of input if
    that was matched there too. *)
From Coq Require Import ZArith List Bool Lia.
From Verif Require Import CharStreamModel TokenStreamModel TokenStreamSpec TokenStreamProofs CommonTokenStreamProofs.
From Verif Require Import Outcome IntervalSetModel PredContextModel SemContextModel ConfigSetModel DfaModel AtnModel AtnSpec Ll1Model Ll1Spec ParserModel ParserSpec ParserTreeProofs ParserRunProofs ParserStreamProofs ParserDemo ParserProps.
From Verif Require Import PredictModel PredictSpec PredictDemo PredictLLSpec PredictLLDemo PredictTotalSpec PredictTotalDemo GenModel GenSpec GenBaseProofs GenDemo.
From Verif Require Import RecModel RecSpec RecCallsProofs RecSoundProofs RecTreeProofs RecDemo RecProps.
From Verif Require Import SpanModel SpanSpec SpanProofs SpanStreamProofs ParserDemo.
Import ListNotations.
Local Open Scope Z_scope.

(** After any call of a rule function, whatever it and the rule functions it calls did and
    however they recovered from errors, every rule node of the new tree covers its tokens. *)
Theorem C96_spans : forall S (ts : stream_ops S) Inv past now the_end a names fuel c g p f g' p' f' r,
  history ts Inv past -> looking ts Inv past now the_end ->
  rule_call c -> ctx_exists p -> p_build p = true -> Inv (p_input p) -> (p_eof p = true -> t_type (now (p_input p)) = -1) ->
  run_call ts a names fuel c g p f = Val (g', p', f', r) -> ~ cancelled r ->
  exists n T, attached (ParserSpec.rule_of c) n p p' /\ shows (p_heap p') (KRule n) T /\
    forall i x T', below (p_heap p') (KRule n) (KRule i) -> nth_error (p_heap p') i = Some x -> shows (p_heap p') (KRule i) T' -> covers the_end x T'.
Proof.
  intros S ts Inv past now the_end a names fuel c g p f g' p' f' r Hist Look HG W Hb HI HH H NC.
  assert (exists n T, returned Inv past (ParserSpec.rule_of c) (body_of c) p p' n T /\ span_returned Inv now the_end p p' n T) as (n & T & R & Q).
  { destruct c; cbn [rule_call] in HG; try contradiction; cbn [ParserSpec.rule_of body_of].
    - exact (rule_span ts a names fuel Inv past now the_end Hist Look _ _ _ _ _ _ _ _ _ _ _ (bodies_span ts a names fuel Inv past now the_end Hist Look body) HG W Hb HI HH H (not_cancelled _ NC)).
    - exact (rec_span ts a names fuel Inv past now the_end Hist Look _ _ _ _ _ _ _ _ _ _ _ _ (bodies_span ts a names fuel Inv past now the_end Hist Look body) HG W Hb HI HH H (not_cancelled _ NC)). }
  exists n, T. split; [exact (returned_attached _ _ _ _ _ _ _ _ _ R)|]. split.
  - destruct R as [R1 R2 R3 R4 R5 R6 R7 R8 R9]. destruct (R9 Hb) as (D & _ & _). eapply denotes_shows; eauto.
  - intros i x T' B N Sh. destruct Q as [Q1 Q2 Q3 Q4]. eapply spanned_covers; eauto.
Qed.
Print Assumptions C96_spans.

(** The source interval of a node that covers its tokens, token number [e] being the end of
    input. *)
Definition interval_of_reads (e : nat) (h : heap) (i : nat) (T : tree) : Prop :=
  forall first rest, read_leaves T = first :: rest ->
    get_source_interval h (KRule i) = Val (Iv (t_index first) (t_index (last rest first))) \/
    get_source_interval h (KRule i) = Val (Iv (t_index first) (Z.of_nat e)) /\ matches_eof T.
Lemma covers_interval src e h i x T : nth_error h i = Some x -> covers (eq (tok_at src e)) x T -> interval_of_reads e h i T.
Proof.
  intros N C first rest E. destruct (C first rest E) as [C1 C2].
  assert (I : get_source_interval h (KRule i) = Val (Iv (t_index first) (t_index (x_stop x)))).
  { cbn [get_source_interval]. unfold deref, unwrap. rewrite N. cbn [obindo]. unfold rule_interval. rewrite C1. reflexivity. }
  rewrite I. destruct C2 as [->|[<- C2]]; [left; reflexivity|right; split; [reflexivity|exact C2]].
Qed.

(** A parser on a CommonTokenStream over the tokens [src], the first of which is on the
    parser's channel, at any point of the stream where no end of input has been matched. *)
Theorem C96_common : forall src ch bound e, eof_number src e -> (e <= bound)%nat -> visible src ch 0 ->
  forall a names fuel c g p f g' p' f' r,
  rule_call c -> ctx_exists p -> p_build p = true -> RecSpec.at_token src ch bound (p_input p) -> p_eof p = false ->
  run_call (common_stream src ch bound) a names fuel c g p f = Val (g', p', f', r) -> ~ cancelled r ->
  exists n T, attached (ParserSpec.rule_of c) n p p' /\ shows (p_heap p') (KRule n) T /\
    forall i T', below (p_heap p') (KRule n) (KRule i) -> shows (p_heap p') (KRule i) T' -> interval_of_reads e (p_heap p') i T'.
Proof.
  intros src ch bound e He Hf H0 a names fuel c g p f g' p' f' r HG W Hb HI HE H NC.
  destruct (C96_spans _ _ _ _ _ _ a names fuel c g p f g' p' f' r (ParserStreamProofs.common_history src ch bound e He Hf) (common_looking src ch bound e He Hf H0) HG W Hb
    (at_token_reading _ _ _ _ HI) ltac:(congruence) H NC) as (n & T & A & B & C).
  exists n, T. split; [exact A|]. split; [exact B|]. intros i T' D Sh. inversion Sh as [| |? x ks N F]; subst. eapply covers_interval; eauto.
Qed.
Print Assumptions C96_common.

(** The same of a generated parser: any grammar, input, predicates, decisions and DFAs. *)
Theorem C96_generated : forall src ch sfuel e, eof_number src e -> (e <= sfuel)%nat -> visible src ch 0 ->
  forall a plan recursive, well_formed a -> named_rules a -> plan_fits a plan recursive ->
  forall names sempred order alt_order hash dhash share clock mode switch plain pred pred_text pred_message fuel n rule start g p ds g' p' ds' r,
  Ll1Spec.rule_of a start = rule -> RecSpec.at_token src ch sfuel (p_input p) -> ctx_exists p -> p_build p = true -> p_eof p = false ->
  RecModel.parse (common_seek src ch sfuel) a names sempred order alt_order hash dhash share clock mode plan switch plain recursive pred pred_text pred_message fuel n rule start g p ds = Val (g', p', ds', r) ->
  r <> Full -> (forall c, r <> Raised (FallThrough c)) ->
  exists m T, attached rule m p p' /\ shows (p_heap p') (KRule m) T /\
    forall i T', below (p_heap p') (KRule m) (KRule i) -> shows (p_heap p') (KRule i) T' -> interval_of_reads e (p_heap p') i T'.
Proof.
  intros src ch sfuel e He Hf H0 a plan recursive WF NR PF names sempred order alt_order hash dhash share clock mode switch plain pred pred_text pred_message fuel n rule start g p ds g' p' ds' r RS A W Hb HE H NF NC.
  destruct (C93_history src ch sfuel e He Hf a names sempred order alt_order hash dhash share clock mode plan switch plain recursive pred pred_text pred_message fuel n rule start g p ds g' p' ds' r A H NF)
    as (b & body & AL & RC).
  pose proof (along_rule_call a plan plain recursive WF PF NR rule start 0 b body AL RS) as GB.
  assert (NC' : ~ cancelled (match r with Raised x => Some x | _ => None end)).
  { intros (c & E). destruct r; try discriminate. injection E as ->. exact (NC c eq_refl). }
  destruct (C96_common src ch sfuel e He Hf H0 a names fuel _ g p _ g' p' _ _ GB W Hb A HE (RC (Frame 0 None (-1) 0 0)) NC') as (m & T & Q1 & Q2 & Q3).
  exists m, T. split; [|auto]. replace rule with (ParserSpec.rule_of (calls_rule plain recursive rule start 0 body)) by (unfold calls_rule; destruct (recursive rule); reflexivity). exact Q1.
Qed.
Print Assumptions C96_generated.

(** Input C (hidden) A A B: the second A is skipped by error recovery, and is part of the
    interval of the outer rule; that rule stops at the end of input, token number 5. *)
Notation erroneous := [tk 3; hidden 9; tk 1; tk 1; tk 2].
Example C96_nonvacuous :
  rule_call s_rule /\ eof_number (source erroneous) 5 /\ visible (source erroneous) 0 0 /\
  RecSpec.at_token (source erroneous) 0 50 (p_input (fresh erroneous)) /\ p_eof (fresh erroneous) = false /\
  exists g' p' f', run erroneous s_rule (Default new_dstrategy) (fresh erroneous) = Val (g', p', f', None) /\
    get_source_interval (p_heap p') (KRule 0) = Val (Iv 0 5) /\ get_source_interval (p_heap p') (KRule 1) = Val (Iv 0 2).
Proof.
  split; [unfold rule_call, generated_body, s_rule, inner_rule; repeat constructor|]. split.
  - split; [reflexivity|]. intros i Hi. do 5 (destruct i as [|i]; [discriminate|]). lia.
  - split; [left; reflexivity|]. split; [split; [exists []; reflexivity|]; exists O; split; [reflexivity|left; reflexivity]|]. split; [reflexivity|].
    do 3 eexists. split; [vm_compute; reflexivity|]. split; vm_compute; reflexivity.
Qed.
(** INT PLUS INT PLUS INT: the contexts pushed by a left-recursive rule start where the rule does. *)
Example C96_nonvacuous_recursive :
  rule_call e_rule /\
  exists g' p' f', run [tk 5; tk 6; tk 5; tk 6; tk 5] e_rule (Default new_dstrategy) (fresh [tk 5; tk 6; tk 5; tk 6; tk 5]) = Val (g', p', f', None) /\
    map (fun i => get_source_interval (p_heap p') (KRule i)) [0; 1; 2; 3; 4]%nat = [Val (Iv 0 0); Val (Iv 0 2); Val (Iv 2 2); Val (Iv 0 4); Val (Iv 4 4)].
Proof.
  split; [unfold rule_call, generated_body, e_rule, e_body, operand; repeat constructor|]. do 3 eexists. split; vm_compute; reflexivity.
Qed.

(** ** What does not hold *)

(** A rule that matches the end of input need not stop there: a left-recursive rule
    [e : INT EOF] stops at the token before it, unlike other rules ... *)
Theorem C96_recursive_eof_refuted :
  let e := CRec 3 15 0 false [CAlt None; CSetState 17; CMatch 5; CSetState 18; CMatch (-1); CSetStop] in
  rule_call e /\
  exists g' p' f', run [tk 5] e (Default new_dstrategy) (fresh [tk 5]) = Val (g', p', f', None) /\
    get_source_interval (p_heap p') (KRule 0) = Val (Iv 0 0) /\
    shows (p_heap p') (KRule 0) (Node 3 0 [Leaf (Tok 5 0 [] 0 1 0); Leaf (Tok (-1) 0 [] 1 1 0)]).
Proof.
  split; [unfold rule_call, generated_body; repeat constructor|]. do 3 eexists. split; [vm_compute; reflexivity|]. split; [vm_compute; reflexivity|]. show_tree.
Qed.
Print Assumptions C96_recursive_eof_refuted.

(** ... and so does any rule in which the end of input is matched after error recovery has
    deleted the token before it (input C A B B of [s : x B EOF]). *)
Theorem C96_deleted_eof_refuted :
  exists g' p' f', run [tk 3; tk 1; tk 2; tk 2] s_rule (Default new_dstrategy) (fresh [tk 3; tk 1; tk 2; tk 2]) = Val (g', p', f', None) /\
    get_source_interval (p_heap p') (KRule 0) = Val (Iv 0 3) /\
    shows (p_heap p') (KRule 0) (Node 0 0 [Node 1 0 [Leaf (Tok 3 0 [] 0 1 0); Leaf (Tok 1 0 [] 1 1 0)]; Leaf (Tok 2 0 [] 2 1 0); ErrLeaf (Tok 2 0 [] 3 1 0); Leaf (Tok (-1) 0 [] 4 1 0)]).
Proof. do 3 eexists. split; [vm_compute; reflexivity|]. split; [vm_compute; reflexivity|]. show_tree. Qed.
Print Assumptions C96_deleted_eof_refuted.

(** If the first token is on another channel, the parser sees it nevertheless; a rule that
    reads no more than this token cannot return: looking back for its stop token panics. *)
Theorem C96_hidden_first_refuted :
  let x := CRule 1 6 false [CAlt None; CSetState 9; CMatch 1] in
  rule_call x /\ run [hidden 1; tk 2] x (Default new_dstrategy) (fresh [hidden 1; tk 2]) = Panics.
Proof. split; [unfold rule_call, generated_body; repeat constructor|]. vm_compute. reflexivity. Qed.
Print Assumptions C96_hidden_first_refuted.

(** A rule that reads nothing has an interval that stops before it starts. *)
Example C96_empty_rule :
  let s := CRule 0 0 false [CAlt None; CMatch 1; CRule 1 6 false [CAlt None]; CMatch 2] in
  exists g' p' f', run [tk 1; tk 2] s (Default new_dstrategy) (fresh [tk 1; tk 2]) = Val (g', p', f', None) /\
    get_source_interval (p_heap p') (KRule 0) = Val (Iv 0 1) /\ get_source_interval (p_heap p') (KRule 1) = Val (Iv 1 0).
Proof. do 3 eexists. split; [vm_compute; reflexivity|]. split; vm_compute; reflexivity. Qed.
