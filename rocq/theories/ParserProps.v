(** C53-C56: rule entry and exit, the leaves of the tree, left recursion, parse listeners.

    All theorems are about histories of generated rule functions ([call], ParserModel.v):
    whatever calls a rule function makes, in whatever order its prediction chooses them,
    with any input, any ATN and either error strategy.  [run_call ts a names fuel c g p f]
    makes the call [c]; the result [None] means that the rule function returned [Ok]. *)
From Coq Require Import ZArith List Bool Lia.
From Coq Require Import ZifyBool ZifyNat.
From Verif Require Import Outcome IntervalSetModel AtnModel TokenStreamModel TokenStreamSpec CommonTokenStreamProofs Ll1Model.
From Verif Require Import ParserModel ParserSpec ParserTreeProofs ParserRunProofs ParserEventProofs ParserWalkProofs ParserDemo ParserStreamProofs.
Import ListNotations.
Local Open Scope Z_scope.

Lemma not_cancelled : forall r, ~ cancelled r -> ended r.
Proof. intros [[]|] H; cbn; auto. apply H. eexists. reflexivity. Qed.

Lemma returned_attached : forall S (Inv : S -> Prop) past rule body (p p' : parser S) n T,
  returned Inv past rule body p p' n T -> attached rule n p p'.
Proof.
  intros S Inv past rule body p p' n T [R1 R2 R3 R4 R5 R6 R7 R8 R9]. split; [auto|]. split; [auto|].
  intros j c Hj. assert (Hl : (j < length (p_heap p))%nat) by (apply nth_error_Some; congruence).
  rewrite (R8 j Hl). assert (C0 : set_children (x_children c ++ []) c = c) by (rewrite app_nil_r; destruct c; auto).
  destruct (p_build p); cbn [andb]; [|now rewrite C0].
  destruct (p_ctx p) as [i|]; cbn [grow same_ctx]; [|now rewrite C0].
  destruct (Nat.eqb_spec i j) as [->|D]; [now rewrite (nth_update_same _ _ _ _ Hj)|].
  rewrite nth_update_other; auto. now rewrite C0.
Qed.

Lemma shows_node : forall h i c r k ks, nth_error h i = Some c -> x_rule c = r -> x_kind c = k -> Forall2 (shows h) (x_children c) ks ->
  shows h (KRule i) (Node r k ks).
Proof. intros h i c r k ks H <- <- F. now apply sh_rule. Qed.
Ltac show_tree := repeat first [eapply shows_node; [cbn [nth_error p_heap]; reflexivity|reflexivity|reflexivity|cbn [x_children]]|apply sh_term|apply sh_err|apply Forall2_cons|apply Forall2_nil].

(** ** C53 *)
Theorem C53_rule_balanced : forall S (ts : stream_ops S) a names fuel rule start plain body g p f g' p' f' r,
  generated_body false body -> ctx_exists p ->
  run_call ts a names fuel (CRule rule start plain body) g p f = Val (g', p', f', r) -> ~ cancelled r ->
  r = None /\ f' = f /\
  p_ctx p' = p_ctx p /\ p_state p' = p_state p /\ p_prec p' = p_prec p /\
  exists n, attached rule n p p' /\
    (p_build p = true -> exists T, shows (p_heap p') (KRule n) T /\ makes rule body T).
Proof.
  intros S ts a names fuel rule start plain body g p f g' p' f' r HG W H NC.
  destruct (rule_returned ts a names fuel _ _ (no_history ts) _ _ _ _ _ _ _ _ _ _ _ (all_bodies_ok ts a names fuel _ _ (no_history ts) body) HG W H (not_cancelled _ NC))
    as (A & B & C & n & T & R).
  pose proof (returned_attached _ _ _ _ _ _ _ _ _ R) as AT. destruct R as [R1 R2 R3 R4 R5 R6 R7 R8 R9].
  repeat (split; [solve [auto]|]). exists n. split; auto. intros Hb. destruct (R9 Hb) as (D & M & _). exists T. split; auto.
  eapply denotes_shows; eauto.
Qed.
Print Assumptions C53_rule_balanced.

(** the rule [s] of the demonstration grammar, calling [x]; the tree that is built *)
Example C53_nonvacuous :
  generated_body false (body_of s_rule) /\ ctx_exists (fresh [tk 3; hidden 9; tk 1; tk 2]) /\
  exists g' p' f', run [tk 3; hidden 9; tk 1; tk 2] s_rule (Default new_dstrategy) (fresh [tk 3; hidden 9; tk 1; tk 2]) = Val (g', p', f', None) /\
    shows (p_heap p') (KRule 0) (Node 0 0 [Node 1 0 [Leaf (Tok 3 0 [] 0 1 0); Leaf (Tok 1 0 [] 2 1 0)]; Leaf (Tok 2 0 [] 3 1 0); Leaf (Tok (-1) 0 [] 4 1 0)]).
Proof.
  split; [unfold generated_body, s_rule, inner_rule; repeat constructor|]. split; [intros i H; discriminate|].
  do 3 eexists. split; [vm_compute; reflexivity|].
  show_tree.
Qed.

(** ** C54 *)
(** What "consumed so far" means for the usual token stream is C54_common below. *)
Theorem C54_leaves : forall S (ts : stream_ops S) Inv past a names fuel c g p f g' p' f' r,
  history ts Inv past -> rule_call c -> ctx_exists p -> p_build p = true -> Inv (p_input p) ->
  run_call ts a names fuel c g p f = Val (g', p', f', r) -> ~ cancelled r ->
  exists n T taken extra, attached (rule_of c) n p p' /\ shows (p_heap p') (KRule n) T /\
    past (p_input p') = past (p_input p) ++ taken /\
    merged taken extra (leaves T) /\ Forall not_consumed extra.
Proof.
  intros S ts Inv past a names fuel c g p f g' p' f' r Hist HG W Hb HI H NC.
  assert (exists n T, returned Inv past (rule_of c) (body_of c) p p' n T) as (n & T & R).
  { destruct c; cbn [rule_call] in HG; try contradiction.
    - destruct (rule_returned ts a names fuel _ _ Hist _ _ _ _ _ _ _ _ _ _ _ (all_bodies_ok ts a names fuel _ _ Hist body) HG W H (not_cancelled _ NC)) as (_ & _ & _ & R). exact R.
    - destruct (rec_returned ts a names fuel _ _ Hist _ _ _ _ _ _ _ _ _ _ _ _ (all_bodies_ok ts a names fuel _ _ Hist body) HG W H (not_cancelled _ NC)) as (_ & _ & R). exact R. }
  pose proof (returned_attached _ _ _ _ _ _ _ _ _ R) as AT. destruct R as [R1 R2 R3 R4 R5 R6 R7 R8 R9].
  destruct (R9 Hb) as (D & M & C). destruct (C HI) as (_ & taken & extra & new & E1 & E2 & E3 & E4). cbn [app] in E2. subst new.
  exists n, T, taken, extra. repeat (split; [solve [eauto using denotes_shows]|]). auto.
Qed.
Print Assumptions C54_leaves.

(** A parser on a fresh CommonTokenStream over the tokens [src], the first end-of-input token
    being number [e]: after a rule call the leaves are the tokens of the channel before the
    position reached, in order, with end-of-input tokens and conjured tokens in between. *)
Theorem C54_common : forall src channel bound e a names fuel c g p f g' p' f' r,
  eof_number src e -> (e <= bound)%nat -> rule_call c -> ctx_exists p -> p_build p = true -> p_input p = with_channel src ->
  run_call (common_stream src channel bound) a names fuel c g p f = Val (g', p', f', r) -> ~ cancelled r ->
  exists n T extra, attached (rule_of c) n p p' /\ shows (p_heap p') (KRule n) T /\
    merged (tokens_before src channel (Z.to_nat (cur (p_input p')))) extra (leaves T) /\ Forall not_consumed extra.
Proof.
  intros src ch bound e a names fuel c g p f g' p' f' r He Hf HG W Hb Hp H NC.
  destruct (start_reading src ch) as [R0 R1].
  destruct (C54_leaves _ _ _ _ a names fuel c g p f g' p' f' r (common_history src ch bound e He Hf) HG W Hb) as (n & T & taken & extra & A & B & C & D & E); auto.
  { rewrite Hp. exact R0. }
  rewrite Hp, R1 in C. cbn [app] in C. unfold read_so_far in C. exists n, T, extra. rewrite C. auto.
Qed.
Print Assumptions C54_common.

(** The token a match returns -- read, or conjured by error recovery -- is the last leaf
    added to the current context. *)
Theorem C54_match_is_leaf : forall S (ts : stream_ops S) a names fuel g p ty g' p' t i c,
  match_token ts a names fuel g p ty = Val (g', p', inl t) \/ match_wildcard ts a names fuel g p = Val (g', p', inl t) ->
  p_build p = true -> p_ctx p = Some i -> nth_error (p_heap p) i = Some c ->
  exists c' more k, nth_error (p_heap p') i = Some c' /\ x_children c' = x_children c ++ more ++ [k] /\ (k = KTerm t \/ k = KErr t).
Proof.
  intros S ts a names fuel g p ty g' p' t i c H Hb Hi Hc.
  assert (exists k, is_node_of t k /\ last_node p p' k) as (k & K & L).
  { destruct H as [H|H]; [eapply match_token_leaf|eapply match_wildcard_leaf]; eauto. }
  destruct (L Hb _ _ Hi Hc) as (c' & more & A & B). exists c', more, k. auto.
Qed.
Print Assumptions C54_match_is_leaf.

(** The code generated for sets of tokens drops the token error recovery conjures: it is in
    no tree, although the match succeeded ([x : (C | D) A], input A B). *)
Theorem C54_set_conjured_refuted :
  exists p', run [tk 1; tk 2] s_rule (Default new_dstrategy) (fresh [tk 1; tk 2]) =
      Val (Default new_dstrategy, p', Frame 0 None (-1) 0 0, None) /\
    shows (p_heap p') (KRule 0) (Node 0 0 [Node 1 0 [Leaf (Tok 1 0 [] 0 1 0)]; Leaf (Tok 2 0 [] 1 1 0); Leaf (Tok (-1) 0 [] 2 1 0)]) /\
    length (p_notices p') = 1%nat.
Proof.
  eexists. split; [vm_compute; reflexivity|]. split; [|vm_compute; reflexivity].
  show_tree.
Qed.
Print Assumptions C54_set_conjured_refuted.

(** Input C A A B: the second A is an error leaf (deleted); input C A: the missing B is conjured. *)
Example C54_nonvacuous :
  rule_call s_rule /\ eof_number (source [tk 3; hidden 9; tk 1; tk 1; tk 2]) 5 /\
  (exists g' p' f', run [tk 3; hidden 9; tk 1; tk 1; tk 2] s_rule (Default new_dstrategy) (fresh [tk 3; hidden 9; tk 1; tk 1; tk 2]) = Val (g', p', f', None) /\
    exists c, nth_error (p_heap p') 0 = Some c /\ x_children c = [KRule 1; KErr (Tok 1 0 [] 3 1 0); KTerm (Tok 2 0 [] 4 1 0); KTerm (Tok (-1) 0 [] 5 1 0)]) /\
  (exists g' p' f', run [tk 3; tk 1] s_rule (Default new_dstrategy) (fresh [tk 3; tk 1]) = Val (g', p', f', None) /\
    exists c t, nth_error (p_heap p') 0 = Some c /\ x_children c = [KRule 1; KErr t; KTerm (Tok (-1) 0 [] 2 1 0)] /\ t_type t = 2 /\ t_index t = -1).
Proof.
  split; [unfold rule_call, generated_body, s_rule, inner_rule; repeat constructor|]. split.
  - split; [reflexivity|]. intros i Hi. do 5 (destruct i as [|i]; [discriminate|]). lia.
  - split; do 3 eexists; (split; [vm_compute; reflexivity|]); repeat eexists; vm_compute; reflexivity.
Qed.

(** ** C55 *)
Theorem C55_restores : forall S (ts : stream_ops S) a names fuel rule start prec plain body g p f g' p' f' r,
  generated_body true body -> ctx_exists p ->
  run_call ts a names fuel (CRec rule start prec plain body) g p f = Val (g', p', f', r) -> ~ cancelled r ->
  r = None /\ f' = f /\ p_ctx p' = p_ctx p /\ p_prec p' = p_prec p /\
  exists n, attached rule n p p' /\
    (p_build p = true -> exists T, shows (p_heap p') (KRule n) T /\ makes rule body T).
Proof.
  intros S ts a names fuel rule start prec plain body g p f g' p' f' r HG W H NC.
  destruct (rec_returned ts a names fuel _ _ (no_history ts) _ _ _ _ _ _ _ _ _ _ _ _ (all_bodies_ok ts a names fuel _ _ (no_history ts) body) HG W H (not_cancelled _ NC))
    as (A & B & n & T & R).
  pose proof (returned_attached _ _ _ _ _ _ _ _ _ R) as AT. destruct R as [R1 R2 R3 R4 R5 R6 R7 R8 R9].
  repeat (split; [solve [auto]|]). exists n. split; auto. intros Hb. destruct (R9 Hb) as (D & M & _). exists T. split; auto.
  eapply denotes_shows; eauto.
Qed.
Print Assumptions C55_restores.

(** The tree of a left-recursive rule: each context pushed has the one before it as its first
    child; the rule may stop early (error), after the calls [don]. *)
Theorem C55_left_nesting : forall S (ts : stream_ops S) a names fuel rule start prec plain body g p f g' p' f' r,
  generated_body true body -> labels_first body -> ctx_exists p -> p_build p = true ->
  run_call ts a names fuel (CRec rule start prec plain body) g p f = Val (g', p', f', r) -> ~ cancelled r ->
  exists n don rest first later skipped,
    attached rule n p p' /\ body = don ++ rest /\ map fst later = pushed don /\
    shows (p_heap p') (KRule n) (Node rule (fst (nest rule first later)) (snd (nest rule first later) ++ skipped)) /\
    Forall is_leaf skipped /\ (rest = [] -> skipped = []).
Proof.
  intros S ts a names fuel rule start prec plain body g p f g' p' f' r HG HL W Hb H NC.
  destruct (C55_restores _ _ _ _ _ _ _ _ _ _ _ _ _ _ _ _ _ HG W H NC) as (_ & _ & _ & _ & n & AT & M).
  destruct (M Hb) as (T & ST & MK). inversion MK; subst.
  destruct (nesting rule don k ts0) as (first & later & N1 & N2); auto.
  { intros d k0 pl rest0 E. specialize (HL d k0 pl (rest0 ++ rest)). subst don. rewrite <- app_assoc in HL. specialize (HL eq_refl).
    apply Forall_app in HL. tauto. }
  exists n, don, rest, first, later, skipped. rewrite N2. cbn [fst snd]. repeat (split; [solve [auto]|]). auto.
Qed.
Print Assumptions C55_left_nesting.

(** INT PLUS INT PLUS INT; unlike exit_rule, unrolling does not restore the parser state. *)
Example C55_nonvacuous :
  generated_body true e_body /\ labels_first e_body /\ pushed e_body = [1; 2]%nat /\
  exists g' p' f', run [tk 5; tk 6; tk 5; tk 6; tk 5] e_rule (Default new_dstrategy) (fresh [tk 5; tk 6; tk 5; tk 6; tk 5]) = Val (g', p', f', None) /\
    map (fun c => (x_parent c, x_children c)) (p_heap p') = [
      (Some 1%nat, [KTerm (Tok 5 0 [] 0 1 0)]);
      (Some 3%nat, [KRule 0; KTerm (Tok 6 0 [] 1 1 0); KRule 2]);
      (Some 1%nat, [KTerm (Tok 5 0 [] 2 1 0)]);
      (None, [KRule 1; KTerm (Tok 6 0 [] 3 1 0); KRule 4]);
      (Some 3%nat, [KTerm (Tok 5 0 [] 4 1 0)])].
Proof.
  split; [unfold generated_body, e_body, operand; repeat constructor|]. split.
  - intros don k pl rest E. unfold e_body in E.
    do 19 (destruct don as [|? don]; [inversion E; subst; repeat constructor|apply (f_equal (@tl call)) in E; cbn [tl app] in E]). destruct don; discriminate.
  - split; [reflexivity|]. do 3 eexists. split; vm_compute; reflexivity.
Qed.

Theorem C55_state_not_restored_refuted :
  exists g' p' f', run [tk 5; tk 6; tk 5; tk 6; tk 5] e_rule (Default new_dstrategy) (fresh [tk 5; tk 6; tk 5; tk 6; tk 5]) = Val (g', p', f', None) /\
    p_state (fresh [tk 5; tk 6; tk 5; tk 6; tk 5]) = -1 /\ p_state p' = 17.
Proof. do 3 eexists. split; vm_compute; [reflexivity|auto]. Qed.
Print Assumptions C55_state_not_restored_refuted.

(** Inside a left-recursive rule called with precedence [prec], after any part [pre] of its body,
    nested calls included: the operator of level [n] is accepted exactly if [prec <= n]. *)
Theorem C55_operators : forall S (ts : stream_ops S) a names fuel rule start prec plain pre n p p1 c i g g2 p2 f2,
  generated_body true pre -> ctx_exists p ->
  alloc p (new_parser_ctx (p_ctx p) (p_state p) rule 0 plain) = (c, i) -> enter_recursion_rule ts c i start prec = Val p1 ->
  run_calls ts a names fuel pre g p1 (Frame i (p_ctx p) (p_state p) start rule) = Val (g2, p2, f2, None) ->
  (prec <= n -> run_call ts a names fuel (CPrec n) g2 p2 f2 = Val (g2, p2, f2, None)) /\
  (n < prec -> forall g3 p3 f3 r, run_call ts a names fuel (CPrec n) g2 p2 f2 = Val (g3, p3, f3, r) ->
     exists b rule pred msg, r = Some (PredicateError b rule pred msg (lit "recog.precpred(None, " ++ isize_to_string n ++ lit ")")) /\
       msg = lit "failed predicate: recog.precpred(None, " ++ isize_to_string n ++ lit ")" /\ e_state b = p_state p2).
Proof.
  intros S ts a names fuel rule start prec plain pre n p p1 c i g g2 p2 f2 HG W EA EE ER. unfold alloc in EA. inversion EA; subst. clear EA.
  destruct (enter_recursion_inv ts _ _ (no_history ts) _ _ _ _ _ _ _ W EE) as ((st0 & A1) & _ & _).
  unfold generated_body in HG.
  destruct (all_bodies_ok ts a names fuel _ _ (no_history ts) _ _ _ _ _ _ _ _ _ _ _ _ _ _ HG A1 ER Logic.I) as (x5 & A5 & _).
  assert (P : get_precedence p2 = prec). { unfold get_precedence. rewrite (i_prec _ _ _ _ _ _ _ _ A5). apply last_last. }
  cbn [ParserModel.run_call]. unfold precpred. rewrite P. split.
  - intros L. replace (n >=? prec) with true by lia. reflexivity.
  - intros L g3 p3 f3 r H. replace (n >=? prec) with false in H by lia.
    unfold failed_predicate in H. destruct (get_state a (p_state p2)) as [s| |]; try discriminate. cbn [obindo] in H.
    destruct (unwrap _) as [tr| |]; try discriminate. cbn [obindo] in H. destruct (match tr with PredicateTr _ _ _ _ => _ | _ => _ end) as [ru pi].
    destruct (base_error_new ts p2) as [b| |] eqn:EB; try discriminate. cbn [obindo] in H. inversion H; subst. do 4 eexists. split; [reflexivity|].
    split; [reflexivity|]. unfold base_error_new in EB. destruct (get_current_token ts _); try discriminate. cbn [obindo] in EB.
    destruct (stack_of _); try discriminate. cbn [obindo] in EB. inversion EB; subst. reflexivity.
Qed.
Print Assumptions C55_operators.

Example C55_operators_nonvacuous : let p := fresh [tk 5; tk 6; tk 5] in let c := alloc p (new_parser_ctx (p_ctx p) (p_state p) 3 0 false) in
  generated_body true (firstn 11 e_body) /\ ctx_exists p /\
  exists p1 g2 p2 f2, enter_recursion_rule (stream [tk 5; tk 6; tk 5]) (fst c) (snd c) 15 1 = Val p1 /\
    run_calls (stream [tk 5; tk 6; tk 5]) demo_atn demo_names 50 (firstn 11 e_body) (Default new_dstrategy) p1 (Frame 0 None (-1) 15 3)
      = Val (g2, p2, f2, None) /\ s_index (stream [tk 5; tk 6; tk 5]) (p_input p2) = 3.
Proof.
  cbv zeta. split; [repeat constructor|]. split; [intros j Hj; discriminate|]. do 4 eexists. split; [vm_compute; reflexivity|]. split; vm_compute; reflexivity.
Qed.

(** ** C56 *)
(** Whatever a rule function does, there is one sequence of events, and every listener is told
    each of them: enter and visit events in the order of registration, exit events in the
    reverse order. *)
Theorem C56_order : forall S (ts : stream_ops S) a names fuel c g p f g' p' f' r,
  run_call ts a names fuel c g p f = Val (g', p', f', r) -> exists es, delivers p p' es.
Proof. intros S ts a names fuel c g p f g' p' f' r H. exact (ra_told _ _ _ _ (call_ran ts a names fuel _ _ _ _ _ _ _ _ H)). Qed.
Print Assumptions C56_order.

(** A call without syntax errors: the events are those of a walk over the tree built. *)
Theorem C56_walk : forall S (ts : stream_ops S) a names fuel c g p f g' p' f',
  announced c -> rule_call c -> ctx_exists p -> p_build p = true -> in_error_recovery_mode g = false ->
  run_call ts a names fuel c g p f = Val (g', p', f', None) -> p_notices p' = p_notices p ->
  exists n es, attached (rule_of c) n p p' /\ delivers p p' es /\ walk (p_heap p') (KRule n) es.
Proof.
  intros S ts a names fuel c g p f g' p' f' HA HC W Hb M H N.
  assert (walked (rule_of c) (body_of c) p p') as (n & T & es & R & TA & PW).
  { destruct c; cbn [rule_call] in HC; try contradiction; [eapply rule_walk|eapply rec_walk]; eauto. }
  exists n, es. split; [eapply returned_attached; eauto|]. split; [exact TA|]. eapply pwalk_walk; eauto.
Qed.
Print Assumptions C56_walk.

(** The same with or without a tree: enter and exit events are balanced. *)
Theorem C56_balanced : forall S (ts : stream_ops S) a names fuel c g p f g' p' f',
  announced c -> rule_call c -> ctx_exists p -> in_error_recovery_mode g = false ->
  run_call ts a names fuel c g p f = Val (g', p', f', None) -> p_notices p' = p_notices p ->
  exists es, delivers p p' es /\ balanced es.
Proof.
  intros S ts a names fuel c g p f g' p' f' HA HC W M H N.
  refine (proj2 (called_brackets ts a names fuel c HA _ _ _ _ _ _ _ W H M N)).
  destruct c; cbn [rule_call] in HC; try contradiction; apply Forall_forall; intros; now apply announced_brackets.
Qed.
Print Assumptions C56_balanced.

(** Each token consumed is one visit event: of an error node exactly in error recovery mode. *)
Theorem C56_consume : forall S (ts : stream_ops S) rec p p', consume ts rec p = Val p' ->
  exists t, get_current_token ts p = Val t /\ delivers p p' [if rec then VisitError t else VisitTerminal t].
Proof.
  intros S ts rec p p' H. destruct (consume_flat ts no_inv no_past (no_history ts) _ _ _ H) as (t & Ht & F). exists t. split; auto.
  pose proof (told_flat _ _ _ F) as TF. destruct (t_type t =? -1); cbn in TF; destruct rec; exact TF.
Qed.
Print Assumptions C56_consume.

(** A listener that was removed is told nothing by later calls, if the addresses by which
    listeners are identified are distinct. *)
Theorem C56_removed : forall S (ts : stream_ops S) a names fuel (p : parser S) l c g f g' p' f' r,
  NoDup (map l_addr (p_listeners p)) -> In l (p_listeners p) ->
  exists q before after, remove_parse_listener p (l_addr l) = Val (q, l) /\
    p_listeners p = before ++ l :: after /\ p_listeners q = before ++ after /\
    (run_call ts a names fuel c g q f = Val (g', p', f', r) ->
     exists told, p_events p' = p_events p ++ told /\ ~ In l (map fst told)).
Proof.
  intros S ts a names fuel p l c g f g' p' f' r ND HI.
  destruct (remove_addr_spec _ _ ND HI) as (b & af & E & R & NI).
  exists (with_listeners p (b ++ af)), b, af. unfold remove_parse_listener. rewrite R. cbn [obindo].
  repeat (split; [solve [auto]|]). intros H. destruct (C56_order _ _ _ _ _ _ _ _ _ _ _ _ _ H) as (es & _ & EV).
  eexists. split; [exact EV|]. cbn [p_listeners with_listeners]. rewrite in_map_iff. intros ([l' e] & El & Hin). cbn in El. subst l'.
  apply in_flat_map in Hin as (e' & _ & Hin). unfold told in Hin. apply in_map_iff in Hin as (l0 & El & Hl). inversion El; subst l0.
  apply NI. destruct e'; auto. now apply in_rev.
Qed.
Print Assumptions C56_removed.

(** Listeners of a zero-sized type all have the same address: the one removed is the first
    registered, not the one that was asked for. *)
Theorem C56_removed_refuted :
  let p := fst (add_parse_listener (fst (add_parse_listener (fresh []) (PListener 1 0))) (PListener 1 1)) in
  snd (add_parse_listener (fst (add_parse_listener (fresh []) (PListener 1 0))) (PListener 1 1)) = 1 /\
  exists q, remove_parse_listener p 1 = Val (q, PListener 1 0) /\ p_listeners q = [PListener 1 1].
Proof. split; [reflexivity|]. eexists. split; reflexivity. Qed.
Print Assumptions C56_removed_refuted.

(** After a syntax error before the first match of a rule, the exit event comes without an
    enter event ([w : A | C], input B). *)
Notation two p := (with_listeners p [PListener 10 0; PListener 20 1]).
Theorem C56_unbalanced_error_refuted :
  exists g' p' f', run [tk 2] w_rule (Default new_dstrategy) (two (fresh [tk 2])) = Val (g', p', f', None) /\
    delivers (two (fresh [tk 2])) p' [VisitError (Tok 2 0 [] 0 1 0); ExitRule 0].
Proof. do 3 eexists. split; [vm_compute; reflexivity|]. split; vm_compute; reflexivity. Qed.
Print Assumptions C56_unbalanced_error_refuted.

(** A left-recursive rule whose primary alternative is labelled: the exit event of the
    relabelled context 1 comes without an enter event, without any error. *)
Theorem C56_unbalanced_label_refuted :
  exists g' p' f' es, run [tk 5; tk 6; tk 5] e_labelled (Default new_dstrategy) (two (fresh [tk 5; tk 6; tk 5])) = Val (g', p', f', None) /\
    p_notices p' = [] /\ delivers (two (fresh [tk 5; tk 6; tk 5])) p' es /\ In (ExitRule 1) es /\ ~ In (EnterRule 1) es.
Proof.
  do 4 eexists. split; [vm_compute; reflexivity|]. split; [vm_compute; reflexivity|]. split.
  - split; [vm_compute; reflexivity|].
    instantiate (1 := [VisitTerminal (Tok 5 0 [] 0 1 0); ExitRule 1; EnterRule 2; VisitTerminal (Tok 6 0 [] 1 1 0); VisitTerminal (Tok 5 0 [] 2 1 0); ExitRule 2]).
    vm_compute. reflexivity.
  - cbn. split; [auto|]. intros H. repeat destruct H as [H|H]; congruence || contradiction.
Qed.
Print Assumptions C56_unbalanced_label_refuted.

Example C56_nonvacuous :
  announced s_rule /\ announced e_rule /\
  (exists g' p' f', run [tk 3; hidden 9; tk 1; tk 2] s_rule (Default new_dstrategy) (two (fresh [tk 3; hidden 9; tk 1; tk 2])) = Val (g', p', f', None) /\
    p_notices p' = [] /\
    delivers (two (fresh [tk 3; hidden 9; tk 1; tk 2])) p' [EnterRule 0; EnterRule 1; VisitTerminal (Tok 3 0 [] 0 1 0); VisitTerminal (Tok 1 0 [] 2 1 0);
      ExitRule 1; VisitTerminal (Tok 2 0 [] 3 1 0); VisitTerminal (Tok (-1) 0 [] 4 1 0); ExitRule 0]).
Proof.
  split; [|split].
  - apply (an_rule 0 0 false [] None); [constructor|]. repeat first [apply Forall_cons|apply Forall_nil|apply an_inside; exact Logic.I].
    apply (an_rule 1 6 false [] None); [constructor|]. repeat first [apply Forall_cons|apply Forall_nil|apply an_inside; exact Logic.I].
  - assert (announced operand).
    { apply (an_rec 3 15 2 true [] ); [constructor|]. repeat first [apply ro_nil|apply ro_call; [apply an_inside; exact Logic.I|]]. }
    apply (an_rec 3 15 0 false []); [constructor|].
    repeat first [apply ro_nil|apply ro_exit|apply ro_next|apply ro_call; [first [assumption|apply an_inside; exact Logic.I]|]].
  - do 3 eexists. split; [vm_compute; reflexivity|]. split; [vm_compute; reflexivity|]. split; vm_compute; reflexivity.
Qed.
