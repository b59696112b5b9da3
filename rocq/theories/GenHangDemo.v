(** A grammar, a parser generated from it, and an input of two tokens that this parser
    never finishes (C89). *)
From Coq Require Import ZArith List Bool Lia.
From Verif Require Import CharStreamModel TokenStreamModel TokenStreamSpec.
From Verif Require Import Outcome IntervalSetModel PredContextModel SemContextModel ConfigSetModel DfaModel AtnModel AtnSpec Ll1Model Ll1Spec ParserModel PredictModel PredictSpec PredictLLSpec PredictTotalSpec.
From Verif Require Import GenModel GenSpec ParserDemo PredictDemo PredictLLDemo PredictTotalDemo GenDemo PredictTotalBaseProofs GenFuelProofs GenHangProofs.
Import ListNotations.
Local Open Scope Z_scope.

(** Tokens A = 1, B = 2, C = 3.
      rule 0   s : ( r B )* EOF ;             (the loop: decision 0, state 2)
      rule 1   t : r A C ;
      rule 2   r : | A ;                      (decision 1, state 19)
    On the input "A C", [s] enters the loop because of the A.  [r] looks at A and C; only
    [t] can go on like that, so the prediction is that [r] is empty.  There is no B; but
    if there were one, the A could follow, so a missing B is reported and made up.  And
    the loop starts again, at the same A. *)
Definition hang_atn : atn := Atn [2; 19] PARSER [] 3 [] [0; 11; 17] [1; 12; 18] [] [
  sst 0 0 2 (RuleStartState 1 false) [Epsilon 2 (-1)];
  sst 0 1 7 RuleStopState [];
  sst 0 2 10 (DecisionState 0 false (StarLoopEntry 7 false)) [Epsilon 3 (-1); Epsilon 8 (-1)];
  sst 0 3 5 (DecisionState (-1) false (BlockStartState 6 StarBlockStart)) [Epsilon 4 (-1)];
  sst 0 4 1 BasicState [RuleTr 17 5 2 0];
  sst 0 5 1 BasicState [Atom 6 2];
  sst 0 6 8 (BlockEndState 3) [Epsilon 7 (-1)];
  sst 0 7 9 StarLoopbackState [Epsilon 2 (-1)];
  sst 0 8 12 (LoopEndState 7) [Epsilon 9 (-1)];
  sst 0 9 1 BasicState [Atom 10 (-1)];
  sst 0 10 1 BasicState [Epsilon 1 (-1)];
  sst 1 11 2 (RuleStartState 12 false) [Epsilon 13 (-1)];
  sst 1 12 7 RuleStopState [];
  sst 1 13 1 BasicState [RuleTr 17 14 2 0];
  sst 1 14 1 BasicState [Atom 15 1];
  sst 1 15 1 BasicState [Atom 16 3];
  sst 1 16 1 BasicState [Epsilon 12 (-1)];
  sst 2 17 2 (RuleStartState 18 false) [Epsilon 19 (-1)];
  sst 2 18 7 RuleStopState [Epsilon 5 (-1); Epsilon 14 (-1)];
  sst 2 19 3 (DecisionState 1 false (BlockStartState 22 BasicBlockStart)) [Epsilon 20 (-1); Epsilon 21 (-1)];
  sst 2 20 1 BasicState [Epsilon 22 (-1)];
  sst 2 21 1 BasicState [Atom 22 1];
  sst 2 22 8 (BlockEndState 19) [Epsilon 18 (-1)]].
Definition hang_plan (from i : Z) : list call :=
  if i =? 0 then [CAlt None]
  else if i =? 2 then (if from =? 7 then [CSetState 7; CSync; CLook 1] else [CSetState 2; CSync; CLook 1])
  else if i =? 19 then [CSetState 19; CSync]
  else if (i =? 20) || (i =? 21) then [CAlt None]
  else [].
Definition hang_test (x : Z) : option Z := if (x =? 1) || (x =? 2) then Some 1 else Some 2.
Definition hang_switch (i : Z) : option (Z -> option Z) := if i =? 2 then Some hang_test else None.
Definition ac : list tok := map tk [1; 3].
Notation hang_ts := (common_seek (source ac) 0 50).
Notation hang_parse mode := (parse hang_ts hang_atn demo_names (fun _ _ _ _ => true) plain_order plain_alts one_hash no_dhash no_share
  (fun _ => 0%nat) mode hang_plan hang_switch (fun _ => false)).
Notation hang_walk mode := (walk_from hang_ts hang_atn demo_names (fun _ _ _ _ => true) plain_order plain_alts one_hash no_dhash no_share
  (fun _ => 0%nat) mode hang_plan hang_switch (fun _ => false)).
Notation hang_ahead mode := (ahead_by hang_ts hang_atn demo_names (fun _ _ _ _ => true) plain_order plain_alts one_hash no_dhash no_share
  (fun _ => 0%nat) mode hang_plan hang_switch (fun _ => false)).
Notation hang_rule mode n := (rule_function hang_ts hang_atn demo_names (fun _ => false) n (walk hang_ts hang_atn demo_names (fun _ _ _ _ => true) plain_order plain_alts one_hash no_dhash no_share
  (fun _ => 0%nat) mode hang_plan hang_switch (fun _ => false) n (-1) 17) 2 17).

(** ** The stream, strategy and DFAs when the loop has been entered for the first time *)
Notation hang_ctx := (new_parser_ctx None (-1) 0 0 false).
Definition hang_start : outcome (parser uts) := enter_rule (common_stream (source ac) 0 50) (with_heap (new_base_parser (with_channel (source ac))) [hang_ctx]) 0 0.
Definition hang_entered : parser uts := match hang_start with Val p => p | _ => new_base_parser (with_channel (source ac)) end.
Notation hang_frame := (Frame 0 None (-1) 0 0).
Definition hang_first : point := ((-1), 0, Default new_dstrategy, hang_entered, new_dfas hang_atn, hang_frame).
Definition hang_dfas : list pdfa := Eval vm_compute in match hang_ahead LL 100 7 hang_first with Val (inl (_, _, _, _, ds, _)) => ds | _ => [] end.
Definition hang_input : uts := Eval vm_compute in match hang_ahead LL 100 7 hang_first with Val (inl (_, _, _, p, _, _)) => p_input p | _ => with_channel (source ac) end.
Definition hang_notices : list notice := Eval vm_compute in match hang_ahead LL 100 7 hang_first with Val (inl (_, _, _, p, _, _)) => p_notices p | _ => [] end.
Definition hang_a : tok := Eval vm_compute in tok_at (source ac) 0.
Notation hang_strategy := (Default (DStrategy true (-1) None (-1) None)).
(** the parser at state [st] of [s], the loop having left [kids] under the context of [s]
    and the contexts [rest] of [r] *)
Definition hang_parser (st : Z) (kids : list kid) (rest : list rctx) : parser uts :=
  Parser (Some O) true false st hang_input [0] [] 1 (RCtx None (-1) 0 0 false hang_a invalid_tok kids :: rest) [] hang_notices.
Definition hang_point (kids : list kid) (rest : list rctx) : point := (7, 2, hang_strategy, hang_parser 5 kids rest, hang_dfas, hang_frame).
Lemma hang_reached mode : exists kids rest, hang_ahead mode 100 7 hang_first = Val (inl (hang_point kids rest)).
Proof. destruct mode; eexists _, _; vm_compute; reflexivity. Qed.

(** ** One round *)
Lemma nth_last {A} (l : list A) x : nth_error (l ++ [x]) (length l) = Some x.
Proof. rewrite nth_error_app2, PeanoNat.Nat.sub_diag by lia. reflexivity. Qed.
Lemma update_last l x f : update (l ++ [x]) (length l) f = l ++ [f x].
Proof. induction l as [|y l IH]; cbn; [reflexivity | now rewrite IH]. Qed.
(** the function of [r]: nothing is read *)
Lemma hang_predict mode c : exists m, adaptive_predict hang_ts hang_atn nat (fun _ _ _ _ => true) plain_order plain_alts one_hash no_dhash no_share 100 mode 0 c [4; -1] 1 19
  (nth 1 hang_dfas (dfa_new unit unit false)) hang_input 0 = Val (m, Predicted 1) /\ m_input m = hang_input /\ m_dfa m = nth 1 hang_dfas (dfa_new unit unit false).
Proof. destruct mode; eexists; (split; [vm_compute; reflexivity | split; vm_compute; reflexivity]). Qed.
Section Round.
  Variable mode : pmode.
  Variable kids : list kid.
  Variable rest : list rctx.
  Let c := Datatypes.S (length rest).
  Let x := RCtx (Some O) 4 2 0 false hang_a invalid_tok [].
  Let heap := RCtx None (-1) 0 0 false hang_a invalid_tok (kids ++ [KRule c]) :: rest ++ [x].
  (** inside [r] *)
  Let inner (st : Z) : parser uts := Parser (Some c) true false st hang_input [0] [] 1 heap [] hang_notices.
  Let fr := Frame c (Some O) 4 17 2.
  Lemma hang_lt : s_lt (k_base hang_ts) hang_input 1 = Val (hang_input, Some hang_a).
  Proof. vm_compute. reflexivity. Qed.
  Lemma hang_behind : s_lt (k_base hang_ts) hang_input (-1) = Val (hang_input, None).
  Proof. vm_compute. reflexivity. Qed.
  Ltac opened := cbv [with_ctx with_input modify with_heap set_state with_events deliver get_ctx deref hang_parser inner heap c x new_parser_ctx set_start set_stop or_invalid add_child set_children
    p_ctx p_build p_eof p_state p_input p_prec p_listeners p_errors p_heap p_events p_notices x_parent x_invoking x_rule x_kind x_plain x_start x_stop x_children obindo unwrap rev map]; cbn [app nth_error update].
  Lemma hang_enter : enter_rule (k_base hang_ts) (with_heap (hang_parser 4 kids rest) (p_heap (hang_parser 4 kids rest) ++ [new_parser_ctx (Some O) 4 2 0 false])) c 17 = Val (inner 17).
  Proof.
    unfold enter_rule, ParserModel.lt, add_context_to_parse_tree. change (p_input (set_state _ _)) with hang_input. rewrite hang_lt. opened.
    rewrite update_last. opened. rewrite nth_last. opened. reflexivity.
  Qed.
  Lemma hang_event st : trigger_enter_rule_event (inner st) = Val (inner st).
  Proof.
    unfold trigger_enter_rule_event. opened. rewrite nth_last. reflexivity.
  Qed.
  Lemma hang_exit st : exit_rule (k_base hang_ts) (inner st) = Val (hang_parser 4 (kids ++ [KRule c]) (rest ++ [x])).
  Proof.
    unfold exit_rule, ParserModel.lt, trigger_exit_rule_event. change (p_input (inner st)) with hang_input. change (p_eof (inner st)) with false. cbv iota. rewrite hang_behind.
    opened. rewrite update_last. opened. rewrite !nth_last. opened. rewrite ?nth_last. reflexivity.
  Qed.
  Notation next := (next hang_ts hang_atn demo_names (fun _ _ _ _ => true) plain_order plain_alts one_hash no_dhash no_share (fun _ => 0%nat) mode hang_plan hang_switch (fun _ => false)).
  Notation choose := (choose hang_ts hang_atn (fun _ _ _ _ => true) plain_order plain_alts one_hash no_dhash no_share (fun _ => 0%nat) mode hang_switch).
  Ltac here := first [reflexivity | discriminate].
  Lemma hang_ancestors st : ancestors (Datatypes.S (length (p_heap (inner st)))) (p_heap (inner st)) c = Val [4; -1].
  Proof. cbn [ancestors]. unfold deref at 1. change (nth_error (p_heap (inner st)) c) with (nth_error (rest ++ [x]) (length rest)). rewrite nth_last. reflexivity. Qed.
  Lemma hang_choose : choose 100 19 (sst 2 19 3 (DecisionState 1 false (BlockStartState 22 BasicBlockStart)) [Epsilon 20 (-1); Epsilon 21 (-1)]) (inner 19) hang_dfas =
    Val (inner 19, hang_dfas, Go (Epsilon 20 (-1))).
  Proof.
    destruct (hang_predict mode c) as (m & E & Ei & Ed). unfold GenModel.choose. cbn [st_trans sst st_type].
    change (hang_switch 19) with (@None (Z -> option Z)). cbv iota beta. change (vget hang_dfas 1) with (Some (nth 1 hang_dfas (dfa_new unit unit false))). cbn [unwrap obindo].
    change (get_ctx (inner 19)) with (Val c). cbn [obindo]. rewrite hang_ancestors. cbn [obindo].
    change (get_precedence (inner 19)) with 0. change (p_input (inner 19)) with hang_input. rewrite E. cbn [obindo]. rewrite Ei, Ed. reflexivity.
  Qed.
  Lemma hang_body n : (105 <= n)%nat -> walk_from hang_ts hang_atn demo_names (fun _ _ _ _ => true) plain_order plain_alts one_hash no_dhash no_share (fun _ => 0%nat) mode hang_plan hang_switch (fun _ => false)
    n ((-1), 17, hang_strategy, inner 17, hang_dfas, fr) = Val (hang_strategy, inner 19, hang_dfas, fr, Ended).
  Proof.
    intros L. refine (walk_ahead _ _ _ _ _ _ _ _ _ _ _ _ _ _ 100 5 _ n ltac:(lia) ltac:(lia) (inr _) _).
    cbn [ahead_by].
    erewrite step_epsilon; [|reflexivity | reflexivity | discriminate | reflexivity]. cbn [obindo].
    erewrite step_epsilon; [|reflexivity | reflexivity | discriminate | apply hang_choose]. cbn [obindo].
    erewrite step_epsilon; [| | reflexivity | discriminate | reflexivity]. 2:{ change (hang_plan 19 20) with [CAlt None]. cbn [run_calls run_call]. unfold enter_outer_alt. cbn [obindo]. rewrite hang_event. reflexivity. } cbn [obindo].
    erewrite step_epsilon; [|reflexivity | reflexivity | discriminate | reflexivity]. cbn [obindo].
    erewrite step_stop; [|reflexivity | reflexivity | reflexivity]. reflexivity.
  Qed.
  Lemma hang_r n : (105 <= n)%nat -> hang_rule mode n hang_strategy (hang_parser 4 kids rest) hang_dfas =
    Val (hang_strategy, hang_parser 4 (kids ++ [KRule c]) (rest ++ [x]), hang_dfas, Ended).
  Proof.
    intros L. unfold rule_function, alloc.
    change (length (p_heap (hang_parser 4 kids rest))) with c. change (p_ctx (hang_parser 4 kids rest)) with (Some O). change (p_state (hang_parser 4 kids rest)) with 4.
    rewrite hang_enter. cbn [obindo]. change (Frame c (Some O) 4 17 2) with fr.
    pose proof (hang_body n L) as B. unfold walk_from in B. rewrite B. cbn [obindo catch]. rewrite hang_exit. reflexivity.
  Qed.
End Round.
Definition hang_missing : kid := Eval vm_compute in
  match hang_ahead LL 100 1 ((4, 5, hang_strategy, hang_parser 4 [] [], hang_dfas, hang_frame) : point) with
  | Val (inl (_, _, _, p, _, _)) => match p_heap p with RCtx _ _ _ _ _ _ _ [k] :: _ => k | _ => KRule 0 end
  | _ => KRule 0 end.
Lemma hang_b kids rest : match_label hang_ts hang_atn demo_names 100 (Atom 6 2) hang_strategy (hang_parser 5 kids rest) = Val (hang_strategy, hang_parser 5 (kids ++ [hang_missing]) rest, None).
Proof. vm_compute. reflexivity. Qed.
(** ** For ever *)
Section Rounds.
  Variable mode : pmode.
  Lemma hang_rule_more kids rest n : (105 <= n)%nat -> hang_rule mode n hang_strategy (hang_parser 4 kids rest) hang_dfas =
    Val (hang_strategy, hang_parser 4 (kids ++ [KRule (Datatypes.S (length rest))]) (rest ++ [RCtx (Some O) 4 2 0 false hang_a invalid_tok []]), hang_dfas, Ended).
  Proof. apply hang_r. Qed.
  Lemma hang_label n kids rest : (105 <= n)%nat -> match_label hang_ts hang_atn demo_names n (Atom 6 2) hang_strategy (hang_parser 5 kids rest) = Val (hang_strategy, hang_parser 5 (kids ++ [hang_missing]) rest, None).
  Proof.
    intros L. destruct (mono_le (fun n => match_label hang_ts hang_atn demo_names n (Atom 6 2) hang_strategy (hang_parser 5 kids rest)) (fun n => label_le _ _ _ n _ _ _) 100 n ltac:(lia)) as [R|R];
      pose proof (hang_b kids rest) as B; [congruence|]. cbv beta in R. rewrite R. exact B.
  Qed.
  Lemma hang_round kids rest : exists kids' rest', hang_ahead mode 105 6 (hang_point kids rest) = Val (inl (hang_point kids' rest')).
  Proof.
    eexists _, _. cbn [ahead_by]. unfold hang_point at 1.
    erewrite step_epsilon; [|reflexivity | reflexivity | discriminate | reflexivity]. cbn [obindo].
    erewrite step_epsilon; [|reflexivity | reflexivity | discriminate | reflexivity]. cbn [obindo].
    erewrite step_rule; [|reflexivity | reflexivity | discriminate | reflexivity | apply (hang_rule_more kids rest); lia]. cbn [obindo].
    erewrite step_token; [|reflexivity | reflexivity | discriminate | reflexivity | apply hang_label; lia]. cbn [obindo].
    erewrite step_epsilon; [|reflexivity | reflexivity | discriminate | reflexivity]. cbn [obindo].
    erewrite step_epsilon; [|reflexivity | reflexivity | discriminate | reflexivity]. reflexivity.
  Qed.
  Lemma hang_walks n : hang_walk mode n hang_first = NoFuel.
  Proof.
    destruct (hang_reached mode) as (kids & rest & E). revert n.
    apply (later _ _ _ _ _ _ _ _ _ _ _ _ _ _ _ _ _ _ E). intros m.
    apply (round_and_round _ _ _ _ _ _ _ _ _ _ _ _ _ _ (fun x => exists kids rest, x = hang_point kids rest) 5); [|now exists kids, rest].
    intros y (k & r & ->). destruct (hang_round k r) as (k' & r' & Q). exists 105%nat, (hang_point k' r'). split; [exact Q | now exists k', r'].
  Qed.
  Lemma hang_parses n : hang_parse mode n 0 0 (Default new_dstrategy) (new_base_parser (with_channel (source ac))) (new_dfas hang_atn) = NoFuel.
  Proof.
    pose proof (hang_walks n) as W. unfold walk_from, hang_first in W. unfold parse, rule_function, alloc.
    match goal with |- context [enter_rule ?t ?p ?c ?s] => assert (E : enter_rule t p c s = Val hang_entered) by (vm_compute; reflexivity); rewrite E end.
    cbn [obindo]. change (p_ctx (fresh ac)) with (@None nat). change (p_state (fresh ac)) with (-1). change (length (p_heap (fresh ac))) with O. rewrite W. reflexivity.
  Qed.
End Rounds.
