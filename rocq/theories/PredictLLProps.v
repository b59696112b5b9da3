(** Properties of prediction: the alternative chosen is right (C80). *)
From Coq Require Import ZArith List Bool Lia Permutation.
From Verif Require Import Outcome IntervalSetModel AtnModel AtnSpec.
From Verif Require Import PredContextModel PredContextSpec SemContextModel ConfigSetModel DfaModel Ll1Model Ll1Spec ParserModel PredictModel PredictSpec.
From Verif Require Import CharStreamModel TokenStreamModel TokenStreamSpec.
From Verif Require Import PredictLLSpec PredictLLStreamProofs ParserDemo PredictDemo PredictLLDemo.
Import ListNotations.
Local Open Scope Z_scope.

(** ** C80  LL prediction chooses an alternative that can match the rest of the input *)

(** For every simple grammar ([PredictLLSpec]), every decision of it, any rules in
    progress, any DFA left behind by earlier predictions of the decision, any history
    of the token stream, any hash functions and iteration orders of hash sets: if some
    alternative can match all the tokens ahead, a prediction that returns returns
    such an alternative, and the first one.
    What is missing of the property: grammars with predicates, left recursion or a
    start rule that other rules invoke; wildcards over the largest token type; that the
    call returns (see C85). *)
Theorem C80_common_stream_partial : forall a main, simple_grammar a main ->
  forall decision start rule, decision_state_ok a start rule ->
  forall order alt_order hash dhash share,
  (forall l, Permutation (alt_order l) l) -> (forall x, wf x -> share x = x) ->
  forall src ch sfuel e, eof_number src e -> (e <= sfuel)%nat ->
  forall ctx sempred fuel mode precedence (outer : ctx) stack conts d input ops clock m r c w,
  mode <> SLL ->
  in_progress a main rule stack conts ->
  dfa_history a order alt_order hash dhash share decision start d ->
  crun src ch sfuel (with_channel src) ops = Done input -> cur input = Z.of_nat c ->
  read_types src (fun k => k = ch) c w -> token_types a w ->
  adaptive_predict (common_seek src ch sfuel) a ctx sempred order alt_order hash dhash share fuel mode precedence outer stack
    decision start d input clock = Val (m, r) ->
  Z.of_nat (length (dfa_states (m_dfa m))) < ERROR_DFA_STATE_REF ->
  (exists j n, viable a start conts w n j) ->
  exists p, r = Predicted p /\ right_prediction a start conts w p.
Proof. intros. eapply common_right; eauto. Qed.
Print Assumptions C80_common_stream_partial.

Theorem C80_unbuffered_stream_partial : forall a main, simple_grammar a main ->
  forall decision start rule, decision_state_ok a start rule ->
  forall order alt_order hash dhash share,
  (forall l, Permutation (alt_order l) l) -> (forall x, wf x -> share x = x) ->
  forall src ctx sempred fuel mode precedence (outer : ctx) stack conts d input ops clock m r c w,
  mode <> SLL ->
  in_progress a main rule stack conts ->
  dfa_history a order alt_order hash dhash share decision start d ->
  trun src new_unbuffered ops = Done input -> cur input = Z.of_nat c ->
  read_types src (fun _ => True) c w -> token_types a w ->
  adaptive_predict (unbuffered_seek src) a ctx sempred order alt_order hash dhash share fuel mode precedence outer stack
    decision start d input clock = Val (m, r) ->
  Z.of_nat (length (dfa_states (m_dfa m))) < ERROR_DFA_STATE_REF ->
  (exists j n, viable a start conts w n j) ->
  exists p, r = Predicted p /\ right_prediction a start conts w p.
Proof. intros. eapply unbuffered_right; eauto. Qed.
Print Assumptions C80_unbuffered_stream_partial.

(** Hence an error of prediction is an error of the input: no alternative can match it. *)
Theorem C80_error_is_real_partial : forall a main, simple_grammar a main ->
  forall decision start rule, decision_state_ok a start rule ->
  forall order alt_order hash dhash share,
  (forall l, Permutation (alt_order l) l) -> (forall x, wf x -> share x = x) ->
  forall src ch sfuel e, eof_number src e -> (e <= sfuel)%nat ->
  forall ctx sempred fuel mode precedence (outer : ctx) stack conts d input ops clock m t0 t1 c w,
  mode <> SLL ->
  in_progress a main rule stack conts ->
  dfa_history a order alt_order hash dhash share decision start d ->
  crun src ch sfuel (with_channel src) ops = Done input -> cur input = Z.of_nat c ->
  read_types src (fun k => k = ch) c w -> token_types a w ->
  adaptive_predict (common_seek src ch sfuel) a ctx sempred order alt_order hash dhash share fuel mode precedence outer stack
    decision start d input clock = Val (m, NoViableAlt t0 t1) ->
  Z.of_nat (length (dfa_states (m_dfa m))) < ERROR_DFA_STATE_REF ->
  forall j n, ~ viable a start conts w n j.
Proof.
  intros until 15. intros j n V.
  destruct (C80_common_stream_partial a main H decision start rule H0 order alt_order hash dhash share H1 H2 src ch sfuel e H3 H4
    ctx sempred fuel mode precedence outer stack conts d input ops clock m _ c w H5 H6 H7 H8 H9 H10 H11 H12 H13) as (p & E & _); [eauto | discriminate].
Qed.
Print Assumptions C80_error_is_real_partial.

(** The restrictions cannot simply be dropped. *)

(** In SLL mode the caller is ignored: in "D A B" the [A B] belongs to [r]. *)
Definition dab : nat -> tok := source (map tk [4; 1; 2]).
Lemma dab_eof : eof_number dab 3.
Proof. split; [reflexivity|]. intros [|[|[|i]]] Hi; cbn; [discriminate..|lia]. Qed.
Lemma dab_read : read_types dab (fun k => k = 0) 1 [1; 2].
Proof.
  apply (read_token dab _ 1 [2]); [discriminate|]. apply (vis_token dab _ 2 []); [discriminate | reflexivity|]. apply vis_eof. reflexivity.
Qed.
Lemma in_r : in_progress caller_atn 0 1 [8; -1] [15].
Proof.
  apply (progress_call caller_atn 0 8 (sst 0 8 1 BasicState [RuleTr 10 15 1 0]) 10 15 1 0 [] [-1] []); try reflexivity.
  - discriminate.
  - apply progress_main.
Qed.
Lemma r_decision : decision_state_ok caller_atn 12 1.
Proof.
  eexists. split; [reflexivity|]. split; [discriminate|]. split; [reflexivity|]. intros t [<-|[<-|[]]]; reflexivity.
Qed.
Lemma dab_tokens : token_types caller_atn [1; 2].
Proof.
  split; [repeat constructor; lia|]. intros (i & s & g & E & I). exfalso. apply state_in in E. revert E I. cbn.
  intros E I. repeat (destruct E as [<-|E]; [cbn in I; repeat (destruct I as [I|I]; [discriminate|]); contradiction|]). contradiction.
Qed.
Ltac by_move := eapply run_move; [eapply move_epsilon; [reflexivity | discriminate | cbn; eauto | cbn; tauto | reflexivity]|]; cbn [get_target].
Ltac by_take := eapply run_take; [eapply take_token; [reflexivity | discriminate | left; reflexivity | reflexivity]|]; cbn [get_target].
Ltac by_return := eapply run_move; [eapply move_return; reflexivity|].
Lemma ab_viable : viable caller_atn 12 [15] [1; 2] 1 2.
Proof.
  eexists _, _. split; [reflexivity|]. split; [lia|]. split; [reflexivity|]. exists 1, (sst 0 1 7 RuleStopState []). split; [|split; reflexivity].
  cbn. by_take. by_take. by_move. by_return. by_take. by_move. apply run_here.
Qed.
Lemma a_not_viable n : ~ viable caller_atn 12 [15] [1; 2] n 1.
Proof.
  intros (s & t & Es & _ & En & K). injection Es as <-. injection En as <-. revert K. apply never_dec with (n := 20%nat). vm_compute. reflexivity.
Qed.

Theorem C80_sll_refuted : ~ (forall a main, simple_grammar a main ->
  forall decision start rule, decision_state_ok a start rule ->
  forall src ch sfuel e, eof_number src e -> (e <= sfuel)%nat ->
  forall mode stack conts input ops m r c w,
  in_progress a main rule stack conts ->
  crun src ch sfuel (with_channel src) ops = Done input -> cur input = Z.of_nat c ->
  read_types src (fun k => k = ch) c w -> token_types a w ->
  llpredict a (common_seek src ch sfuel) mode stack decision start (dfa_new unit unit false) input = Val (m, r) ->
  (exists j n, viable a start conts w n j) ->
  exists p, r = Predicted p /\ exists n, viable a start conts w n p).
Proof.
  intros H. specialize (H caller_atn 0 caller_simple 1 12 1 r_decision dab 0 50%nat 3%nat dab_eof ltac:(lia) SLL [8; -1] [15]).
  remember (llpredict caller_atn (common_seek dab 0 50) SLL [8; -1] 1 12 (dfa_new unit unit false) (stream_at dab [CConsume])) as o eqn:Eo.
  destruct o as [[m r]| |]; [|vm_compute in Eo; discriminate..]. symmetry in Eo.
  assert (Er : result (llpredict caller_atn (common_seek dab 0 50) SLL [8; -1] 1 12 (dfa_new unit unit false) (stream_at dab [CConsume])) = Some (Predicted 1)) by (vm_compute; reflexivity).
  rewrite Eo in Er. injection Er as ->.
  destruct (H (stream_at dab [CConsume]) [CConsume] m (Predicted 1) 1%nat [1; 2]) as (p & E & n & V); try assumption.
  - exact in_r.
  - vm_compute. reflexivity.
  - vm_compute. reflexivity.
  - exact dab_read.
  - exact dab_tokens.
  - exists 2, 1%nat. exact ab_viable.
  - injection E as <-. exact (a_not_viable n V).
Qed.
Print Assumptions C80_sll_refuted.

(** With a start rule that is also invoked by other rules, the end of the start rule is
    taken for the end of any invocation of it: for "A B" as a whole input. *)
Definition ab : nat -> tok := source (map tk [1; 2]).
Lemma ab_eof : eof_number ab 2.
Proof. split; [reflexivity|]. intros [|[|i]] Hi; cbn; [discriminate..|lia]. Qed.
Lemma ab_read : read_types ab (fun k => k = 0) 0 [1; 2].
Proof.
  apply (read_token ab _ 0 [2]); [discriminate|]. apply (vis_token ab _ 1 []); [discriminate | reflexivity|]. apply vis_eof. reflexivity.
Qed.
Theorem C80_nested_start_rule_refuted : ~ (forall a main, well_formed a -> predicate_free a -> marked a -> linked a ->
  forall decision start rule, decision_state_ok a start rule ->
  forall src ch sfuel e, eof_number src e -> (e <= sfuel)%nat ->
  forall mode stack conts input ops m r c w, mode <> SLL ->
  in_progress a main rule stack conts ->
  crun src ch sfuel (with_channel src) ops = Done input -> cur input = Z.of_nat c ->
  read_types src (fun k => k = ch) c w -> token_types a w ->
  llpredict a (common_seek src ch sfuel) mode stack decision start (dfa_new unit unit false) input = Val (m, r) ->
  (exists j n, viable a start conts w n j) ->
  exists p, r = Predicted p /\ exists n, viable a start conts w n p).
Proof.
  intros H. destruct (linked_dec nested_atn ltac:(vm_compute; reflexivity)) as (A & B & C & D).
  specialize (H nested_atn 0 A B C D 1 15 1).
  assert (X : decision_state_ok nested_atn 15 1) by (eexists; split; [reflexivity|]; split; [discriminate|]; split; [reflexivity|]; intros t [<-|[<-|[]]]; reflexivity).
  specialize (H X ab 0 50%nat 2%nat ab_eof ltac:(lia) LL [3; -1] [4]).
  remember (llpredict nested_atn (common_seek ab 0 50) LL [3; -1] 1 15 (dfa_new unit unit false) (stream_at ab [])) as o eqn:Eo.
  destruct o as [[m r]| |]; [|vm_compute in Eo; discriminate..]. symmetry in Eo.
  assert (Er : result (llpredict nested_atn (common_seek ab 0 50) LL [3; -1] 1 15 (dfa_new unit unit false) (stream_at ab [])) = Some (Predicted 1)) by (vm_compute; reflexivity).
  rewrite Eo in Er. injection Er as ->.
  destruct (H (stream_at ab []) [] m (Predicted 1) 0%nat [1; 2]) as (p & E & n & V); try assumption.
  - discriminate.
  - apply (progress_call nested_atn 0 3 (sst 0 3 1 BasicState [RuleTr 13 4 1 0]) 13 4 1 0 [] [-1] []); [reflexivity | discriminate | reflexivity | apply progress_main].
  - reflexivity.
  - reflexivity.
  - exact ab_read.
  - split; [repeat constructor; lia|]. intros (i & s & g & E & I). exfalso. apply state_in in E. revert E I. cbn.
    intros E I. repeat (destruct E as [<-|E]; [cbn in I; repeat (destruct I as [I|I]; [discriminate|]); contradiction|]). contradiction.
  - exists 2, 0%nat. eexists _, _. split; [reflexivity|]. split; [lia|]. split; [reflexivity|]. exists 1, (sst 0 1 7 RuleStopState [Epsilon 11 (-1)]). split; [|split; reflexivity].
    cbn. by_take. by_take. by_move. by_return. by_move. by_move. apply run_here.
  - injection E as <-. destruct V as (s & t & Es & _ & En & K). injection Es as <-. injection En as <-. revert K. apply never_dec with (n := 20%nat). vm_compute. reflexivity.
Qed.
Print Assumptions C80_nested_start_rule_refuted.

(** A wildcard does not match the largest token type (C46): "A B" for [s : A . | A]. *)
Theorem C80_wildcard_refuted : ~ (forall a main, simple_grammar a main ->
  forall decision start rule, decision_state_ok a start rule ->
  forall src ch sfuel e, eof_number src e -> (e <= sfuel)%nat ->
  forall mode stack conts input ops m r c w, mode <> SLL ->
  in_progress a main rule stack conts ->
  crun src ch sfuel (with_channel src) ops = Done input -> cur input = Z.of_nat c ->
  read_types src (fun k => k = ch) c w -> Forall (fun x => 1 <= x <= max_token_type a) w ->
  llpredict a (common_seek src ch sfuel) mode stack decision start (dfa_new unit unit false) input = Val (m, r) ->
  (exists j n, viable a start conts w n j) ->
  exists p, r = Predicted p /\ exists n, viable a start conts w n p).
Proof.
  intros H. specialize (H wildcard_atn 0 ltac:(apply simple_dec; vm_compute; reflexivity) 0 2 0).
  assert (X : decision_state_ok wildcard_atn 2 0) by (eexists; split; [reflexivity|]; split; [discriminate|]; split; [reflexivity|]; intros t [<-|[<-|[]]]; reflexivity).
  specialize (H X ab 0 50%nat 2%nat ab_eof ltac:(lia) LL [-1] []).
  remember (llpredict wildcard_atn (common_seek ab 0 50) LL [-1] 0 2 (dfa_new unit unit false) (stream_at ab [])) as o eqn:Eo.
  destruct o as [[m r]| |]; [|vm_compute in Eo; discriminate..]. symmetry in Eo.
  assert (Er : result (llpredict wildcard_atn (common_seek ab 0 50) LL [-1] 0 2 (dfa_new unit unit false) (stream_at ab [])) = Some (Predicted 2)) by (vm_compute; reflexivity).
  rewrite Eo in Er. injection Er as ->.
  destruct (H (stream_at ab []) [] m (Predicted 2) 0%nat [1; 2]) as (p & E & n & V); try assumption.
  - discriminate.
  - apply progress_main.
  - reflexivity.
  - reflexivity.
  - exact ab_read.
  - repeat constructor; cbn; lia.
  - exists 1, 0%nat. eexists _, _. split; [reflexivity|]. split; [lia|]. split; [reflexivity|]. exists 1, (sst 0 1 7 RuleStopState []). split; [|split; reflexivity].
    cbn. by_take. eapply run_take; [eapply take_token; [reflexivity | discriminate | left; reflexivity | cbn; lia]|]. cbn [get_target]. by_move. apply run_here.
  - injection E as <-. destruct V as (s & t & Es & _ & En & K). injection Es as <-. injection En as <-. revert K. apply never_dec with (n := 20%nat). vm_compute. reflexivity.
Qed.
Print Assumptions C80_wildcard_refuted.

(** ** Concrete cases: "D A B", once with a new DFA and once with the DFA that the
    prediction for "C A B" in the other context left behind. *)
Definition cab : nat -> tok := source (map tk [3; 1; 2]).
Definition cab_dfa : pdfa := match llpredict caller_atn (common_seek cab 0 50) LL [4; -1] 1 12 (dfa_new unit unit false) (stream_at cab [CConsume]) with
  Val (m, _) => m_dfa m | _ => dfa_new unit unit false end.
Example C80_nonvacuous : exists m,
  llpredict caller_atn (common_seek dab 0 50) LL [8; -1] 1 12 cab_dfa (stream_at dab [CConsume]) = Val (m, Predicted 2) /\
  dfa_history caller_atn plain_order plain_alts one_hash no_dhash no_share 1 12 cab_dfa /\ (1 < length (dfa_states cab_dfa))%nat /\
  Z.of_nat (length (dfa_states (m_dfa m))) < ERROR_DFA_STATE_REF /\
  right_prediction caller_atn 12 [15] [1; 2] 2.
Proof.
  assert (Hh : dfa_history caller_atn plain_order plain_alts one_hash no_dhash no_share 1 12 cab_dfa).
  { remember (llpredict caller_atn (common_seek cab 0 50) LL [4; -1] 1 12 (dfa_new unit unit false) (stream_at cab [CConsume])) as o eqn:Eo.
    destruct o as [[m r]| |]; [|vm_compute in Eo; discriminate..]. unfold cab_dfa. rewrite <- Eo. symmetry in Eo.
    exact (history_predict _ _ _ _ _ _ _ _ _ _ _ _ _ _ _ _ _ _ _ _ _ _ (history_new _ _ _ _ _ _ _ _) Eo). }
  remember (llpredict caller_atn (common_seek dab 0 50) LL [8; -1] 1 12 cab_dfa (stream_at dab [CConsume])) as o eqn:Eo.
  destruct o as [[m r]| |]; [|vm_compute in Eo; discriminate..]. symmetry in Eo.
  assert (Er : match llpredict caller_atn (common_seek dab 0 50) LL [8; -1] 1 12 cab_dfa (stream_at dab [CConsume]) with
    Val (m, r) => Some (r, Z.of_nat (length (dfa_states (m_dfa m))) <? ERROR_DFA_STATE_REF) | _ => None end = Some (Predicted 2, true)) by (vm_compute; reflexivity).
  rewrite Eo in Er. injection Er as -> El. apply Z.ltb_lt in El.
  exists m. split; [reflexivity|]. split; [exact Hh|]. split; [vm_compute; lia|]. split; [exact El|].
  destruct (C80_common_stream_partial caller_atn 0 caller_simple 1 12 1 r_decision plain_order plain_alts one_hash no_dhash no_share
    (fun l => Permutation_refl l) (fun x _ => eq_refl) dab 0 50%nat 3%nat dab_eof ltac:(lia) unit (fun _ _ _ _ => true) 100%nat LL 0 tt [8; -1] [15]
    cab_dfa (stream_at dab [CConsume]) [CConsume] 0%nat m (Predicted 2) 1%nat [1; 2]) as (p & E & R); try assumption.
  - discriminate.
  - exact in_r.
  - vm_compute. reflexivity.
  - vm_compute. reflexivity.
  - exact dab_read.
  - exact dab_tokens.
  - exists 2, 1%nat. exact ab_viable.
  - injection E as <-. exact R.
Qed.
