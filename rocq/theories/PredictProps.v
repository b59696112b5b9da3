(** Properties of prediction: the token stream (C62, C63, C78). *)
From Coq Require Import ZArith List Bool Lia.
From Coq Require Import ZifyBool ZifyNat.
From Verif Require Import Outcome IntervalSetModel AtnModel.
From Verif Require Import PredContextModel SemContextModel ConfigSetModel DfaModel Ll1Model ParserModel PredictModel PredictSpec PredictFrameProofs PredictStreamProofs.
From Verif Require Import CharStreamModel TokenStreamModel TokenStreamSpec TokenStreamProofs CommonTokenStreamProofs.
From Verif Require Import ParserDemo PredictDemo.
Import ListNotations.
Local Open Scope Z_scope.

(** ** C62  Prediction does not move the input *)

(** For any token stream whose [seek], [lt], [mark] and [release] do what their names
    say about the position. *)
Theorem C62_position_kept : forall (S : Type) (ts : seek_ops S),
  (forall s i s', k_seek ts s i = Val s' -> s_index (k_base ts) s' = i) ->
  (forall s k s' t, s_lt (k_base ts) s k = Val (s', t) -> s_index (k_base ts) s' = s_index (k_base ts) s) ->
  (forall s, s_index (k_base ts) (fst (k_mark ts s)) = s_index (k_base ts) s) ->
  (forall s i s', k_release ts s i = Val s' -> s_index (k_base ts) s' = s_index (k_base ts) s) ->
  forall a ctx sempred order alt_order hash dhash share fuel mode precedence outer stack decision start d input clock m r,
  adaptive_predict ts a ctx sempred order alt_order hash dhash share fuel mode precedence outer stack decision start d input clock = Val (m, r) ->
  s_index (k_base ts) (m_input m) = s_index (k_base ts) input.
Proof.
  intros S ts H1 H2 H3 H4. intros. eapply adaptive_frame with (Q := fun _ => True); eauto. constructor; auto.
Qed.
Print Assumptions C62_position_kept.

(** The stream parsers use: after any history, a prediction, whatever it returns, leaves
    the same tokens ahead. *)
Theorem C62_common_stream : forall src ch sfuel e, eof_number src e -> (e <= sfuel)%nat ->
  forall a ctx sempred order alt_order hash dhash share fuel mode precedence outer stack decision start d input clock m r,
  common_history src ch sfuel input ->
  adaptive_predict (common_seek src ch sfuel) a ctx sempred order alt_order hash dhash share fuel mode precedence outer stack decision start d input clock = Val (m, r) ->
  same_ahead (common_stream src ch sfuel) input (m_input m).
Proof.
  intros src ch sfuel e He Hf. intros. destruct H as [ops Hi]. destruct (crun_reach src ch sfuel ops input Hi) as (n & C & _).
  destruct (@adaptive_frame uts _ (common_laws src ch sfuel)) with (Q := fun s => exists n, crep src n s) (5 := H0) as (E & _ & K); cbn [common_seek unbuffered_seek k_base k_seek k_mark k_release common_stream unbuffered_stream s_lt s_consume s_index tmark fst markers]; eauto.
  - intros s s' t [x Hx] H. apply of_out_val in H. destruct (clt_rep _ _ _ _ _ _ _ _ Hx H) as (y & Hy & _). eauto.
  - intros s s' [x Hx] H. apply of_out_val in H. destruct (cconsume_rep _ _ _ _ _ _ Hx H) as (y & Hy & _). eauto.
  - intros s i s' [x Hx] H. apply of_out_val in H. destruct (cseek_rep _ _ _ _ _ Hx H) as (Hy & _). eauto.
  - assert (C' : exists n', crep src n' (m_input m)).
    { destruct r; [destruct K as (s & K & Ks); inversion Ks; subst|]; auto. }
    destruct C' as [n' C']. eapply common_same_ahead; eauto.
Qed.
Print Assumptions C62_common_stream.

Theorem C62_unbuffered_stream : forall src,
  forall a ctx sempred order alt_order hash dhash share fuel mode precedence outer stack decision start d input clock m r,
  unbuffered_history src input ->
  adaptive_predict (unbuffered_seek src) a ctx sempred order alt_order hash dhash share fuel mode precedence outer stack decision start d input clock = Val (m, r) ->
  same_ahead (unbuffered_stream src) input (m_input m).
Proof.
  intros. destruct H as [ops Hi]. destruct (reach_rep src ops input Hi) as (b & n & R).
  assert (Step : forall s o s', (exists b n, rep src b n s) -> tstep src s o = Done s' -> exists b n, rep src b n s').
  { intros s o s' (x & y & Hx) H. destruct (tstep_rep src _ _ _ _ _ Hx H) as (x' & y' & Hx' & _). eauto. }
  destruct (@adaptive_frame uts _ (unbuffered_laws src)) with (Q := fun s => exists b n, rep src b n s) (5 := H0) as (E & _ & K); cbn [common_seek unbuffered_seek k_base k_seek k_mark k_release common_stream unbuffered_stream s_lt s_consume s_index tmark fst markers]; eauto.
  - intros s s' t Hx H. apply of_out_val in H. apply (Step s (TLt 1) s' Hx). cbn [tstep]. now rewrite H.
  - intros s s' Hx H. apply of_out_val in H. exact (Step s TConsume s' Hx H).
  - intros s i s' Hx H. apply of_out_val in H. exact (Step s (TSeek i) s' Hx H).
  - exists b, n. exact (mark_spec src b n input R).
  - assert (C' : exists b n, rep src b n (m_input m)).
    { destruct r; [|exact K]. destruct K as (s & K & Ks). cbn in Ks. apply of_out_val in Ks. exact (Step s (TRelease _) _ K Ks). }
    destruct C' as (b' & n' & R'). eapply unbuffered_same_ahead; eauto.
Qed.
Print Assumptions C62_unbuffered_stream.

(** A prediction that reads two tokens ahead, from the second token of the input, and
    one that finds no viable alternative. *)
Definition new_pdfa : pdfa := dfa_new unit unit false.
Notation outcome_of p := (match p with Val (m, r) => Val (r, cur (m_input m), markers (m_input m), m_evals m) | Panics => Panics | NoFuel => NoFuel end).
Example C62_nonvacuous :
  let src := source (map tk [4; 1; 3]) in
  exists input, common_history src 0 50 input /\ cur input = 1 /\
    outcome_of (predict alts_atn (common_seek src 0 50) true LL [2; -1] 0 7 new_pdfa input) = Val (Predicted 2, 1, 1, []).
Proof. eexists. split; [exists [CConsume]; reflexivity|]. split; vm_compute; reflexivity. Qed.
Example C62_nonvacuous_error :
  let src := source (map tk [4; 1; 4]) in
  exists input, unbuffered_history src input /\ cur input = 1 /\
    outcome_of (predict alts_atn (unbuffered_seek src) true LL [2; -1] 0 7 new_pdfa input)
    = Val (NoViableAlt (Tok 1 0 [] 1 1 0) (Tok 4 0 [] 2 1 0), 1, 1, []).
Proof. eexists. split; [exists [TConsume]; reflexivity|]. split; vm_compute; reflexivity. Qed.

(** ** C63  Prediction releases its mark on every path
    False on the error path, where [release] is never called; true when an alternative
    is returned, and trivially for streams that do not count marks. *)
Theorem C63_mark_released_partial : forall src,
  forall a ctx sempred order alt_order hash dhash share fuel mode precedence outer stack decision start d input clock m alt,
  adaptive_predict (unbuffered_seek src) a ctx sempred order alt_order hash dhash share fuel mode precedence outer stack decision start d input clock = Val (m, Predicted alt) ->
  markers (m_input m) = markers input.
Proof.
  intros. destruct (@adaptive_frame uts _ (unbuffered_laws src)) with (Q := fun s => markers s = markers input + 1) (5 := H) as (_ & _ & s & K & Ks); cbn [common_seek unbuffered_seek k_base k_seek k_mark k_release common_stream unbuffered_stream s_lt s_consume s_index tmark fst markers]; eauto.
  - intros s s' t Hs E. apply of_out_val in E. apply lt_frame in E. lia.
  - intros s s' Hs E. apply of_out_val in E. apply consume_markers in E. lia.
  - intros s i s' Hs E. apply of_out_val in E. apply tseek_frame in E. lia.
  - cbn in Ks. apply of_out_val in Ks. unfold trelease in Ks. destruct (negb _); [discriminate|].
    destruct (_ && _); [destruct (p s >? _); [discriminate|]|]; inversion Ks; subst; cbn; lia.
Qed.
Print Assumptions C63_mark_released_partial.

(** Every prediction that returns an error leaves one mark more. *)
Theorem C63_mark_leaks_on_error : forall src,
  forall a ctx sempred order alt_order hash dhash share fuel mode precedence outer stack decision start d input clock m x y,
  adaptive_predict (unbuffered_seek src) a ctx sempred order alt_order hash dhash share fuel mode precedence outer stack decision start d input clock = Val (m, NoViableAlt x y) ->
  markers (m_input m) = markers input + 1.
Proof.
  intros. destruct (@adaptive_frame uts _ (unbuffered_laws src)) with (Q := fun s => markers s = markers input + 1) (5 := H) as (_ & _ & K); cbn [common_seek unbuffered_seek k_base k_seek k_mark k_release common_stream unbuffered_stream s_lt s_consume s_index tmark fst markers]; eauto.
  - intros s s' t Hs E. apply of_out_val in E. apply lt_frame in E. lia.
  - intros s s' Hs E. apply of_out_val in E. apply consume_markers in E. lia.
  - intros s i s' Hs E. apply of_out_val in E. apply tseek_frame in E. lia.
Qed.
Print Assumptions C63_mark_leaks_on_error.

Theorem C63_mark_released_refuted : ~ (forall src,
  forall a ctx sempred order alt_order hash dhash share fuel mode precedence outer stack decision start d input clock m r,
  adaptive_predict (unbuffered_seek src) a ctx sempred order alt_order hash dhash share fuel mode precedence outer stack decision start d input clock = Val (m, r) ->
  markers (m_input m) = markers input).
Proof.
  intros H.
  pose (src := source (map tk [1; 4])).
  pose (r := predict alts_atn (unbuffered_seek src) true LL [2; -1] 0 7 new_pdfa new_unbuffered).
  assert (E : exists m x, r = Val (m, x) /\ markers (m_input m) = 1) by (do 2 eexists; split; vm_compute; reflexivity).
  destruct E as (m & x & E & K). apply H in E. rewrite K in E. discriminate.
Qed.
Print Assumptions C63_mark_released_refuted.

(** The stream parsers normally use does not count marks. *)
Theorem C63_common_stream : forall src ch sfuel,
  forall a ctx sempred order alt_order hash dhash share fuel mode precedence outer stack decision start d input clock m r,
  adaptive_predict (common_seek src ch sfuel) a ctx sempred order alt_order hash dhash share fuel mode precedence outer stack decision start d input clock = Val (m, r) ->
  markers (m_input m) = markers input.
Proof.
  intros. destruct (@adaptive_frame uts _ (common_laws src ch sfuel)) with (Q := fun s => markers s = markers input) (5 := H) as (_ & _ & K); cbn [common_seek unbuffered_seek k_base k_seek k_mark k_release common_stream unbuffered_stream s_lt s_consume s_index tmark fst markers]; eauto.
  - intros s s' t Hs E. apply of_out_val in E. apply clt_frame in E. lia.
  - intros s s' Hs E. apply of_out_val in E. apply cconsume_markers in E. lia.
  - intros s i s' Hs E. apply of_out_val in E. apply tseek_frame in E. lia.
  - destruct r; [destruct K as (s & K & Ks); inversion Ks; subst|]; auto.
Qed.
Print Assumptions C63_common_stream.

Example C63_nonvacuous :
  let src := source (map tk [1; 3]) in
  outcome_of (predict alts_atn (unbuffered_seek src) true LL [2; -1] 0 7 new_pdfa new_unbuffered) = Val (Predicted 2, 0, 0, []).
Proof. vm_compute. reflexivity. Qed.

(** ** C78  Predicates are evaluated where the decision starts
    User predicates that look at the input see the token the decision starts with,
    however far prediction has read ahead.  [m_evals] lists the position of the stream
    at each evaluation. *)
Theorem C78_predicates_at_start : forall (S : Type) (ts : seek_ops S),
  (forall s i s', k_seek ts s i = Val s' -> s_index (k_base ts) s' = i) ->
  (forall s k s' t, s_lt (k_base ts) s k = Val (s', t) -> s_index (k_base ts) s' = s_index (k_base ts) s) ->
  (forall s, s_index (k_base ts) (fst (k_mark ts s)) = s_index (k_base ts) s) ->
  (forall s i s', k_release ts s i = Val s' -> s_index (k_base ts) s' = s_index (k_base ts) s) ->
  forall a ctx sempred order alt_order hash dhash share fuel mode precedence outer stack decision start d input clock m r,
  adaptive_predict ts a ctx sempred order alt_order hash dhash share fuel mode precedence outer stack decision start d input clock = Val (m, r) ->
  forall i, In i (m_evals m) -> i = s_index (k_base ts) input.
Proof.
  intros S ts H1 H2 H3 H4. intros. revert i H0. apply Forall_forall. eapply adaptive_frame with (Q := fun _ => True); eauto. constructor; auto.
Qed.
Print Assumptions C78_predicates_at_start.
(** both streams obey these laws *)
Theorem C78_common_stream : forall src ch sfuel,
  forall a ctx sempred order alt_order hash dhash share fuel mode precedence outer stack decision start d input clock m r,
  adaptive_predict (common_seek src ch sfuel) a ctx sempred order alt_order hash dhash share fuel mode precedence outer stack decision start d input clock = Val (m, r) ->
  forall i, In i (m_evals m) -> i = cur input.
Proof. intros src ch sfuel. destruct (common_laws src ch sfuel). intros. eapply C78_predicates_at_start with (ts := common_seek src ch sfuel); eauto. Qed.
Print Assumptions C78_common_stream.
Theorem C78_unbuffered_stream : forall src,
  forall a ctx sempred order alt_order hash dhash share fuel mode precedence outer stack decision start d input clock m r,
  adaptive_predict (unbuffered_seek src) a ctx sempred order alt_order hash dhash share fuel mode precedence outer stack decision start d input clock = Val (m, r) ->
  forall i, In i (m_evals m) -> i = cur input.
Proof. intros src. destruct (unbuffered_laws src). intros. eapply C78_predicates_at_start with (ts := unbuffered_seek src); eauto. Qed.
Print Assumptions C78_unbuffered_stream.
Example C78_nonvacuous : let src := source (map tk [2; 4; 1]) in
  exists input, common_history src 0 50 input /\ cur input = 1 /\
    outcome_of (predict alts_atn (common_seek src 0 50) false LL [2; -1] 0 7 new_pdfa input) = Val (Predicted 4, 1, 1, [1]).
Proof. eexists. split; [exists [CConsume]; reflexivity|]. split; vm_compute; reflexivity. Qed.
