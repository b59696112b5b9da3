(** Properties of prediction: the result is an alternative of the decision (C81). *)
From Coq Require Import ZArith List Bool Lia ZifyBool Permutation.
From Verif Require Import Outcome IntervalSetModel AtnModel Ll1Model Ll1Spec.
From Verif Require Import PredContextModel SemContextModel ConfigSetModel DfaModel ParserModel PredictModel.
From Verif Require Import CharStreamModel TokenStreamModel TokenStreamSpec.
From Verif Require Import PredictLLSpec PredictLLSetProofs PredictAltProofs ParserDemo PredictDemo.
Import ListNotations.
Local Open Scope Z_scope.

(** ** C81  Whatever the grammar (with predicates, left recursion, loops), the mode, the
    token stream, the user's predicates and the earlier uses of the DFA, a prediction
    that returns an alternative returns one of the decision: numbered from 1 to the
    number of its branches. *)
Theorem C81_alternative_exists : forall a decision start s, state_at a start = Some s ->
  forall d, dfa_use a decision start d ->
  forall (S : Type) (ts : seek_ops S) ctx sempred order alt_order hash dhash share fuel mode precedence (outer : ctx) stack (input : S) clock m p,
  (forall l, Permutation (alt_order l) l) ->
  adaptive_predict ts a ctx sempred order alt_order hash dhash share fuel mode precedence outer stack decision start d input clock
    = Val (m, Predicted p) ->
  1 <= p <= Z.of_nat (length (st_trans s)).
Proof.
  intros a decision start s Es d Hu S ts ctx sempred order alt_order hash dhash share fuel mode precedence outer stack input clock m p Ho H.
  apply get_state_at in Es.
  set (P := fun x => 1 <= x <= Z.of_nat (length (st_trans s))).
  assert (D : din P d).
  { clear H. induction Hu as [prec|d S1 ts1 ctx1 sp1 o1 ao1 h1 dh1 sh1 f1 md1 pr1 out1 st1 in1 cl1 m1 r1 _ IH Ho1 H1]; [apply din_new|].
    eapply (a_adaptive P) in H1; eauto; [apply H1 | unfold P; lia | unfold P; lia]. }
  eapply (a_adaptive P) in H; eauto; [apply H | unfold P; lia | unfold P; lia].
Qed.
Print Assumptions C81_alternative_exists.

(** A decision of four alternatives, the third with a predicate that fails: "D A" with
    the DFA left by predicting "A C", in the default mode. *)
Definition ac_dfa : pdfa := match predict alts_atn (common_seek (source (map tk [1; 3])) 0 50) true LL [2; -1] 0 7 (dfa_new unit unit false) (with_channel (source (map tk [1; 3]))) with
  Val (m, _) => m_dfa m | _ => dfa_new unit unit false end.
Example C81_nonvacuous : exists m s,
  dfa_use alts_atn 0 7 ac_dfa /\ state_at alts_atn 7 = Some s /\ length (st_trans s) = 4%nat /\
  predict alts_atn (common_seek (source (map tk [4; 1])) 0 50) false LL [2; -1] 0 7 ac_dfa (with_channel (source (map tk [4; 1]))) = Val (m, Predicted 4).
Proof.
  remember (predict alts_atn (common_seek (source (map tk [4; 1])) 0 50) false LL [2; -1] 0 7 ac_dfa (with_channel (source (map tk [4; 1])))) as o eqn:Eo.
  destruct o as [[m r]| |]; [|vm_compute in Eo; discriminate..].
  assert (Er : match predict alts_atn (common_seek (source (map tk [4; 1])) 0 50) false LL [2; -1] 0 7 ac_dfa (with_channel (source (map tk [4; 1]))) with
    Val (_, r) => Some r | _ => None end = Some (Predicted 4)) by (vm_compute; reflexivity).
  rewrite <- Eo in Er. injection Er as ->. exists m. eexists. split; [|split; [reflexivity|]; split; reflexivity].
  remember (predict alts_atn (common_seek (source (map tk [1; 3])) 0 50) true LL [2; -1] 0 7 (dfa_new unit unit false) (with_channel (source (map tk [1; 3])))) as o1 eqn:E1.
  destruct o1 as [[m1 r1]| |]; [|vm_compute in E1; discriminate..]. unfold ac_dfa. rewrite <- E1. symmetry in E1.
  eapply use_predict; [apply use_new with (prec := false) | | exact E1]. intros l. apply Permutation_refl.
Qed.
