(** Predictions on the two token streams. *)
From Coq Require Import ZArith List Bool Lia ZifyBool ZifyNat Permutation.
From Verif Require Import Outcome IntervalSetModel PredContextModel PredContextSpec SemContextModel.
From Verif Require Import ConfigSetModel DfaModel AtnModel AtnSpec AtnProofs Ll1Model Ll1Spec ParserModel PredictModel PredictSpec.
From Verif Require Import PredictFrameProofs PredictLLSpec PredictLLContextProofs PredictLLSetProofs PredictLLClosureProofs PredictLLReachProofs PredictLLFullProofs PredictLLDfaProofs PredictLLExecProofs.
From Verif Require Import CharStreamModel TokenStreamModel TokenStreamSpec TokenStreamProofs CommonTokenStreamProofs PredictStreamProofs.
Import ListNotations.
Local Open Scope Z_scope.
Local Open Scope outcome_scope.

Section Predict.
  Variable a : atn.
  Variable main : Z.
  Hypothesis G : simple_grammar a main.
  Variable order : list nat -> list sem -> list sem.
  Variable alt_order : list (list Z) -> list (list Z).
  Hypothesis Horder : forall l, Permutation (alt_order l) l.
  Variable hash : pctx -> Z.
  Variable dhash : list pconfig -> Z.
  Variable share : pctx -> pctx.
  Hypothesis Hshare : forall x, wf x -> share x = x.
  Variable decision start rule : Z.
  Hypothesis Hd : decision_state_ok a start rule.
  Variable ctx : Type.
  Notation small d := (Z.of_nat (length (dfa_states d)) < ERROR_DFA_STATE_REF).

  (** on a stream whose states show some rest of the input *)
  Lemma predict_right (S : Type) (ts : seek_ops S) (sempred : S -> option ctx -> Z -> Z -> bool) fuel mode precedence outer stack conts d (input : S) clock m r
      (V : S -> list Z -> Prop) w : mode <> SLL ->
    in_progress a main rule stack conts -> token_types a w ->
    dfa_history a order alt_order hash dhash share decision start d ->
    (forall i v i' o, V i v -> s_lt (k_base ts) i 1 = Val (i', o) -> V i' v /\ exists tk, o = Some tk /\ t_type tk = head v) ->
    (forall i x v i', V i (x :: v) -> s_consume (k_base ts) i = Val i' -> V i' v) ->
    (forall i v i', V i v -> k_seek ts i (s_index (k_base ts) input) = Val i' -> V i' w) ->
    V (fst (k_mark ts input)) w ->
    adaptive_predict ts a ctx sempred order alt_order hash dhash share fuel mode precedence outer stack decision start d input clock = Val (m, r) ->
    small (m_dfa m) ->
    (exists j n, viable a start conts w n j) -> exists p, r = Predicted p /\ right_prediction a start conts w p.
  Proof.
    intros Hm Hp Ht Hh Vlt Vc Vs V0 H Len (j & n & Vj). destruct Hd as (s & Es & St & Rs & Calls).
    apply predict_parts in H as (mk & i1 & m1 & r0 & m2 & Em & E1 & E2 & Ed). rewrite Em in V0. cbn [fst] in V0. rewrite Ed in Len.
    assert (Gr1 : (length (dfa_states d) <= length (dfa_states (m_dfa m1)))%nat).
    { apply start_grows in E1; [|eapply history_prec; eauto]. apply E1. }
    assert (Gr2 : (length (dfa_states (m_dfa m1)) <= length (dfa_states (m_dfa m2)))%nat).
    { unfold exec_atn in E2. bind2 E2 m3 t E3. apply loop_grows in E2 as ((L & _) & _).
      unfold sim_la in E3. bind2 E3 m4 o E4. unfold sim_lt in E4. bind2 E4 i5 o5 E5. inversion E4; subst. inversion E3; subst. exact L. }
    assert (Ok : dfa_ok a main s d) by (eapply history_ok; eauto; lia).
    destruct (start_state_ok a main G s ts ctx sempred order hash dhash share Hshare fuel _ precedence outer start Es (Sim i1 d [] clock [] []) _ _ Ok (kgood_empty _ _ _) E1)
      as (Ok1 & Kg1 & I1 & st & V1 & C1); [lia|].
    assert (Hrule : forall t, In t (st_trans s) -> rule_of a (get_target t) = rule).
    { intros t I. destruct (proj2 (g_wf _ _ G) _ _ Es) as (_ & W). destruct (W St _ I) as (_ & _ & X). pose proof (Calls _ I) as Nc. rewrite <- Rs.
      destruct t; try exact X. discriminate. }
    assert (Hstk : forall t, In t (st_trans s) -> stk a main (get_target t) conts).
    { intros t I. red. rewrite (Hrule _ I). eapply progress_stacked; eauto. }
    assert (Gd : good_result a conts s w r).
    { eapply (exec_good ts a main G ctx sempred order alt_order hash dhash share Hshare fuel mode _ precedence outer stack decision start s Es Horder conts rule Hp Hrule V w Ht Vlt Vc Vs Hm
                r0 st m1 m2 r Ok1 Kg1); auto. rewrite I1. exact V0. }
    assert (Vv : forall n j, viable a start conts w n j <-> exists q, via a conts s j w n q) by (intros; eapply viable_via; eauto).
    destruct Gd as [No|(p & -> & (G1 & G2 & G3))].
    - destruct (proj1 (Vv _ _) Vj) as (q & Q). destruct (No _ _ _ Q).
    - exists p. split; [reflexivity|]. destruct (proj1 (Vv _ _) Vj) as (q & Q). split; [|split].
      + destruct (G1 _ _ _ Q) as (n1 & q1 & Q1). exists n1. apply Vv. eauto.
      + intros j1 n1 Q1. apply Vv in Q1. destruct Q1 as (q1 & Q1). destruct (G2 j1) as (L & n2 & q2 & Q2); [eauto|]. split; [exact L|]. exists n2. apply Vv. eauto.
      + intros No j1 Q1. apply Vv in Q1. destruct Q1 as (q1 & Q1). apply G3; [|eauto]. intros j2 n2 q2 Q2. apply (No j2 n2). apply Vv. eauto.
  Qed.

  (** ** CommonTokenStream *)
  Section Common.
    Variable src : nat -> tok.
    Variable ch : Z.
    Variable sfuel : nat.
    Variable e : nat.
    Hypothesis He : eof_number src e.
    Hypothesis Hf : (e <= sfuel)%nat.
    Notation on := (fun c => c = ch).

    Lemma read_next i w : visible_types src on i w -> forall j, first_visible src ch i j -> read_types src on j w.
    Proof.
      induction 1 as [i E|i w Ne No _ IH|i w Ne On Hv IH]; intros j (L & Vj & F).
      - assert (j = i) by (destruct (Nat.eq_dec i j) as [|N]; [auto|]; destruct (F i ltac:(lia)); right; exact E). subst j. constructor. exact E.
      - destruct (Nat.eq_dec i j) as [<-|N]; [destruct Vj; contradiction|]. apply IH. split; [lia|]. split; [exact Vj|]. intros m Hm. apply F. lia.
      - assert (j = i) by (destruct (Nat.eq_dec i j) as [|N]; [auto|]; destruct (F i ltac:(lia)); left; exact On). subst j. apply read_token; assumption.
    Qed.
    Definition common_view (s : uts) (v : list Z) : Prop := exists n c, crep src n s /\ cur s = Z.of_nat c /\ read_types src on c v.

    Lemma common_right sempred fuel mode precedence (outer : ctx) stack conts d input ops clock m r c w : mode <> SLL ->
      in_progress a main rule stack conts -> token_types a w ->
      dfa_history a order alt_order hash dhash share decision start d ->
      crun src ch sfuel (with_channel src) ops = Done input -> cur input = Z.of_nat c -> read_types src on c w ->
      adaptive_predict (common_seek src ch sfuel) a ctx sempred order alt_order hash dhash share fuel mode precedence outer stack decision start d input clock = Val (m, r) ->
      small (m_dfa m) ->
      (exists j n, viable a start conts w n j) -> exists p, r = Predicted p /\ right_prediction a start conts w p.
    Proof.
      intros Hm Hp Ht Hh Hr Hc Hw H Len Ex.
      destruct (crun_reach src ch sfuel _ _ Hr) as (n & C & _).
      eapply (predict_right _ (common_seek src ch sfuel)) with (V := common_view); eauto.
      - intros s v s' o (n1 & c1 & C1 & Hc1 & R1) E. cbn [common_seek unbuffered_seek k_base k_seek s_lt s_consume s_index common_stream unbuffered_stream] in E. apply of_out_val in E.
        destruct (clt_spec src ch sfuel n1 s c1 1 e C1 Hc1 ltac:(lia) (proj1 He) ltac:(lia)) as (s2 & n2 & j & E2 & C2 & _ & Hc2 & _ & _ & K).
        rewrite E2 in E. inversion E; subst. inversion K; subst; [|match goal with K0 : kth_visible _ _ _ 0 _ |- _ => apply kth_visible_pos in K0; lia end..].
        split; [exists n2, j; split; [exact C2|]; split; [congruence | exact R1]|]. eexists. split; [reflexivity|]. cbn.
        inversion R1; subst; cbn; auto.
      - intros s x v s' (n1 & c1 & C1 & Hc1 & R1) E. cbn [common_seek unbuffered_seek k_base k_seek s_lt s_consume s_index common_stream unbuffered_stream] in E. apply of_out_val in E. inversion R1; subst.
        destruct (proj2 (cconsume_spec src ch sfuel n1 s c1 C1 Hc1) e) as (s2 & n2 & j & E2 & C2 & _ & Hc2 & _ & F2); [assumption | apply He | lia |].
        rewrite E2 in E. inversion E; subst. exists n2, j. split; [exact C2|]. split; [exact Hc2|]. eapply read_next; eauto.
      - intros s v s' (n1 & c1 & C1 & Hc1 & R1) E. cbn [common_seek unbuffered_seek k_base k_seek s_lt s_consume s_index common_stream unbuffered_stream] in E. apply of_out_val in E. unfold cseek in E.
        destruct (cseek_rep src n1 s _ s' C1 E) as (C2 & Hc2 & _). exists n1, c. split; [exact C2|]. split; [congruence | exact Hw].
      - cbn. exists n, c. auto.
    Qed.
  End Common.

  (** ** UnbufferedTokenStream *)
  Section Unbuffered.
    Variable src : nat -> tok.
    Notation on := (fun _ : Z => True).
    Definition unbuffered_view (s : uts) (v : list Z) : Prop := exists b n c, rep src b n s /\ cur s = Z.of_nat c /\ read_types src on c v.

    Lemma unbuffered_right sempred fuel mode precedence (outer : ctx) stack conts d input ops clock m r c w : mode <> SLL ->
      in_progress a main rule stack conts -> token_types a w ->
      dfa_history a order alt_order hash dhash share decision start d ->
      trun src new_unbuffered ops = Done input -> cur input = Z.of_nat c -> read_types src on c w ->
      adaptive_predict (unbuffered_seek src) a ctx sempred order alt_order hash dhash share fuel mode precedence outer stack decision start d input clock = Val (m, r) ->
      small (m_dfa m) ->
      (exists j n, viable a start conts w n j) -> exists p, r = Predicted p /\ right_prediction a start conts w p.
    Proof.
      intros Hm Hp Ht Hh Hr Hc Hw H Len Ex.
      destruct (reach_rep src _ _ Hr) as (b & n & R).
      eapply (predict_right _ (unbuffered_seek src)) with (V := unbuffered_view); eauto.
      - intros s v s' o (b1 & n1 & c1 & R1 & Hc1 & Rt) E. cbn [common_seek unbuffered_seek k_base k_seek s_lt s_consume s_index common_stream unbuffered_stream] in E. apply of_out_val in E.
        destruct (lt_spec src b1 n1 s 1 c1 R1 ltac:(lia) Hc1) as (s2 & n2 & o2 & E2 & R2 & _ & Hc2 & _ & _ & So & _).
        rewrite E2 in E. inversion E; subst. replace (c1 + Z.to_nat (1 - 1))%nat with c1 in So by lia.
        rewrite (So (rep_noeof_cur _ _ _ _ _ R1 Hc1)). split; [exists b1, n2, c1; split; [exact R2|]; split; [congruence | exact Rt]|].
        eexists. split; [reflexivity|]. cbn. inversion Rt; subst; cbn; auto.
      - intros s x v s' (b1 & n1 & c1 & R1 & Hc1 & Rt) E. cbn [common_seek unbuffered_seek k_base k_seek s_lt s_consume s_index common_stream unbuffered_stream] in E. apply of_out_val in E. inversion Rt; subst.
        destruct (proj2 (consume_spec src b1 n1 s c1 R1 Hc1)) as (s2 & n2 & E2 & R2 & _ & Hc2 & _); [assumption|].
        rewrite E2 in E. inversion E; subst. exists b1, n2, (Datatypes.S c1). split; [exact R2|]. split; [lia|].
        match goal with Q : visible_types _ _ _ _ |- _ => inversion Q; subst; [constructor; assumption | tauto | constructor; assumption] end.
      - intros s v s' (b1 & n1 & c1 & R1 & Hc1 & Rt) E. cbn [common_seek unbuffered_seek k_base k_seek s_lt s_consume s_index common_stream unbuffered_stream] in E. apply of_out_val in E.
        destruct (seek_spec src b1 n1 s (cur input) R1) as [(Q & E2)|[(_ & _ & E2 & R2)|(_ & _ & E2)]]; rewrite E2 in E; inversion E; subst.
        + exists b1, n1, c. split; [exact R1|]. split; [congruence | exact Hw].
        + exists b1, n1, c. split; [exact R2|]. split; [cbn; congruence | exact Hw].
      - cbn. exists b, n, c. split; [apply mark_spec, R|]. split; [exact Hc | exact Hw].
    Qed.
  End Unbuffered.
End Predict.
