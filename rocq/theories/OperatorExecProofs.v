(** The loop of an operator rule: what is predicted. *)
From Coq Require Import ZArith List Bool Lia.
From Verif Require Import Outcome IntervalSetModel IntervalSetSpec IntervalSetProofs PredContextModel PredContextSpec PredContextProofs SemContextModel SemContextProofs.
From Verif Require Import ConfigSetModel ConfigSetSpec ConfigSetProofs DfaModel DfaProofs AtnModel AtnSpec AtnProofs Ll1Model Ll1Spec ParserModel PredictModel.
From Verif Require Import PredictFrameProofs PredictLLSpec PredictLLSetProofs RecSpec OperatorSpec OperatorProofs OperatorReachProofs OperatorDfaProofs.
From Verif Require PredictDfaFrameProofs PredictLLDfaProofs PredictLLExecProofs.
Import ListNotations.
Local Open Scope Z_scope.
Local Open Scope outcome_scope.

(** ** DFAs only grow *)
Definition longer (d d' : pdfa) : Prop := (length (dfa_states d) <= length (dfa_states d'))%nat /\ is_precedence_dfa d' = is_precedence_dfa d.
Lemma longer_trans d1 d2 d3 : longer d1 d2 -> longer d2 d3 -> longer d1 d3.
Proof. intros (A & B) (C & D). split; [lia | congruence]. Qed.
Lemma grows_longer d d' : PredictLLDfaProofs.grows d d' -> longer d d'.
Proof. intros (A & _). exact A. Qed.

Section Longer.
  Context {S : Type}.
  Variable ts : seek_ops S.
  Variable a : atn.
  Variable ctx : Type.
  Variable sempred : S -> option ctx -> Z -> Z -> bool.
  Variable order : list nat -> list sem -> list sem.
  Variable hash : pctx -> Z.
  Variable dhash : list pconfig -> Z.
  Variable share : pctx -> pctx.
  Variable fuel : nat.
  Variable precedence : Z.
  Variable outer : ctx.
  Variable entry : Z.
  Notation sim := (sim S).
  Lemma alt1_dfa l : forall mp (m : sim) cs m' cs' mp', filter_alt1 order hash precedence l mp m cs = Val (m', cs', mp') -> m_dfa m' = m_dfa m.
  Proof.
    induction l as [|c l IH]; intros mp m cs m' cs' mp' H; cbn [filter_alt1] in H; [injection H as <- _ _; reflexivity|].
    destruct (negb (c_alt c =? 1)); [eapply IH; eauto|]. destruct (eval_precedence _ _ _ _); [|rewrite (IH _ _ _ _ _ _ H); reflexivity].
    bind2 H m1 cs1 E. rewrite (IH _ _ _ _ _ _ H). unfold add_to in E. bind2 E s1 k1 E1. injection E as <- _. destruct k1; reflexivity.
  Qed.
  Lemma start_longer start_index (m m' : sim) r : start_state ts a ctx sempred order hash dhash share fuel start_index precedence outer entry m = Val (m', r) -> longer (m_dfa m) (m_dfa m').
  Proof.
    destruct (is_precedence_dfa (m_dfa m)) eqn:Ep; intros H; [|apply grows_longer; eapply PredictLLDfaProofs.start_grows; eauto].
    unfold start_state in H. rewrite Ep in H. bind H known Ek. destruct known as [r1|]; [injection H as <- <-; split; auto|].
    unfold make_start in H. bind2 H m1 cs E1.
    assert (E : m_dfa m1 = m_dfa m) by (eapply PredictDfaFrameProofs.f_compute_start; [exact E1 | reflexivity]).
    rewrite E, Ep in H. bind H fst_ Ef. bind2 H m2 fl E2. bind H d3 E3. bind2 H m4 r4 E4. bind H d5 E5. injection H as <- <-. cbn [m_dfa with_dfa].
    unfold apply_precedence_filter in E2. bind3 E2 m6 cs6 mp6 E6. bind E2 cs7 E7. injection E2 as <- _. pose proof (alt1_dfa _ _ _ _ _ _ _ E6) as Ed. rewrite Ed, E in E3.
    assert (L3 : longer (m_dfa m) d3).
    { unfold set_configs_of in E3. bind E3 st Es. bind E3 l El. injection E3 as <-. destruct (vset _ _ _) as [lz|] eqn:Ev; [|discriminate]. cbn in El. injection El as ->. apply vset_ok in Ev as (_ & Ll & _).
      split; [cbn; rewrite Ll; lia | reflexivity]. }
    unfold add_state in E4. bind2 E4 d4 r5 E8. injection E4 as <- <-. cbn [m_dfa with_dfa] in *. eapply longer_trans; [exact L3|]. eapply longer_trans; [apply grows_longer; eapply PredictLLDfaProofs.add_grows; exact E8|].
    unfold set_precedence_start_state in E5. destruct (negb (is_precedence_dfa d4)); [discriminate|]. destruct (precedence <? 0); [injection E5 as <-; split; auto|].
    destruct (s0 d4); [|injection E5 as <-; split; auto]. bind E5 st Es. bind E5 es Ee. bind E5 l El. injection E5 as <-. destruct (vset (dfa_states d4) _ _) as [lz|] eqn:Ev; [|discriminate]. cbn in El. injection El as ->.
    apply vset_ok in Ev as (_ & Ll & _). split; [cbn; rewrite Ll; lia | reflexivity].
  Qed.
  Variable alt_order : list (list Z) -> list (list Z).
  Variable mode : pmode.
  Variable decision : Z.
  Lemma predict_longer stack d input clock m r :
    adaptive_predict ts a ctx sempred order alt_order hash dhash share fuel mode precedence outer stack decision entry d input clock = Val (m, r) -> longer d (m_dfa m).
  Proof.
    intros H. apply PredictLLExecProofs.predict_parts in H as (mk & i1 & m1 & r0 & m2 & _ & E1 & E2 & ->). apply start_longer in E1. cbn [m_dfa] in E1. eapply longer_trans; [exact E1|].
    unfold exec_atn in E2. bind2 E2 m3 t E3.
    assert (Ed : m_dfa m3 = m_dfa m1).
    { unfold sim_la in E3. bind2 E3 m4 o E4. unfold sim_lt in E4. bind2 E4 i5 o5 E5. injection E4 as <- <-. injection E3 as <- <-. reflexivity. }
    rewrite <- Ed. apply grows_longer. eapply PredictLLExecProofs.loop_grows; eauto.
  Qed.
End Longer.

Section Exec.
  Context {S : Type}.
  Variable ts : seek_ops S.
  Variable a : atn.
  Variable ctx : Type.
  Variable sempred : S -> option ctx -> Z -> Z -> bool.
  Variable order : list nat -> list sem -> list sem.
  Variable alt_order : list (list Z) -> list (list Z).
  Variable hash : pctx -> Z.
  Variable dhash : list pconfig -> Z.
  Variable share : pctx -> pctx.
  Variable fuel : nat.
  Variable mode : pmode.
  Variable start_index : Z.
  Variable precedence : Z.
  Variable outer : ctx.
  Variable outer_stack : list Z.
  Variable decision : Z.
  Variable entry ops out : Z.
  Variable level : Z -> option Z.
  Variable where_ : Z -> place.
  Hypothesis WF : well_formed a.
  Hypothesis OL : operator_loop a entry ops out level where_.
  Hypothesis TL : token_levels a level.
  Notation sim := (sim S).
  Notation odfa := (odfa a ops level where_).
  Notation is_start := (is_start a ops where_).
  Notation edge_to := edge_to.
  Notation choice := (choice level).
  Notation goes := (goes level).
  Notation small m := (Z.of_nat (length (dfa_states (m_dfa m))) < ERROR_DFA_STATE_REF).

  Lemma decide_only u reach st : made (only u) reach -> configs reach <> [] -> u <> 0 -> decide_state a alt_order hash mode reach = Val st ->
    is_done u st /\ d_number st = 0 /\ d_edges st = [] /\ has_semantic_context (d_configs st) = false.
  Proof.
    intros M N U H. unfold decide_state in H. rewrite (only_unique u _ (d_all _ _ M) N U) in H. destruct (Z.eqb_spec u INVALID_ALT) as [E|_]; [contradiction|]. cbn [negb] in H. injection H as <-.
    split; [repeat split|]. split; [reflexivity|]. split; [reflexivity|]. apply M.
  Qed.
  Lemma target_ok previous t (m m' : sim) r st q u : odfa (m_dfa m) -> 2 <= previous -> vget (dfa_states (m_dfa m)) previous = Some st -> is_start q st -> choice q t u ->
    compute_target_state ts a ctx sempred order alt_order hash dhash share fuel mode start_index precedence outer decision entry previous t m = Val (m', r) -> small m' ->
    odfa (m_dfa m') /\ keeps (m_dfa m) (m_dfa m') /\ edge_to (m_dfa m') u r.
  Proof.
    intros Ok L V Ss Ch H Len. unfold compute_target_state in H. unfold dfa_get in H. rewrite V in H. cbn [unwrap obindo] in H. bind2 H m1 o E1.
    assert (R : forall q' u', is_start q' st -> choice q' t u' -> (forall reach, o = Some reach -> made (only u') reach /\ configs reach <> []) /\ (goes q' t -> o <> None)).
    { intros q' u' (S1 & _) Ch'. eapply (start_reach (S := S)); eauto. }
    assert (D1 : m_dfa m1 = m_dfa m) by (eapply PredictDfaFrameProofs.f_reach; [exact E1 | reflexivity]).
    assert (U : u <> 0) by (destruct (choice_two _ _ _ _ Ch); lia). destruct o as [reach|].
    - destruct (R _ _ Ss Ch) as (R1 & _). destruct (R1 _ eq_refl) as (M & N). bind H st1 Est. destruct (decide_only _ _ _ M N U Est) as (Dn & Nu & Ed & Hs). rewrite Hs, andb_false_r in H. cbn [obindo] in H.
      bind2 H m3 r3 E3. bind H m4 E4. injection H as <- <-. unfold add_state in E3. bind2 E3 d3 r4 E5. injection E3 as <- <-. unfold add_edge in E4. bind E4 d4 E6. injection E4 as <-. cbn [m_dfa with_dfa] in *. rewrite D1 in E5.
      assert (Len3 : Z.of_nat (length (dfa_states d3)) < ERROR_DFA_STATE_REF).
      { destruct (PredictLLDfaProofs.add_edge_grows _ _ _ _ _ _ E6) as ((Lg & _) & _). lia. }
      destruct (add_state_ok a ops out level where_ dhash share _ _ _ _ Ok Nu Ed (or_intror (ex_intro _ u (conj U Dn))) E5 Len3) as (Ok3 & K3 & Nr & Lr & st' & V' & _ & Dn').
      destruct (K3 _ _ L V) as (es & V3).
      assert (Et : forall q' u', is_start q' st -> choice q' t u' -> edge_to d3 u' r4).
      { intros q' u' S' Ch'. assert (u' = u) as ->.
        { destruct (R _ _ S' Ch') as (R2 & _). destruct (R2 _ eq_refl) as (M' & _). destruct (configs reach) as [|c l] eqn:Ec; [contradiction|].
          pose proof (d_all _ _ M) as F. pose proof (d_all _ _ M') as F'. rewrite Ec in F, F'. inversion F as [|? ? (A1 & _) _]; subst. inversion F' as [|? ? (A2 & _) _]; subst. reflexivity. }
        right. split; [exact Nr|]. split; [exact Lr|]. exists st'. split; [exact V' | apply Dn'; auto]. }
      destruct (add_edge_ok a ops level where_ (max_token_type a) _ _ _ _ _ _ Ok3 L V3 (fun q' u' S' C' => Et q' u' (proj1 (start_with _ _ _ _ _ _) S') C') E6) as (Ok4 & K4 & _).
      split; [exact Ok4|]. split; [eapply keeps_trans; eauto|]. eapply edge_keeps; [exact K4|]. eapply Et; eauto.
    - bind H m2 E2. injection H as <- <-. unfold add_edge in E2. bind E2 d2 E3. injection E2 as <-. cbn [m_dfa with_dfa] in *. rewrite D1 in E3.
      assert (Et : forall q' u', is_start q' st -> choice q' t u' -> edge_to (m_dfa m) u' ERROR_DFA_STATE_REF).
      { intros q' u' S' Ch'. left. split; [reflexivity|]. destruct Ch' as [(G & ->)|(_ & ->)]; [|reflexivity]. destruct (R _ _ S' (or_introl (conj G eq_refl))) as (_ & R2). destruct (R2 G eq_refl). }
      destruct (add_edge_ok a ops level where_ (max_token_type a) _ _ _ _ _ _ Ok L V Et E3) as (Ok4 & K4 & _). split; [exact Ok4|]. split; [exact K4|]. eapply edge_keeps; [exact K4|]. eapply Et; eauto.
  Qed.

  Lemma start_state_ok (m m' : sim) r : odfa (m_dfa m) -> kdeep (Out where_) (Some (m_cache m)) ->
    start_state ts a ctx sempred order hash dhash share fuel start_index precedence outer entry m = Val (m', r) -> small m' ->
    odfa (m_dfa m') /\ m_input m' = m_input m /\ 2 <= r /\ exists st, vget (dfa_states (m_dfa m')) r = Some st /\ is_start precedence st.
  Proof.
    intros Ok Kd H Len. unfold start_state in H. rewrite (o_prec _ _ _ _ _ Ok) in H. unfold get_precedence_start_state in H. rewrite (o_prec _ _ _ _ _ Ok), (o_s0 _ _ _ _ _ Ok) in H. cbn [negb] in H.
    destruct (vget (dfa_states (m_dfa m)) 1) as [st1|] eqn:V1; [|discriminate]. cbn [unwrap obindo] in H. destruct (slot (vget (d_edges st1) precedence)) as [r1|] eqn:Es.
    - injection H as <- <-. destruct (o_starts _ _ _ _ _ Ok _ _ _ V1 Es) as (L & st & V & Ss). split; [exact Ok|]. split; [reflexivity|]. split; [exact L | eauto].
    - unfold make_start in H. bind2 H m1 cs E1. destruct (start_ok _ _ _ _ _ _ _ _ _ _ _ _ _ _ _ WF OL _ _ _ E1 (o_prec _ _ _ _ _ Ok) Kd) as (Sk & Ao & _ & D1 & I1).
      rewrite D1, (o_prec _ _ _ _ _ Ok), (o_s0 _ _ _ _ _ Ok) in H. cbn [unwrap obindo] in H. bind2 H m2 fl E2. destruct (filter_ok _ _ _ _ _ _ _ _ _ _ Sk Ao E2) as (M2 & S2 & D2 & I2).
      bind H d3 E3. rewrite D2, D1 in E3. destruct (set_configs_ok _ _ _ _ _ _ _ Ok E3) as (Ok3 & K3 & L3). bind2 H m4 r4 E4. unfold add_state in E4. bind2 E4 d4 r5 E5. injection E4 as <- <-. cbn [m_dfa with_dfa] in *.
      bind H d6 E6. injection H as <- <-. cbn [m_dfa with_dfa m_input] in *.
      assert (Len4 : Z.of_nat (length (dfa_states d4)) < ERROR_DFA_STATE_REF).
      { unfold set_precedence_start_state in E6. destruct (negb (is_precedence_dfa d4)); [discriminate|]. destruct (precedence <? 0); [injection E6 as <-; exact Len|].
        destruct (s0 d4); [|injection E6 as <-; exact Len]. bind E6 st Est. bind E6 es Ee. bind E6 l El. injection E6 as <-. destruct (vset (dfa_states d4) _ _) as [lz|] eqn:Ev; [|discriminate]. cbn in El. injection El as ->.
        apply vset_ok in Ev as (_ & Ll & _). cbn in Len. rewrite Ll in Len. exact Len. }
      assert (Ss : is_start precedence (new_dfastate unit unit 0 fl)) by (split; [exact S2 | split; apply M2]).
      destruct (add_state_ok a ops out level where_ dhash share d3 (new_dfastate unit unit 0 fl) _ _ Ok3 eq_refl eq_refl (or_introl (ex_intro _ precedence Ss)) E5 Len4) as (Ok4 & K4 & Nr & Lr & st' & V' & S' & _).
      destruct (set_start_ok _ _ _ _ _ _ _ _ _ Ok4 Lr V' (S' _ Ss) E6) as (Ok6 & K6 & _). split; [exact Ok6|]. split; [congruence|]. split; [exact Lr|].
      destruct (K6 _ _ Lr V') as (es & V6). eexists. split; [exact V6|]. apply start_with, S', Ss.
  Qed.

  (** *** No way on: not the first alternative *)
  Lemma finished_two q l : Forall (kept where_ q) l -> forall s s', finished_alts a l s = Val s' -> all_valid (intervals s) -> (forall x, member x (intervals s) -> x = 2) ->
    all_valid (intervals s') /\ forall x, member x (intervals s') -> x = 2.
  Proof.
    induction 1 as [|c l Kc F IH]; cbn [finished_alts]; intros s s' H V I; [injection H as <-; auto|]. bind H e Ee. bind H st Es. apply get_state_at in Es.
    assert (C : (c_reach c >? 0) || (PredictModel.is_stop st && e) = true -> c_alt c = 2).
    { intros Q. destruct Kc as (_ & [(_ & R & k & Ew & _)|(A & _)]); [|exact A]. exfalso. rewrite R in Q. cbn in Q. apply andb_true_iff in Q as (Q & _). apply stop_iff in Q. exact (proj1 (ol_operator_state _ _ _ _ _ _ OL _ _ _ Es Ew) Q). }
    eapply IH in H; eauto.
    - destruct ((c_reach c >? 0) || (PredictModel.is_stop st && e)); [|exact V]. cbn. unfold add_interval_l. destruct (iv_length _ <? 0); [exact V|].
      apply add_loop_sound; [apply Z.le_refl | exact V].
    - intros x. destruct ((c_reach c >? 0) || (PredictModel.is_stop st && e)); [|apply I]. cbn. unfold add_interval_l. destruct (iv_length _ <? 0); [apply I|].
      intros M. apply add_loop_sound in M; [|apply Z.le_refl | exact V]. destruct M as [M|M]; [|apply I, M]. unfold in_range in M. cbn in M. specialize (C eq_refl). clear - M C. lia.
  Qed.
  Lemma split_kept q l : Forall (kept where_ q) l -> forall (m : sim) ok bad m' ok' bad', split_validity ts ctx sempred hash precedence outer l m ok bad = Val (m', ok', bad') ->
    made (kept where_ q) ok -> made (kept where_ q) ok' /\ bad' = bad.
  Proof.
    induction 1 as [|c l Kc F IH]; cbn [split_validity]; intros m ok bad m' ok' bad' H M; [injection H as <- <- <-; auto|].
    rewrite (proj1 Kc) in H. cbn [sem_eqb negb] in H. change (sem_eqb NONE NONE) with true in H. cbn [negb] in H. bind H ok1 E. unfold add_plain in E. bind2 E s1 k1 E1. injection E as <-.
    eapply IH; [exact H|]. apply (made_cached _ _ _ _ _ _ _ (kept_stable where_ q) E1 M Kc).
  Qed.
  Lemma finished_alt_two q cs x : get_alt_that_finished_decision_entry_rule a cs = Val x -> Forall (kept where_ q) (configs cs) -> x = INVALID_ALT \/ x = 2.
  Proof.
    unfold get_alt_that_finished_decision_entry_rule. intros H A. bind H s E. apply (finished_two q _ A) in E as (V & M); [|constructor | intros y (r & [] & _)].
    injection H as <-. unfold get_min. destruct (intervals s) as [|r l] eqn:Q; [auto|]. right. apply M. exists r. split; [left; reflexivity|].
    inversion V as [|? ? Vr _]; subst. unfold in_range. clear - Vr. lia.
  Qed.
  Definition not_first (r : presult) : Prop := match r with Predicted x => x = 2 | NoViableAlt _ _ => True end.
  Lemma no_viable_not_first (m m' : sim) r : no_viable_alt ts start_index m = Val (m', r) -> not_first r.
  Proof. unfold no_viable_alt. intros H. bind H st E. bind2 H m1 o E1. bind H o1 E2. injection H as _ <-. exact Logic.I. Qed.
  Lemma error_two q previous st (m m' : sim) r : vget (dfa_states (m_dfa m)) previous = Some st -> is_start q st ->
    on_error ts a ctx sempred hash start_index precedence outer previous m = Val (m', r) -> not_first r.
  Proof.
    intros V (S1 & S2 & S3) H. unfold on_error, dfa_get in H. rewrite V in H. cbn [unwrap obindo] in H. bind2 H m1 err E1. bind H m2 E2. bind2 H m3 x E3. injection H as _ <-.
    assert (X : x = INVALID_ALT \/ x = 2).
    { unfold get_syn_valid_or_sem_invalid_alt in E3. rewrite S3 in E3. bind3 E3 m4 ok bad E4. destruct (split_kept q _ (proj1 S1) _ _ _ _ _ _ E4 (made_new _)) as (M & ->).
      bind E3 y Ey. apply (finished_alt_two q) in Ey; [|apply M]. destruct (negb (y =? INVALID_ALT)); [injection E3 as _ <-; exact Ey|]. cbn [has_no configs new_base_config_set] in E3. injection E3 as _ <-. auto. }
    destruct X as [->| ->]; cbn; [eapply no_viable_not_first; eauto | reflexivity].
  Qed.

  (** *** The loop *)
  Definition answer (u : Z) (r : presult) : Prop := (u = 1 /\ r = Predicted 1) \/ (u = 2 /\ not_first r).
  Lemma loop_ok n previous t (m m' : sim) r st u : odfa (m_dfa m) -> 2 <= previous -> vget (dfa_states (m_dfa m)) previous = Some st -> is_start precedence st -> choice precedence t u ->
    exec_loop ts a ctx sempred order alt_order hash dhash share fuel mode start_index precedence outer outer_stack decision entry n previous t m = Val (m', r) -> small m' ->
    odfa (m_dfa m') /\ answer u r.
  Proof.
    intros Ok L V Ss Ch H Len. destruct n as [|n]; [discriminate|]. cbn [exec_loop] in H. bind H known Ek. unfold get_existing_target_state, dfa_get in Ek. rewrite V in Ek. cbn [unwrap obindo] in Ek. injection Ek as Ek.
    bind2 H m1 d E1.
    assert (T : small m1 -> odfa (m_dfa m1) /\ keeps (m_dfa m) (m_dfa m1) /\ edge_to (m_dfa m1) u d).
    { intros Len1. destruct known as [r1|].
      - injection E1 as <- <-. split; [exact Ok|]. split; [apply keeps_refl|]. eapply o_edges; eauto.
      - eapply target_ok; eauto. }
    destruct (Z.eqb_spec d ERROR_DFA_STATE_REF) as [Ed|Ed].
    - assert (D : m_dfa m' = m_dfa m1) by (eapply PredictDfaFrameProofs.f_on_error; [exact H | reflexivity]). rewrite D in Len. destruct (T Len) as (Ok1 & K1 & [(_ & U)|(F & _)]); [|contradiction].
      rewrite D. split; [exact Ok1|]. right. split; [exact U|]. destruct (K1 _ _ L V) as (es & V1). eapply error_two; [exact V1 | apply start_with; exact Ss | exact H].
    - unfold dfa_get in H. destruct (vget (dfa_states (m_dfa m1)) d) as [st1|] eqn:V1; [|discriminate]. cbn [unwrap obindo] in H.
      assert (Len1 : small m1).
      { assert (G : PredictLLDfaProofs.grows (m_dfa m1) (m_dfa m')); [|destruct G as ((G & _) & _); lia].
        destruct (d_full st1 && negb (is_sll mode)); [|destruct (d_accept st1)].
        - replace (m_dfa m') with (m_dfa m1); [apply PredictLLDfaProofs.grows_refl | symmetry; eapply PredictDfaFrameProofs.f_on_conflict; [exact H | reflexivity]].
        - replace (m_dfa m') with (m_dfa m1); [apply PredictLLDfaProofs.grows_refl | symmetry; eapply PredictDfaFrameProofs.f_on_accept; [exact H | reflexivity]].
        - bind2 H m2 t2 E2. replace (m_dfa m1) with (m_dfa m2); [eapply PredictLLExecProofs.loop_grows; eauto|].
          destruct (negb (t =? TOKEN_EOF)); [|injection E2 as <- _; reflexivity]. bind E2 m3 E3. unfold sim_consume in E3. bind E3 i3 E4. injection E3 as <-. unfold sim_la in E2. bind2 E2 m4 o4 E5. injection E2 as <- _.
          unfold sim_lt in E5. bind2 E5 i5 o5 E6. injection E5 as <- _. reflexivity. }
      destruct (T Len1) as (Ok1 & K1 & [(F & _)|(_ & _ & st2 & V2 & D1 & D2 & D3 & D4 & _)]); [contradiction|]. rewrite V1 in V2. injection V2 as <-. rewrite D2, D1 in H. cbn [andb] in H. unfold on_accept in H. rewrite D3 in H.
      injection H as <- <-. split; [exact Ok1|]. rewrite D4. destruct (choice_two _ _ _ _ Ch) as [->| ->]; [left; auto | right; split; [reflexivity | exact eq_refl]].
  Qed.
End Exec.

Section Whole.
  Variable a : atn.
  Variable decision entry ops out : Z.
  Variable level : Z -> option Z.
  Variable where_ : Z -> place.
  Hypothesis WF : well_formed a.
  Hypothesis OL : operator_loop a entry ops out level where_.
  Hypothesis TL : token_levels a level.
  Lemma predict_ok {S} (ts : seek_ops S) ctx sempred order alt_order hash dhash share fuel mode precedence (outer : ctx) stack d input clock m r :
    odfa a ops level where_ d -> adaptive_predict ts a ctx sempred order alt_order hash dhash share fuel mode precedence outer stack decision entry d input clock = Val (m, r) ->
    Z.of_nat (length (dfa_states (m_dfa m))) < ERROR_DFA_STATE_REF ->
    odfa a ops level where_ (m_dfa m) /\ exists i1 mk i2 o, k_mark ts input = (i1, mk) /\ s_lt (k_base ts) i1 1 = Val (i2, o) /\
      forall u, choice level precedence (match o with Some t => t_type t | None => TOKEN_INVALID_TYPE end) u -> answer u r.
  Proof.
    intros Ok H Len. apply PredictLLExecProofs.predict_parts in H as (mk & i1 & m1 & r0 & m2 & Em & E1 & E2 & Ed). rewrite Ed in Len |- *.
    unfold exec_atn in E2. bind2 E2 m3 t E3. unfold sim_la in E3. bind2 E3 m4 o E4. unfold sim_lt in E4. bind2 E4 i5 o5 E5. injection E4 as <- <-. injection E3 as <- <-.
    assert (Len1 : Z.of_nat (length (dfa_states (m_dfa m1))) < ERROR_DFA_STATE_REF).
    { apply PredictLLExecProofs.loop_grows in E2 as ((G & _) & _). cbn [m_dfa with_sim_input] in G. lia. }
    assert (Kd : kdeep (Out where_) (Some (m_cache (Sim i1 d [] clock [] [])))) by (intros k x y z Ek F; cbn in Ek; injection Ek as <-; destruct F).
    destruct (start_state_ok ts a ctx sempred order hash dhash share fuel _ precedence outer entry ops out level where_ WF OL (Sim i1 d [] clock [] []) _ _ Ok Kd E1 Len1) as (Ok1 & I1 & L & st & V & Ss).
    cbn [m_input] in I1. rewrite I1 in E5.
    assert (R : forall u, choice level precedence (match o5 with Some t => t_type t | None => TOKEN_INVALID_TYPE end) u -> odfa a ops level where_ (m_dfa m2) /\ answer u r).
    { intros u Ch. eapply (loop_ok (S := S)); [exact WF | exact OL | exact TL | | exact L | | exact Ss | exact Ch | exact E2 | exact Len]; [exact Ok1 | exact V]. }
    split; [destruct (choice_exists level precedence (match o5 with Some t => t_type t | None => TOKEN_INVALID_TYPE end)) as (u & Ch & _); apply (R u Ch)|].
    exists i1, mk, i5, o5. split; [exact Em|]. split; [exact E5|]. intros u Ch. apply (R u Ch).
  Qed.
  Lemma use_ok d : dfa_use a decision entry d -> is_precedence_dfa d = true -> Z.of_nat (length (dfa_states d)) < ERROR_DFA_STATE_REF -> odfa a ops level where_ d.
  Proof.
    induction 1 as [prec | d S ts ctx sempred order alt_order hash dhash share fuel mode precedence outer stack input clock m r U IH _ H]; intros P L.
    - assert (prec = true) as -> by (destruct prec; [reflexivity | discriminate]). apply new_odfa.
    - destruct (predict_longer _ _ _ _ _ _ _ _ _ _ _ _ _ _ _ _ _ _ _ _ _ H) as (G & Q). eapply predict_ok; [apply IH; [congruence | lia] | exact H | exact L].
  Qed.
End Whole.
