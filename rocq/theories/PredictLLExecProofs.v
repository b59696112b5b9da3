(** Prediction with the DFA: what it keeps, and that it chooses a viable alternative. *)
From Coq Require Import ZArith List Bool Lia Sorted ZifyBool ZifyNat Permutation.
From Verif Require Import Outcome IntervalSetModel PredContextModel PredContextSpec PredContextProofs SemContextModel SemContextProofs.
From Verif Require Import ConfigSetModel ConfigSetSpec ConfigSetProofs DfaModel DfaProofs AtnModel AtnSpec AtnProofs Ll1Model Ll1Spec ParserModel PredictModel.
From Verif Require Import PredictFrameProofs PredictDfaFrameProofs PredictLLSpec PredictLLContextProofs PredictLLSetProofs PredictLLClosureProofs PredictLLReachProofs PredictLLFullProofs PredictLLDfaProofs.
Import ListNotations.
Local Open Scope Z_scope.
Local Open Scope outcome_scope.

(** ** The stack of the rules in progress *)
Section Progress.
  Variable a : atn.
  Variable main : Z.
  Hypothesis G : simple_grammar a main.

  Lemma progress_stacked rule stack conts : in_progress a main rule stack conts -> stacked a main rule conts.
  Proof.
    induction 1 as [|i s g f r p ts stack conts E St Et _ IH]; [apply st_main|]. eapply st_call; [|exact IH].
    exists i, s, g, r, p. split; [exact E|]. split; [exact St|]. split; [reflexivity|]. split; [rewrite Et; left; reflexivity | reflexivity].
  Qed.
  Lemma progress_ctx rule stack conts : in_progress a main rule stack conts -> forall x, from_rule_context (follow_state a) stack = Val x ->
    typed (rule_of a) main rule x /\ forall g, stands false x g <-> g = conts.
  Proof.
    induction 1 as [|i s g f r p ts stack conts E St Et P IH]; intros x H.
    - cbn in H. inversion H; subst x. split; [apply typed_EMPTY|]. intros g. rewrite stands_EMPTY. split; [intros [Q|Q]; [exact Q | discriminate] | auto].
    - assert (exists y l, stack = y :: l) as (y & l & Ey) by (destruct P; eauto).
      cbn [from_rule_context] in H. rewrite Ey in H at 1. cbv beta iota in H.
      assert (0 <= i) by (unfold state_at in E; destruct (Z.ltb_spec i 0); [discriminate | assumption]).
      destruct (Z.eqb_spec i (-1)); [lia|]. bind H q Eqq. destruct (IH _ Eqq) as (T & S0). clear IH.
      unfold follow_state in H. unfold state_at in E. unfold vget in H. destruct (i <? 0); [discriminate|]. rewrite E, Et in H. cbn in H. inversion H; subst x.
      assert (C : calls a (st_rule s) (rule_of a g) f).
      { exists i, s, g, r, p. split; [unfold state_at; destruct (Z.ltb_spec i 0); [lia | exact E]|]. split; [exact St|]. split; [reflexivity|].
        split; [rewrite Et; left; reflexivity | reflexivity]. }
      destruct (calls_rule _ _ G _ _ _ C) as (Rf & Xf & Nm).
      assert (Lf : f < EMPTY_RETURN_STATE).
      { pose proof (exists_at _ _ Xf) as (sf & Ef). unfold state_at in Ef. destruct (f <? 0) eqn:Q; [discriminate|].
        pose proof (nth_error_Some (states a) (Z.to_nat f)) as N. rewrite Ef in N. pose proof (proj1 N ltac:(discriminate)).
        pose proof (proj1 (g_wf _ _ G)). unfold EMPTY_RETURN_STATE. lia. }
      split; [eapply typed_push; eauto|]. intros g0. rewrite stands_dent. cbn [entries]. rewrite dent_single. split.
      + intros (s' & -> & Q). apply S0 in Q. congruence.
      + intros ->. exists conts. split; [reflexivity|]. apply S0. reflexivity.
  Qed.
End Progress.

Section Exec.
  Context {S : Type}.
  Variable ts : seek_ops S.
  Variable a : atn.
  Variable main : Z.
  Hypothesis G : simple_grammar a main.
  Variable ctx : Type.
  Variable sempred : S -> option ctx -> Z -> Z -> bool.
  Variable order : list nat -> list sem -> list sem.
  Variable alt_order : list (list Z) -> list (list Z).
  Variable hash : pctx -> Z.
  Variable dhash : list pconfig -> Z.
  Variable share : pctx -> pctx.
  Hypothesis Hshare : forall x, wf x -> share x = x.
  Variable fuel : nat.
  Variable mode : pmode.
  Variable start_index : Z.
  Variable precedence : Z.
  Variable outer : ctx.
  Variable outer_stack : list Z.
  Variable decision : Z.
  Variable atn_start_state : Z.
  Variable s : atn_state.
  Hypothesis Hs : state_at a atn_start_state = Some s.
  Notation sim := (sim S).
  Notation fs := (fs a).
  Notation stk := (stk a main).
  Notation stop_at := (stop_at a).
  Notation D := (den true).
  Notation dfa_ok := (dfa_ok a main s).
  Notation loop := (exec_loop ts a ctx sempred order alt_order hash dhash share fuel mode start_index precedence outer outer_stack decision atn_start_state).
  Notation target := (compute_target_state ts a ctx sempred order alt_order hash dhash share fuel mode start_index precedence outer decision atn_start_state).
  Notation small m := (Z.of_nat (length (dfa_states (m_dfa m))) < ERROR_DFA_STATE_REF).
  Notation same m m' := (m_dfa m' = m_dfa m).

  Lemma next_token m m' t t' : (if negb (t =? TOKEN_EOF) then let! m1 := sim_consume ts m in sim_la ts m1 1 else Val (m, t)) = Val (m', t') ->
    same m m' /\ m_cache m' = m_cache m.
  Proof.
    destruct (negb (t =? TOKEN_EOF)); intros H; [|inversion H; auto]. bind H m1 E1.
    unfold sim_consume in E1. bind E1 i1 Ei. inversion E1; subst m1. unfold sim_la in H. bind2 H m2 o E2. unfold sim_lt in E2. bind2 E2 i2 o2 E3. inversion E2; subst m2 o2.
    inversion H; subst. auto.
  Qed.

  Lemma err_same p m m' r : on_error ts a ctx sempred hash start_index precedence outer p m = Val (m', r) -> same m m'.
  Proof. intros H. eapply PredictDfaFrameProofs.f_on_error; [exact H | reflexivity]. Qed.
  Lemma acc_same st m m' r : on_accept ts ctx sempred start_index precedence outer st m = Val (m', r) -> same m m'.
  Proof. intros H. eapply PredictDfaFrameProofs.f_on_accept; [exact H | reflexivity]. Qed.
  Lemma conf_same st m m' r :
    on_conflict ts a ctx sempred order alt_order hash fuel mode start_index precedence outer outer_stack atn_start_state st m = Val (m', r) -> same m m'.
  Proof. intros H. eapply PredictDfaFrameProofs.f_on_conflict; [exact H | reflexivity]. Qed.

  (** ** One step *)
  (** where the loop goes from a state *)
  Lemma step_ok previous t m m1 d st known : dfa_ok (m_dfa m) -> kgood a main false (m_cache m) -> vget (dfa_states (m_dfa m)) previous = Some st ->
    (forall q j, has_key (configs (d_configs st)) q j -> fs q) ->
    get_existing_target_state m previous t = Val known ->
    match known with Some d => Val (m, d) | None => target previous t m end = Val (m1, d) -> small m1 ->
    dfa_ok (m_dfa m1) /\ kgood a main false (m_cache m1) /\ m_input m1 = m_input m /\ edge_fine a main (m_dfa m1) (configs (d_configs st)) t d.
  Proof.
    intros Ok Kg V Fs Ek H Len. destruct known as [d0|].
    - inversion H; subst m1 d0. split; [exact Ok|]. split; [exact Kg|]. split; [reflexivity|].
      unfold get_existing_target_state, dfa_get in Ek. rewrite V in Ek. cbn in Ek. inversion Ek. eapply (do_edges _ _ _ _ Ok); eauto.
    - eapply target_ok; eauto.
  Qed.
  Lemma step_grows previous t m m1 d known :
    match known with Some d => Val (m, d) | None => target previous t m end = Val (m1, d) -> grows (m_dfa m) (m_dfa m1).
  Proof. destruct known; intros H; [inversion H; apply grows_refl|]. eapply target_grows; eauto. Qed.

  Lemma loop_grows n : forall previous t m m' r, loop n previous t m = Val (m', r) -> grows (m_dfa m) (m_dfa m').
  Proof.
    induction n as [|n IH]; cbn [exec_loop]; intros previous t m m' r H; [discriminate|].
    bind H known Ek. bind2 H m1 d E1. eapply grows_trans; [eapply step_grows; exact E1|].
    destruct (d =? ERROR_DFA_STATE_REF).
    - rewrite (err_same _ _ _ _ H). apply grows_refl.
    - bind H st Est. destruct (d_full st && negb (is_sll mode)).
      + rewrite (conf_same _ _ _ _ H). apply grows_refl.
      + destruct (d_accept st).
        * rewrite (acc_same _ _ _ _ H). apply grows_refl.
        * bind2 H m2 t2 E2. destruct (next_token _ _ _ _ E2) as (Ed & _). rewrite <- Ed. eauto.
  Qed.
  Lemma loop_keeps n : forall previous t m m' r st, dfa_ok (m_dfa m) -> kgood a main false (m_cache m) ->
    vget (dfa_states (m_dfa m)) previous = Some st -> (forall q j, has_key (configs (d_configs st)) q j -> fs q) ->
    loop n previous t m = Val (m', r) -> small m' -> dfa_ok (m_dfa m').
  Proof.
    induction n as [|n IH]; intros previous t m m' r st0 Ok Kg V0 Fs H Len; [discriminate|].
    pose proof H as H0. cbn [exec_loop] in H. bind H known Ek. bind2 H m1 d E1.
    assert (Gr : grows (m_dfa m1) (m_dfa m')).
    { destruct (d =? ERROR_DFA_STATE_REF).
      - rewrite (err_same _ _ _ _ H). apply grows_refl.
      - bind H st Est. destruct (d_full st && negb (is_sll mode)).
        + rewrite (conf_same _ _ _ _ H). apply grows_refl.
        + destruct (d_accept st).
          * rewrite (acc_same _ _ _ _ H). apply grows_refl.
          * bind2 H m2 t2 E2. destruct (next_token _ _ _ _ E2) as (Ed & _). rewrite <- Ed. eapply loop_grows; eauto. }
    assert (Len1 : small m1) by (destruct Gr as ((? & _) & _); lia).
    destruct (step_ok _ _ _ _ _ _ _ Ok Kg V0 Fs Ek E1 Len1) as (Ok1 & Kg1 & _ & _).
    destruct (d =? ERROR_DFA_STATE_REF).
    - rewrite (err_same _ _ _ _ H). exact Ok1.
    - bind H st Est. destruct (d_full st && negb (is_sll mode)).
      + rewrite (conf_same _ _ _ _ H). exact Ok1.
      + destruct (d_accept st) eqn:Ea.
        * rewrite (acc_same _ _ _ _ H). exact Ok1.
        * bind2 H m2 t2 E2. destruct (next_token _ _ _ _ E2) as (Ed & Ec).
          unfold dfa_get in Est. destruct (vget (dfa_states (m_dfa m1)) d) as [st1|] eqn:V1; [|discriminate]. cbn in Est. inversion Est; subst st1.
          eapply IH; [| | |  |exact H|exact Len].
          -- rewrite Ed. exact Ok1.
          -- rewrite Ec. exact Kg1.
          -- rewrite Ed. exact V1.
          -- destruct (so_open _ _ _ (do_states _ _ _ _ Ok1 _ _ V1)) as [Q|(Q & _)]; [exact Q | congruence].
  Qed.

  (** ** The choice *)
  Hypothesis Horder : forall l, Permutation (alt_order l) l.
  Variable conts : list Z.
  Variable rule : Z.
  Hypothesis Hprogress : in_progress a main rule outer_stack conts.
  Hypothesis Hrule : forall t, In t (st_trans s) -> rule_of a (get_target t) = rule.
  Notation Runs := (Runs a conts s).
  Notation via := (via a conts s).
  Notation hopeless := (hopeless a conts s).
  Notation good_result := (good_result a conts s).

  Lemma Hstk t : In t (st_trans s) -> stk (get_target t) conts.
  Proof. intros I. red. rewrite (Hrule _ I). eapply progress_stacked; eauto. Qed.

  (** a set holds every position that the alternatives reach with the tokens [u] *)
  Definition cover (u : list Z) (cs : list pconfig) : Prop := forall j q g, Runs j u (q, g) -> fs q -> D cs j q g.
  Definition cover_eof (w : list Z) (cs : list pconfig) : Prop := forall j n q, via j w n q -> D cs j q [].

  Lemma cover_start cs : covers_start a main s cs -> cover [] cs.
  Proof.
    intros (C & _) j q g (t & L & N & R) Fq. replace j with (1 + Z.of_nat (Z.to_nat (j - 1))) by lia.
    eapply (C _ t conts); eauto; [apply Hstk; eapply nth_error_In; eauto | apply run_cmoves, R].
  Qed.
  Lemma cover_takes u cs x j q g : cover u cs -> Runs j (u ++ [x]) (q, g) -> exists q1 g1, takes a false cs x j q1 g1 /\ stk q1 g1 /\ run a (q1, g1) [] (q, g).
  Proof.
    intros Cv R. destruct (runs_inv _ _ _ _ _ _ _ R) as ([q0 g0] & R0 & R1). apply run_cons_inv in R1 as ([q1 g1] & [q2 g2] & B1 & B2 & B3).
    assert (g2 = g1) by (apply take_inv in B2 as (? & ? & _ & _ & _ & _ & P); inversion P; reflexivity). subst g2.
    pose proof (runs_app _ _ _ _ _ _ _ _ R0 B1) as R1. rewrite app_nil_r in R1. exists q2, g1. split; [|split; [|exact B3]].
    - exists q1. split; [|exact B2]. cbn [negb]. apply Cv; [exact R1 | eapply take_fs; eauto].
    - eapply take_stk; [exact G | exact B2|]. eapply runs_stk; eauto using Hstk.
  Qed.
  Lemma cover_genuine u cs x j q g : x <> TOKEN_EOF -> cover u cs -> Runs j (u ++ [x]) (q, g) -> fs q -> genuine a main false cs x j q g.
  Proof.
    intros Nx Cv R Fq. destruct (cover_takes _ _ _ _ _ _ Cv R) as (q1 & g1 & T & K & M). exists q1, g1. split; [exact T|]. split; [exact K|].
    apply Z.eqb_neq in Nx as Nx'. rewrite Nx'. split; [apply run_cmoves, M|]. split; [exact Fq | congruence].
  Qed.
  Lemma cover_genuine_eof w cs j n q : cover w cs -> via j w (Datatypes.S n) q -> genuine a main false cs TOKEN_EOF j q [].
  Proof.
    intros Cv Vi. pose proof Vi as (R & St). rewrite <- (app_nil_r w) in Vi.
    destruct (via_split a main G conts s Hstk _ _ _ _ _ Vi) as (q' & g' & R1 & Fq & _ & q1 & T & M).
    exists q1, g'. split; [exists q'; split; [apply Cv; assumption | exact T]|].
    split; [eapply take_stk; [exact G | exact T|]; eapply runs_stk; eauto using Hstk|].
    cbn. split; [apply cmoves_eof; eauto|]. split; [|auto]. eapply stop_fs; eauto. eapply runs_stk; eauto using Hstk.
  Qed.
  Lemma cover_stop w cs j q : cover w cs -> via j w O q -> D cs j q [].
  Proof.
    intros Cv (R & St). cbn [repeat] in R. rewrite app_nil_r in R. apply Cv; [exact R|]. eapply stop_fs; eauto. eapply runs_stk; eauto using Hstk.
  Qed.

  Variable V : S -> list Z -> Prop.
  Variable w0 : list Z.
  Hypothesis Htypes : token_types a w0.
  Hypothesis Vlt : forall i v i' o, V i v -> s_lt (k_base ts) i 1 = Val (i', o) -> V i' v /\ exists tk, o = Some tk /\ TokenStreamModel.t_type tk = head v.
  Hypothesis Vconsume : forall i x v i', V i (x :: v) -> s_consume (k_base ts) i = Val i' -> V i' v.
  Hypothesis Vseek : forall i v i', V i v -> k_seek ts i start_index = Val i' -> V i' w0.
  Hypothesis Hmode : mode <> SLL.

  Definition place (m : sim) (t : Z) (cs : list pconfig) : Prop :=
    (exists v, V (m_input m) v) /\
    ((exists u v, w0 = u ++ v /\ V (m_input m) v /\ t = head v /\ cover u cs) \/ (t = TOKEN_EOF /\ cover_eof w0 cs)).

  Lemma place_none m t cs : place m t cs -> edge_none a main cs t -> hopeless w0.
  Proof.
    intros (_ & Pl) H. destruct Pl as [(u & v & Ew & Hv & Et & Cv)|(Et & Cv)]; intros j n q Vi.
    - destruct v as [|x v]; cbn [head] in Et; subst t.
      + rewrite app_nil_r in Ew. subst u. destruct (H (or_introl eq_refl)) as (H1 & H2). destruct n as [|n].
        * eapply H2; [reflexivity | eapply cover_stop; eauto | apply Vi].
        * eapply H1, cover_genuine_eof; eauto.
      + destruct (types_ok ts a start_index V w0 Htypes Vlt Vconsume Vseek _ _ _ Ew) as (Nx & Ok). destruct (H Ok) as (H1 & _).
        rewrite Ew in Vi. replace (u ++ x :: v) with ((u ++ [x]) ++ v) in Vi by (rewrite <- app_assoc; reflexivity).
        destruct (via_split a main G conts s Hstk _ _ _ _ _ Vi) as (q' & g' & R & Fq & _). eapply H1, cover_genuine; eauto.
    - destruct (H (or_introl Et)) as (_ & H2). eapply (H2 Et); [eapply Cv, Vi | apply Vi].
  Qed.

  (** after an edge: the alternatives that can succeed are there, and if the set has only final states the place is kept *)
  Lemma place_some m t cs cs' : place m t cs -> edge_to a main cs t cs' ->
    (forall j n q, via j w0 n q -> exists q' g', D cs' j q' g') /\
    ((forall q j, has_key cs' q j -> fs q) ->
     (exists u x v, w0 = u ++ x :: v /\ V (m_input m) (x :: v) /\ t = x /\ x <> TOKEN_EOF /\ cover (u ++ [x]) cs') \/ (t = TOKEN_EOF /\ cover_eof w0 cs')).
  Proof.
    intros (_ & Pl) H. destruct Pl as [(u & v & Ew & Hv & Et & Cv)|(Et & Cv)].
    - destruct v as [|x v]; cbn [head] in Et; subst t.
      + rewrite app_nil_r in Ew. subst u. destruct (H (or_introl eq_refl)) as (_ & H2). destruct (H2 eq_refl) as (Q1 & Q2 & Q3).
        assert (X : cover_eof w0 cs').
        { intros j [|n] q Vi; [apply Q2; [eapply cover_stop; eauto | apply Vi] | apply Q1; eapply cover_genuine_eof; eauto]. }
        split; [intros j n q Vi; exists q, []; eapply X; eauto | auto].
      + destruct (types_ok ts a start_index V w0 Htypes Vlt Vconsume Vseek _ _ _ Ew) as (Nx & Ok). destruct (H Ok) as (H1 & _).
        assert (Ew' : w0 = (u ++ [x]) ++ v) by (rewrite <- app_assoc; exact Ew).
        destruct (H1 Nx) as [Q|Q].
        * assert (X : cover (u ++ [x]) cs') by (intros j q g R Fq; apply Q; eapply cover_genuine; eauto).
          split; [|intros _; left; exists u, x, v; auto]. intros j n q Vi. rewrite Ew' in Vi.
          destruct (via_split a main G conts s Hstk _ _ _ _ _ Vi) as (q' & g' & R & Fq & _). eauto.
        * split.
          -- intros j n q Vi. rewrite Ew' in Vi. destruct (via_split a main G conts s Hstk _ _ _ _ _ Vi) as (q' & g' & R & Fq & _).
             destruct (cover_takes _ _ _ _ _ _ Cv R) as (q1 & g1 & T & _). eauto.
          -- intros Fs. left. exists u, x, v. split; [exact Ew|]. split; [exact Hv|]. split; [reflexivity|]. split; [exact Nx|].
             intros j q g R Fq. destruct (cover_takes _ _ _ _ _ _ Cv R) as (q1 & g1 & T & K & M). pose proof (Q _ _ _ T) as Dq.
             pose proof (run_fs a main G _ _ _ (Fs _ _ (den_key _ _ _ _ _ Dq)) K M) as P. inversion P; subst. exact Dq.
    - subst t. destruct (H (or_introl eq_refl)) as (_ & H2). destruct (H2 eq_refl) as (_ & Q2 & _).
      assert (X : cover_eof w0 cs') by (intros j n q Vi; apply Q2; [eapply Cv, Vi | apply Vi]).
      split; [intros j n q Vi; exists q, []; eapply X; eauto | auto].
  Qed.

  Lemma conflict_ok st m m' r v : d_preds st = [] -> V (m_input m) v -> kgood a main false (m_cache m) -> is_precedence_dfa (m_dfa m) = false ->
    on_conflict ts a ctx sempred order alt_order hash fuel mode start_index precedence outer outer_stack atn_start_state st m = Val (m', r) -> good_result w0 r.
  Proof.
    intros Ep Hv Kg Pr H. unfold on_conflict in H. rewrite Ep in H. cbn [obindo] in H. bind H x Ex. bind2 H m1 c0 E1.
    destruct (progress_ctx _ _ G _ _ _ Hprogress _ Ex) as (Tx & Sx).
    match type of E1 with _ _ _ _ _ _ _ _ _ _ _ _ _ _ _ ?m0 = _ =>
      destruct (start_ok ts a main G ctx sempred order hash fuel start_index precedence outer atn_start_state atn_start_state x true s m0 m1 c0 Hs (typed_wf _ _ _ _ Tx))
        as (Sg & K1 & I1 & D1 & So); [| | |exact E1|] end.
    - intros t I _. rewrite (Hrule _ I). exact Tx.
    - apply kgood_full. exact Kg.
    - exact Pr.
    - eapply (exec_full_ok ts a main G ctx sempred order alt_order Horder hash fuel mode start_index precedence outer atn_start_state conts s Hstk V w0 Htypes Vlt Vconsume Vseek c0 m1 m' r v); auto.
      + eapply start_inv; eauto using Hstk. apply Sg.
      + rewrite I1. exact Hv.
      + rewrite D1. exact Pr.
  Qed.

  Lemma loop_good n : forall previous t m m' r st, dfa_ok (m_dfa m) -> kgood a main false (m_cache m) ->
    vget (dfa_states (m_dfa m)) previous = Some st -> (forall q j, has_key (configs (d_configs st)) q j -> fs q) ->
    place m t (configs (d_configs st)) ->
    loop n previous t m = Val (m', r) -> small m' -> good_result w0 r.
  Proof.
    induction n as [|n IH]; intros previous t m m' r st0 Ok Kg V0 Fs Pl H Len; [discriminate|].
    pose proof H as H0. cbn [exec_loop] in H. bind H known Ek. bind2 H m1 d E1.
    assert (Gr : grows (m_dfa m1) (m_dfa m')).
    { destruct (d =? ERROR_DFA_STATE_REF).
      - rewrite (err_same _ _ _ _ H). apply grows_refl.
      - bind H st Est. destruct (d_full st && negb (is_sll mode)).
        + rewrite (conf_same _ _ _ _ H). apply grows_refl.
        + destruct (d_accept st).
          * rewrite (acc_same _ _ _ _ H). apply grows_refl.
          * bind2 H m2 t2 E2. destruct (next_token _ _ _ _ E2) as (Ed & _). rewrite <- Ed. eapply loop_grows; eauto. }
    assert (Len1 : small m1) by (destruct Gr as ((? & _) & _); lia).
    destruct (step_ok _ _ _ _ _ _ _ Ok Kg V0 Fs Ek E1 Len1) as (Ok1 & Kg1 & I1 & Ef).
    destruct Ef as [(-> & Ef)|(Nd & st & V1 & Ef)].
    - left. eapply place_none; eauto.
    - destruct (Z.eqb_spec d ERROR_DFA_STATE_REF) as [Q|_]; [contradiction|].
      unfold dfa_get in H. rewrite V1 in H. cbn [unwrap obindo] in H.
      destruct (do_states _ _ _ _ Ok1 _ _ V1) as [S1 S2 S3 S4].
      assert (Es : is_sll mode = false) by (destruct mode; [congruence| |]; reflexivity).
      rewrite Es, andb_true_r in H. destruct (place_some _ _ _ _ Pl Ef) as (P1 & P2).
      destruct Pl as ((v0 & Hv0) & _). destruct (d_full st) eqn:Efu.
      + rewrite <- I1 in Hv0. eapply conflict_ok; eauto. apply Ok1.
      + destruct (d_accept st) eqn:Ea.
        * unfold on_accept in H. rewrite S2 in H. inversion H; subst. right. eexists. split; [reflexivity|]. apply (unique_good a fuel).
          intros j n0 q Vi. destruct (P1 _ _ _ Vi) as (q' & g' & Q). eapply S3; eauto. eapply den_key, Q.
        * assert (Fs1 : forall q j, has_key (configs (d_configs st)) q j -> fs q) by (destruct S4 as [Q|(Q & _)]; [exact Q | discriminate]).
          bind2 H m2 t2 E2. destruct (next_token _ _ _ _ E2) as (Ed & Ec). eapply (IH d t2 m2); [rewrite Ed; exact Ok1 | rewrite Ec; exact Kg1 | rewrite Ed; exact V1 | exact Fs1 | |exact H|exact Len].
          destruct (P2 Fs1) as [(u & x & v & Ew & Hv & Et & Nx & Cv)|(Et & Cv)].
          -- subst t. apply Z.eqb_neq in Nx. rewrite Nx in E2. cbn [negb] in E2. bind E2 m3 E3.
             unfold sim_consume in E3. bind E3 i3 Ei. inversion E3; subst m3. clear E3. rewrite I1 in Ei. pose proof (Vconsume _ _ _ _ Hv Ei) as Hv3.
             destruct (la_ok ts V Vlt (with_sim_input m1 i3) v m2 t2 Hv3 E2) as (Hv2 & Et2 & _). split; [eauto|]. left. exists (u ++ [x]), v.
             split; [rewrite <- app_assoc; exact Ew | auto].
          -- subst t. cbn in E2. inversion E2; subst m2 t2. split; [rewrite I1; eauto|]. right. auto.
  Qed.

  (** ** The whole prediction *)
  Lemma exec_good r0 st m m' r : dfa_ok (m_dfa m) -> kgood a main false (m_cache m) -> V (m_input m) w0 ->
    vget (dfa_states (m_dfa m)) r0 = Some st -> covers_start a main s (configs (d_configs st)) ->
    exec_atn ts a ctx sempred order alt_order hash dhash share fuel mode start_index precedence outer outer_stack decision atn_start_state r0 m = Val (m', r) ->
    small m' -> good_result w0 r.
  Proof.
    intros Ok Kg Hv V0 Cv H Len. unfold exec_atn in H. bind2 H m1 t E. destruct (la_ok ts V Vlt _ _ _ _ Hv E) as (Hv1 & Et & Ed & Ec).
    eapply (loop_good fuel r0 t m1); eauto.
    - rewrite Ed. exact Ok.
    - rewrite Ec. exact Kg.
    - rewrite Ed. exact V0.
    - apply Cv.
    - split; [eauto|]. left. exists [], w0. split; [reflexivity|]. split; [exact Hv1|]. split; [exact Et|]. apply cover_start, Cv.
  Qed.
End Exec.

(** ** Whole predictions *)
Section Adapt.
  Variable a : atn.
  Variable main : Z.
  Hypothesis G : simple_grammar a main.
  Variable order : list nat -> list sem -> list sem.
  Variable alt_order : list (list Z) -> list (list Z).
  Variable hash : pctx -> Z.
  Variable dhash : list pconfig -> Z.
  Variable share : pctx -> pctx.
  Hypothesis Hshare : forall x, wf x -> share x = x.
  Variable decision : Z.
  Variable start : Z.
  Variable s : atn_state.
  Hypothesis Hs : state_at a start = Some s.
  Notation small d := (Z.of_nat (length (dfa_states d)) < ERROR_DFA_STATE_REF).

  Section One.
    Context {S : Type}.
    Variable ts : seek_ops S.
    Variable ctx : Type.
    Variable sempred : S -> option ctx -> Z -> Z -> bool.
    Variable fuel : nat.
    Variable mode : pmode.
    Notation predict := (adaptive_predict ts a ctx sempred order alt_order hash dhash share fuel mode).

    Lemma predict_parts precedence outer stack d input clock m r : predict precedence outer stack decision start d input clock = Val (m, r) ->
      exists mk i1 m1 s0 m2, k_mark ts input = (i1, mk) /\
        start_state ts a ctx sempred order hash dhash share fuel (s_index (k_base ts) input) precedence outer start (Sim i1 d [] clock [] []) = Val (m1, s0) /\
        exec_atn ts a ctx sempred order alt_order hash dhash share fuel mode (s_index (k_base ts) input) precedence outer stack decision start s0 m1 = Val (m2, r) /\
        m_dfa m = m_dfa m2.
    Proof.
      unfold adaptive_predict. intros H. destruct (k_mark ts input) as [i1 mk]. bind2 H m1 c0 E1. bind2 H m2 r2 E2. exists mk, i1, m1, c0, m2.
      split; [reflexivity|]. split; [exact E1|]. destruct r2 as [alt|].
      - bind H m3 E3. bind H i4 E4. inversion H; subst. split; [exact E2|]. unfold sim_seek in E3. bind E3 i5 E5. inversion E3; subst. reflexivity.
      - inversion H; subst. split; [exact E2 | reflexivity].
    Qed.
    Lemma predict_grows precedence outer stack d input clock m r : is_precedence_dfa d = false ->
      predict precedence outer stack decision start d input clock = Val (m, r) -> grows d (m_dfa m).
    Proof.
      intros Pr H. apply predict_parts in H as (mk & i1 & m1 & s0 & m2 & _ & E1 & E2 & ->).
      apply start_grows in E1; [|exact Pr]. cbn [m_dfa] in E1. eapply grows_trans; [exact E1|]. unfold exec_atn in E2. bind2 E2 m3 t E3.
      assert (Ed : m_dfa m3 = m_dfa m1).
      { unfold sim_la in E3. bind2 E3 m4 o E4. unfold sim_lt in E4. bind2 E4 i5 o5 E5. inversion E4; subst. inversion E3; subst. reflexivity. }
      rewrite <- Ed. eapply loop_grows; eauto.
    Qed.
    Lemma predict_keeps precedence outer stack d input clock m r : dfa_ok a main s d ->
      predict precedence outer stack decision start d input clock = Val (m, r) -> small (m_dfa m) -> dfa_ok a main s (m_dfa m).
    Proof.
      intros Ok H Len. apply predict_parts in H as (mk & i1 & m1 & s0 & m2 & _ & E1 & E2 & Em). rewrite Em in *.
      unfold exec_atn in E2. bind2 E2 m3 t E3.
      assert (Ed : m_dfa m3 = m_dfa m1 /\ m_cache m3 = m_cache m1).
      { unfold sim_la in E3. bind2 E3 m4 o E4. unfold sim_lt in E4. bind2 E4 i5 o5 E5. inversion E4; subst. inversion E3; subst. auto. }
      destruct Ed as (Ed & Ec). pose proof E2 as E2'. apply loop_grows in E2' as ((Gl & _) & _). rewrite Ed in Gl.
      destruct (start_state_ok a main G s ts ctx sempred order hash dhash share Hshare fuel _ precedence outer start Hs (Sim i1 d [] clock [] []) _ _ Ok (kgood_empty _ _ _) E1) as (Ok1 & Kg1 & _ & st & V1 & C1); [lia|].
      eapply (loop_keeps ts a main G); [exact Hshare| | | |apply C1|exact E2|exact Len].
      - rewrite Ed. exact Ok1.
      - rewrite Ec. exact Kg1.
      - rewrite Ed. exact V1.
    Qed.
  End One.

  Lemma history_prec d : dfa_history a order alt_order hash dhash share decision start d -> is_precedence_dfa d = false.
  Proof.
    induction 1 as [|d S0 ts ctx sempred fuel mode precedence outer stack input clock m r Hd IH H]; [reflexivity|].
    destruct (predict_grows _ _ _ _ _ _ _ _ _ _ _ _ _ IH H) as ((_ & P) & _). congruence.
  Qed.
  Lemma history_ok d : dfa_history a order alt_order hash dhash share decision start d -> small d -> dfa_ok a main s d.
  Proof.
    induction 1 as [|d S0 ts ctx sempred fuel mode precedence outer stack input clock m r Hd IH H]; intros Len; [apply new_ok|].
    pose proof (predict_grows _ _ _ _ _ _ _ _ _ _ _ _ _ (history_prec _ Hd) H) as ((L & _) & _). eapply predict_keeps; eauto. apply IH. lia.
  Qed.
End Adapt.
