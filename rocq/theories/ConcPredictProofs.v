(** Proofs about predictions of threads that share DFAs: one by itself is [adaptive_predict]. *)
From Coq Require Import ZArith List Bool Lia.
From Verif Require Import Outcome CharStreamModel TokenStreamModel IntervalSetModel PredContextModel SemContextModel ConfigSetModel DfaModel AtnModel Ll1Model ParserModel PredictModel PredictDfaFrameProofs.
From Verif Require Import PredictLLSpec PredictTotalSpec ConcModel ConcSpec ConcPredictModel ConcPredictSpec.
Import ListNotations.
Local Open Scope Z_scope.
Local Open Scope outcome_scope.

Section Job.
  Variable a : atn.
  Variable decision : Z.
  Variable start : Z.
  Variable q : request.
  Let start_index := s_index (k_base (q_stream q)) (q_input q).
  Notation with_dfa := (@with_dfa uts).

  Lemma same_dfa (m : sim uts) : with_dfa m (m_dfa m) = m.
  Proof. now destruct m. Qed.
  Lemma tell_alone : forall l r d d' r', alone (tell q l (Answer r)) d d' r' -> d' = d /\ r' = r.
  Proof.
    induction l as [|x l IH]; intros r d d' r' H; cbn in H; inversion H; subst; auto.
  Qed.

  (** what a job gives by itself, and whom it tells *)
  Definition gives (j : pjob) (d : pdfa) (o : answer) : Prop :=
    (forall d' r, alone j d d' r -> r = o /\ forall m p, r = Val (m, p) -> m_dfa m = d') /\
    (forall m p x l, o = Val (m, p) -> m_reports m = x :: l -> first_call j d = Some (q_listen q x)).
  Lemma gives_nothing (o : answer) d : (forall m p, o <> Val (m, p)) -> gives (Answer o) d o.
  Proof.
    intros N. split.
    - intros d' r R. inversion R; subst. split; [reflexivity|]. intros m p E. now destruct (N m p).
    - intros m p x l E. now destruct (N m p).
  Qed.
  Lemma gives_lift {A} (o : outcome A) k d (f : A -> answer) : (forall x, o = Val x -> gives (k x) d (f x)) -> gives (lift o k) d (obindo o f).
  Proof. intros H. destruct o as [x| |]; cbn; [now apply H| |]; apply gives_nothing; discriminate. Qed.
  Lemma gives_change {A} (w : pdfa -> outcome (sim uts * A)) k d o f : w d = o ->
    (forall m x, gives (k (m, x)) (m_dfa m) (f (m, x))) -> gives (change w k) d (obindo o f).
  Proof.
    intros <- H. split.
    - intros d' r R. inversion R as [| | |g h d1 d2 r1 X|]; subst. destruct (w d) as [[m x]| |] eqn:E; cbn in *.
      + now apply H.
      + inversion X; subst. split; [reflexivity|discriminate].
      + inversion X; subst. split; [reflexivity|discriminate].
    - cbn. destruct (w d) as [[m x]| |]; cbn; [apply H|discriminate..].
  Qed.
  Lemma gives_peek f d o : gives (f d) d o -> gives (Peek f) d o.
  Proof. intros [H T]. split; [|exact T]. intros d' r R. inversion R; subst. now apply H. Qed.
  Lemma gives_shared f d o : gives (f d) d o -> gives (Shared f) d o.
  Proof. intros [H T]. split; [|exact T]. intros d' r R. inversion R; subst. now apply H. Qed.
  Lemma gives_finish mk o d : (forall m r, o = Val (m, r) -> m_dfa m = d) -> gives (finish q mk o) d (leave q mk o).
  Proof.
    intros H. unfold finish. destruct (leave q mk o) as [[m p]| |] eqn:E; cbn [lift]; [|apply gives_nothing; discriminate..]. split.
    - intros d' r R. apply tell_alone in R as [-> ->]. split; [reflexivity|]. intros m' p' X. injection X as <- <-.
      destruct o as [[m0 p0]| |]; cbn in E; try discriminate. specialize (H m0 p0 eq_refl). destruct p0.
      + destruct (sim_seek (q_stream q) m0 _) as [m1| |] eqn:E1; cbn in E; try discriminate.
        destruct (k_release (q_stream q) (m_input m1) mk) as [i| |]; cbn in E; try discriminate. injection E as <- <-. cbn.
        exact (f_seek _ _ _ _ _ E1 H).
      + now injection E as <- <-.
    - intros m' p' x l X Rp. injection X as <- <-. cbn [fst]. rewrite Rp. reflexivity.
  Qed.
  Lemma leave_bind {A} mk (o : outcome A) f : leave q mk (obindo o f) = obindo o (fun x => leave q mk (f x)).
  Proof. now destruct o. Qed.

  Notation loop := (exec_loop (q_stream q) a (q_ctx q) (q_sempred q) (q_order q) (q_alt_order q) (q_hash q) (q_dhash q) (q_share q) (q_fuel q) (q_mode q)
    start_index (q_precedence q) (q_outer q) (q_stack q) decision start).
  Lemma target_split previous t m :
    compute_target_state (q_stream q) a (q_ctx q) (q_sempred q) (q_order q) (q_alt_order q) (q_hash q) (q_dhash q) (q_share q) (q_fuel q) (q_mode q)
      start_index (q_precedence q) (q_outer q) decision start previous t m =
    obindo (target_read a start q previous t m) (fun x => target_write a decision q previous t (snd x) (fst x)).
  Proof.
    unfold compute_target_state, target_read. destruct (dfa_get m previous) as [prev| |]; try reflexivity. cbn [obindo]. fold start_index.
    match goal with |- obindo ?o _ = _ => destruct o as [[m1 reach]| |] end; reflexivity.
  Qed.
  Lemma exec_gives mk : forall n previous token m, gives (exec_job a decision start q mk n previous token m) (m_dfa m) (leave q mk (loop n previous token m)).
  Proof.
    induction n as [|n IH]; intros previous token m; cbn [exec_job exec_loop].
    { apply gives_nothing; discriminate. }
    apply gives_peek. rewrite same_dfa, leave_bind. apply gives_lift. intros known _.
    assert (Round : forall m t, gives (round_job a start q (exec_job a decision start q mk n) mk previous token (m, t)) (m_dfa m)
      (leave q mk (if t =? ERROR_DFA_STATE_REF then on_error (q_stream q) a (q_ctx q) (q_sempred q) (q_hash q) start_index (q_precedence q) (q_outer q) previous m
        else
          let! st := dfa_get m t in
          if d_full st && negb (is_sll (q_mode q)) then on_conflict (q_stream q) a (q_ctx q) (q_sempred q) (q_order q) (q_alt_order q) (q_hash q) (q_fuel q) (q_mode q) start_index (q_precedence q) (q_outer q) (q_stack q) start st m
          else if d_accept st then on_accept (q_stream q) (q_ctx q) (q_sempred q) start_index (q_precedence q) (q_outer q) st m
          else
            let! (m, token) := if negb (token =? TOKEN_EOF) then let! m := sim_consume (q_stream q) m in sim_la (q_stream q) m 1
                               else Val (m, token) in
            loop n t token m))).
    { clear m known. intros m t. unfold round_job. cbn [fst snd]. apply gives_peek. rewrite same_dfa.
      destruct (t =? ERROR_DFA_STATE_REF).
      { apply gives_finish. intros m' r E. exact (f_on_error _ _ _ _ _ _ _ _ (m_dfa m) _ _ _ _ E eq_refl). }
      rewrite leave_bind. apply gives_lift. intros st _. destruct (d_full st && negb (is_sll (q_mode q))).
      { apply gives_finish. intros m' r E. exact (f_on_conflict _ _ _ _ _ _ _ _ _ _ _ _ _ _ (m_dfa m) _ _ _ _ E eq_refl). }
      destruct (d_accept st).
      { apply gives_finish. intros m' r E. exact (f_on_accept _ _ _ _ _ _ (m_dfa m) _ _ _ _ E eq_refl). }
      rewrite leave_bind. apply gives_lift. intros [m1 t1] E. cbn [fst snd].
      assert (F : m_dfa m1 = m_dfa m).
      { destruct (negb (token =? TOKEN_EOF)); [|now injection E as <- _].
        destruct (sim_consume (q_stream q) m) as [m2| |] eqn:E2; cbn in E; try discriminate.
        exact (f_la _ (m_dfa m) _ _ _ E (f_consume _ (m_dfa m) _ _ E2 eq_refl)). }
      rewrite <- F. apply IH. }
    rewrite leave_bind. destruct known as [t|].
    - cbn [obindo]. apply Round.
    - rewrite target_split. unfold target_job. apply gives_shared. rewrite same_dfa.
      destruct (target_read a start q previous token m) as [[m1 reach]| |] eqn:E; cbn [obindo lift].
      2,3: apply gives_nothing; discriminate.
      assert (F : m_dfa m1 = m_dfa m).
      { unfold target_read in E. destruct (dfa_get m previous) as [prev| |]; cbn [obindo] in E; try discriminate.
        exact (f_reach _ _ _ _ _ _ _ _ _ _ _ (m_dfa m) _ _ _ _ _ _ E eq_refl). }
      cbn [fst snd]. rewrite <- F. apply gives_change. { now rewrite same_dfa. } intros m2 t. apply Round.
  Qed.

  Lemma start_split m :
    make_start (q_stream q) a (q_ctx q) (q_sempred q) (q_order q) (q_hash q) (q_dhash q) (q_share q) (q_fuel q) start_index (q_precedence q) (q_outer q) start m =
    obindo (compute_start_state (q_stream q) a (q_ctx q) (q_sempred q) (q_order q) (q_hash q) (q_fuel q) start_index (q_precedence q) (q_outer q) start start EMPTY false m)
      (fun y => start_write q (snd y) (fst y)).
  Proof. unfold make_start. match goal with |- obindo ?o _ = _ => destruct o as [[m1 cs]| |] end; reflexivity. Qed.

  Lemma predict_gives : forall d, gives (predict_job a decision start q) d (predict_at_once a decision start q d).
  Proof.
    intros d. unfold predict_job, predict_at_once, adaptive_predict. destruct (k_mark (q_stream q) (q_input q)) as [input mk]. fold start_index.
    apply gives_peek. unfold start_state. cbn [m_dfa].
    assert (Run : forall m r, gives (lift (sim_la (q_stream q) m 1) (fun y => exec_job a decision start q mk (q_fuel q) r (snd y) (fst y))) (m_dfa m)
      (leave q mk (exec_atn (q_stream q) a (q_ctx q) (q_sempred q) (q_order q) (q_alt_order q) (q_hash q) (q_dhash q) (q_share q) (q_fuel q) (q_mode q)
        start_index (q_precedence q) (q_outer q) (q_stack q) decision start r m))).
    { intros m r. unfold exec_atn. rewrite leave_bind. apply gives_lift. intros [m1 t] E. cbn [fst snd].
      rewrite <- (f_la _ (m_dfa m) _ _ _ E eq_refl). apply exec_gives. }
    destruct (if is_precedence_dfa d then get_precedence_start_state unit unit d (q_precedence q) else Val (s0 d)) as [[r|]| |]; cbn [lift obindo].
    3,4: apply gives_nothing; discriminate.
    - apply (Run (Sim input d [] (q_clock q) [] []) r).
    - rewrite start_split.
      match goal with |- gives (lift ?o _) _ _ => destruct o as [[m1 cs]| |] eqn:E end; cbn [lift obindo fst snd].
      2,3: apply gives_nothing; discriminate.
      assert (F : m_dfa m1 = d) by exact (f_compute_start _ _ _ _ _ _ _ _ _ _ _ d _ _ _ _ _ _ E eq_refl).
      rewrite <- F. apply gives_change. { now rewrite same_dfa. } intros m2 r. apply Run.
  Qed.

  (** the only user code it calls are the listeners *)
  Section Closed.
    Variable J : pjob -> Prop.
    Hypothesis J_answer : forall r, J (Answer r).
    Hypothesis J_peek : forall f, (forall d, J (f d)) -> J (Peek f).
    Hypothesis J_shared : forall f, (forall d, J (f d)) -> J (Shared f).
    Hypothesis J_grow : forall g f, (forall d, J (f d)) -> J (Grow g f).
    Hypothesis J_tell : forall x f, (forall v, J (f v)) -> J (Callback (q_listen q x) f).
    Lemma closed_lift {A} (o : outcome A) k : (forall x, J (k x)) -> J (lift o k).
    Proof. intros H. destruct o; cbn; auto. Qed.
    Lemma closed_finish mk o : J (finish q mk o).
    Proof. apply closed_lift. intros x. induction (m_reports (fst x)); cbn; auto. Qed.
    Lemma closed_exec mk : forall n previous token m, J (exec_job a decision start q mk n previous token m).
    Proof.
      induction n as [|n IH]; intros previous token m; cbn [exec_job]; auto.
      assert (Round : forall x, J (round_job a start q (exec_job a decision start q mk n) mk previous token x)).
      { intros x. apply J_peek. intros d. cbv zeta. destruct (snd x =? ERROR_DFA_STATE_REF); [apply closed_finish|]. apply closed_lift. intros st.
        destruct (d_full st && negb (is_sll (q_mode q))); [apply closed_finish|]. destruct (d_accept st); [apply closed_finish|]. apply closed_lift. intros y. apply IH. }
      apply J_peek. intros d. apply closed_lift. intros [t|]; [apply Round|]. apply J_shared. intros d1. apply closed_lift. intros x.
      apply J_grow. intros d2. apply closed_lift. apply Round.
    Qed.
    Lemma closed_predict : J (predict_job a decision start q).
    Proof.
      unfold predict_job. destruct (k_mark (q_stream q) (q_input q)) as [input mk].
      assert (Run : forall x : sim uts * Z, J (lift (sim_la (q_stream q) (fst x) 1) (fun y => exec_job a decision start q mk (q_fuel q) (snd x) (snd y) (fst y)))).
      { intros x. apply closed_lift. intros y. apply closed_exec. }
      apply J_peek. intros d. apply closed_lift. intros [r|]; [apply (Run (_, r))|]. apply closed_lift. intros y. apply J_grow. intros d1. apply closed_lift. exact Run.
    Qed.
  End Closed.
  Lemma predict_job_uses P : (forall x, uses P (q_listen q x)) -> job_uses P (predict_job a decision start q).
  Proof. intros H. apply (closed_predict (job_uses P)); auto. 1: now intros. intros x f Hf. split; [apply H|exact Hf]. Qed.
  Lemma predict_job_ranked rank b : (forall x, ranked_thread rank b (q_listen q x)) -> ranked_job rank b (predict_job a decision start q).
  Proof. intros H. apply (closed_predict (ranked_job rank b)); auto. 1: now intros. intros x f Hf. split; [apply H|exact Hf]. Qed.
End Job.

(** ** Predictions of threads that share the DFAs of a grammar *)
From Verif Require Import AtnSpec TokenStreamSpec PredContextSpec PredictTotalProps PredictLLProps ConcProofs.
Section Parsers.
  Variable a : atn.
  Variables (start rule : nat -> Z).
  Variable H : request -> Prop.

  (** the DFAs left behind by predictions one after the other *)
  Lemma proper_returns k main conts q d : sound_grammar a -> no_stall a -> decision_ok a (Z.of_nat k) (start k) (rule k) ->
    proper a main (rule k) conts q -> hashing_ok q -> dfa_past a (Z.of_nat k) (start k) (rule k) d ->
    predict_at_once a (Z.of_nat k) (start k) q d <> NoFuel ->
    exists m p, predict_at_once a (Z.of_nat k) (start k) q d = Val (m, p) /\ dfa_past a (Z.of_nat k) (start k) (rule k) (m_dfa m).
  Proof.
    intros G NS Dk Pq [Ho Hc] Past NF. unfold predict_at_once in *.
    destruct q as [st input ctx outer sempred mode prec stack clock listen order alt_order hash dhash share fuel]. cbn in *.
    assert (X : exists m p, adaptive_predict st a ctx sempred order alt_order hash dhash share fuel mode prec outer stack (Z.of_nat k) (start k) d input clock = Val (m, p)).
    { destruct Pq as [src ch sfuel e ops E He Hf Hr Hp|src e ops E He Hr Hp]; cbn in *; subst st.
      - destruct (C85_common_stream_returns a G NS _ _ _ Dk _ _ _ dhash _ Ho Hc _ ch _ _ He Hf _ sempred mode prec outer _ _ _ d _ _ clock Hp Past Hr) as (n & [m p] & R).
        exists m, p. refine (settled _ n (m, p) fuel R _ NF). intros. apply C85_fuel_plays_no_part; auto.
      - destruct (C85_unbuffered_stream_returns a G NS _ _ _ Dk _ _ _ dhash _ Ho Hc _ _ He _ sempred mode prec outer _ _ _ d _ _ clock Hp Past Hr) as (n & [m p] & R).
        exists m, p. refine (settled _ n (m, p) fuel R _ NF). intros. apply C85_fuel_plays_no_part; auto. }
    destruct X as (m & p & E). exists m, p. split; [exact E|].
    destruct Pq as [src ch sfuel e ops X He Hf Hr Hp|src e ops X He Hr Hp]; cbn in *; subst st.
    - eapply past_common; eauto.
    - eapply past_unbuffered; eauto.
  Qed.
  Lemma serial_past k es d d' : sound_grammar a -> no_stall a -> decision_ok a (Z.of_nat k) (start k) (rule k) -> (forall q, H q -> hashing_ok q) ->
    one_by_one k d es d' -> Forall (began_ok (prediction_job a start rule H)) es -> (forall i, ~ In (Ended i k NoFuel) es) ->
    dfa_past a (Z.of_nat k) (start k) (rule k) d -> dfa_past a (Z.of_nat k) (start k) (rule k) d'.
  Proof.
    intros G NS Dk Hh W. induction W as [d|d es d1 i j d2 r W IH A]; intros F NF P; auto.
    apply Forall_app in F as [F1 F2]. assert (P1 : dfa_past a (Z.of_nat k) (start k) (rule k) d1).
    { apply IH; auto. intros x I. apply (NF x). apply in_or_app. auto. }
    apply Forall_inv in F2. destruct F2 as (q & main & conts & Pq & Hq & ->).
    destruct (proj1 (predict_gives a (Z.of_nat k) (start k) q d1) d2 r A) as [E M].
    destruct (proper_returns k main conts q d1) as (m & p & E' & Past); auto.
    { rewrite <- E. intros ->. apply (NF i). apply in_or_app. right. cbn. auto. }
    rewrite E' in E. now rewrite <- (M _ _ E).
  Qed.
  Lemma serial_history k es d' order alt_order hash dhash share :
    (forall q, H q -> q_order q = order /\ q_alt_order q = alt_order /\ q_hash q = hash /\ q_dhash q = dhash /\ q_share q = share) ->
    one_by_one k (dfa_new unit unit false) es d' -> Forall (began_ok (prediction_job a start rule H)) es -> (forall i r, In (Ended i k r) es -> exists m p, r = Val (m, p)) ->
    dfa_history a order alt_order hash dhash share (Z.of_nat k) (start k) d'.
  Proof.
    intros Hh W. remember (dfa_new unit unit false) as d eqn:Ed. induction W as [d|d es d1 i j d2 r W IH A]; intros F V. { subst. constructor. }
    apply Forall_app in F as [F1 F2]. assert (P1 : dfa_history a order alt_order hash dhash share (Z.of_nat k) (start k) d1).
    { apply IH; auto. intros x r' I. apply (V x). apply in_or_app. auto. }
    apply Forall_inv in F2. destruct F2 as (q & main & conts & Pq & Hq & ->).
    destruct (proj1 (predict_gives a (Z.of_nat k) (start k) q d1) d2 r A) as [E M].
    destruct (V i r) as (m & p & ->). { apply in_or_app. right. cbn. auto. }
    rewrite <- (M _ _ eq_refl). destruct (Hh q Hq) as (<- & <- & <- & <- & <-). eapply history_predict; [exact P1|]. symmetry. exact E.
  Qed.
End Parsers.
