(** A failed prediction names two tokens of the stream, both buffered. *)
From Coq Require Import ZArith List Bool Lia.
From Verif Require Import CharStreamModel TokenStreamModel TokenStreamSpec TokenStreamProofs CommonTokenStreamProofs.
From Verif Require Import Outcome IntervalSetModel PredContextModel SemContextModel ConfigSetModel DfaModel AtnModel Ll1Model ParserModel PredictModel PredictSpec.
From Verif Require Import PredictFrameProofs PredictStreamProofs.
Import ListNotations.
Local Open Scope Z_scope.
Local Open Scope outcome_scope.

Section Error.
  Context {S : Type}.
  Variable ts : seek_ops S.
  Hypothesis L : seek_laws ts.
  Variable a : atn.
  Variable ctx : Type.
  Variable sempred : S -> option ctx -> Z -> Z -> bool.
  Variable order : list nat -> list sem -> list sem.
  Variable alt_order : list (list Z) -> list (list Z).
  Variable hash : pctx -> Z.
  Variable dhash : list pconfig -> Z.
  Variable share : pctx -> pctx.
  Variable fuel : nat.
  Variable mode : pmode.
  Variable start_index : Z.
  Variable precedence : Z.
  Variable outer : ctx.
  Variable outer_stack : list Z.
  Variable decision : Z.
  Variable atn_start_state : Z.
  Variable Q : S -> Prop.
  Hypothesis Qlt : forall s s' t, Q s -> s_lt (k_base ts) s 1 = Val (s', t) -> Q s'.
  Hypothesis Qconsume : forall s s', Q s -> s_consume (k_base ts) s = Val s' -> Q s'.
  Hypothesis Qseek : forall s i s', Q s -> k_seek ts s i = Val s' -> Q s'.
  Notation sim := (sim S).
  Notation finv := (finv start_index Q).

  (** the error was made from a stream [s], and the stream left is [s] after looking at
      the next token, perhaps moved back *)
  Definition blamed (r : presult) (s' : S) : Prop := match r with
    | Predicted _ => True
    | NoViableAlt x y => exists s s1, Q s /\ s_get (k_base ts) s start_index = Val x /\ s_lt (k_base ts) s 1 = Val (s1, Some y) /\
        (s' = s1 \/ k_seek ts s1 start_index = Val s')
    end.
  Lemma b_no_viable m m' r : no_viable_alt ts start_index m = Val (m', r) -> finv m -> exists s s1 x y, r = NoViableAlt x y /\
    Q s /\ s_get (k_base ts) s start_index = Val x /\ s_lt (k_base ts) s 1 = Val (s1, Some y) /\ m_input m' = s1.
  Proof.
    unfold no_viable_alt, sim_lt. intros H (I & _). bind H st E. bind2 H m1 o E1. bind2 E1 s1 o1 E2. inversion E1; subst. bind H y E3. inversion H; subst.
    destruct o as [y'|]; [injection E3 as ->|discriminate]. exists (m_input m), s1, st, y. auto.
  Qed.
  Lemma b_no_viable' m m' r : no_viable_alt ts start_index m = Val (m', r) -> finv m -> blamed r (m_input m').
  Proof. intros H I. destruct (b_no_viable _ _ _ H I) as (s & s1 & x & y & -> & A & B & C & D). exists s, s1. auto. Qed.
  Lemma b_finish m s alt b m' r : Val (finish_full ts start_index m s alt b) = Val (m', r) -> blamed r (m_input m').
  Proof. unfold finish_full. intros H. destruct (negb (unique_alt s =? INVALID_ALT)); inversion H; subst; exact Logic.I. Qed.

  Lemma b_full_loop n : forall prev t m m' r,
    full_loop ts a ctx sempred order alt_order hash fuel mode start_index precedence outer atn_start_state n prev t m = Val (m', r) ->
    finv m -> blamed r (m_input m').
  Proof.
    induction n as [|n IH]; cbn [full_loop]; intros prev t m m' r H I; [discriminate|].
    bind2 H m1 reach E. apply (f_reach ts L a ctx sempred order hash fuel start_index precedence outer _ Q) in E; auto. destruct reach as [reach|].
    - bind H subs Es. destruct (negb (unique_alt _ =? INVALID_ALT)).
      + apply b_finish in H; auto.
      + bind H pr Ep. match type of H with (if ?b then _ else _) = _ => destruct b end.
        * apply b_finish in H; auto.
        * bind2 H m2 t2 E2. eapply IH; [exact H|]. destruct (negb (t =? TOKEN_EOF)); [|inversion E2; subst; auto].
          bind E2 m3 E3. eapply f_la; eauto. eapply f_consume; eauto.
    - bind H m2 E2. destruct (f_seek ts L start_index Q Qseek _ _ _ E2 E) as [I2 H2]. bind2 H m3 alt E3.
      destruct (f_syn ts a ctx sempred hash start_index precedence outer Q _ _ _ _ E3 I2 H2) as [I3 E3'].
      destruct (negb (alt =? INVALID_ALT)); [inversion H; subst; exact Logic.I|]. eapply b_no_viable'; eauto.
  Qed.
  Lemma b_full s m m' r :
    exec_atn_with_full_context ts a ctx sempred order alt_order hash fuel mode start_index precedence outer atn_start_state s m = Val (m', r) ->
    finv m -> blamed r (m_input m').
  Proof.
    unfold exec_atn_with_full_context. intros H I. bind H m1 E1. bind2 H m2 t E2. eapply b_full_loop; [exact H|].
    eapply f_la; eauto. eapply f_seek; eauto.
  Qed.
  Lemma b_on_error p m m' r : on_error ts a ctx sempred hash start_index precedence outer p m = Val (m', r) -> finv m -> blamed r (m_input m').
  Proof.
    unfold on_error. intros H I. bind H prev Ep. bind2 H m1 err E1. destruct (b_no_viable _ _ _ E1 I) as (s & s1 & x & y & -> & A & B & C & D).
    assert (I1 : finv m1) by (eapply (f_no_viable ts L); eauto).
    bind H m2 E2. destruct (f_seek ts L start_index Q Qseek _ _ _ E2 I1) as [I2 H2]. bind2 H m3 alt E3.
    destruct (f_syn ts a ctx sempred hash start_index precedence outer Q _ _ _ _ E3 I2 H2) as [I3 E3'].
    inversion H; subst. destruct (negb (alt =? INVALID_ALT)); [exact Logic.I|].
    exists s, (m_input m1). split; [exact A|]. split; [exact B|]. split; [exact C|]. right. rewrite E3'.
    unfold sim_seek in E2. bind E2 s2 Es. inversion E2; subst. exact Es.
  Qed.
  Lemma b_on_accept st m m' r : on_accept ts ctx sempred start_index precedence outer st m = Val (m', r) -> finv m -> blamed r (m_input m').
  Proof.
    unfold on_accept. intros H I. destruct (d_preds st) as [|x l]; [inversion H; subst; exact Logic.I|].
    bind H m1 E1. destruct (f_seek ts L start_index Q Qseek _ _ _ E1 I) as [I1 H1].
    destruct (eval_semantic_context ts ctx sempred precedence outer m1 (x :: l) []) as [m2 alts] eqn:E2.
    destruct (f_eval_sem ts ctx sempred start_index precedence outer Q _ _ _ _ _ E2 I1 H1) as [I2 E2'].
    destruct alts as [|y [|z alts]]; [eapply b_no_viable'; eauto | |]; inversion H; subst; exact Logic.I.
  Qed.
  Lemma b_on_conflict st m m' r :
    on_conflict ts a ctx sempred order alt_order hash fuel mode start_index precedence outer outer_stack atn_start_state st m = Val (m', r) ->
    finv m -> blamed r (m_input m').
  Proof.
    unfold on_conflict. intros H I. bind2 H m1 x E.
    assert (I1 : finv m1).
    { destruct (d_preds st) as [|y l]; [inversion E; subst; auto|]. bind E m2 E2.
      assert (I2 : finv m2 /\ index ts m2 = start_index).
      { destruct (Z.eqb_spec (index ts m) start_index) as [Hh|Hh]; cbn [negb] in E2; [inversion E2; subst; auto | eapply f_seek; eauto]. }
      destruct I2 as [I2 H2].
      destruct (eval_semantic_context ts ctx sempred precedence outer m2 (y :: l) []) as [m3 alts] eqn:E3.
      destruct (f_eval_sem ts ctx sempred start_index precedence outer Q _ _ _ _ _ E3 I2 H2) as [I3 E3'].
      assert (Back : forall (z : list Z) (x : Z + list Z), obindo (if negb (index ts m =? start_index) then sim_seek ts m3 (index ts m) else Val m3)
                 (fun m0 : sim => Val (m0, @inr Z (list Z) z)) = Val (m1, x) -> finv m1).
      { intros z x0 Hz. bind Hz m4 E4. injection Hz as <- _. destruct (negb (index ts m =? start_index)); [eapply f_seek; eauto | injection E4 as <-; auto]. }
      destruct alts as [|u [|v alts]]; [eapply Back; exact E | inversion E; subst; auto | eapply Back; exact E]. }
    destruct x as [x|alts]; [inversion H; subst; exact Logic.I|].
    bind H c Ec. bind2 H m2 s0' E2. eapply b_full; [exact H|]. eapply f_compute_start; eauto.
  Qed.
  Lemma b_exec_loop n : forall p t m m' r,
    exec_loop ts a ctx sempred order alt_order hash dhash share fuel mode start_index precedence outer outer_stack decision atn_start_state n p t m = Val (m', r) ->
    finv m -> blamed r (m_input m').
  Proof.
    induction n as [|n IH]; cbn [exec_loop]; intros p t m m' r H I; [discriminate|].
    bind H known Ek. bind2 H m1 d E. assert (I1 : finv m1) by (destruct known; [inversion E; subst; auto | eapply f_target; eauto]).
    destruct (d =? ERROR_DFA_STATE_REF); [eapply b_on_error; eauto|]. bind H st Est.
    destruct (d_full st && negb (is_sll mode)); [eapply b_on_conflict; eauto|].
    destruct (d_accept st); [eapply b_on_accept; eauto|].
    bind2 H m2 t2 E2. eapply IH; [exact H|]. destruct (negb (t =? TOKEN_EOF)); [|inversion E2; subst; auto].
    bind E2 m3 E3. eapply f_la; eauto. eapply f_consume; eauto.
  Qed.
  Lemma b_exec s m m' r :
    exec_atn ts a ctx sempred order alt_order hash dhash share fuel mode start_index precedence outer outer_stack decision atn_start_state s m = Val (m', r) ->
    finv m -> blamed r (m_input m').
  Proof. unfold exec_atn. intros H I. bind2 H m1 t E. eapply b_exec_loop; [exact H|]. eapply f_la; eauto. Qed.
End Error.

Lemma adaptive_blamed {S} (ts : seek_ops S) (L : seek_laws ts) a ctx sempred order alt_order hash dhash share fuel mode precedence outer outer_stack decision start d input clock m r
    (Q : S -> Prop) :
  (forall s s' t, Q s -> s_lt (k_base ts) s 1 = Val (s', t) -> Q s') ->
  (forall s s', Q s -> s_consume (k_base ts) s = Val s' -> Q s') ->
  (forall s i s', Q s -> k_seek ts s i = Val s' -> Q s') ->
  Q (fst (k_mark ts input)) ->
  adaptive_predict ts a ctx sempred order alt_order hash dhash share fuel mode precedence outer outer_stack decision start d input clock = Val (m, r) ->
  blamed ts (s_index (k_base ts) input) Q r (m_input m).
Proof.
  intros Q1 Q2 Q3 Q0 H. unfold adaptive_predict in H. destruct (k_mark ts input) as [s1 mk] eqn:Em. cbn [fst] in *.
  bind2 H m1 s0' E1. bind2 H m2 r2 E2.
  assert (I0 : finv (s_index (k_base ts) input) Q (Sim s1 d [] clock [] [])) by (split; cbn; auto).
  apply (f_start ts L a ctx sempred order hash dhash share fuel _ precedence outer start Q Q3) in E1; auto.
  apply (b_exec ts L a ctx sempred order alt_order hash dhash share fuel mode _ precedence outer outer_stack decision start Q Q1 Q2 Q3) in E2; auto.
  destruct r2 as [alt|x y].
  - bind H m3 E3. bind H s4 E4. inversion H; subst. exact Logic.I.
  - inversion H; subst. exact E2.
Qed.
