(** Prediction and the token stream: what every step of a prediction keeps. *)
From Coq Require Import ZArith List Bool Lia.
From Verif Require Import Outcome IntervalSetModel PredContextModel SemContextModel ConfigSetModel DfaModel AtnModel Ll1Model ParserModel PredictModel.
From Verif Require TokenStreamModel.
Import ListNotations.
Local Open Scope Z_scope.

Lemma bind_val {A B} (x : outcome A) (f : A -> outcome B) r : obindo x f = Val r -> exists v, x = Val v /\ f v = Val r.
Proof. destruct x; cbn; intros H; try discriminate. eauto. Qed.
Ltac bind H v E := apply bind_val in H; destruct H as (v & E & H); cbv beta iota in H.
Ltac bind2 H v w E := apply bind_val in H; destruct H as ([v w] & E & H); cbv beta iota in H.
Ltac bind3 H u v w E := apply bind_val in H; destruct H as ([[u v] w] & E & H); cbv beta iota in H.

(** The laws of a token stream that prediction depends on. *)
Record seek_laws {S : Type} (ts : seek_ops S) : Prop := {
  sl_seek : forall s i s', k_seek ts s i = Val s' -> s_index (k_base ts) s' = i;
  sl_lt : forall s k s' t, s_lt (k_base ts) s k = Val (s', t) -> s_index (k_base ts) s' = s_index (k_base ts) s;
  sl_mark : forall s, s_index (k_base ts) (fst (k_mark ts s)) = s_index (k_base ts) s;
  sl_release : forall s i s', k_release ts s i = Val s' -> s_index (k_base ts) s' = s_index (k_base ts) s
}.

Section Frame.
  Context {S : Type}.
  Variable ts : seek_ops S.
  Hypothesis L : seek_laws ts.
  Variable a : atn.
  Variable ctx : Type.
  Variable sempred : S -> option ctx -> Z -> Z -> bool.
  Variable order : list nat -> list sem -> list sem.
  Variable alt_order : list (list Z) -> list (list Z).
  Variable hash : pctx -> Z.
  Variable dhash : list pconfig -> Z.
  Variable share : pctx -> pctx.
  Variable fuel : nat.
  Variable mode : pmode.
  Variable start_index : Z.
  Variable precedence : Z.
  Variable outer : ctx.
  Variable outer_stack : list Z.
  Variable decision : Z.
  Variable atn_start_state : Z.

  (** a property of the stream that reading and moving keep *)
  Variable Q : S -> Prop.
  Hypothesis Qlt : forall s s' t, Q s -> s_lt (k_base ts) s 1 = Val (s', t) -> Q s'.
  Hypothesis Qconsume : forall s s', Q s -> s_consume (k_base ts) s = Val s' -> Q s'.
  Hypothesis Qseek : forall s i s', Q s -> k_seek ts s i = Val s' -> Q s'.

  Notation sim := (sim S).
  Definition finv (m : sim) : Prop := Q (m_input m) /\ Forall (fun i => i = start_index) (m_evals m).
  Notation here m := (index ts m = start_index).

  Lemma f_seek m i m' : sim_seek ts m i = Val m' -> finv m -> finv m' /\ index ts m' = i.
  Proof.
    unfold sim_seek. intros H [I E]. bind H s' Es. inversion H; subst. split; [split; cbn; eauto|].
    unfold index; cbn. eapply sl_seek; eauto.
  Qed.
  Lemma f_lt m m' t : sim_lt ts m 1 = Val (m', t) -> finv m -> finv m' /\ index ts m' = index ts m.
  Proof.
    unfold sim_lt. intros H [I E]. bind2 H s' t' Es. inversion H; subst. split; [split; cbn; eauto|].
    unfold index; cbn. eapply sl_lt; eauto.
  Qed.
  Lemma f_la m m' t : sim_la ts m 1 = Val (m', t) -> finv m -> finv m' /\ index ts m' = index ts m.
  Proof. unfold sim_la. intros H I. bind2 H m1 o E. inversion H; subst. eapply f_lt; eauto. Qed.
  Lemma f_consume m m' : sim_consume ts m = Val m' -> finv m -> finv m'.
  Proof. unfold sim_consume. intros H [I E]. bind H s' Es. inversion H; subst. split; cbn; eauto. Qed.
  Lemma f_eval m p m' b : eval_predicate ts ctx sempred precedence outer m p = (m', b) -> finv m -> here m ->
    finv m' /\ m_input m' = m_input m.
  Proof.
    unfold eval_predicate. intros H [I E] Hh. inversion H; subst. repeat split; cbn; auto.
    apply Forall_app. split; auto.
  Qed.
  Lemma f_add m s c m' s' : add_to hash m s c = Val (m', s') -> finv m -> finv m'.
  Proof. unfold add_to. intros H I. bind2 H s1 k E. inversion H; subst. destruct k; exact I. Qed.
  Lemma f_no_viable m m' r : no_viable_alt ts start_index m = Val (m', r) -> finv m ->
    finv m' /\ index ts m' = index ts m /\ exists x y, r = NoViableAlt x y.
  Proof.
    unfold no_viable_alt. intros H I. bind H st E. bind2 H m1 o E1. bind H o1 E2. inversion H; subst.
    destruct (f_lt _ _ _ E1 I). eauto.
  Qed.

  Lemma f_predicate_step m c g p col full m' o :
    predicate_step ts ctx sempred order start_index precedence outer m c g p col full = Val (m', o) -> finv m -> finv m'.
  Proof.
    unfold predicate_step. intros H I. destruct col; [|inversion H; subst; auto].
    destruct full; [|inversion H; subst; exact I].
    bind H m1 E. destruct (f_seek _ _ _ E I) as [I1 Hh].
    destruct (eval_predicate ts ctx sempred precedence outer m1 p) as [m2 b] eqn:E2. destruct (f_eval _ _ _ _ E2 I1 Hh) as [I2 _].
    bind H m3 E3. inversion H; subst. eapply f_seek; eauto.
  Qed.

  Lemma f_epsilon m c t col inc full eof m' o :
    get_epsilon_target ts a ctx sempred order start_index precedence outer m c t col inc full eof = Val (m', o) -> finv m -> finv m'.
  Proof.
    intros H I. destruct t; cbn [get_epsilon_target] in H; try (inversion H; subst; exact I).
    all: try (eapply f_predicate_step; eauto; fail).
    all: let b := fresh "b" in let E := fresh "E" in bind H b E; try (eapply f_predicate_step; eauto; fail); try (inversion H; subst; exact I).
    all: try (destruct b; [let y := fresh "y" in let E := fresh "E" in bind H y E|]; inversion H; subst; exact I).
    bind H c1 Ec. inversion H; subst; exact I.
  Qed.

  Definition fst3 (w : cwork (S := S)) : sim := fst (fst w).
  Definition rec_keeps (rec : rec_closure (S := S)) : Prop := forall c b d w w', rec c b d w = Val w' -> finv (fst3 w) -> finv (fst3 w').

  Lemma f_edge rec c p col full d eof first t w w' : rec_keeps rec ->
    closure_edge ts a ctx sempred order start_index precedence outer atn_start_state rec c p col full d eof first t w = Val w' ->
    finv (fst3 w) -> finv (fst3 w').
  Proof.
    intros R H I. unfold closure_edge in H. bind H drop Ed. destruct drop; [inversion H; subst; auto|].
    destruct w as [[m cs] busy]. bind2 H m1 o E. pose proof (f_epsilon _ _ _ _ _ _ _ _ _ E I) as I1.
    destruct o as [c1|]; [|inversion H; subst; exact I1].
    destruct (is_stop p).
    - destruct full; [discriminate|]. bind H c2 E2. destruct (busy_has busy c2); [inversion H; subst; exact I1|].
      eapply R; eauto.
    - destruct (negb (is_epsilon t) && busy_has busy c1); [inversion H; subst; exact I1|]. eapply R; eauto.
  Qed.
  Lemma f_edges rec c p col full d eof l : rec_keeps rec -> forall first w w',
    closure_edges ts a ctx sempred order start_index precedence outer atn_start_state rec c p col full d eof first l w = Val w' ->
    finv (fst3 w) -> finv (fst3 w').
  Proof.
    intros R. induction l as [|t l IH]; cbn [closure_edges]; intros first w w' H I; [inversion H; subst; auto|].
    bind H w1 E. eapply IH; [exact H|]. eapply f_edge; eauto.
  Qed.
  Lemma f_work rec c col full d eof w w' : rec_keeps rec ->
    closure_work ts a ctx sempred order hash start_index precedence outer atn_start_state rec c col full d eof w = Val w' ->
    finv (fst3 w) -> finv (fst3 w').
  Proof.
    intros R H I. unfold closure_work in H. bind H p Ep. bind H w1 E. eapply f_edges; [exact R | exact H |].
    destruct (st_eps_only p); [inversion E; subst; exact I|]. destruct w as [[m cs] busy]. bind2 E m1 cs1 E1.
    inversion E; subst. cbn. eapply f_add; eauto.
  Qed.
  Lemma f_return rec c x col d l : rec_keeps rec -> forall w w',
    return_to (S := S) rec c x col d l w = Val w' -> finv (fst3 w) -> finv (fst3 w').
  Proof.
    intros R. induction l as [|i l IH]; cbn [return_to]; intros w w' H I; [inversion H; subst; auto|].
    bind H r Er. destruct (r =? EMPTY_RETURN_STATE).
    - destruct (negb (Nat.eqb i (pc_length x - 1))); [discriminate|]. eapply IH; eauto.
    - bind H p Ep. bind H w1 E1. eapply IH; [exact H|]. eapply R; eauto.
  Qed.
  Lemma f_css n : forall full eof, rec_keeps (closure_checking_stop_state ts a ctx sempred order hash start_index precedence outer atn_start_state n full eof).
  Proof.
    induction n as [|n IH]; intros full eof c b d w w' H I; cbn [closure_checking_stop_state] in H; [discriminate|].
    bind H s Es. destruct (is_stop s); [|eapply f_work; eauto].
    bind H x Ex. bind H e Ee. destruct (negb e).
    - bind H lst El. bind H w1 E1. eapply f_return; [apply IH | exact H |].
      destruct (lst =? EMPTY_RETURN_STATE); [|inversion E1; subst; exact I].
      destruct full; [|eapply f_work; eauto]. destruct w as [[m cs] busy]. bind2 E1 m1 cs1 E2. inversion E1; subst. cbn. eapply f_add; eauto.
    - destruct full; [|eapply f_work; eauto]. destruct w as [[m cs] busy]. bind2 H m1 cs1 E2. inversion H; subst. cbn. eapply f_add; eauto.
  Qed.
  Lemma f_closure c col full eof w w' :
    closure ts a ctx sempred order hash fuel start_index precedence outer atn_start_state c col full eof w = Val w' ->
    finv (fst3 w) -> finv (fst3 w').
  Proof.
    unfold closure. intros H I. bind H w1 E. destruct w1 as [[m cs] busy]. destruct (full && dips_into_outer_context cs); [discriminate|].
    inversion H; subst. eapply f_css in E; eauto.
  Qed.

  Lemma f_start_loop x full l : forall i m cs m' cs',
    start_loop ts a ctx sempred order hash fuel start_index precedence outer atn_start_state x full i l m cs = Val (m', cs') -> finv m -> finv m'.
  Proof.
    induction l as [|t l IH]; cbn [start_loop]; intros i m cs m' cs' H I; [inversion H; subst; auto|].
    bind H g Eg. bind3 H m1 cs1 b1 E. eapply IH; [exact H|]. apply f_closure in E; auto.
  Qed.
  Lemma f_compute_start s x full m m' cs :
    compute_start_state ts a ctx sempred order hash fuel start_index precedence outer atn_start_state s x full m = Val (m', cs) -> finv m -> finv m'.
  Proof. unfold compute_start_state. intros H I. bind H st Es. eapply f_start_loop; eauto. Qed.

  Lemma f_reach_trans c t l : forall m cs m' cs', reach_trans a hash c t l m cs = Val (m', cs') -> finv m -> finv m'.
  Proof.
    induction l as [|tr l IH]; cbn [reach_trans]; intros m cs m' cs' H I; [inversion H; subst; auto|].
    bind H o Eo. bind2 H m1 cs1 E. eapply IH; [exact H|].
    destruct o; [bind E g Eg; eapply f_add; eauto | inversion E; subst; auto].
  Qed.
  Lemma f_reach_step t full l : forall m cs sk m' cs' sk', reach_step a hash t full l m cs sk = Val (m', cs', sk') -> finv m -> finv m'.
  Proof.
    induction l as [|c l IH]; cbn [reach_step]; intros m cs sk m' cs' sk' H I; [inversion H; subst; auto|].
    bind H s Es. destruct (is_stop s).
    - bind H x Ex. bind H e Ee. destruct (negb e); [discriminate|]. eapply IH; eauto.
    - bind2 H m1 cs1 E. eapply IH; [exact H|]. eapply f_reach_trans; eauto.
  Qed.
  Lemma f_remove_loop look l : forall m cs m' cs', remove_loop a hash fuel look l m cs = Val (m', cs') -> finv m -> finv m'.
  Proof.
    induction l as [|c l IH]; cbn [remove_loop]; intros m cs m' cs' H I; [inversion H; subst; auto|].
    bind H s Es. bind2 H m1 cs1 E. eapply IH; [exact H|].
    destruct (is_stop s); [eapply f_add; eauto|]. destruct (look && st_eps_only s); [|inversion E; subst; auto].
    bind E nx En. destruct (contains nx TOKEN_EPSILON); [|inversion E; subst; auto].
    bind E e Ee. bind E es Ees. eapply f_add; eauto.
  Qed.
  Lemma f_remove cs look m m' cs' : remove_all_configs_not_in_rule_stop_state a hash fuel cs look m = Val (m', cs') -> finv m -> finv m'.
  Proof.
    unfold remove_all_configs_not_in_rule_stop_state. intros H I. bind H al E. destruct al; [inversion H; subst; auto|].
    eapply f_remove_loop; eauto.
  Qed.
  Lemma f_close_all full eof l : forall w w',
    close_all ts a ctx sempred order hash fuel start_index precedence outer atn_start_state full eof l w = Val w' -> finv (fst3 w) -> finv (fst3 w').
  Proof.
    induction l as [|c l IH]; cbn [close_all]; intros w w' H I; [inversion H; subst; auto|].
    bind H w1 E. eapply IH; [exact H|]. eapply f_closure; eauto.
  Qed.
  Lemma f_add_each l : forall m cs m' cs', add_each hash l m cs = Val (m', cs') -> finv m -> finv m'.
  Proof.
    induction l as [|c l IH]; cbn [add_each]; intros m cs m' cs' H I; [inversion H; subst; auto|].
    bind2 H m1 cs1 E. eapply IH; [exact H|]. eapply f_add; eauto.
  Qed.
  Lemma f_reach from t full m m' o :
    compute_reach_set ts a ctx sempred order hash fuel start_index precedence outer atn_start_state from t full m = Val (m', o) -> finv m -> finv m'.
  Proof.
    unfold compute_reach_set. intros H I. bind3 H m1 inter sk E1. apply f_reach_step in E1; auto.
    bind2 H m2 r2 E2. bind2 H m3 r3 E3. bind H ad Ead. bind2 H m4 r4 E4. inversion H; subst.
    assert (I2 : finv m2).
    { destruct (has_no sk && negb (t =? TOKEN_EOF) && _); [inversion E2; subst; auto|].
      bind3 E2 m5 r5 b5 E5. inversion E2; subst. apply f_close_all in E5; auto. }
    assert (I3 : finv m3) by (destruct (t =? TOKEN_EOF); [eapply f_remove; eauto | inversion E3; subst; auto]).
    destruct ad; [eapply f_add_each; eauto | inversion E4; subst; auto].
  Qed.

  Lemma f_filter1 l : forall mp m cs m' cs' mp', filter_alt1 order hash precedence l mp m cs = Val (m', cs', mp') -> finv m -> finv m'.
  Proof.
    induction l as [|c l IH]; cbn [filter_alt1]; intros mp m cs m' cs' mp' H I; [inversion H; subst; auto|].
    destruct (negb (c_alt c =? 1)); [eapply IH; eauto|].
    destruct (eval_precedence precedence order [m_clock m] (c_sem c)) as [u|]; [|eapply IH; eauto].
    bind2 H m1 cs1 E. eapply IH; [exact H|]. eapply f_add; eauto.
  Qed.
  Lemma f_filter cs m m' cs' : apply_precedence_filter order hash precedence cs m = Val (m', cs') -> finv m -> finv m'.
  Proof. unfold apply_precedence_filter. intros H I. bind3 H m1 o mp E. bind H o1 E1. inversion H; subst. eapply f_filter1; eauto. Qed.

  Lemma f_collect ambig l : forall m v m' v', collect_preds order (S := S) ambig l m v = Val (m', v') -> finv m -> finv m'.
  Proof.
    induction l as [|c l IH]; cbn [collect_preds]; intros m v m' v' H I; [inversion H; subst; auto|].
    destruct (existsb (Z.eqb (c_alt c)) ambig); [|eapply IH; eauto]. bind H o Eo. bind H v1 Ev. eapply IH; eauto.
  Qed.
  Lemma f_eval_sem preds : forall m acc m' alts,
    eval_semantic_context ts ctx sempred precedence outer m preds acc = (m', alts) -> finv m -> here m -> finv m' /\ m_input m' = m_input m.
  Proof.
    induction preds as [|[alt p] l IH]; cbn [eval_semantic_context]; intros m acc m' alts H I Hh; [inversion H; subst; auto|].
    destruct (sem_eqb p NONE); [eapply IH; eauto|].
    destruct (eval_predicate ts ctx sempred precedence outer m p) as [m1 b] eqn:E. destruct (f_eval _ _ _ _ E I Hh) as [I1 E1].
    destruct (IH _ _ _ _ H I1) as [I2 E2]; [unfold index; rewrite E1; exact Hh|]. split; congruence.
  Qed.
  Lemma f_split l : forall m ok bad m' ok' bad',
    split_validity ts ctx sempred hash precedence outer l m ok bad = Val (m', ok', bad') -> finv m -> here m -> finv m' /\ m_input m' = m_input m.
  Proof.
    induction l as [|c l IH]; cbn [split_validity]; intros m ok bad m' ok' bad' H I Hh; [inversion H; subst; auto|].
    destruct (negb (sem_eqb (c_sem c) NONE)).
    - destruct (eval_predicate ts ctx sempred precedence outer m (c_sem c)) as [m1 b] eqn:E. destruct (f_eval _ _ _ _ E I Hh) as [I1 E1].
      assert (H1 : here m1) by (unfold index; rewrite E1; exact Hh).
      destruct b; bind H s1 Es; destruct (IH _ _ _ _ _ _ H I1 H1); split; congruence.
    - bind H s1 Es. eapply IH; eauto.
  Qed.
  Lemma f_syn cs m m' alt : get_syn_valid_or_sem_invalid_alt ts a ctx sempred hash precedence outer cs m = Val (m', alt) ->
    finv m -> here m -> finv m' /\ m_input m' = m_input m.
  Proof.
    unfold get_syn_valid_or_sem_invalid_alt. intros H I Hh. bind3 H m1 ok bad E. destruct (f_split _ _ _ _ _ _ _ E I Hh) as [I1 E1].
    bind H x Ex. destruct (negb (x =? INVALID_ALT)); [inversion H; subst; auto|].
    destruct (has_no (configs bad)); [inversion H; subst; auto|]. bind H y Ey. inversion H; subst; auto.
  Qed.

  Lemma f_add_state m st m' r : add_state dhash share m st = Val (m', r) -> finv m -> finv m' /\ m_input m' = m_input m.
  Proof. unfold add_state. intros H I. bind2 H d r1 E. inversion H; subst. split; [exact I | reflexivity]. Qed.
  Lemma f_add_edge m x t y m' : add_edge a m x t y = Val m' -> finv m -> finv m'.
  Proof. unfold add_edge. intros H I. bind H d E. inversion H; subst. exact I. Qed.
  Lemma f_predicate_dfa st n m m' st' : predicate_dfa_state order (S := S) st n m = Val (m', st') -> finv m -> finv m'.
  Proof.
    unfold predicate_dfa_state, get_preds_for_ambig_alts. intros H I. bind2 H m1 o E. bind2 E m2 v E2. inversion E; subst.
    inversion H; subst. eapply f_collect; eauto.
  Qed.
  Lemma f_target p t m m' r :
    compute_target_state ts a ctx sempred order alt_order hash dhash share fuel mode start_index precedence outer decision atn_start_state p t m = Val (m', r) ->
    finv m -> finv m'.
  Proof.
    unfold compute_target_state. intros H I. bind H prev Ep. bind2 H m1 reach E. apply f_reach in E; auto.
    destruct reach as [reach|].
    - bind H st Est. bind2 H m2 st2 E2.
      assert (I2 : finv m2).
      { destruct (d_accept st && has_semantic_context (d_configs st)); [|inversion E2; subst; auto].
        bind E2 ds Eds. bind E2 s Es. bind2 E2 m3 st3 E3. inversion E2; subst. eapply f_predicate_dfa; eauto. }
      bind2 H m3 r3 E3. bind H m4 E4. inversion H; subst. eapply f_add_edge; eauto. eapply f_add_state; eauto.
    - bind H m2 E2. inversion H; subst. eapply f_add_edge; eauto.
  Qed.

  (** results: an error leaves the stream where the prediction started *)
  Definition settled (r : presult) (m : sim) : Prop := match r with Predicted _ => True | NoViableAlt _ _ => here m end.

  Lemma f_finish m s alt b m' r : Val (finish_full ts start_index m s alt b) = Val (m', r) -> finv m -> finv m' /\ settled r m'.
  Proof.
    unfold finish_full. intros H I. destruct (negb (unique_alt s =? INVALID_ALT)); inversion H; subst; split; try exact Logic.I; exact I.
  Qed.
  Lemma f_full_loop n : forall prev t m m' r,
    full_loop ts a ctx sempred order alt_order hash fuel mode start_index precedence outer atn_start_state n prev t m = Val (m', r) ->
    finv m -> finv m' /\ settled r m'.
  Proof.
    induction n as [|n IH]; cbn [full_loop]; intros prev t m m' r H I; [discriminate|].
    bind2 H m1 reach E. apply f_reach in E; auto. destruct reach as [reach|].
    - bind H subs Es. destruct (negb (unique_alt _ =? INVALID_ALT)).
      + apply f_finish in H; auto.
      + bind H pr Ep. match type of H with (if ?b then _ else _) = _ => destruct b end.
        * apply f_finish in H; auto.
        * bind2 H m2 t2 E2. eapply IH; [exact H|]. destruct (negb (t =? TOKEN_EOF)); [|inversion E2; subst; auto].
          bind E2 m3 E3. eapply f_la; eauto. eapply f_consume; eauto.
    - bind H m2 E2. destruct (f_seek _ _ _ E2 E) as [I2 H2]. bind2 H m3 alt E3. destruct (f_syn _ _ _ _ E3 I2 H2) as [I3 E3'].
      destruct (negb (alt =? INVALID_ALT)); [inversion H; subst; split; [exact I3 | exact Logic.I]|].
      destruct (f_no_viable _ _ _ H I3) as (I4 & H4 & x & y & ->). split; [exact I4|]. cbn. rewrite H4. unfold index. rewrite E3'. exact H2.
  Qed.
  Lemma f_full s m m' r :
    exec_atn_with_full_context ts a ctx sempred order alt_order hash fuel mode start_index precedence outer atn_start_state s m = Val (m', r) ->
    finv m -> finv m' /\ settled r m'.
  Proof.
    unfold exec_atn_with_full_context. intros H I. bind H m1 E1. bind2 H m2 t E2. eapply f_full_loop; [exact H|].
    eapply f_la; eauto. eapply f_seek; eauto.
  Qed.

  Lemma f_on_error p m m' r : on_error ts a ctx sempred hash start_index precedence outer p m = Val (m', r) -> finv m -> finv m' /\ settled r m'.
  Proof.
    unfold on_error. intros H I. bind H prev Ep. bind2 H m1 err E1. destruct (f_no_viable _ _ _ E1 I) as (I1 & _).
    bind H m2 E2. destruct (f_seek _ _ _ E2 I1) as [I2 H2]. bind2 H m3 alt E3. destruct (f_syn _ _ _ _ E3 I2 H2) as [I3 E3'].
    inversion H; subst. split; [exact I3|]. destruct (negb (alt =? INVALID_ALT)); [exact Logic.I|].
    unfold settled. destruct err; [exact Logic.I|]. unfold index. rewrite E3'. exact H2.
  Qed.
  Lemma f_on_accept st m m' r : on_accept ts ctx sempred start_index precedence outer st m = Val (m', r) -> finv m -> finv m' /\ settled r m'.
  Proof.
    unfold on_accept. intros H I. destruct (d_preds st) as [|x l]; [inversion H; subst; split; [auto | exact Logic.I]|].
    bind H m1 E1. destruct (f_seek _ _ _ E1 I) as [I1 H1].
    destruct (eval_semantic_context ts ctx sempred precedence outer m1 (x :: l) []) as [m2 alts] eqn:E2.
    destruct (f_eval_sem _ _ _ _ _ E2 I1 H1) as [I2 E2'].
    destruct alts as [|y [|z alts]].
    - destruct (f_no_viable _ _ _ H I2) as (I3 & H3 & u & v & ->). split; [exact I3|]. cbn. rewrite H3. unfold index. rewrite E2'. exact H1.
    - inversion H; subst. split; [auto | exact Logic.I].
    - inversion H; subst. split; [exact I2 | exact Logic.I].
  Qed.
  Lemma f_on_conflict st m m' r :
    on_conflict ts a ctx sempred order alt_order hash fuel mode start_index precedence outer outer_stack atn_start_state st m = Val (m', r) ->
    finv m -> finv m' /\ settled r m'.
  Proof.
    unfold on_conflict. intros H I. bind2 H m1 x E.
    assert (I1 : finv m1).
    { destruct (d_preds st) as [|y l]; [inversion E; subst; auto|]. bind E m2 E2.
      assert (I2 : finv m2 /\ here m2).
      { destruct (Z.eqb_spec (index ts m) start_index) as [Hh|Hh]; cbn [negb] in E2; [inversion E2; subst; auto | eapply f_seek; eauto]. }
      destruct I2 as [I2 H2].
      destruct (eval_semantic_context ts ctx sempred precedence outer m2 (y :: l) []) as [m3 alts] eqn:E3.
      destruct (f_eval_sem _ _ _ _ _ E3 I2 H2) as [I3 E3'].
      assert (Back : forall (z : list Z) (x : Z + list Z), obindo (if negb (index ts m =? start_index) then sim_seek ts m3 (index ts m) else Val m3)
                 (fun m0 : sim => Val (m0, @inr Z (list Z) z)) = Val (m1, x) -> finv m1).
      { intros z x0 Hz. bind Hz m4 E4. inversion Hz; subst. destruct (negb (index ts m =? start_index)); [eapply f_seek; eauto | inversion E4; subst; auto]. }
      destruct alts as [|u [|v alts]]; [eapply Back; exact E | inversion E; subst; auto | eapply Back; exact E]. }
    destruct x as [x|alts]; [inversion H; subst; split; [auto | exact Logic.I]|].
    bind H c Ec. bind2 H m2 s0' E2. eapply f_full; [exact H|]. eapply f_compute_start; eauto.
  Qed.
  Lemma f_exec_loop n : forall p t m m' r,
    exec_loop ts a ctx sempred order alt_order hash dhash share fuel mode start_index precedence outer outer_stack decision atn_start_state n p t m = Val (m', r) ->
    finv m -> finv m' /\ settled r m'.
  Proof.
    induction n as [|n IH]; cbn [exec_loop]; intros p t m m' r H I; [discriminate|].
    bind H known Ek. bind2 H m1 d E. assert (I1 : finv m1) by (destruct known; [inversion E; subst; auto | eapply f_target; eauto]).
    destruct (d =? ERROR_DFA_STATE_REF); [eapply f_on_error; eauto|]. bind H st Est.
    destruct (d_full st && negb (is_sll mode)); [eapply f_on_conflict; eauto|].
    destruct (d_accept st); [eapply f_on_accept; eauto|].
    bind2 H m2 t2 E2. eapply IH; [exact H|]. destruct (negb (t =? TOKEN_EOF)); [|inversion E2; subst; auto].
    bind E2 m3 E3. eapply f_la; eauto. eapply f_consume; eauto.
  Qed.
  Lemma f_exec s m m' r :
    exec_atn ts a ctx sempred order alt_order hash dhash share fuel mode start_index precedence outer outer_stack decision atn_start_state s m = Val (m', r) ->
    finv m -> finv m' /\ settled r m'.
  Proof. unfold exec_atn. intros H I. bind2 H m1 t E. eapply f_exec_loop; [exact H|]. eapply f_la; eauto. Qed.

  Lemma f_start m m' r :
    start_state ts a ctx sempred order hash dhash share fuel start_index precedence outer atn_start_state m = Val (m', r) -> finv m -> finv m'.
  Proof.
    unfold start_state, make_start. intros H I. bind H known Ek. destruct known; [inversion H; subst; auto|].
    bind2 H m1 cs E. apply f_compute_start in E; auto. destruct (is_precedence_dfa (m_dfa m1)).
    - bind H fi Ef. bind2 H m2 fl E2. apply f_filter in E2; auto. bind H d Ed. bind2 H m3 r3 E3.
      destruct (f_add_state _ _ _ _ E3 E2) as [I3 _]. bind H d2 Ed2. inversion H; subst. exact I3.
    - bind2 H m2 r2 E2. destruct (f_add_state _ _ _ _ E2 E) as [I3 _]. inversion H; subst. exact I3.
  Qed.
End Frame.

Section Adaptive.
  Context {S : Type}.
  Variable ts : seek_ops S.
  Hypothesis L : seek_laws ts.

  (** The stream after a prediction: [Q] may say what marking gives; on success the
      stream is moved back and the mark released. *)
  Lemma adaptive_frame a ctx sempred order alt_order hash dhash share fuel mode precedence outer outer_stack decision start d input clock m r
      (Q : S -> Prop) :
    (forall s s' t, Q s -> s_lt (k_base ts) s 1 = Val (s', t) -> Q s') ->
    (forall s s', Q s -> s_consume (k_base ts) s = Val s' -> Q s') ->
    (forall s i s', Q s -> k_seek ts s i = Val s' -> Q s') ->
    Q (fst (k_mark ts input)) ->
    adaptive_predict ts a ctx sempred order alt_order hash dhash share fuel mode precedence outer outer_stack decision start d input clock = Val (m, r) ->
    s_index (k_base ts) (m_input m) = s_index (k_base ts) input /\
    Forall (fun i => i = s_index (k_base ts) input) (m_evals m) /\
    match r with
    | NoViableAlt _ _ => Q (m_input m)
    | Predicted _ => exists s, Q s /\ k_release ts s (snd (k_mark ts input)) = Val (m_input m)
    end.
  Proof.
    intros Q1 Q2 Q3 Q0 H. unfold adaptive_predict in H. destruct (k_mark ts input) as [s1 mk] eqn:Em. cbn [fst snd] in *.
    bind2 H m1 s0' E1. bind2 H m2 r2 E2.
    assert (I0 : finv (s_index (k_base ts) input) Q (Sim s1 d [] clock [] [])) by (split; cbn; auto).
    apply (f_start ts L a ctx sempred order hash dhash share fuel _ precedence outer start Q Q3) in E1; auto.
    apply (f_exec ts L a ctx sempred order alt_order hash dhash share fuel mode _ precedence outer outer_stack decision start Q Q1 Q2 Q3) in E2; auto.
    destruct E2 as [I2 St]. destruct r2 as [alt|x y].
    - bind H m3 E3. bind H s4 E4. inversion H; subst. destruct (f_seek ts L _ Q Q3 _ _ _ E3 I2) as [[I3 I3'] H3].
      cbn [with_sim_input m_input m_evals]. split; [|split; [exact I3' | eauto]].
      rewrite (sl_release ts L _ _ _ E4). exact H3.
    - inversion H; subst. destruct I2 as [I2 I2']. split; [exact St|]. auto.
  Qed.
End Adaptive.
