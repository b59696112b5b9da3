(** Every configuration, DFA state and result of a prediction carries an alternative of the decision. *)
From Coq Require Import ZArith List Bool Lia ZifyBool ZifyNat Permutation.
From Verif Require Import Outcome IntervalSetModel IntervalSetSpec IntervalSetProofs PredContextModel SemContextModel ConfigSetModel ConfigSetProofs DfaModel DfaProofs AtnModel Ll1Model ParserModel PredictModel PredictFrameProofs.
From Verif Require PredictDfaFrameProofs PredContextProofs.
Import ListNotations.
Local Open Scope Z_scope.
Local Open Scope outcome_scope.

Lemma a_pairs_ne ambig : forall l i k p, nth_error l k = Some p -> In (i + Z.of_nat k) ambig -> pair_preds ambig i l <> [].
Proof.
  induction l as [|q l IH]; intros i [|k] p N I; try discriminate; cbn [pair_preds].
  - replace (existsb (Z.eqb i) ambig) with true; [discriminate|]. symmetry. apply existsb_exists. exists (i + Z.of_nat 0). split; [exact I | lia].
  - destruct (existsb (Z.eqb i) ambig); [discriminate|]. eapply (IH (i + 1) k); [exact N|]. replace (i + 1 + Z.of_nat k) with (i + Z.of_nat (Datatypes.S k)) by lia. exact I.
Qed.

Section Alts.
  Variable P : Z -> Prop.
  Definition ain (cs : list pconfig) : Prop := Forall (fun c => P (c_alt c)) cs.

  Lemma ain_set_nth cs c : ain cs -> P (c_alt c) -> forall i, ain (set_nth i c cs).
  Proof using.
    intros H Hc. induction H as [|x cs Hx H IH]; intros [|i]; cbn; try constructor; auto. apply IH.
  Qed.
  Lemma ain_add hash s c k s' k' : add_cached unit unit_eqb hash s c k = Val (s', k') -> ain (configs s) -> P (c_alt c) -> ain (configs s').
  Proof using.
    unfold add_cached. intros H A Pc. destruct (read_only s); [discriminate|].
    destruct (lookup unit unit_eqb (set_hasher s) (config_lookup s) c) as [i|].
    - bind H old Ex. bind H ea Ea. bind H cb Ec. bind2 H mg k1 Em. inversion H; subst. cbn [configs]. apply ain_set_nth; [exact A|]. cbn.
      destruct (nth_error (configs s) i) eqn:N; [|discriminate]. inversion Ex; subst. apply nth_error_In in N.
      unfold ain in A. rewrite Forall_forall in A. exact (A _ N).
    - inversion H; subst. cbn. apply Forall_app. split; [exact A | repeat constructor; exact Pc].
  Qed.

  Section Search.
    Context {S : Type}.
    Variable ts : seek_ops S.
    Variable a : atn.
    Variable ctx : Type.
    Variable sempred : S -> option ctx -> Z -> Z -> bool.
    Variable order : list nat -> list sem -> list sem.
    Variable alt_order : list (list Z) -> list (list Z).
    Hypothesis Horder : forall l, Permutation (alt_order l) l.
    Variable hash : pctx -> Z.
    Variable fuel : nat.
    Variable mode : pmode.
    Variable start_index : Z.
    Variable precedence : Z.
    Variable outer : ctx.
    Variable outer_stack : list Z.
    Variable decision : Z.
    Variable atn_start_state : Z.
    Notation sim := (sim S).

    Lemma a_to m s c m' s' : add_to hash (S := S) m s c = Val (m', s') -> ain (configs s) -> P (c_alt c) -> ain (configs s').
    Proof using. unfold add_to. intros H. bind2 H s1 k E. inversion H; subst. eapply ain_add; eauto. Qed.
    Definition aset (s : pset) : Prop := ain (configs s) /\ unique_alt s = INVALID_ALT.
    Lemma aset_new full : aset (new_base_config_set unit full).
    Proof using. split; [constructor | reflexivity]. Qed.
    Lemma s_to m s c m' s' : add_to hash (S := S) m s c = Val (m', s') -> aset s -> P (c_alt c) -> aset s'.
    Proof using.
      intros H (A & U) Pc. split; [eapply a_to; eauto|]. unfold add_to in H. bind2 H s1 k E. inversion H; subst. unfold add_cached in E.
      destruct (read_only s); [discriminate|]. destruct (lookup unit unit_eqb (set_hasher s) (config_lookup s) c) as [i|].
      - bind E old Ex. bind E ea Ea. bind E cb Ec. bind2 E mg k1 Em. inversion E; subst. exact U.
      - inversion E; subst. exact U.
    Qed.
    Lemma a_plain s c s' : add_plain hash s c = Val s' -> ain (configs s) -> P (c_alt c) -> ain (configs s').
    Proof using. unfold add_plain. intros H. bind2 H s1 k E. inversion H; subst. eapply ain_add; eauto. Qed.

    Lemma a_predicate_step m c g p col full m' c' :
      predicate_step ts ctx sempred order start_index precedence outer m c g p col full = Val (m', Some c') -> c_alt c' = c_alt c.
    Proof using.
      unfold predicate_step. intros H. destruct col; [|inversion H; reflexivity]. destruct full; [|inversion H; reflexivity].
      bind H m1 E. destruct (eval_predicate ts ctx sempred precedence outer m1 p) as [m2 b]. bind H m3 E3. destruct b; inversion H; reflexivity.
    Qed.
    Lemma a_epsilon m c t col inc full eof m' c' :
      get_epsilon_target ts a ctx sempred order start_index precedence outer m c t col inc full eof = Val (m', Some c') -> c_alt c' = c_alt c.
    Proof using.
      intros H. destruct t; cbn [get_epsilon_target] in H; try discriminate.
      all: let b := fresh "b" in let E := fresh "E" in bind H b E; try (eapply a_predicate_step; eauto; fail); try (inversion H; subst; reflexivity).
      all: try (destruct b; [let y := fresh "y" in let E := fresh "E" in bind H y E|]; inversion H; subst; reflexivity).
      bind H c1 Ec. unfold rule_transition in Ec. bind Ec x Ex. inversion Ec; subst. inversion H; subst; reflexivity.
    Qed.

    Definition snd3 {A B C} (w : A * B * C) : B := snd (fst w).
    Definition rec_in (rec : rec_closure (S := S)) : Prop :=
      forall c b d w w', rec c b d w = Val w' -> P (c_alt c) -> aset (snd3 w) -> aset (snd3 w').
    Lemma a_edge rec c p col full d eof first t w w' : rec_in rec ->
      closure_edge ts a ctx sempred order start_index precedence outer atn_start_state rec c p col full d eof first t w = Val w' ->
      P (c_alt c) -> aset (snd3 w) -> aset (snd3 w').
    Proof using.
      intros R H Pc I. unfold closure_edge in H. bind H drop Ed. destruct drop; [inversion H; subst; auto|].
      destruct w as [[m cs] busy]. bind2 H m1 o E.
      destruct o as [c1|]; [|inversion H; subst; exact I]. apply a_epsilon in E.
      destruct (is_stop p).
      - destruct full; [discriminate|]. bind H c2 E2. destruct (busy_has busy c2); [inversion H; subst; exact I|].
        assert (Q : c_alt c2 = c_alt c1).
        { unfold leave_decision_rule in E2. bind E2 c3 E3. inversion E2; subst. cbn. destruct (is_precedence_dfa (m_dfa m1)); [|inversion E3; reflexivity].
          bind E3 o Eo. bind E3 s Es. inversion E3; subst. destruct (o =? st_rule s); reflexivity. }
        eapply R; [exact H | congruence | exact I].
      - destruct (negb (is_epsilon t) && busy_has busy c1); [inversion H; subst; exact I|]. eapply R; [exact H | congruence | exact I].
    Qed.
    Lemma a_edges rec c p col full d eof l : rec_in rec -> P (c_alt c) -> forall first w w',
      closure_edges ts a ctx sempred order start_index precedence outer atn_start_state rec c p col full d eof first l w = Val w' ->
      aset (snd3 w) -> aset (snd3 w').
    Proof using.
      intros R Pc. induction l as [|t l IH]; cbn [closure_edges]; intros first w w' H I; [inversion H; subst; auto|].
      bind H w1 E. eapply IH; [exact H|]. eapply a_edge; eauto.
    Qed.
    Lemma a_work rec c col full d eof w w' : rec_in rec ->
      closure_work ts a ctx sempred order hash start_index precedence outer atn_start_state rec c col full d eof w = Val w' ->
      P (c_alt c) -> aset (snd3 w) -> aset (snd3 w').
    Proof using.
      intros R H Pc I. unfold closure_work in H. bind H p Ep. bind H w1 E. eapply a_edges; [exact R | exact Pc | exact H |].
      destruct (st_eps_only p); [inversion E; subst; exact I|]. destruct w as [[m cs] busy]. bind2 E m1 cs1 E1.
      inversion E; subst. cbn. eapply s_to; eauto.
    Qed.
    Lemma a_return rec c x col d l : rec_in rec -> P (c_alt c) -> forall w w',
      return_to (S := S) rec c x col d l w = Val w' -> aset (snd3 w) -> aset (snd3 w').
    Proof using.
      intros R Pc. induction l as [|i l IH]; cbn [return_to]; intros w w' H I; [inversion H; subst; auto|].
      bind H r Er. destruct (r =? EMPTY_RETURN_STATE).
      - destruct (negb (Nat.eqb i (pc_length x - 1))); [discriminate|]. eapply IH; eauto.
      - bind H p Ep. bind H w1 E1. eapply IH; [exact H|]. eapply R; [exact E1 | exact Pc | exact I].
    Qed.
    Lemma a_css n : forall full eof, rec_in (closure_checking_stop_state ts a ctx sempred order hash start_index precedence outer atn_start_state n full eof).
    Proof using.
      induction n as [|n IH]; intros full eof c b d w w' H Pc I; cbn [closure_checking_stop_state] in H; [discriminate|].
      bind H s Es. destruct (is_stop s); [|eapply a_work; eauto].
      bind H x Ex. bind H e Ee. destruct (negb e).
      - bind H lst El. bind H w1 E1. eapply a_return; [apply IH | exact Pc | exact H |].
        destruct (lst =? EMPTY_RETURN_STATE); [|inversion E1; subst; exact I].
        destruct full; [|eapply a_work; eauto]. destruct w as [[m cs] busy]. bind2 E1 m1 cs1 E2. inversion E1; subst. cbn. eapply s_to; eauto.
      - destruct full; [|eapply a_work; eauto]. destruct w as [[m cs] busy]. bind2 H m1 cs1 E2. inversion H; subst. cbn. eapply s_to; eauto.
    Qed.
    Lemma a_closure c col full eof w w' :
      closure ts a ctx sempred order hash fuel start_index precedence outer atn_start_state c col full eof w = Val w' ->
      P (c_alt c) -> aset (snd3 w) -> aset (snd3 w').
    Proof using.
      unfold closure. intros H Pc I. bind H w1 E. destruct w1 as [[m cs] busy]. destruct (full && dips_into_outer_context cs); [discriminate|].
      inversion H; subst. eapply a_css in E; eauto.
    Qed.
    Lemma a_start_loop x full l : forall i m cs m' cs',
      start_loop ts a ctx sempred order hash fuel start_index precedence outer atn_start_state x full i l m cs = Val (m', cs') ->
      (forall k, i <= k < i + Z.of_nat (length l) -> P k) -> aset cs -> aset cs'.
    Proof using.
      induction l as [|t l IH]; cbn [start_loop]; intros i m cs m' cs' H Q I; [inversion H; subst; auto|].
      bind H g Eg. bind3 H m1 cs1 b1 E. eapply IH; [exact H | intros k Hk; apply Q; cbn [length]; lia |].
      apply a_closure in E; auto. cbn. apply Q. cbn [length]. lia.
    Qed.
    Lemma a_compute_start s st x full m m' cs : get_state a s = Val st -> (forall k, 1 <= k < 1 + Z.of_nat (length (st_trans st)) -> P k) ->
      compute_start_state ts a ctx sempred order hash fuel start_index precedence outer atn_start_state s x full m = Val (m', cs) -> aset cs.
    Proof using.
      unfold compute_start_state. intros E Q H. bind H st1 Es. rewrite E in Es. inversion Es; subst. eapply a_start_loop; eauto. apply aset_new.
    Qed.

    Lemma a_reach_trans c t l : forall m cs m' cs', reach_trans (S := S) a hash c t l m cs = Val (m', cs') -> P (c_alt c) ->
      aset cs -> aset cs'.
    Proof using.
      induction l as [|tr l IH]; cbn [reach_trans]; intros m cs m' cs' H Pc I; [inversion H; subst; auto|].
      bind H o Eo. bind2 H m1 cs1 E. eapply IH; [exact H | exact Pc |].
      destruct o; [bind E g Eg; eapply s_to; eauto | inversion E; subst; auto].
    Qed.
    Lemma a_reach_step t full l : forall m cs sk m' cs' sk', reach_step (S := S) a hash t full l m cs sk = Val (m', cs', sk') -> ain l ->
      aset cs -> ain sk -> aset cs' /\ ain sk'.
    Proof using.
      induction l as [|c l IH]; cbn [reach_step]; intros m cs sk m' cs' sk' H A I J; [inversion H; subst; auto|].
      inversion A; subst. bind H s Es. destruct (is_stop s).
      - bind H x Ex. bind H e Ee. destruct (negb e); [discriminate|]. eapply IH in H; eauto.
        destruct (full || (t =? TOKEN_EOF)); [apply Forall_app; split; [exact J | repeat constructor; assumption] | exact J].
      - bind2 H m1 cs1 E1. eapply IH in H; eauto. eapply a_reach_trans; eauto.
    Qed.
    Lemma a_remove_loop look l : forall m cs m' cs', remove_loop (S := S) a hash fuel look l m cs = Val (m', cs') -> ain l -> aset cs -> aset cs'.
    Proof using.
      induction l as [|c l IH]; cbn [remove_loop]; intros m cs m' cs' H A I; [inversion H; subst; auto|].
      inversion A; subst. bind H s Es. bind2 H m1 cs1 E. eapply IH; [exact H | assumption |].
      destruct (is_stop s); [eapply s_to; eauto|]. destruct (look && st_eps_only s); [|inversion E; subst; auto].
      bind E nx En. destruct (contains nx TOKEN_EPSILON); [|inversion E; subst; auto]. bind E e Ee. bind E es Ees. eapply s_to; eauto.
    Qed.
    Lemma a_remove cs look m m' cs' : remove_all_configs_not_in_rule_stop_state (S := S) a hash fuel cs look m = Val (m', cs') -> aset cs -> aset cs'.
    Proof using.
      unfold remove_all_configs_not_in_rule_stop_state. intros H I. bind H al Ea. destruct al; [inversion H; subst; auto|].
      eapply a_remove_loop; eauto; [apply I | apply aset_new].
    Qed.
    Lemma a_close_all full eof l : forall w w',
      close_all ts a ctx sempred order hash fuel start_index precedence outer atn_start_state full eof l w = Val w' ->
      ain l -> aset (snd3 w) -> aset (snd3 w').
    Proof using.
      induction l as [|c l IH]; cbn [close_all]; intros w w' H A I; [inversion H; subst; auto|].
      inversion A; subst. bind H w1 E. eapply IH; eauto. eapply a_closure; eauto.
    Qed.
    Lemma a_add_each l : forall m cs m' cs', add_each (S := S) hash l m cs = Val (m', cs') -> ain l -> aset cs -> aset cs'.
    Proof using.
      induction l as [|c l IH]; cbn [add_each]; intros m cs m' cs' H A I; [inversion H; subst; auto|].
      inversion A; subst. bind2 H m1 cs1 E. eapply IH; eauto. eapply s_to; eauto.
    Qed.
    Lemma a_reach from t full m m' cs :
      compute_reach_set ts a ctx sempred order hash fuel start_index precedence outer atn_start_state from t full m = Val (m', Some cs) ->
      ain from -> aset cs /\ configs cs <> [].
    Proof using.
      unfold compute_reach_set. intros H A. bind3 H m1 im sk E1. apply a_reach_step in E1 as (A1 & A2); [|exact A | apply aset_new | constructor].
      bind2 H m2 r2 E2. assert (B2 : aset r2).
      { match type of E2 with (if ?b then _ else _) = _ => destruct b end; [inversion E2; subst; exact A1|].
        bind3 E2 m3 r3 b3 E3. inversion E2; subst. apply a_close_all in E3; [exact E3 | apply A1 | apply aset_new]. }
      bind2 H m3 r3 E3. assert (B3 : aset r3) by (destruct (t =? TOKEN_EOF); [eapply a_remove; eauto | inversion E3; subst; exact B2]).
      bind H ad Ea. bind2 H m4 r4 E4. assert (B4 : aset r4) by (destruct ad; [eapply a_add_each; eauto | inversion E4; subst; exact B3]).
      destruct (configs r4) as [|c l] eqn:Q; cbn in H; [discriminate|]. inversion H; subst. split; [exact B4 | congruence].
    Qed.

    Lemma a_filter1 l : forall mp m cs m' cs' mp', filter_alt1 (S := S) order hash precedence l mp m cs = Val (m', cs', mp') -> ain l ->
      ain (configs cs) -> ain (configs cs').
    Proof using.
      induction l as [|c l IH]; cbn [filter_alt1]; intros mp m cs m' cs' mp' H A I; [inversion H; subst; auto|].
      inversion A; subst. destruct (negb (c_alt c =? 1)); [eapply IH; eauto|].
      destruct (eval_precedence precedence order [m_clock m] (c_sem c)) as [u|]; [|eapply IH; eauto].
      bind2 H m1 cs1 E. eapply IH; eauto. eapply a_to; eauto. destruct (negb (sem_eqb u (c_sem c))); assumption.
    Qed.
    Lemma a_filter2 l : forall mp cs cs', filter_others hash l mp cs = Val cs' -> ain l -> ain (configs cs) -> ain (configs cs').
    Proof using.
      induction l as [|c l IH]; cbn [filter_others]; intros mp cs cs' H A I; [inversion H; subst; auto|].
      inversion A; subst. destruct (c_alt c =? 1); [eapply IH; eauto|].
      match type of H with (if ?b then _ else _) = _ => destruct b end; [eapply IH; eauto|]. bind H cs1 E. eapply IH; eauto. eapply a_plain; eauto.
    Qed.
    Lemma a_filter cs m m' cs' : apply_precedence_filter (S := S) order hash precedence cs m = Val (m', cs') -> ain (configs cs) -> ain (configs cs').
    Proof using.
      unfold apply_precedence_filter. intros H A. bind3 H m1 o mp E. bind H o2 E2. inversion H; subst.
      eapply a_filter2; eauto. eapply a_filter1; eauto. constructor.
    Qed.

    (** ** Predicates *)
    Hypothesis HP : forall x, P x -> 1 <= x.
    Definition pred_slots (ambig : list Z) (v : list (option sem)) : Prop :=
      forall i s, nth_error v i = Some (Some s) -> In (Z.of_nat i) ambig /\ 1 <= Z.of_nat i.
    Lemma a_collect ambig l : forall m v m' v', collect_preds (S := S) order ambig l m v = Val (m', v') -> ain l -> pred_slots ambig v -> pred_slots ambig v'.
    Proof.
      induction l as [|c l IH]; cbn [collect_preds]; intros m v m' v' H A I; [inversion H; subst; auto|].
      inversion A; subst. destruct (existsb (Z.eqb (c_alt c)) ambig) eqn:Ex; [|eapply IH; eauto].
      bind H old Eo. bind H v1 Ev. eapply IH; [exact H | assumption |].
      destruct (vset v (c_alt c) _) as [v2|] eqn:Q; [|discriminate]. inversion Ev; subst v2. apply vset_ok in Q as (Rg & _ & G).
      intros i s N. specialize (G (Z.of_nat i)). unfold vget in G. destruct (Z.ltb_spec (Z.of_nat i) 0); [lia|]. rewrite Nat2Z.id in G. rewrite N in G.
      destruct (Z.eqb_spec (Z.of_nat i) (c_alt c)) as [E|E].
      - rewrite E. split; [|apply HP; assumption]. apply existsb_exists in Ex as (y & Iy & Ey). apply Z.eqb_eq in Ey. congruence.
      - eapply I. symmetry. exact G.
    Qed.
    Lemma a_pairs ambig : forall l i, Forall (fun p => In (fst p) ambig) (pair_preds ambig i l).
    Proof using.
      induction l as [|p l IH]; intros i; cbn [pair_preds]; [constructor|]. destruct (existsb (Z.eqb i) ambig) eqn:E; [|apply IH].
      constructor; [|apply IH]. cbn. apply existsb_exists in E as (y & Iy & Ey). apply Z.eqb_eq in Ey. congruence.
    Qed.
    Lemma a_preds ambig cs n m m' v : ain cs -> get_preds_for_ambig_alts (S := S) order ambig cs n m = Val (m', Some v) ->
      get_predicate_predictions ambig v <> [].
    Proof.
      unfold get_preds_for_ambig_alts. intros A H. bind2 H m1 w E. apply a_collect in E; [|exact A|].
      - destruct (forallb (fun s => sem_eqb s NONE) (map (fun o => match o with Some s => s | None => NONE end) w)) eqn:F; inversion H; subst. clear H.
        assert (X : exists i s, nth_error w i = Some (Some s) /\ sem_eqb s NONE = false).
        { clear -F. induction w as [|o w IH]; cbn in F; [discriminate|]. destruct o as [s|].
          - destruct (sem_eqb s NONE) eqn:Q; [destruct IH as (i & t & N & Y); [exact F|]; exists (Datatypes.S i), t; auto | exists O, s; auto].
          - cbn in F. destruct IH as (i & t & N & Y); [exact F|]; exists (Datatypes.S i), t; auto. }
        destruct X as (i & s & N & Qs). destruct (E _ _ N) as (Ia & Li). destruct i as [|i]; [lia|].
        unfold get_predicate_predictions. destruct w as [|o w]; [discriminate|]. cbn [map skipn nth_error] in *.
        assert (M : nth_error (map (fun o => match o with Some s => s | None => NONE end) w) i = Some s) by (rewrite nth_error_map, N; reflexivity).
        destruct (forallb (fun s => sem_eqb s NONE) (map (fun o => match o with Some s => s | None => NONE end) w)) eqn:F2.
        + rewrite forallb_forall in F2. apply nth_error_In in M. rewrite (F2 _ M) in Qs. discriminate.
        + eapply a_pairs_ne; [exact M|]. replace (1 + Z.of_nat i) with (Z.of_nat (Datatypes.S i)) by lia. exact Ia.
      - intros i s N. apply nth_error_In in N. apply repeat_spec in N. discriminate.
    Qed.
    Lemma a_predictions ambig v : Forall P ambig -> Forall (fun p => P (fst p)) (get_predicate_predictions ambig v).
    Proof using.
      intros A. unfold get_predicate_predictions. destruct (forallb _ _); [constructor|].
      eapply Forall_impl; [|apply a_pairs]. intros p I. rewrite Forall_forall in A. apply A, I.
    Qed.
    Lemma a_eval preds : forall m acc m' alts,
      eval_semantic_context ts ctx sempred precedence outer m preds acc = (m', alts) -> Forall (fun p => P (fst p)) preds -> Forall P acc -> Forall P alts.
    Proof using.
      assert (B : forall x l, P x -> Forall P l -> Forall P (bs_insert x l)).
      { intros x l Px H. apply Forall_forall. intros y Iy. apply bs_in in Iy as [->|Iy]; [exact Px|]. rewrite Forall_forall in H. auto. }
      induction preds as [|[x p] l IH]; cbn [eval_semantic_context]; intros m acc m' alts H A I; [inversion H; subst; auto|].
      inversion A; subst. destruct (sem_eqb p NONE); [eapply IH; eauto|].
      destruct (eval_predicate ts ctx sempred precedence outer m p) as [m1 r]. eapply IH; eauto. destruct r; auto.
    Qed.

    (** ** Sets of alternatives *)
    Lemma a_unique l : ain l -> forall x, x = INVALID_ALT \/ P x -> unique_alt_loop unit x l = INVALID_ALT \/ P (unique_alt_loop unit x l).
    Proof using.
      induction 1 as [|c l Pc A IH]; intros x Hx; cbn [unique_alt_loop]; [exact Hx|].
      destruct (x =? INVALID_ALT); [apply IH; auto|]. destruct (negb (c_alt c =? x)); [auto | apply IH, Hx].
    Qed.
    Definition subset_ok (l : list Z) : Prop := l <> [] /\ Forall P l.
    Lemma a_insert x l : P x -> Forall P l -> subset_ok (bs_insert x l).
    Proof using.
      intros Px H. split; [destruct l as [|y l]; cbn; [discriminate|]; destruct (x <? y); [discriminate|]; destruct (x =? y); discriminate|].
      apply Forall_forall. intros y Iy. apply bs_in in Iy as [->|Iy]; [exact Px|]. rewrite Forall_forall in H. auto.
    Qed.
    Lemma a_entry m : forall st x alt, P alt -> Forall (fun e => subset_ok (snd e)) m -> Forall (fun e => subset_ok (snd e)) (alts_entry m st x alt).
    Proof using.
      induction m as [|[[st' x'] l] m IH]; intros st x alt Pa H; cbn [alts_entry].
      - repeat constructor; auto. discriminate.
      - inversion H as [|? ? Q H']; subst. destruct ((st' =? st) && pctx_eqb x' x).
        + constructor; [|assumption]. cbn. apply a_insert; [exact Pa | apply Q].
        + constructor; [exact Q|]. apply IH; assumption.
    Qed.
    Lemma entry_ne m st x alt : alts_entry m st x alt <> [].
    Proof using. destruct m as [|[[st' x'] l] m]; cbn; [discriminate|]. destruct (_ && _); discriminate. Qed.
    Lemma a_to_alts l : forall m m', configs_to_alts unit m l = Val m' -> ain l -> Forall (fun e => subset_ok (snd e)) m ->
      Forall (fun e => subset_ok (snd e)) m' /\ (l <> [] \/ m <> [] -> m' <> []).
    Proof using.
      induction l as [|c l IH]; cbn [configs_to_alts]; intros m m' H A I; [inversion H; subst; tauto|].
      inversion A; subst. bind H x Ex. apply IH in H; [|assumption | apply a_entry; assumption]. destruct H as (Ha & Hb). split; [exact Ha|].
      intros _. apply Hb. right. apply entry_ne.
    Qed.
    Lemma a_subsets l ss : get_conflicting_alt_subsets unit alt_order l = Val ss -> ain l -> Forall subset_ok ss /\ (l <> [] -> ss <> []).
    Proof.
      unfold get_conflicting_alt_subsets. intros H A. bind H m E. inversion H; subst ss. apply a_to_alts in E as (E1 & E2); [|exact A | constructor].
      assert (X : Forall subset_ok (map snd m)) by (apply Forall_map; exact E1).
      split.
      - apply Forall_forall. intros s I. apply (Permutation_in _ (Horder _)) in I. rewrite Forall_forall in X. auto.
      - intros Ne. specialize (E2 (or_introl Ne)). intros Q. pose proof (Horder (map snd m)) as Pm. rewrite Q in Pm. apply Permutation_nil in Pm. destruct m; [congruence | discriminate].
    Qed.
    Lemma a_single ss : Forall subset_ok ss -> forall viable x r, single_viable_loop viable x ss = Val r -> x = INVALID_ALT \/ P x -> r = INVALID_ALT \/ P r.
    Proof using.
      induction 1 as [|s ss (Ne & Ps) A IH]; cbn [single_viable_loop]; intros vi x r H Hx; [inversion H; subst; auto|].
      bind H y Ey. destruct (Nat.ltb 1 (length (bs_insert y vi))); [inversion H; auto|]. eapply IH; eauto. right.
      destruct s; [discriminate|]. inversion Ey; subst. inversion Ps; assumption.
    Qed.
    (** equal, non-empty subsets have a single viable alternative *)
    Lemma a_single_equal s : subset_ok s -> forall ss vi x r, (forall s', In s' ss -> s' = s) -> (vi = [] \/ exists y, hd_error s = Some y /\ vi = [y]) -> (ss = [] -> P x) ->
      single_viable_loop vi x ss = Val r -> P r.
    Proof using.
      intros (Ne & Ps). destruct s as [|y s]; [congruence|]. inversion Ps; subst. induction ss as [|s1 ss IH]; intros vi x r Es V Px H'; cbn [single_viable_loop] in H'.
      - inversion H'; subst. auto.
      - rewrite (Es s1 (or_introl eq_refl)) in H'. cbn [hd_error unwrap obindo] in H'.
        assert (Q : bs_insert y vi = [y]) by (destruct V as [->|(z & Ez & ->)]; cbn; [reflexivity|]; inversion Ez; subst; rewrite Z.ltb_irrefl, Z.eqb_refl; reflexivity).
        rewrite Q in H'. cbn in H'. eapply IH in H'; eauto; [intros s' I; apply Es; right; exact I | right; exists y; auto].
    Qed.
    Lemma a_get_alts ss : Forall subset_ok ss -> Forall P (get_alts ss).
    Proof using.
      unfold get_alts. assert (X : forall xs l, Forall P xs -> Forall P l -> Forall P (bs_extend l xs)).
      { unfold bs_extend. induction xs as [|x xs IH]; intros l A B; cbn; [exact B|]. inversion A; subst. apply IH; [assumption|]. apply a_insert; assumption. }
      assert (Y : forall l, Forall subset_ok ss -> Forall P l -> Forall P (fold_left (fun acc it => bs_extend acc it) ss l)).
      { induction ss as [|s l IH]; intros acc A B; cbn; [exact B|]. inversion A as [|? ? (_ & Q) ?]; subst. apply IH; [assumption|]. apply X; assumption. }
      intros A. apply Y; [exact A | constructor].
    Qed.

    (** ** Errors *)
    Lemma a_split l : forall m ok bad m' ok' bad', split_validity ts ctx sempred hash precedence outer l m ok bad = Val (m', ok', bad') ->
      ain l -> ain (configs ok) -> ain (configs bad) -> ain (configs ok') /\ ain (configs bad').
    Proof using.
      induction l as [|c l IH]; cbn [split_validity]; intros m ok bad m' ok' bad' H A I J; [inversion H; subst; auto|].
      inversion A; subst. destruct (negb (sem_eqb (c_sem c) NONE)).
      - destruct (eval_predicate ts ctx sempred precedence outer m (c_sem c)) as [m1 r].
        destruct r; bind H s E; eapply IH in H; eauto; eapply a_plain; eauto.
      - bind H s E; eapply IH in H; eauto; eapply a_plain; eauto.
    Qed.
    Lemma a_finished l : forall s s', finished_alts a l s = Val s' -> ain l -> all_valid (intervals s) -> (forall x, member x (intervals s) -> P x) ->
      all_valid (intervals s') /\ forall x, member x (intervals s') -> P x.
    Proof using.
      induction l as [|c l IH]; cbn [finished_alts]; intros s s' H A V I; [inversion H; subst; auto|].
      inversion A; subst. bind H e Ee. bind H st Es. eapply IH in H; eauto.
      - destruct ((c_reach c >? 0) || (is_stop st && e)); [|exact V]. cbn. unfold add_interval_l. destruct (iv_length _ <? 0); [exact V|].
        apply add_loop_sound; [apply Z.le_refl | exact V].
      - intros x. destruct ((c_reach c >? 0) || (is_stop st && e)); [|apply I]. cbn. unfold add_interval_l. destruct (iv_length _ <? 0); [apply I|].
        intros M. apply add_loop_sound in M; [|apply Z.le_refl | exact V]. destruct M as [M|M]; [|apply I, M]. unfold in_range in M. cbn in M.
        replace x with (c_alt c) by (clear -M; lia). assumption.
    Qed.
    Lemma a_finished_alt cs x : get_alt_that_finished_decision_entry_rule a cs = Val x -> ain (configs cs) -> x = INVALID_ALT \/ P x.
    Proof using.
      unfold get_alt_that_finished_decision_entry_rule. intros H A. bind H s E. apply a_finished in E as (V & M); [|exact A | constructor | intros y (q & [] & _)].
      inversion H; subst. unfold get_min. destruct (intervals s) as [|r l] eqn:Q; [auto|]. right. apply M. exists r. split; [left; reflexivity|].
      inversion V as [|? ? Vr _]; subst. unfold in_range. clear -Vr. lia.
    Qed.
    Lemma a_syn cs m m' x : get_syn_valid_or_sem_invalid_alt ts a ctx sempred hash precedence outer cs m = Val (m', x) -> ain (configs cs) -> x = INVALID_ALT \/ P x.
    Proof using.
      unfold get_syn_valid_or_sem_invalid_alt. intros H A. bind3 H m1 ok bad E. apply a_split in E as (A1 & A2); [|exact A | constructor | constructor].
      bind H y Ey. destruct (negb (y =? INVALID_ALT)); [inversion H; subst; eapply a_finished_alt; eauto|].
      destruct (has_no (configs bad)); [inversion H; auto|]. bind H z Ez. inversion H; subst. eapply a_finished_alt; eauto.
    Qed.
    Definition rin (r : presult) : Prop := match r with Predicted x => P x | NoViableAlt _ _ => True end.
    Lemma a_no_viable m m' r : no_viable_alt ts start_index m = Val (m', r) -> rin r.
    Proof using. unfold no_viable_alt. intros H. bind H st E. bind2 H m1 o E1. bind H o1 E2. inversion H; subst. exact I. Qed.

    (** ** Full context *)
    Lemma a_full_loop n : forall prev t m m' r,
      full_loop ts a ctx sempred order alt_order hash fuel mode start_index precedence outer atn_start_state n prev t m = Val (m', r) ->
      ain (configs prev) -> rin r.
    Proof.
      induction n as [|n IH]; cbn [full_loop]; intros prev t m m' r H A; [discriminate|].
      bind2 H m1 o E1. destruct o as [reach|].
      - apply a_reach in E1 as ((A1 & _) & N1); [|exact A]. bind H ss Es. destruct (a_subsets _ _ Es A1) as (Ss & Sn). specialize (Sn N1).
        assert (U := a_unique _ A1 INVALID_ALT (or_introl eq_refl)). fold (get_unique_alt unit (configs reach)) in U.
        change (unique_alt (set_unique_alt reach (get_unique_alt unit (configs reach)))) with (get_unique_alt unit (configs reach)) in H.
        destruct (Z.eqb_spec (get_unique_alt unit (configs reach)) INVALID_ALT) as [Q|Q]; cbn [negb] in H.
        + bind H p Ep.
          assert (X : (if negb (is_exact mode) then negb (p =? INVALID_ALT) else all_subsets_conflict ss && all_subsets_equal ss) = true -> P p).
          { destruct (is_exact mode); cbn [negb] in Ep |- *.
            - destruct (all_subsets_conflict ss && all_subsets_equal ss) eqn:C; [intros _|discriminate]. apply andb_true_iff in C as (_ & C).
              destruct ss as [|s1 ss]; [congruence|]. inversion Ss; subst.
              eapply a_single_equal in Ep; eauto; [|congruence].
              intros s' [I|I]; [congruence|]. cbn in C. rewrite forallb_forall in C. specialize (C _ I). apply PredContextProofs.zlist_eqb_eq in C. congruence.
            - intros K. eapply a_single in Ep; eauto. destruct Ep as [->|Ep]; [discriminate | exact Ep]. }
          match type of X with ?b = true -> _ => destruct b end.
          * unfold finish_full in H. destruct (negb (unique_alt _ =? INVALID_ALT)); inversion H; subst; cbn; auto.
          * bind2 H m2 t2 E2. eapply IH; [exact H|]. exact A1.
        + destruct U as [U|U]; [contradiction|]. unfold finish_full in H. destruct (negb (unique_alt _ =? INVALID_ALT)); inversion H; subst; exact U.
      - bind H m2 E2. bind2 H m3 x E3. apply a_syn in E3; [|exact A]. destruct (Z.eqb_spec x INVALID_ALT) as [Q|Q]; cbn [negb] in H.
        + eapply a_no_viable; eauto.
        + inversion H; subst. destruct E3; [contradiction | assumption].
    Qed.
    Lemma a_full s m m' r :
      exec_atn_with_full_context ts a ctx sempred order alt_order hash fuel mode start_index precedence outer atn_start_state s m = Val (m', r) ->
      ain (configs s) -> rin r.
    Proof. unfold exec_atn_with_full_context. intros H A. bind H m1 E1. bind2 H m2 t E2. eapply a_full_loop; eauto. Qed.

    (** ** The DFA *)
    Variable dhash : list pconfig -> Z.
    Variable share : pctx -> pctx.
    Record dst (st : pstate) : Prop := {
      ds_configs : ain (configs (d_configs st));
      ds_preds : Forall (fun p => P (fst p)) (d_preds st);
      ds_accept : d_accept st = true -> d_preds st = [] -> P (d_prediction st)
    }.
    Definition din (d : pdfa) : Prop := forall i st, vget (dfa_states d) i = Some st -> dst st.

    Lemma din_new prec : din (dfa_new unit unit prec).
    Proof using.
      intros i st V. unfold vget in V. destruct (i <? 0); [discriminate|]. apply nth_error_In in V.
      destruct prec; cbn in V; repeat (destruct V as [<-|V]); try contradiction; constructor; cbn; try constructor; discriminate.
    Qed.
    Lemma share_alts l l' : share_all unit share l = Val l' -> ain l -> ain l'.
    Proof using.
      revert l'. induction l as [|c l IH]; cbn [share_all]; intros l' H A; [inversion H; constructor|].
      inversion A; subst. bind H x Ex. bind H r Er. inversion H; subst. constructor; [assumption | eapply IH; eauto].
    Qed.
    Lemma din_add d st d' r : p_add_dfastate unit unit_eqb unit dhash share d st = Val (d', r) -> din d -> dst st -> din d'.
    Proof using.
      unfold p_add_dfastate. intros H D K. destruct (d_number st =? ERROR_DFA_STATE_REF); [inversion H; subst; exact D|].
      bind H found Ef. destruct found as [i|]; [inversion H; subst; exact D|].
      bind H cs Ec. inversion H; subst. intros i x V. cbn [dfa_states] in V. rewrite vget_app in V.
      destruct (Z.ltb_spec i (Z.of_nat (length (dfa_states d)))); [eapply D; eauto|].
      unfold vget in V. destruct (_ <? 0); [discriminate|]. apply nth_error_In in V. destruct V as [<-|[]]. destruct K as [K1 K2 K3].
      constructor; cbn; [|exact K2 | exact K3].
      destruct (read_only (d_configs st)); [inversion Ec; subst; exact K1|]. bind Ec cs1 E1. inversion Ec; subst. unfold optimize_configs in E1.
      bind E1 l El. inversion E1; subst. cbn. eapply share_alts; eauto.
    Qed.
    Lemma din_set d i st st' l : vget (dfa_states d) i = Some st -> vset (dfa_states d) i st' = Some l -> (dst st -> dst st') -> din d ->
      forall j x, vget l j = Some x -> dst x.
    Proof using.
      intros V E K D j x Vj. apply vset_ok in E as (_ & _ & G). rewrite G in Vj. destruct (Z.eqb_spec j i); [|eapply D; eauto].
      inversion Vj; subst. apply K. eapply D; eauto.
    Qed.
    Lemma din_edge max d from t to d' : p_dfa_add_edge unit unit max d from t to = Val d' -> din d -> din d'.
    Proof using.
      unfold p_dfa_add_edge. intros H D. bind H st Es. bind H es Ee. bind H l El. inversion H; subst d'.
      destruct (vget (dfa_states d) from) eqn:V; [|discriminate]. inversion Es; subst. destruct (vset _ _ _) eqn:Q in El; [|discriminate]. inversion El; subst.
      intros j x Vj. cbn in Vj. eapply din_set; eauto. intros [K1 K2 K3]. constructor; assumption.
    Qed.

    Lemma a_decide reach st : decide_state a alt_order hash mode reach = Val st -> aset reach -> configs reach <> [] ->
      dst st /\ d_preds st = [] /\ configs (d_configs st) = configs reach /\
      (d_accept st = true -> subset_ok (get_conflicting_alts_or_unique_alt unit (d_configs st))).
    Proof.
      unfold decide_state. intros H (A & Un) Ne. pose proof (a_unique _ A INVALID_ALT (or_introl eq_refl)) as U. fold (get_unique_alt unit (configs reach)) in U.
      destruct (Z.eqb_spec (get_unique_alt unit (configs reach)) INVALID_ALT) as [Q|Q]; cbn [negb] in H.
      - bind H al Ea. bind H cf Ec. destruct cf.
        + bind H alts El. bind H hd0 Eh. inversion H; subst. destruct alts as [|y alts]; [discriminate|]. inversion Eh; subst.
          assert (X : Forall P (hd0 :: alts)).
          { unfold get_conflicting_alts in El. bind El ss Es. inversion El as [Q1]. apply a_get_alts. eapply a_subsets; eauto. }
          split; [constructor; cbn; [exact A | constructor | inversion X; auto]|]. split; [reflexivity|]. split; [reflexivity|]. intros _.
          unfold get_conflicting_alts_or_unique_alt. cbn. rewrite Un. cbn. split; [discriminate | exact X].
        + inversion H; subst. split; [constructor; cbn; [exact A | constructor | discriminate]|]. split; [reflexivity|]. split; [reflexivity|]. discriminate.
      - inversion H; subst. destruct U as [U|U]; [contradiction|].
        split; [constructor; cbn; [exact A | constructor | auto]|]. split; [reflexivity|]. split; [reflexivity|]. intros _.
        unfold get_conflicting_alts_or_unique_alt. cbn. destruct (Z.eqb_spec (get_unique_alt unit (configs reach)) INVALID_ALT); [contradiction|].
        split; [discriminate | repeat constructor; exact U].
    Qed.

    Variable start : atn_state.
    Hypothesis Hstart : get_state a atn_start_state = Val start.
    Hypothesis Hall : forall k, 1 <= k < 1 + Z.of_nat (length (st_trans start)) -> P k.

    Lemma dfa_collect ambig l : forall (m : sim) v m' v', collect_preds order ambig l m v = Val (m', v') -> m_dfa m' = m_dfa m.
    Proof using.
      induction l as [|c l IH]; cbn [collect_preds]; intros m v m' v' H; [inversion H; reflexivity|].
      destruct (existsb (Z.eqb (c_alt c)) ambig); [|eapply IH; eauto]. bind H old Eo. bind H v1 Ev. apply IH in H. exact H.
    Qed.
    Lemma dfa_filter1 l : forall mp (m : sim) cs m' cs' mp', filter_alt1 order hash precedence l mp m cs = Val (m', cs', mp') -> m_dfa m' = m_dfa m.
    Proof using.
      induction l as [|c l IH]; cbn [filter_alt1]; intros mp m cs m' cs' mp' H; [inversion H; reflexivity|].
      destruct (negb (c_alt c =? 1)); [eapply IH; eauto|].
      destruct (eval_precedence precedence order [m_clock m] (c_sem c)) as [u|]; [|eapply IH in H; exact H].
      bind2 H m1 cs1 E. apply IH in H. rewrite H. eapply PredictDfaFrameProofs.f_add in E; [exact E | reflexivity].
    Qed.

    Lemma a_predicated st n m m' st' : predicate_dfa_state (S := S) order st n m = Val (m', st') -> dst st -> d_preds st = [] -> d_accept st = true ->
      subset_ok (get_conflicting_alts_or_unique_alt unit (d_configs st)) -> dst st' /\ m_dfa m' = m_dfa m /\ (d_preds st' <> [] \/ P (d_prediction st')).
    Proof.
      unfold predicate_dfa_state. intros H [K1 K2 K3] Np Ac (Ne & Pa). bind2 H m1 o E.
      assert (D : m_dfa m1 = m_dfa m) by (unfold get_preds_for_ambig_alts in E; bind2 E m2 v E2; inversion E; subst; eapply dfa_collect; eauto).
      inversion H; subst. clear H. destruct o as [v|].
      - pose proof (a_preds _ _ _ _ _ _ K1 E) as Nv. split; [|split; [exact D | left; exact Nv]].
        constructor; cbn; [exact K1 | apply a_predictions, Pa | intros _ Q; contradiction].
      - assert (X : P match get_conflicting_alts_or_unique_alt unit (d_configs st) with x :: _ => x | [] => 0 end).
        { destruct (get_conflicting_alts_or_unique_alt unit (d_configs st)); [congruence | inversion Pa; assumption]. }
        split; [|split; [exact D | right; exact X]]. constructor; cbn; [exact K1 | exact K2 | intros _ _; exact X].
    Qed.

    Lemma a_get m i st : dfa_get (S := S) m i = Val st -> din (m_dfa m) -> dst st.
    Proof using. unfold dfa_get. intros H D. destruct (vget (dfa_states (m_dfa m)) i) eqn:V; [|discriminate]. inversion H; subst. eapply D; eauto. Qed.

    Lemma a_target previous t m m' r :
      compute_target_state ts a ctx sempred order alt_order hash dhash share fuel mode start_index precedence outer decision atn_start_state previous t m = Val (m', r) ->
      din (m_dfa m) -> din (m_dfa m').
    Proof.
      unfold compute_target_state. intros H D. bind H prev Ep. bind2 H m1 o E1.
      assert (D1 : m_dfa m1 = m_dfa m) by (eapply PredictDfaFrameProofs.f_reach; [exact E1 | reflexivity]).
      destruct o as [reach|].
      - apply a_reach in E1 as (A1 & N1); [|eapply ds_configs, a_get; eauto].
        bind H st Es. apply a_decide in Es as (K & Kp & Kc & Ka); [|exact A1 | exact N1].
        bind2 H m2 st2 E2. assert (X : dst st2 /\ m_dfa m2 = m_dfa m1).
        { destruct (d_accept st) eqn:Ac; cbn [andb] in E2; [|inversion E2; subst; auto].
          destruct (has_semantic_context (d_configs st)); [|inversion E2; subst; auto].
          bind E2 ds Eds. bind E2 s Ess. bind2 E2 m3 st3 E3. inversion E2; subst. clear E2.
          apply a_predicated in E3 as (K3 & D3 & Z3); auto.
          split; [|exact D3]. destruct (d_preds st3) as [|p l] eqn:Q; cbn [has_no]; [exact K3|].
          destruct K3 as [Q1 Q2 Q3]. constructor; cbn; [exact Q1 | rewrite <- Q; exact Q2 | intros _ Y; discriminate]. }
        destruct X as (K2 & D2). bind2 H m3 r3 E3. bind H m4 E4. inversion H; subst. clear H.
        unfold add_state in E3. bind2 E3 d3 r4 E5. inversion E3; subst. unfold add_edge in E4. bind E4 d4 E6. inversion E4; subst. cbn in *.
        eapply din_edge; [exact E6|]. eapply din_add; [exact E5 | | exact K2]. rewrite D2, D1. exact D.
      - bind H m2 E2. inversion H; subst. unfold add_edge in E2. bind E2 d4 E6. inversion E2; subst. cbn. eapply din_edge; [exact E6|]. rewrite D1. exact D.
    Qed.

    Lemma a_on_error p m m' r : on_error ts a ctx sempred hash start_index precedence outer p m = Val (m', r) -> din (m_dfa m) -> rin r.
    Proof using.
      unfold on_error. intros H D. bind H prev Ep. bind2 H m1 err E1. bind H m2 E2. bind2 H m3 x E3.
      apply a_syn in E3; [|eapply ds_configs, a_get; eauto]. inversion H; subst. destruct (Z.eqb_spec x INVALID_ALT); cbn.
      - eapply a_no_viable; eauto.
      - destruct E3; [contradiction | assumption].
    Qed.
    Lemma a_on_accept st m m' r : on_accept ts ctx sempred start_index precedence outer st m = Val (m', r) -> dst st -> d_accept st = true -> rin r.
    Proof using.
      unfold on_accept. intros H [K1 K2 K3] Ac. destruct (d_preds st) as [|p l] eqn:Q; [inversion H; subst; cbn; auto|].
      bind H m1 E1. destruct (eval_semantic_context ts ctx sempred precedence outer m1 (p :: l) []) as [m2 alts] eqn:E2.
      apply a_eval in E2; [|exact K2 | constructor]. destruct alts as [|x [|y alts]].
      - eapply a_no_viable; eauto.
      - inversion H; subst. inversion E2; assumption.
      - inversion H; subst. inversion E2; assumption.
    Qed.
    Lemma a_on_conflict st m m' r :
      on_conflict ts a ctx sempred order alt_order hash fuel mode start_index precedence outer outer_stack atn_start_state st m = Val (m', r) -> dst st -> rin r.
    Proof.
      unfold on_conflict. intros H [K1 K2 K3]. bind2 H m1 q E1.
      assert (X : match q with inl x => P x | inr _ => True end).
      { destruct (d_preds st) as [|p l] eqn:Q; [inversion E1; exact I|]. bind E1 m2 E2.
        destruct (eval_semantic_context ts ctx sempred precedence outer m2 (p :: l) []) as [m3 alts] eqn:E3.
        apply a_eval in E3; [|exact K2 | constructor]. destruct alts as [|x [|y alts]].
        - bind E1 m4 E4. inversion E1; exact I.
        - inversion E1; subst. inversion E3; assumption.
        - bind E1 m4 E4. inversion E1; exact I. }
      destruct q as [x|alts]; [inversion H; subst; exact X|]. bind H x Ex. bind2 H m2 cs2 E2.
      eapply a_full; [exact H|]. eapply a_compute_start in E2; [|exact Hstart | exact Hall]. apply E2.
    Qed.

    Lemma a_exec_loop n : forall previous token m m' r,
      exec_loop ts a ctx sempred order alt_order hash dhash share fuel mode start_index precedence outer outer_stack decision atn_start_state n previous token m = Val (m', r) ->
      din (m_dfa m) -> rin r /\ din (m_dfa m').
    Proof.
      induction n as [|n IH]; cbn [exec_loop]; intros previous token m m' r H D; [discriminate|].
      bind H known Ek. bind2 H m1 d E1. assert (D1 : din (m_dfa m1)) by (destruct known; [inversion E1; subst; exact D | eapply a_target; eauto]).
      destruct (d =? ERROR_DFA_STATE_REF).
      - split; [eapply a_on_error; eauto|]. eapply PredictDfaFrameProofs.f_on_error in H; [|reflexivity]. unfold PredictDfaFrameProofs.finv in H. rewrite H. exact D1.
      - bind H st Es. pose proof (a_get _ _ _ Es D1) as K. destruct (d_full st && negb (is_sll mode)).
        + split; [eapply a_on_conflict; eauto|]. eapply PredictDfaFrameProofs.f_on_conflict in H; [|reflexivity]. unfold PredictDfaFrameProofs.finv in H. rewrite H. exact D1.
        + destruct (d_accept st) eqn:Ac.
          * split; [eapply a_on_accept; eauto|]. eapply PredictDfaFrameProofs.f_on_accept in H; [|reflexivity]. unfold PredictDfaFrameProofs.finv in H. rewrite H. exact D1.
          * bind2 H m2 t2 E2. eapply IH; [exact H|].
            destruct (negb (token =? TOKEN_EOF)); [|inversion E2; subst; exact D1]. bind E2 m3 E3.
            eapply PredictDfaFrameProofs.f_consume in E3; [|reflexivity]. eapply PredictDfaFrameProofs.f_la in E2; [|reflexivity].
            unfold PredictDfaFrameProofs.finv in *. rewrite E2, E3. exact D1.
    Qed.

    Lemma a_start m m' r :
      start_state ts a ctx sempred order hash dhash share fuel start_index precedence outer atn_start_state m = Val (m', r) ->
      din (m_dfa m) -> din (m_dfa m').
    Proof.
      unfold start_state. intros H D. bind H known Ek. destruct known as [i|]; [inversion H; subst; exact D|].
      unfold make_start in H. bind2 H m1 cs E1. pose proof E1 as E1'. eapply a_compute_start in E1; [|exact Hstart | exact Hall].
      eapply PredictDfaFrameProofs.f_compute_start in E1'; [|reflexivity]. unfold PredictDfaFrameProofs.finv in E1'.
      assert (New : forall cs, ain (configs cs) -> dst (new_dfastate unit unit 0 cs)) by (intros cs' A; constructor; cbn; [exact A | constructor | discriminate]).
      destruct (is_precedence_dfa (m_dfa m1)).
      - bind H f0 Ef. bind2 H m2 cs2 E2. bind H d3 E3. bind2 H m4 r4 E4. bind H d5 E5. inversion H; subst. cbn. clear H.
        assert (A2 : ain (configs cs2)) by (eapply a_filter; eauto; apply E1).
        assert (D2 : m_dfa m2 = m_dfa m).
        { unfold apply_precedence_filter in E2. bind3 E2 m6 o6 mp E6. bind E2 o7 E7. inversion E2; subst. apply dfa_filter1 in E6. congruence. }
        assert (D3 : din d3).
        { unfold set_configs_of in E3. bind E3 st Es. bind E3 l El. inversion E3; subst. destruct (vget (dfa_states (m_dfa m2)) f0) eqn:V; [|discriminate]. inversion Es; subst.
          destruct (vset _ _ _) eqn:Q in El; [|discriminate]. inversion El; subst. intros j x Vj. cbn in Vj.
          eapply (din_set (m_dfa m2)); eauto; [|rewrite D2; exact D]. intros [K1 K2 K3]. constructor; cbn; [apply E1 | exact K2 | exact K3]. }
        assert (D4 : din (m_dfa m4)).
        { unfold add_state in E4. bind2 E4 d6 r6 E6. inversion E4; subst. cbn. eapply din_add; [exact E6 | exact D3 | apply New, A2]. }
        unfold set_precedence_start_state in E5. destruct (negb (is_precedence_dfa (m_dfa m4))); [discriminate|].
        destruct (precedence <? 0); [inversion E5; subst; exact D4|]. destruct (s0 (m_dfa m4)) as [i|]; [|inversion E5; subst; exact D4].
        bind E5 st Es. bind E5 ed Ee. bind E5 l El. inversion E5; subst. destruct (vget (dfa_states (m_dfa m4)) i) eqn:V; [|discriminate]. inversion Es; subst.
        destruct (vset (dfa_states (m_dfa m4)) i _) eqn:Q in El; [|discriminate]. inversion El; subst. intros j x Vj. cbn in Vj. eapply din_set; eauto.
        intros [K1 K2 K3]. constructor; assumption.
      - bind2 H m2 r2 E2. inversion H; subst. cbn. unfold add_state in E2. bind2 E2 d6 r6 E6. inversion E2; subst. intros j x V. cbn in V.
        eapply (din_add _ _ _ _ E6); [rewrite E1'; exact D | apply New, E1 | exact V].
    Qed.
  End Search.

  Lemma a_adaptive (S : Type) (ts : seek_ops S) a ctx sempred order alt_order hash dhash share fuel mode precedence (outer : ctx) stack decision start_number start d (input : S) clock m r :
    (forall l, Permutation (alt_order l) l) -> (forall x, P x -> 1 <= x) ->
    get_state a start_number = Val start -> (forall k, 1 <= k < 1 + Z.of_nat (length (st_trans start)) -> P k) ->
    adaptive_predict ts a ctx sempred order alt_order hash dhash share fuel mode precedence outer stack decision start_number d input clock = Val (m, r) ->
    din d -> rin r /\ din (m_dfa m).
  Proof.
    intros Ho HP Hs Ha H D. unfold adaptive_predict in H. destruct (k_mark ts input) as [i1 mk]. bind2 H m1 s1 E1.
    eapply a_start in E1; eauto. bind2 H m2 r2 E2. unfold exec_atn in E2. bind2 E2 m3 t3 E3.
    eapply PredictDfaFrameProofs.f_la in E3; [|reflexivity]. unfold PredictDfaFrameProofs.finv in E3.
    eapply a_exec_loop in E2; eauto; [|rewrite E3; exact E1]. destruct E2 as (R & D2). destruct r2 as [x|t0 t1].
    - bind H m4 E4. bind H i4 E5. inversion H; subst. cbn. split; [exact R|]. eapply PredictDfaFrameProofs.f_seek in E4; [|reflexivity]. unfold PredictDfaFrameProofs.finv in E4. rewrite E4. exact D2.
    - inversion H; subst. auto.
  Qed.
End Alts.
