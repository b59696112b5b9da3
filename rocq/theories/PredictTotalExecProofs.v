(** The phases of a prediction come back. *)
From Coq Require Import ZArith List Bool Lia Sorted Permutation ZifyBool ZifyNat.
From Verif Require Import Outcome IntervalSetModel PredContextModel PredContextSpec PredContextProofs SemContextModel SemContextProofs.
From Verif Require Import ConfigSetModel ConfigSetSpec ConfigSetProofs ConfigSetProps DfaModel DfaProofs AtnModel AtnSpec AtnProofs Ll1Model Ll1Spec ParserModel PredictModel.
From Verif Require Import PredictLLSpec PredictLLSetProofs PredictLLDfaProofs PredictTotalSpec PredictTotalBaseProofs PredictTotalContextProofs PredictTotalStackProofs PredictTotalSetProofs PredictTotalClosureProofs PredictTotalReachProofs PredictTotalDfaProofs.
Import ListNotations.
Local Open Scope Z_scope.
Local Open Scope outcome_scope.

Lemma tot_late {A} (f g : nat -> outcome A) P n1 : (forall n, (n1 <= n)%nat -> g n = f n) -> tot f P -> tot g P.
Proof. intros E (r & Hr & n0 & H). exists r. split; [exact Hr|]. exists (Nat.max n0 n1). intros n Hn. rewrite E by lia. apply H. lia. Qed.

Section Parts.
  Context {S : Type}.
  Variable ts : seek_ops S.
  Variable a : atn.
  Variable main : Z.
  Hypothesis G : sound_grammar a.
  Variable nalts : Z.
  Variable ctx : Type.
  Variable sempred : S -> option ctx -> Z -> Z -> bool.
  Variable order : list nat -> list sem -> list sem.
  Variable alt_order : list (list Z) -> list (list Z).
  Hypothesis Halt : forall l, Permutation (alt_order l) l.
  Variable hash : pctx -> Z.
  Hypothesis Hh : forall x, wf x -> hash x <> 0.
  Variable mode : pmode.
  Variable precedence : Z.
  Variable outer : ctx.
  Notation sim := (sim S).

  (** only clocks and notes change *)
  Definition calm (m m' : sim) : Prop := m_input m' = m_input m /\ m_dfa m' = m_dfa m /\ m_cache m' = m_cache m.
  Lemma calm_refl m : calm m m.
  Proof. split; [reflexivity|]. split; reflexivity. Qed.
  Lemma calm_trans m m1 m2 : calm m m1 -> calm m1 m2 -> calm m m2.
  Proof. intros (A & B & C) (D & E & F). split; [congruence|]. split; congruence. Qed.
  Lemma calm_tick m : calm m (tick m).
  Proof. split; [reflexivity|]. split; reflexivity. Qed.

  Lemma good_of full fin l : Forall (ckind a main nalts full fin) l -> Forall (good_config (X := unit)) l.
  Proof. apply Forall_impl. intros c ((x & E & F & _) & _). exists x. split; [exact E | eapply fits_wf; eauto]. Qed.
  Lemma alts_of full fin l : Forall (ckind a main nalts full fin) l -> forall c, In c l -> 1 <= c_alt c <= nalts.
  Proof. intros H c I. rewrite Forall_forall in H. destruct (H _ I) as ((x & _ & _ & _ & A & _) & _). exact A. Qed.
  Lemma alts_valid full fin l : Forall (ckind a main nalts full fin) l -> forall c, In c l -> c_alt c <> INVALID_ALT.
  Proof. intros H c I. pose proof (alts_of _ _ _ H c I). unfold INVALID_ALT. lia. Qed.

  (** ** Deciding a state *)
  Notation decide_state := (decide_state a alt_order hash mode).
  Lemma decide_total reach t : configs reach <> [] -> sok a main nalts false false reach ->
    (sok a main nalts false true reach \/ get_unique_alt unit (configs reach) <> INVALID_ALT) ->
    (t = TOKEN_EOF -> Forall (at_stop a) (configs reach)) ->
    exists st, decide_state reach = Val st /\ stok a main nalts st /\ d_number st = 0 /\ d_edges st = [] /\ (t = TOKEN_EOF -> d_accept st = true).
  Proof.
    intros Ne So Fin Eof. unfold PredictModel.decide_state. pose proof (so_configs _ _ _ _ _ _ So) as Hc. pose proof (so_full _ _ _ _ _ _ So) as Hf.
    destruct (so_plain _ _ _ _ _ _ So) as (Pu & Pc).
    destruct (Z.eqb_spec (get_unique_alt unit (configs reach)) INVALID_ALT) as [U|U]; cbn [negb].
    - assert (So' : sok a main nalts false true reach) by (destruct Fin as [F|F]; [exact F | destruct (F U)]). clear Fin.
      destruct (all_stop_total a main nalts false (configs reach) (kinds_cok _ _ _ _ _ _ Hc)) as (b & -> & Hb). cbn [obindo].
      assert (Cf : exists b', (if b then Val true else has_sll_conflict_terminating_prediction unit unit_eqb hash alt_order tt mode reach) = Val b' /\ (b = true -> b' = true)).
      { destruct b; [eauto|]. destruct (C27_sll_termination unit unit_eqb hash alt_order tt mode reach Halt Hh (good_of _ _ _ Hc)) as (cs & b' & E & _).
        exists b'. split; [exact E | discriminate]. }
      destruct Cf as (b' & -> & Hb'). cbn [obindo]. destruct b'.
      + destruct (C27_analyses unit alt_order (configs reach) Halt (good_of _ _ _ Hc)) as (ss & _ & _ & _ & _ & (_ & In_) & Ea). rewrite Ea. cbn [obindo].
        destruct (configs reach) as [|c l] eqn:Ec; [destruct (Ne eq_refl)|].
        assert (I : In (c_alt c) (get_alts ss)) by (apply In_; exists c; split; [left; reflexivity | reflexivity]).
        destruct (get_alts ss) as [|x r] eqn:Eg; [destruct I|]. cbn [hd_error unwrap obindo]. eexists. split; [reflexivity|].
        split; [|cbn; auto]. constructor; cbn [d_configs d_accept set_conflicting_alts full_ctx configs unique_alt conflicting_alts]; try rewrite Ec; auto.
        * discriminate.
        * split; [right; discriminate | reflexivity].
      + eexists. split; [reflexivity|]. split; [|cbn; split; [reflexivity|]; split; [reflexivity|]; intros Et; apply Eof, Hb, Hb' in Et; discriminate].
        constructor; cbn [new_dfastate d_configs d_accept]; auto.
        * intros _. apply (so_configs _ _ _ _ _ _ So').
        * rewrite Pu, Pc. split; [discriminate | intros [H|H]; destruct (H eq_refl)].
    - eexists. split; [reflexivity|]. split; [|cbn; auto]. constructor; cbn [d_configs d_accept set_unique_alt full_ctx configs unique_alt conflicting_alts]; auto.
      + discriminate.
      + split; auto.
  Qed.

  (** ** Predicates of a decided state *)
  Lemma collect_total ambig : forall l (m : sim) v, (forall c, In c l -> 1 <= c_alt c <= nalts) -> Z.of_nat (length v) = nalts + 1 ->
    exists m' v', collect_preds order ambig l m v = Val (m', v') /\ calm m m'.
  Proof.
    induction l as [|c l IH]; intros m v Hl Hv; cbn [collect_preds]; [eauto using calm_refl|].
    pose proof (Hl c (or_introl eq_refl)) as Hc. destruct (existsb (Z.eqb (c_alt c)) ambig).
    - destruct (vget_some v (c_alt c) ltac:(lia)) as (o & ->). cbn [unwrap obindo].
      match goal with |- context [vset v (c_alt c) ?x] => destruct (vset_some v (c_alt c) x ltac:(lia)) as (v' & Ev) end. rewrite Ev. cbn [unwrap obindo].
      apply vset_ok in Ev as (_ & L & _). destruct (IH (tick m) v') as (m2 & v2 & E & C); [intros x I; apply Hl; right; exact I | lia|].
      exists m2, v2. split; [exact E|]. eapply calm_trans; [apply calm_tick | exact C].
    - apply IH; [intros x I; apply Hl; right; exact I | exact Hv].
  Qed.
  Lemma predicate_total st n (m : sim) : stok a main nalts st -> Z.of_nat n = nalts ->
    exists m' st', predicate_dfa_state order st n m = Val (m', st') /\ calm m m' /\ d_number st' = d_number st /\ d_edges st' = d_edges st /\
      d_accept st' = d_accept st /\ d_configs st' = d_configs st.
  Proof.
    intros So Hn. unfold predicate_dfa_state, get_preds_for_ambig_alts.
    destruct (collect_total (get_conflicting_alts_or_unique_alt unit (d_configs st)) (configs (d_configs st)) m (repeat None (Datatypes.S n))) as (m' & v & E & C).
    { apply (alts_of _ _ _ (st_any _ _ _ _ So)). }
    { rewrite repeat_length. lia. }
    rewrite E. cbn [obindo]. eexists m', _. split; [reflexivity|]. split; [exact C|]. destruct (forallb _ _); cbn; auto.
  Qed.
  Lemma stok_same st st' : stok a main nalts st -> d_accept st' = d_accept st -> d_configs st' = d_configs st -> stok a main nalts st'.
  Proof. intros [A B C D] E F. constructor; rewrite ?E, ?F; assumption. Qed.

  (** ** Evaluating predicates *)
  Lemma eval_calm : forall l (m : sim) acc m' r, eval_semantic_context ts ctx sempred precedence outer m l acc = (m', r) -> calm m m'.
  Proof.
    induction l as [|(x & p) l IH]; intros m acc m' r H; cbn [eval_semantic_context] in H; [inversion H; apply calm_refl|].
    destruct (sem_eqb p NONE); [eauto|]. unfold eval_predicate in H. apply IH in H. destruct H as (A & B & C). split; [exact A|]. split; [exact B | exact C].
  Qed.
  Lemma split_total full : forall l (m : sim) ok bad, Forall (ckind a main nalts full false) l -> sok a main nalts full false ok -> sok a main nalts full false bad ->
    exists m' ok' bad', split_validity ts ctx sempred hash precedence outer l m ok bad = Val (m', ok', bad') /\ calm m m' /\
      sok a main nalts full false ok' /\ sok a main nalts full false bad'.
  Proof.
    induction l as [|c l IH]; intros m ok bad Hl So Sb; cbn [split_validity].
    - exists m, ok, bad. split; [reflexivity|]. split; [apply calm_refl|]. split; assumption.
    - inversion Hl as [|? ? Hc Hl']; subst. unfold eval_predicate.
      destruct (add_plain_total a main nalts hash Hh full false ok c So Hc) as (ok1 & Eo & So1 & _).
      destruct (add_plain_total a main nalts hash Hh full false bad c Sb Hc) as (bad1 & Eb & Sb1 & _).
      destruct (negb (sem_eqb (c_sem c) NONE)).
      + destruct (evaluate ctx (sempred (m_input m)) precedence outer (c_sem c)).
        * rewrite Eo. cbn [obindo]. match goal with |- context [split_validity _ _ _ _ _ _ _ ?m1] => destruct (IH m1 ok1 bad Hl' So1 Sb) as (m' & ok' & bad' & E & C & S1 & S2) end.
          exists m', ok', bad'. split; [exact E|]. split; [|split; assumption]. destruct C as (C1 & C2 & C3). split; [exact C1|]. split; [exact C2 | exact C3].
        * rewrite Eb. cbn [obindo]. match goal with |- context [split_validity _ _ _ _ _ _ _ ?m1] => destruct (IH m1 ok bad1 Hl' So Sb1) as (m' & ok' & bad' & E & C & S1 & S2) end.
          exists m', ok', bad'. split; [exact E|]. split; [|split; assumption]. destruct C as (C1 & C2 & C3). split; [exact C1|]. split; [exact C2 | exact C3].
      + rewrite Eo. cbn [obindo]. apply IH; assumption.
  Qed.
  Lemma finished_total full : forall l alts, Forall (ckind a main nalts full false) l -> exists r, finished_alts a l alts = Val r.
  Proof.
    induction l as [|c l IH]; intros alts Hl; cbn [finished_alts]; [eauto|]. inversion Hl as [|? ? Hc Hl']; subst.
    pose proof (proj1 Hc) as (x & -> & Fx & _). assert (exists e, has_empty_path x = Val e) as (e & ->).
    { destruct (lookups_in_range x (fits_wf _ _ _ _ _ Fx)) as (_ & _ & e & Ee & _). eauto. }
    cbn [obindo]. destruct (cok_get a main nalts full c (proj1 Hc)) as (s & -> & _). cbn [obindo]. apply IH, Hl'.
  Qed.
  Lemma syn_valid_total full cs (m : sim) : Forall (ckind a main nalts full false) (configs cs) -> full_ctx cs = full \/ configs cs = [] ->
    exists m' alt, get_syn_valid_or_sem_invalid_alt ts a ctx sempred hash precedence outer cs m = Val (m', alt) /\ calm m m'.
  Proof.
    intros Hc Hf. unfold get_syn_valid_or_sem_invalid_alt.
    assert (Sp : exists m' ok bad, split_validity ts ctx sempred hash precedence outer (configs cs) m (new_base_config_set unit (full_ctx cs)) (new_base_config_set unit (full_ctx cs))
        = Val (m', ok, bad) /\ calm m m' /\ Forall (ckind a main nalts full false) (configs ok) /\ Forall (ckind a main nalts full false) (configs bad)).
    { destruct Hf as [<-|E].
      - destruct (split_total (full_ctx cs) (configs cs) m _ _ Hc (sok_empty _ _ _ _ _) (sok_empty _ _ _ _ _)) as (m' & ok & bad & E & C & S1 & S2).
        exists m', ok, bad. split; [exact E|]. split; [exact C|]. split; [apply (so_configs _ _ _ _ _ _ S1) | apply (so_configs _ _ _ _ _ _ S2)].
      - rewrite E. cbn [split_validity]. eexists m, _, _. split; [reflexivity|]. split; [apply calm_refl|]. split; constructor. }
    destruct Sp as (m' & ok & bad & -> & C & S1 & S2). cbn [obindo]. unfold get_alt_that_finished_decision_entry_rule.
    destruct (finished_total full (configs ok) is_new S1) as (r & ->). cbn [obindo]. destruct (negb _); [eauto|]. destruct (has_no _); [eauto|].
    destruct (finished_total full (configs bad) is_new S2) as (r' & ->). cbn [obindo]. eauto.
  Qed.

  (** ** The precedence filter *)
  Lemma filter1_total : forall l mp (m : sim) cs, Forall (ckind a main nalts false true) l -> kept a main true (Some (m_cache m)) -> sok a main nalts false true cs ->
    exists m' cs' mp', filter_alt1 order hash precedence l mp m cs = Val (m', cs', mp') /\ same_but_cache m m' /\ kept a main true (Some (m_cache m')) /\ sok a main nalts false true cs'.
  Proof.
    induction l as [|c l IH]; intros mp m cs Hl Hk So; cbn [filter_alt1].
    - exists m, cs, mp. split; [reflexivity|]. split; [split; reflexivity|]. split; assumption.
    - inversion Hl as [|? ? Hc Hl']; subst. destruct (negb (c_alt c =? 1)); [apply IH; assumption|].
      destruct (eval_precedence precedence order [m_clock m] (c_sem c)) as [u|].
      + assert (Hc' : ckind a main nalts false true (if negb (sem_eqb u (c_sem c)) then new_with_semantic (c_state c) (c_alt c) (c_ctx c) u else c)).
        { destruct (negb (sem_eqb u (c_sem c))); [|exact Hc]. destruct Hc as ((x & E & F & X & A & R) & D). split; [|exact D]. exists x. cbn.
          split; [exact E|]. split; [exact F|]. split; [exact X|]. split; [exact A|]. reflexivity. }
        destruct (add_total a main nalts hash Hh false true (tick m) cs _ So Hc' Hk) as (m1 & cs1 & E1 & S1 & K1 & (D1 & D2) & _). rewrite E1. cbn [obindo].
        destruct (IH (map_insert mp (c_state c) (c_ctx c)) m1 cs1 Hl' K1 S1) as (m2 & cs2 & mp2 & E2 & (D3 & D4) & K2 & S2). exists m2, cs2, mp2. split; [exact E2|].
        split; [split; [rewrite D3, D1; reflexivity | rewrite D4, D2; reflexivity]|]. split; assumption.
      + destruct (IH mp (tick m) cs Hl' Hk So) as (m2 & cs2 & mp2 & E2 & (D3 & D4) & K2 & S2). exists m2, cs2, mp2. split; [exact E2|].
        split; [split; [rewrite D3; reflexivity | rewrite D4; reflexivity]|]. split; assumption.
  Qed.
  Lemma filter2_total mp : forall l cs, Forall (ckind a main nalts false true) l -> sok a main nalts false true cs ->
    exists cs', filter_others hash l mp cs = Val cs' /\ sok a main nalts false true cs'.
  Proof.
    induction l as [|c l IH]; intros cs Hl So; cbn [filter_others]; [exists cs; split; [reflexivity | exact So]|]. inversion Hl as [|? ? Hc Hl']; subst.
    destruct (c_alt c =? 1); [apply IH; assumption|]. match goal with |- context [if ?b then filter_others hash l mp cs else _] => destruct b end; [apply IH; assumption|].
    destruct (add_plain_total a main nalts hash Hh false true cs c So Hc) as (cs1 & E1 & S1 & _). rewrite E1. cbn [obindo]. apply IH; assumption.
  Qed.
  Lemma filter_total cs (m : sim) : sok a main nalts false true cs -> kept a main true (Some (m_cache m)) ->
    exists m' cs', apply_precedence_filter order hash precedence cs m = Val (m', cs') /\ same_but_cache m m' /\ kept a main true (Some (m_cache m')) /\ sok a main nalts false true cs'.
  Proof.
    intros So Hk. unfold apply_precedence_filter. rewrite (so_full _ _ _ _ _ _ So).
    destruct (filter1_total (configs cs) [] m _ (so_configs _ _ _ _ _ _ So) Hk (sok_empty _ _ _ _ _)) as (m1 & cs1 & mp & E1 & D & K1 & S1). rewrite E1. cbn [obindo].
    destruct (filter2_total mp (configs cs) cs1 (so_configs _ _ _ _ _ _ So) S1) as (cs2 & E2 & S2). rewrite E2. cbn [obindo].
    exists m1, cs2. split; [reflexivity|]. split; [exact D|]. split; assumption.
  Qed.
End Parts.

(** ** The stack of the rules in progress *)
Lemma progress_fits a main rule stack conts : sound_grammar a -> in_progress a main rule stack conts ->
  exists x, from_rule_context (follow_state a) stack = Val x /\ fits a main false rule x.
Proof.
  intros G. induction 1 as [|i s g f r p l stack conts E St Et P (x & Ex & Fx)].
  - exists EMPTY. split; [reflexivity|]. apply fits_EMPTY. reflexivity.
  - assert (exists y l, stack = y :: l) as (y & l' & Ey) by (destruct P; eauto).
    destruct (proj2 (proj2 (g_well a G) _ _ E) St (RuleTr g f r p)) as (_ & _ & Xf & Rf); [rewrite Et; left; reflexivity|].
    assert (0 <= i) by (unfold state_at in E; destruct (Z.ltb_spec i 0); [discriminate | assumption]).
    assert (Fo : follow_state a i = Some f).
    { unfold follow_state, vget. unfold state_at in E. destruct (i <? 0); [discriminate|]. rewrite E, Et. reflexivity. }
    exists (Singleton f (Some x)). split.
    { transitivity (if i =? -1 then Val EMPTY else let! parent := from_rule_context (follow_state a) stack in let! f := unwrap (follow_state a i) in Val (Singleton f (Some parent))).
      - rewrite Ey. reflexivity.
      - destruct (Z.eqb_spec i (-1)); [lia|]. rewrite Ex. cbn [obindo]. rewrite Fo. reflexivity. }
    eapply fits_push; [exact Fx | exact Xf | exact Rf |].
    apply exists_range in Xf. pose proof (proj1 (g_well a G)). unfold EMPTY_RETURN_STATE. lia.
Qed.

Section Run.
  Context {S : Type}.
  Variable ts : seek_ops S.
  Variable a : atn.
  Variable main : Z.
  Hypothesis G : sound_grammar a.
  Hypothesis NS : no_stall a.
  Variable ctx : Type.
  Variable sempred : S -> option ctx -> Z -> Z -> bool.
  Variable order : list nat -> list sem -> list sem.
  Variable alt_order : list (list Z) -> list (list Z).
  Hypothesis Ho : forall at_ l, Permutation (order at_ l) l.
  Hypothesis Halt : forall l, Permutation (alt_order l) l.
  Variable hash : pctx -> Z.
  Variable dhash : list pconfig -> Z.
  Variable share : pctx -> pctx.
  Hypothesis Hh : forall x, wf x -> hash x <> 0.
  Hypothesis Hshare : forall x, wf x -> share x = x.
  Variable mode : pmode.
  Variable start_index : Z.
  Variable precedence : Z.
  Variable outer : ctx.
  Variable rule : Z.
  Variable outer_stack conts : list Z.
  Hypothesis Hprogress : in_progress a main rule outer_stack conts.
  Variable decision : Z.
  Variable start : Z.
  Variable sd : atn_state.
  Hypothesis Hdecision : vget (decision_to_state a) decision = Some start.
  Hypothesis Hsd : state_at a start = Some sd.
  Hypothesis Hstop : ~ Ll1Spec.is_stop sd.
  Hypothesis Hrule : st_rule sd = rule.
  Hypothesis Hcalls : forall t, In t (st_trans sd) -> is_call t = false.

  (** the stream: [At i s] when [s] is at token [i] of the word [W] that follows *)
  Variable W : list Z.
  Variable At : nat -> S -> Prop.
  Hypothesis HW : ~ In TOKEN_EOF W.
  Hypothesis A_lt : forall i s, At i s -> exists s' tk, s_lt (k_base ts) s 1 = Val (s', Some tk) /\ t_type tk = nth i W TOKEN_EOF /\ At i s'.
  Hypothesis A_consume : forall i s, At i s -> (i < length W)%nat -> exists s', s_consume (k_base ts) s = Val s' /\ At (Datatypes.S i) s'.
  Hypothesis A_seek : forall i s, At i s -> exists s1 s2, k_seek ts s start_index = Val s1 /\ At O s1 /\
    k_seek ts s1 (s_index (k_base ts) s) = Val s2 /\ At i s2.
  (** before the first look at it *)
  Variable Init : S -> Prop.
  Hypothesis A_init : forall s, Init s -> exists s' tk, s_lt (k_base ts) s 1 = Val (s', Some tk) /\ t_type tk = nth 0 W TOKEN_EOF /\ At O s'.
  Hypothesis A_get : forall i s, At i s -> exists tk, s_get (k_base ts) s start_index = Val tk.

  Notation sim := (sim S).
  Notation nalts := (Z.of_nat (length (st_trans sd))).
  Notation dok := (dok a main nalts).
  Notation sok := (sok a main nalts).
  Notation ckind := (ckind a main nalts).

  Lemma Hs : exists_state a start.
  Proof. unfold exists_state. rewrite Hsd. discriminate. Qed.

  (** the invariant before the whole stack is used *)
  Definition before (I : S -> Prop) (m : sim) : Prop := kept a main true (Some (m_cache m)) /\ I (m_input m) /\ dok (m_dfa m).
  Definition sll (i : nat) (m : sim) : Prop := before (At i) m.
  Definition done (r : sim * presult) : Prop := (exists i, At i (m_input (fst r))) /\ dok (m_dfa (fst r)).
  Lemma sll_calm i m m' : sll i m -> calm m m' -> sll i m'.
  Proof. intros (A & B & C) (D & E & F). unfold sll, before. rewrite D, E, F. auto. Qed.
  Lemma no_seek (J : S -> Prop) : false = true -> forall s, J s -> exists s1 s2, k_seek ts s start_index = Val s1 /\ k_seek ts s1 (s_index (k_base ts) s) = Val s2 /\ J s2.
  Proof. discriminate. Qed.

  Lemma la_total i m : At i (m_input m) -> exists s, sim_la ts m 1 = Val (with_sim_input m s, nth i W TOKEN_EOF) /\ At i s.
  Proof.
    intros H. destruct (A_lt _ _ H) as (s & tk & E & Ty & H'). exists s. split; [|exact H']. unfold sim_la, sim_lt. rewrite E. cbn [obindo]. rewrite Ty. reflexivity.
  Qed.
  Lemma consume_total i m : At i (m_input m) -> (i < length W)%nat -> exists s, sim_consume ts m = Val (with_sim_input m s) /\ At (Datatypes.S i) s.
  Proof. intros H L. destruct (A_consume _ _ H L) as (s & E & H'). exists s. split; [|exact H']. unfold sim_consume. rewrite E. reflexivity. Qed.
  Lemma start_seek_total i m : At i (m_input m) -> exists s, sim_seek ts m start_index = Val (with_sim_input m s) /\ At O s /\
    exists s', k_seek ts s (s_index (k_base ts) (m_input m)) = Val s' /\ At i s'.
  Proof. intros H. destruct (A_seek _ _ H) as (s & s2 & E & H1 & E2 & H2). exists s. split; [unfold sim_seek; rewrite E; reflexivity|]. split; [exact H1|]. eauto. Qed.
  Lemma no_viable_total i m : At i (m_input m) -> exists s e, no_viable_alt ts start_index m = Val (with_sim_input m s, e) /\ At i s.
  Proof.
    intros H. destruct (A_get _ _ H) as (tk & E). unfold no_viable_alt. rewrite E. cbn [obindo]. destruct (A_lt _ _ H) as (s & tk' & El & _ & H').
    unfold sim_lt. rewrite El. cbn [obindo unwrap]. eauto.
  Qed.

  (** ** A step of the DFA *)
  Notation compute_target_state n := (compute_target_state ts a ctx sempred order alt_order hash dhash share n mode start_index precedence outer decision start).
  Lemma target_state_total i previous t m : sll i m -> opened (m_dfa m) previous ->
    tot (fun n => compute_target_state n previous t m) (fun r => sll i (fst r) /\ ext (m_dfa m) (m_dfa (fst r)) /\
      (snd r = ERROR_DFA_STATE_REF \/ normal (m_dfa (fst r)) (snd r)) /\ (t = TOKEN_EOF -> snd r = ERROR_DFA_STATE_REF \/ accepts (m_dfa (fst r)) (snd r))).
  Proof.
    intros (Hk & Hi & Hd) Op. pose proof Op as (Pl & st & V & Ac). unfold PredictModel.compute_target_state, dfa_get.
    assert (Eg : unwrap (vget (dfa_states (m_dfa m)) previous) = Val st) by (rewrite V; reflexivity). apply (tot_get _ _ _ _ Eg). clear Eg.
    assert (Mo : mok a main false (At i) (m_dfa m) m) by (constructor; [exact Hk | exact Hi | reflexivity]).
    pose proof (reach_total ts a main G NS nalts ctx sempred order Ho hash Hh start_index precedence outer start Hs false (At i) (no_seek _) (m_dfa m)
      (configs (d_configs st)) t m (st_open _ _ _ _ (dk_states _ _ _ _ Hd _ _ V) Ac) Mo) as R.
    apply (tot_bind _ _ _ _ R). intros [m1 o] ([K1 I1 D1] & Hr). cbn [fst snd] in *. destruct o as [reach|].
    - destruct (Hr reach eq_refl) as (Ne & So & Fin & Eof). clear Hr R.
      destruct (decide_total a main nalts alt_order Halt hash Hh mode reach t Ne So Fin Eof) as (st1 & E1 & So1 & Nu & Ed & Ea). apply (tot_get _ _ _ _ E1).
      assert (P : exists m2 st2, (if d_accept st1 && has_semantic_context (d_configs st1) then
            let! ds := unwrap (vget (decision_to_state a) decision) in
            let! s := get_state a ds in
            let! (m, st) := predicate_dfa_state order st1 (length (st_trans s)) m1 in
            Val (m, if has_no (d_preds st) then st
                    else DState unit unit (d_number st) (d_configs st) (d_edges st) (d_accept st) INVALID_ALT (d_exec st) (d_full st) (d_preds st))
          else Val (m1, st1)) = Val (m2, st2) /\ calm m1 m2 /\ stok a main nalts st2 /\ d_number st2 = 0 /\ d_edges st2 = [] /\ d_accept st2 = d_accept st1).
      { destruct (d_accept st1 && has_semantic_context (d_configs st1)).
        - rewrite Hdecision. cbn [unwrap obindo]. rewrite (proj2 (get_state_at _ _ _) Hsd). cbn [obindo].
          destruct (predicate_total a main nalts order st1 (length (st_trans sd)) m1 So1 eq_refl) as (m2 & st2 & E2 & C2 & Nu2 & Ed2 & Ac2 & Cs2). rewrite E2. cbn [obindo].
          eexists m2, _. split; [reflexivity|]. split; [exact C2|]. destruct (has_no (d_preds st2)); cbn.
          + split; [eapply stok_same; eauto|]. split; [congruence|]. split; congruence.
          + split; [eapply stok_same; eauto|]. split; [congruence|]. split; congruence.
        - exists m1, st1. split; [reflexivity|]. split; [apply calm_refl|]. auto. }
      destruct P as (m2 & st2 & E2 & (C1 & C2 & C3) & So2 & Nu2 & Ed2 & Ac2). apply (tot_get _ _ _ _ E2). clear E2.
      destruct (add_dfa_total a main nalts dhash share Hshare (m_dfa m2) st2) as (d3 & r & E3 & Ok3 & X3 & S3 & Pl3 & st3 & V3 & Ac3); [rewrite C2, D1; exact Hd | exact Nu2 | exact Ed2 | exact So2|].
      assert (Es : add_state dhash share m2 st2 = Val (with_dfa m2 d3, r)) by (unfold add_state; rewrite E3; reflexivity). apply (tot_get _ _ _ _ Es). clear Es.
      rewrite C2, D1 in X3.
      destruct (add_edge_total a main nalts d3 previous t r) as (d4 & E4 & Ok4 & X4).
      { exact Ok3. }
      { eapply normal_ext; [exact X3 | apply opened_normal, Op]. }
      { right. split; eauto. }
      { intros Et. right. exists st3. split; [exact V3|]. rewrite Ac3, Ac2. apply Ea, Et. }
      assert (Ee : add_edge a (with_dfa m2 d3) previous t r = Val (with_dfa m2 d4)) by (unfold add_edge; cbn [with_dfa m_dfa]; rewrite E4; reflexivity). apply (tot_get _ _ _ _ Ee). clear Ee.
      apply tot_val. cbn [fst snd with_dfa m_dfa]. split; [|split; [|split]].
      + split; [cbn; rewrite C3; exact K1|]. split; [cbn; rewrite C1; exact I1 | exact Ok4].
      + eapply ext_trans; eauto.
      + right. eapply normal_ext; [exact X4|]. split; eauto.
      + intros Et. right. eapply accepts_ext; [exact X4|]. exists st3. split; [exact V3|]. rewrite Ac3, Ac2. apply Ea, Et.
    - destruct (add_edge_total a main nalts (m_dfa m1) previous t ERROR_DFA_STATE_REF) as (d4 & E4 & Ok4 & X4).
      { rewrite D1. exact Hd. }
      { rewrite D1. apply opened_normal, Op. }
      { left. reflexivity. }
      { left. reflexivity. }
      assert (Ee : add_edge a m1 previous t ERROR_DFA_STATE_REF = Val (with_dfa m1 d4)) by (unfold add_edge; rewrite E4; reflexivity). apply (tot_get _ _ _ _ Ee). clear Ee.
      apply tot_val. cbn [fst snd with_dfa m_dfa]. split; [split; [exact K1|]; split; [exact I1 | exact Ok4]|]. rewrite D1 in X4. auto.
  Qed.

  (** ** Errors and accept states *)
  Lemma on_error_total i previous m : sll i m -> opened (m_dfa m) previous ->
    exists r, on_error ts a ctx sempred hash start_index precedence outer previous m = Val r /\ done r.
  Proof.
    intros (Hk & Hi & Hd) (_ & st & V & Ac). unfold on_error, dfa_get. rewrite V. cbn [unwrap obindo].
    destruct (no_viable_total i m Hi) as (s & e & -> & H1). cbn [obindo]. destruct (start_seek_total i (with_sim_input m s) H1) as (s1 & -> & H2 & _). cbn [obindo].
    pose proof (dk_states _ _ _ _ Hd _ _ V) as So.
    match goal with |- context [get_syn_valid_or_sem_invalid_alt _ _ _ _ _ _ _ _ ?m1] =>
      destruct (syn_valid_total ts a main nalts ctx sempred hash Hh precedence outer false (d_configs st) m1 (st_any _ _ _ _ So) (st_sll _ _ _ _ So)) as (m' & alt & E & (C1 & C2 & C3)) end.
    rewrite E. cbn [obindo]. eexists. split; [reflexivity|]. split; cbn [fst].
    - exists O. rewrite C1. exact H2.
    - rewrite C2. exact Hd.
  Qed.
  Lemma on_accept_total i st m : sll i m -> exists r, on_accept ts ctx sempred start_index precedence outer st m = Val r /\ done r.
  Proof.
    intros (Hk & Hi & Hd). unfold on_accept. destruct (d_preds st) as [|p l]; [eexists; split; [reflexivity|]; split; eauto|].
    destruct (start_seek_total i m Hi) as (s1 & -> & H2 & _). cbn [obindo].
    destruct (eval_semantic_context ts ctx sempred precedence outer (with_sim_input m s1) (p :: l) []) as [m' alts] eqn:E. apply eval_calm in E as (C1 & C2 & C3).
    assert (Dn : forall x r, m_input x = m_input m' -> m_dfa x = m_dfa m' -> done (x, r)).
    { intros x r E1 E2. split; cbn [fst]; [exists O; rewrite E1, C1; exact H2 | rewrite E2, C2; exact Hd]. }
    destruct alts as [|x [|y r]].
    - destruct (no_viable_total O m') as (s & e & -> & H3); [rewrite C1; exact H2|]. eexists. split; [reflexivity|]. split; cbn [fst]; [exists O; exact H3 | cbn; rewrite C2; exact Hd].
    - eexists. split; [reflexivity|]. apply Dn; reflexivity.
    - eexists. split; [reflexivity|]. apply Dn; reflexivity.
  Qed.

  (** ** With the whole stack *)
  Lemma nth_eof i : nth i W TOKEN_EOF <> TOKEN_EOF -> (i < length W)%nat.
  Proof. intros H. destruct (Nat.lt_ge_cases i (length W)) as [L|L]; [exact L|]. rewrite nth_overflow in H by exact L. destruct (H eq_refl). Qed.

  (** at the end of the input, all configurations stand at the end of the main rule *)
  Lemma one_place cs : Forall (ckind true true) cs -> Forall (at_stop a) cs -> exists q, forall c, In c cs -> c_state c = q /\ c_ctx c = Some EMPTY.
  Proof.
    intros H A. destruct cs as [|c0 cs]; [exists 0; intros c []|].
    assert (F : forall c, In c (c0 :: cs) -> exists s, state_at a (c_state c) = Some s /\ Ll1Spec.is_stop s /\ st_rule s = main /\ c_ctx c = Some EMPTY).
    { intros c I. rewrite Forall_forall in H, A. destruct (A _ I) as (s & E & St). destruct (H _ I) as ((x & Ex & Fx & _) & D). destruct (D eq_refl s E) as (D1 & _).
      specialize (D1 St). exists s. split; [exact E|]. split; [exact St|]. split; [|exact D1]. rewrite D1 in Ex. inversion Ex; subst x.
      cbn [negb] in Fx. apply fits_empty_main in Fx. rewrite <- Fx. unfold rule_of. rewrite E. reflexivity. }
    exists (c_state c0). intros c I. destruct (F c I) as (s & E & St & R & X). destruct (F c0 (or_introl eq_refl)) as (s0 & E0 & St0 & R0 & _).
    split; [|exact X]. eapply (proj1 (proj2 (proj2 (proj2 G)))); eauto. congruence.
  Qed.
  Lemma least_unique P x y : least P x -> least P y -> x = y.
  Proof. intros (A & B) (C & D). specialize (B _ C). specialize (D _ A). lia. Qed.

  Section Full.
  Variable d : pdfa.
  Notation mokf i := (mok a main true (At i) d).
  Notation full_loop n := (full_loop ts a ctx sempred order alt_order hash n mode start_index precedence outer start).
  Definition fdone (r : sim * presult) : Prop := (exists i, At i (m_input (fst r))) /\ m_dfa (fst r) = d.

  Lemma finish_done i m prev p e : mokf i m -> fdone (finish_full ts start_index m prev p e).
  Proof. intros [K I D]. unfold finish_full, fdone. destruct (negb (unique_alt prev =? INVALID_ALT)); cbn; eauto. Qed.
  Lemma full_loop_total : forall rem i prev t m j, (length W - i <= rem)%nat -> t = nth i W TOKEN_EOF -> Forall (ckind true true) (configs prev) -> full_ctx prev = true ->
    mokf i m -> tot (fun n => full_loop n (n - j)%nat prev t m) fdone.
  Proof.
    induction rem as [rem IH] using (well_founded_induction Wf_nat.lt_wf). intros i prev t m j Hrem Ht Hp Hf Mo.
    assert (HJ : true = true -> forall s, At i s -> exists s1 s2, k_seek ts s start_index = Val s1 /\ k_seek ts s1 (s_index (k_base ts) s) = Val s2 /\ At i s2).
    { intros _ s H. destruct (A_seek _ _ H) as (s1 & s2 & E1 & _ & E2 & H2). eauto. }
    eapply tot_late with (n1 := Datatypes.S j); [intros n Hn; replace (n - j)%nat with (Datatypes.S (n - Datatypes.S j)) by lia; cbn [PredictModel.full_loop]; reflexivity|].
    pose proof (reach_total ts a main G NS nalts ctx sempred order Ho hash Hh start_index precedence outer start Hs true (At i) HJ d (configs prev) t m Hp Mo) as R.
    apply (tot_bind _ _ _ _ R). clear R. intros [m1 o] (M1 & Hr). cbn [fst snd] in *. pose proof M1 as [K1 I1 D1]. destruct o as [cs|].
    - destruct (Hr cs eq_refl) as (Ne & So & Fin & Eof). clear Hr. pose proof (so_configs _ _ _ _ _ _ So) as Hc.
      destruct (C27_analyses unit alt_order (configs cs) Halt (good_of _ _ _ _ _ _ Hc)) as (ss & Es & Ac & _ & Ae & _).
      apply (tot_get _ _ _ _ Es). cbv zeta. cbn [unique_alt set_unique_alt].
      destruct (Z.eqb_spec (get_unique_alt unit (configs cs)) INVALID_ALT) as [U|U]; cbn [negb].
      + assert (So' : sok true true cs) by (destruct Fin as [F|F]; [exact F | destruct (F U)]). clear Fin.
        pose proof (so_configs _ _ _ _ _ _ So') as Hc'.
        destruct (C27_single_viable unit alt_order (configs cs) Halt (good_of _ _ _ _ _ _ Hc) (alts_valid _ _ _ _ _ _ Hc)) as (ss' & v & Es' & Ev & _ & V0).
        rewrite Es in Es'. injection Es' as <-.
        assert (Pr : exists p, (if negb (is_exact mode) then get_single_viable_alt ss else
          if all_subsets_conflict ss && all_subsets_equal ss then get_single_viable_alt ss else Val INVALID_ALT) = Val p /\ (is_exact mode = false -> p = v)).
        { rewrite Ev. destruct (is_exact mode); cbn [negb]; [|eauto]. destruct (all_subsets_conflict ss && all_subsets_equal ss); eexists; (split; [reflexivity | discriminate]). }
        destruct Pr as (p & Ep & Hpv). apply (tot_get _ _ _ _ Ep). apply tot_if; intros Q.
        { apply tot_val. eapply finish_done, M1. }
        assert (Nt : t <> TOKEN_EOF).
        { intros Et. destruct (one_place (configs cs) Hc' (Eof Et)) as (q & Hq).
          destruct (proj2 (C27_unique_alt unit (configs cs) (alts_valid _ _ _ _ _ _ Hc)) U) as [H|(c & c' & Ic & Ic' & Nc)]; [destruct (Ne H)|].
          assert (Gq : forall g, group (configs cs) g -> g = (q, EMPTY)).
          { intros [g1 g2] (x & c1 & I' & S1 & C1 & _). cbn in S1, C1. destruct (Hq _ I') as (Q1 & Q2). f_equal; congruence. }
          assert (Am : ambiguous (alt_of (configs cs) (q, EMPTY))).
          { exists (c_alt c), (c_alt c'). destruct (Hq _ Ic), (Hq _ Ic'). split; [exists c; cbn; auto|]. split; [exists c'; cbn; auto | exact Nc]. }
          destruct (is_exact mode); cbn [negb] in Q.
          - assert (X : all_subsets_conflict ss && all_subsets_equal ss = true); [|congruence]. apply andb_true_iff. split.
            + apply Ac. intros g H. rewrite (Gq _ H). exact Am.
            + apply Ae. intros g g' H H'. rewrite (Gq _ H), (Gq _ H'). reflexivity.
          - rewrite (Hpv eq_refl) in Q. destruct (Z.eqb_spec v INVALID_ALT) as [E|E]; [|discriminate Q].
            destruct (V0 E) as [H|(g & g' & x & y & L1 & L2 & N)]; [destruct (Ne H)|]. apply N.
            assert (g = (q, EMPTY)) by (apply Gq; exists x; apply L1). assert (g' = (q, EMPTY)) by (apply Gq; exists y; apply L2). subst g g'. eapply least_unique; eauto. }
        destruct (Z.eqb_spec t TOKEN_EOF) as [Et|_]; [destruct (Nt Et)|]. cbn [negb].
        rewrite Ht in Nt. pose proof (nth_eof _ Nt) as Li. destruct (consume_total i m1 I1 Li) as (s2 & E2 & A2). destruct (la_total (Datatypes.S i) (with_sim_input m1 s2) A2) as (s3 & E3 & A3).
        assert (E : (let! m := sim_consume ts m1 in sim_la ts m 1) = Val (with_sim_input (with_sim_input m1 s2) s3, nth (Datatypes.S i) W TOKEN_EOF)) by (rewrite E2; exact E3).
        apply (tot_get _ _ _ _ E). clear E. apply (IH (rem - 1)%nat) with (i := Datatypes.S i); [lia | lia | reflexivity | exact Hc' | exact (so_full _ _ _ _ _ _ So)|].
        constructor; [exact K1 | exact A3 | exact D1].
      + apply tot_val. eapply finish_done, M1.
    - destruct (start_seek_total i m1 I1) as (s2 & E2 & A2 & _). apply (tot_get _ _ _ _ E2).
      assert (Hp' : Forall (ckind true false) (configs prev)) by (eapply Forall_impl; [|exact Hp]; intros c (X & _); split; [exact X | discriminate]).
      destruct (syn_valid_total ts a main nalts ctx sempred hash Hh precedence outer true prev (with_sim_input m1 s2) Hp' (or_introl Hf)) as (m' & alt & E & (C1 & C2 & C3)).
      apply (tot_get _ _ _ _ E). destruct (negb (alt =? INVALID_ALT)).
      + apply tot_val. split; cbn [fst]; [exists O; rewrite C1; exact A2 | rewrite C2; exact D1].
      + destruct (no_viable_total O m') as (s & e & Ee & A3); [rewrite C1; exact A2|]. apply (tot_eq _ _ _ (fun _ => Ee)).
        split; cbn [fst]; [exists O; exact A3 | cbn; rewrite C2; exact D1].
  Qed.
  End Full.

  Notation on_conflict n := (on_conflict ts a ctx sempred order alt_order hash n mode start_index precedence outer outer_stack start).
  Lemma on_conflict_total i st m : sll i m -> tot (fun n => on_conflict n st m) done.
  Proof.
    intros (Hk & Hi & Hd). unfold PredictModel.on_conflict.
    assert (P : exists m1 r, match d_preds st with
      | [] => Val (m, inr (conflicting_alts (d_configs st)))
      | _ :: _ =>
          let conflict_index := index ts m in
          let! m := if negb (conflict_index =? start_index) then sim_seek ts m start_index else Val m in
          let '(m, alts) := eval_semantic_context ts ctx sempred precedence outer m (d_preds st) [] in
          match alts with
          | [x] => Val (m, inl x)
          | _ => let! m := if negb (conflict_index =? start_index) then sim_seek ts m conflict_index else Val m in
                 Val (m, inr alts)
          end
      end = Val (m1, r) /\ (exists k, sll k m1)).
    { destruct (d_preds st) as [|p l]; [exists m, (inr (conflicting_alts (d_configs st))); split; [reflexivity|]; exists i; split; [exact Hk|]; split; assumption|]. cbv zeta.
      destruct (start_seek_total i m Hi) as (s1 & E1 & A1 & s2 & E2 & A2).
      destruct (Z.eqb_spec (index ts m) start_index) as [Q|Q]; cbn [negb].
      - cbn [obindo]. destruct (eval_semantic_context ts ctx sempred precedence outer m (p :: l) []) as [m' alts] eqn:E. apply eval_calm in E as C.
        assert (Sm : sll i m') by (eapply sll_calm; [split; [exact Hk|]; split; [exact Hi | exact Hd] | exact C]). destruct alts as [|x [|y r]]; eexists m', _; (split; [reflexivity | eauto]).
      - rewrite E1. cbn [obindo]. destruct (eval_semantic_context ts ctx sempred precedence outer (with_sim_input m s1) (p :: l) []) as [m' alts] eqn:E. apply eval_calm in E as C.
        assert (Sm : sll O m') by (apply (sll_calm O (with_sim_input m s1) m'); [split; [exact Hk|]; split; [exact A1 | exact Hd] | exact C]).
        assert (Ek : sim_seek ts m' (index ts m) = Val (with_sim_input m' s2)).
        { unfold sim_seek, index. destruct C as (C1 & _). rewrite C1. cbn [m_input with_sim_input]. rewrite E2. reflexivity. }
        assert (Sm' : sll i (with_sim_input m' s2)) by (destruct Sm as (X & _ & Y); split; [exact X|]; split; [exact A2 | exact Y]).
        destruct alts as [|x [|y r]].
        + rewrite Ek. cbn [obindo]. eexists _, _. split; [reflexivity | eauto].
        + eexists m', _. split; [reflexivity | eauto].
        + rewrite Ek. cbn [obindo]. eexists _, _. split; [reflexivity | eauto]. }
    destruct P as (m1 & r & E & k & (Hk1 & Hi1 & Hd1)). apply (tot_get _ _ _ _ E). clear E. destruct r as [x|alts].
    { apply tot_val. split; cbn [fst]; eauto. }
    cbv zeta. match goal with |- context [compute_start_state _ _ _ _ _ _ _ _ _ _ _ _ _ true ?m'] => set (m2 := m') end.
    destruct (progress_fits _ _ _ _ _ G Hprogress) as (x & Ex & Fx). apply (tot_get _ _ _ _ Ex).
    assert (HJ : true = true -> forall s, At k s -> exists s1 s2, k_seek ts s start_index = Val s1 /\ k_seek ts s1 (s_index (k_base ts) s) = Val s2 /\ At k s2).
    { intros _ s H. destruct (A_seek _ _ H) as (s1 & s2 & E1 & _ & E2 & H2). eauto. }
    assert (Mo : mok a main true (At k) (m_dfa m1) m2) by (constructor; [eapply kept_full, Hk1 | exact Hi1 | reflexivity]).
    pose proof (start_total ts a main G NS nalts ctx sempred order Ho hash Hh start_index precedence outer start Hs true (At k) HJ (m_dfa m1) rule x sd m2 Fx Hsd Hstop Hrule Hcalls eq_refl Mo) as T.
    apply (tot_bind _ _ _ _ T). clear T. intros [m3 s0'] ([K3 I3 D3] & S3). cbn [fst snd] in *. unfold exec_atn_with_full_context.
    destruct (start_seek_total k m3 I3) as (s1 & E1 & A1 & _). apply (tot_get _ _ _ _ E1). destruct (la_total O (with_sim_input m3 s1) A1) as (s2 & E2 & A2).
    apply (tot_get _ _ _ _ E2).
    eapply tot_weaken; [|eapply tot_ext; [|apply (full_loop_total (m_dfa m1) (length W) O s0' (nth 0 W TOKEN_EOF) (with_sim_input (with_sim_input m3 s1) s2) O)]].
    - intros r' (A & B). split; [exact A | rewrite B; exact Hd1].
    - intros n. cbn beta. rewrite Nat.sub_0_r. reflexivity.
    - lia.
    - reflexivity.
    - apply (so_configs _ _ _ _ _ _ S3).
    - apply (so_full _ _ _ _ _ _ S3).
    - constructor; [exact K3 | exact A2 | exact D3].
  Qed.

  (** ** The loop over the DFA *)
  Notation exec_loop n := (exec_loop ts a ctx sempred order alt_order hash dhash share n mode start_index precedence outer outer_stack decision start).
  Lemma exec_loop_total : forall rem i previous t m j, (length W - i <= rem)%nat -> t = nth i W TOKEN_EOF -> sll i m -> opened (m_dfa m) previous ->
    tot (fun n => exec_loop n (n - j)%nat previous t m) done.
  Proof.
    induction rem as [rem IH] using (well_founded_induction Wf_nat.lt_wf). intros i previous t m j Hrem Ht Sm Op.
    eapply tot_late with (n1 := Datatypes.S j); [intros n Hn; replace (n - j)%nat with (Datatypes.S (n - Datatypes.S j)) by lia; cbn [PredictModel.exec_loop]; reflexivity|].
    pose proof Op as (Pl & st & V & Ac). pose proof Sm as (Hk & Hi & Hd).
    assert (Eg : get_existing_target_state m previous t = Val (p_get_edge (d_edges st) t)) by (unfold get_existing_target_state, dfa_get; rewrite V; reflexivity).
    apply (tot_get _ _ _ _ Eg). clear Eg.
    apply (tot_bind _ _ (fun r => sll i (fst r) /\ ext (m_dfa m) (m_dfa (fst r)) /\
      (snd r = ERROR_DFA_STATE_REF \/ normal (m_dfa (fst r)) (snd r)) /\ (t = TOKEN_EOF -> snd r = ERROR_DFA_STATE_REF \/ accepts (m_dfa (fst r)) (snd r)))).
    { destruct (p_get_edge (d_edges st) t) as [r|] eqn:Eg.
      - apply tot_val. cbn [fst snd]. destruct (dk_edges _ _ _ _ Hd _ _ V Pl) as (_ & E1 & E2). split; [exact Sm|]. split; [apply ext_refl|]. split; [eapply E1; eauto|].
        intros ->. eapply E2; eauto.
      - apply target_state_total; assumption. }
    intros [m1 r] (S1 & X1 & Nr & Er). cbn [fst snd] in *. pose proof (opened_ext _ _ _ X1 Op) as Op1.
    destruct (Z.eqb_spec r ERROR_DFA_STATE_REF) as [Q|Q].
    { destruct (on_error_total i previous m1 S1 Op1) as (res & E & D). apply (tot_eq _ _ _ (fun _ => E)), D. }
    destruct Nr as [Nr|(Plr & str & Vr)]; [destruct (Q Nr)|].
    assert (Eg : dfa_get m1 r = Val str) by (unfold dfa_get; rewrite Vr; reflexivity). apply (tot_get _ _ _ _ Eg). clear Eg.
    apply tot_if; intros Qf; [eapply on_conflict_total, S1|]. apply tot_if; intros Qa.
    { destruct (on_accept_total i str m1 S1) as (res & E & D). apply (tot_eq _ _ _ (fun _ => E)), D. }
    assert (Nt : t <> TOKEN_EOF) by (intros Et; destruct (Er Et) as [H|(st' & V' & A')]; [destruct (Q H) | congruence]).
    destruct (Z.eqb_spec t TOKEN_EOF) as [Et|_]; [destruct (Nt Et)|]. cbn [negb]. rewrite Ht in Nt. pose proof (nth_eof _ Nt) as Li.
    destruct S1 as (K1 & I1 & D1). destruct (consume_total i m1 I1 Li) as (s2 & E2 & A2). destruct (la_total (Datatypes.S i) (with_sim_input m1 s2) A2) as (s3 & E3 & A3).
    assert (E : (let! m := sim_consume ts m1 in sim_la ts m 1) = Val (with_sim_input (with_sim_input m1 s2) s3, nth (Datatypes.S i) W TOKEN_EOF)) by (rewrite E2; exact E3).
    apply (tot_get _ _ _ _ E). clear E. apply (IH (rem - 1)%nat) with (i := Datatypes.S i); [lia | lia | reflexivity | |].
    - split; [exact K1|]. split; [exact A3 | exact D1].
    - split; [exact Plr|]. eauto.
  Qed.
  Lemma exec_total s m : before Init m -> opened (m_dfa m) s ->
    tot (fun n => exec_atn ts a ctx sempred order alt_order hash dhash share n mode start_index precedence outer outer_stack decision start s m) done.
  Proof.
    intros (K & I & D) Op. unfold exec_atn. destruct (A_init _ I) as (s1 & tk & E1 & Ty & A1).
    assert (El : sim_la ts m 1 = Val (with_sim_input m s1, nth 0 W TOKEN_EOF)) by (unfold sim_la, sim_lt; rewrite E1; cbn [obindo]; rewrite Ty; reflexivity).
    apply (tot_get _ _ _ _ El). eapply tot_ext; [|apply (exec_loop_total (length W) O s (nth 0 W TOKEN_EOF) (with_sim_input m s1) O)].
    - intros n. cbn beta. rewrite Nat.sub_0_r. reflexivity.
    - lia.
    - reflexivity.
    - split; [exact K|]. split; [exact A1 | exact D].
    - exact Op.
  Qed.

  (** ** The start state *)
  Notation make_start n := (make_start ts a ctx sempred order hash dhash share n start_index precedence outer start).
  Lemma make_start_total I m : before I m -> tot (fun n => make_start n m) (fun r => before I (fst r) /\ opened (m_dfa (fst r)) (snd r)).
  Proof.
    intros (Hk & Hi & Hd). unfold PredictModel.make_start.
    assert (Mo : mok a main false I (m_dfa m) m) by (constructor; [exact Hk | exact Hi | reflexivity]).
    assert (Fe : fits a main (negb false) rule EMPTY) by (apply fits_EMPTY; discriminate).
    pose proof (start_total ts a main G NS nalts ctx sempred order Ho hash Hh start_index precedence outer start Hs false I (no_seek _) (m_dfa m) rule EMPTY sd m Fe Hsd Hstop Hrule Hcalls eq_refl Mo) as T.
    apply (tot_bind _ _ _ _ T). clear T. intros [m1 cs] ([K1 I1 D1] & S1). cbn [fst snd] in *.
    assert (Stok : forall cs', sok false true cs' -> stok a main nalts (new_dfastate unit unit 0 cs')).
    { intros cs' S'. destruct (so_plain _ _ _ _ _ _ S') as (U & C). constructor; cbn [new_dfastate d_configs d_accept].
      - left. apply (so_full _ _ _ _ _ _ S').
      - apply (so_configs _ _ _ _ _ _ (sok_weaken _ _ _ _ _ S')).
      - intros _. apply (so_configs _ _ _ _ _ _ S').
      - rewrite U, C. split; [discriminate | intros [H|H]; destruct (H eq_refl)]. }
    rewrite D1. apply tot_if; intros P.
    - destruct (s0 (m_dfa m)) as [first|] eqn:E0; [|destruct (dk_prec _ _ _ _ Hd P E0)].
      apply (tot_get _ first _ _ eq_refl).
      destruct (filter_total a main nalts order hash Hh precedence cs m1 S1 K1) as (m2 & cs2 & E2 & (C1 & C2) & K2 & S2). apply (tot_get _ _ _ _ E2).
      rewrite C2, D1. destruct (set_configs_total a main nalts (m_dfa m) first cs Hd P E0 S1) as (d3 & E3 & Ok3 & X3). apply (tot_get _ _ _ _ E3).
      destruct (add_dfa_total a main nalts dhash share Hshare d3 (new_dfastate unit unit 0 cs2) Ok3 eq_refl eq_refl (Stok _ S2)) as (d4 & r & E4 & Ok4 & X4 & Z4 & Pl4 & st4 & V4 & Ac4).
      assert (Es : add_state dhash share (with_dfa m2 d3) (new_dfastate unit unit 0 cs2) = Val (with_dfa (with_dfa m2 d3) d4, r)) by (unfold add_state; cbn [with_dfa m_dfa]; rewrite E4; reflexivity).
      apply (tot_get _ _ _ _ Es). clear Es. cbn [with_dfa m_dfa].
      assert (Op4 : opened d4 r) by (split; [exact Pl4|]; exists st4; split; [exact V4 | rewrite Ac4; reflexivity]).
      destruct (set_precedence_total a main nalts d4 precedence r Ok4) as (d5 & E5 & Ok5 & X5); [rewrite (proj1 X4), (proj1 X3); exact P | exact Op4|].
      apply (tot_get _ _ _ _ E5). apply tot_val. cbn [fst snd with_dfa m_dfa m_input m_cache]. split.
      + split; [exact K2|]. split; [cbn; rewrite C1; exact I1 | exact Ok5].
      + eapply opened_ext; eauto.
    - destruct (add_dfa_total a main nalts dhash share Hshare (m_dfa m) (new_dfastate unit unit 0 cs) Hd eq_refl eq_refl (Stok _ S1)) as (d4 & r & E4 & Ok4 & X4 & Z4 & Pl4 & st4 & V4 & Ac4).
      assert (Es : add_state dhash share m1 (new_dfastate unit unit 0 cs) = Val (with_dfa m1 d4, r)) by (unfold add_state; rewrite D1, E4; reflexivity).
      apply (tot_get _ _ _ _ Es). clear Es. cbn [with_dfa m_dfa].
      assert (Op4 : opened d4 r) by (split; [exact Pl4|]; exists st4; split; [exact V4 | rewrite Ac4; reflexivity]).
      assert (P4 : is_precedence_dfa d4 = false) by (rewrite (proj1 X4); exact P).
      apply tot_val. cbn [fst snd with_dfa m_dfa m_input m_cache]. split.
      + split; [exact K1|]. split; [exact I1|]. cbn. apply set_s0_ok; assumption.
      + split; [intros Q; cbn in Q; congruence|]. destruct Op4 as (_ & H). exact H.
  Qed.
  Lemma start_state_total I m : before I m ->
    tot (fun n => start_state ts a ctx sempred order hash dhash share n start_index precedence outer start m) (fun r => before I (fst r) /\ opened (m_dfa (fst r)) (snd r)).
  Proof.
    intros Sm. pose proof Sm as (Hk & Hi & Hd). unfold start_state.
    assert (Kn : exists o, (if is_precedence_dfa (m_dfa m) then get_precedence_start_state unit unit (m_dfa m) precedence else Val (s0 (m_dfa m))) = Val o /\
      forall r, o = Some r -> opened (m_dfa m) r).
    { destruct (is_precedence_dfa (m_dfa m)) eqn:P.
      - unfold get_precedence_start_state. rewrite P. cbn [negb].
        destruct (s0 (m_dfa m)) as [i0|] eqn:E0; [|exists None; split; [reflexivity | discriminate]].
        destruct (dk_s0 _ _ _ _ Hd _ E0) as (st & V & A & H). rewrite V. cbn [unwrap obindo]. eexists. split; [reflexivity|]. intros r Q. eapply H; eauto.
      - exists (s0 (m_dfa m)). split; [reflexivity|]. intros r Q. destruct (dk_s0 _ _ _ _ Hd _ Q) as (st & V & A & _). split; [intros P'; congruence|]. eauto. }
    destruct Kn as (o & Eo & Hop). apply (tot_get _ _ _ _ Eo). destruct o as [r|]; [apply tot_val; auto|]. apply make_start_total, Sm.
  Qed.

  (** ** The whole prediction *)
  Variable input : S.
  Hypothesis Hstart : start_index = s_index (k_base ts) input.
  Hypothesis A_start : Init (fst (k_mark ts input)).
  Hypothesis A_release : forall s, At O s -> exists s', k_release ts s (snd (k_mark ts input)) = Val s'.
  Lemma predict_total d clock : dok d ->
    tot (fun n => adaptive_predict ts a ctx sempred order alt_order hash dhash share n mode precedence outer outer_stack decision start d input clock)
      (fun r => dok (m_dfa (fst r))).
  Proof.
    intros Hd. unfold adaptive_predict. rewrite <- Hstart. destruct (k_mark ts input) as [input1 mk] eqn:Em. cbn [fst snd] in *.
    assert (S0 : before Init (Sim input1 d [] clock [] [])) by (split; [apply kept_empty|]; split; [exact A_start | exact Hd]).
    apply (tot_bind _ _ _ _ (start_state_total Init _ S0)). intros [m1 s] (S1 & Op1). cbn [fst snd] in *.
    apply (tot_bind _ _ _ _ (exec_total s m1 S1 Op1)). intros [m2 r] ((i & Hi) & D2). cbn [fst snd] in *. destruct r as [alt|x y]; [|apply tot_val; exact D2].
    destruct (start_seek_total i m2 Hi) as (s1 & E1 & A1 & _). apply (tot_get _ _ _ _ E1). destruct (A_release _ A1) as (s2 & E2).
    cbn [with_sim_input m_input] in *. apply (tot_get _ _ _ _ E2). apply tot_val. exact D2.
  Qed.
End Run.
