(** What the states and edges of a decision's DFA mean, and that predictions keep it so. *)
From Coq Require Import ZArith List Bool Lia Sorted ZifyBool ZifyNat Permutation.
From Verif Require Import Outcome IntervalSetModel PredContextModel PredContextSpec PredContextProofs SemContextModel SemContextProofs.
From Verif Require Import ConfigSetModel ConfigSetSpec ConfigSetProofs DfaModel DfaProofs AtnModel AtnSpec AtnProofs Ll1Model Ll1Spec ParserModel PredictModel.
From Verif Require Import PredictFrameProofs PredictDfaFrameProofs PredictLLSpec PredictLLContextProofs PredictLLSetProofs PredictLLClosureProofs PredictLLReachProofs PredictLLFullProofs.
Import ListNotations.
Local Open Scope Z_scope.
Local Open Scope outcome_scope.

Lemma edge_get max es t to es' t' r : p_add_edge max es t to = Val es' -> p_get_edge es' t' = Some r ->
  (t' = t /\ r = to) \/ p_get_edge es t' = Some r.
Proof.
  unfold p_add_edge, p_get_edge. destruct ((t <? -1) || (t >? max)); [intros H; inversion H; auto|].
  intros H Q. destruct (vset (match es with [] => resize [] (max + 2) 0 | _ => es end) (t + 1) to) as [l|] eqn:E; [|discriminate].
  cbn in H. inversion H; subst l. apply vset_ok in E as (_ & _ & E). rewrite E in Q.
  destruct (Z.eqb_spec (t' + 1) (t + 1)) as [Et|Nt].
  - left. split; [lia|]. unfold slot in Q. destruct to; congruence.
  - right. destruct es as [|e es]; [|exact Q]. exfalso. unfold resize in Q. rewrite firstn_nil in Q. cbn [app] in Q.
    rewrite vget_repeat in Q. destruct ((0 <=? t' + 1) && _); discriminate.
Qed.

Definition same_keys (cs cs' : list pconfig) : Prop := map lexer_key cs = map lexer_key cs'.
Lemma same_in cs cs' c : same_keys cs cs' -> In c cs -> exists c', In c' cs' /\ c_state c' = c_state c /\ c_alt c' = c_alt c /\ c_ctx c' = c_ctx c.
Proof.
  intros E I. apply (in_map lexer_key) in I. rewrite E in I. apply in_map_iff in I as (c' & Ek & I). exists c'. split; [exact I|].
  unfold lexer_key in Ek. inversion Ek. auto.
Qed.
Lemma same_sym cs cs' : same_keys cs cs' -> same_keys cs' cs.
Proof. unfold same_keys. congruence. Qed.
Lemma same_den cs cs' : same_keys cs cs' -> forall w j q g, den w cs j q g -> den w cs' j q g.
Proof.
  intros E w j q g (c & x & I & A & B & C & D). destruct (same_in _ _ _ E I) as (c' & I' & A' & B' & C').
  exists c', x. split; [exact I'|]. split; [congruence|]. split; [congruence|]. split; [congruence | exact D].
Qed.
Lemma same_key cs cs' : same_keys cs cs' -> forall q j, has_key cs q j -> has_key cs' q j.
Proof.
  intros E q j (c & I & A & B). destruct (same_in _ _ _ E I) as (c' & I' & A' & B' & C'). exists c'. split; [exact I'|]. split; congruence.
Qed.

Section Meaning.
  Variable a : atn.
  Variable main : Z.
  Hypothesis G : simple_grammar a main.
  Variable s : atn_state.

  Notation D := (den true).
  Notation fs := (fs a).
  Notation stop_at := (stop_at a).
  Notation cgood := (cgood a main).
  Notation genuine := (genuine a main false).
  Notation takes := (takes a false).

  Record dstate_ok (st : pstate) : Prop := {
    so_good : Forall (cgood false) (configs (d_configs st));
    so_preds : d_preds st = [];
    so_accept : d_accept st = true -> d_full st = false -> forall q j, has_key (configs (d_configs st)) q j -> j = d_prediction st;
    so_open : (forall q j, has_key (configs (d_configs st)) q j -> fs q) \/ (d_accept st = true /\ d_full st = false)
  }.
  Definition edge_none (cs : list pconfig) (t : Z) : Prop := tok_ok a t ->
    (forall j q g, ~ genuine cs t j q g) /\ (t = TOKEN_EOF -> forall j q g, D cs j q g -> ~ stop_at q).
  Definition edge_to (cs : list pconfig) (t : Z) (cs' : list pconfig) : Prop := tok_ok a t ->
    (t <> TOKEN_EOF -> (forall j q g, genuine cs t j q g -> D cs' j q g) \/ (forall j q g, takes cs t j q g -> D cs' j q g)) /\
    (t = TOKEN_EOF -> (forall j q g, genuine cs t j q g -> D cs' j q g) /\ (forall j q g, D cs j q g -> stop_at q -> D cs' j q g) /\
       forall q j, has_key cs' q j -> stop_at q).
  Definition edge_fine (d : pdfa) (cs : list pconfig) (t r : Z) : Prop :=
    (r = ERROR_DFA_STATE_REF /\ edge_none cs t) \/
    (r <> ERROR_DFA_STATE_REF /\ exists st, vget (dfa_states d) r = Some st /\ edge_to cs t (configs (d_configs st))).
  Definition covers_start (cs : list pconfig) : Prop :=
    (forall k t g0 q g, nth_error (st_trans s) k = Some t -> stk a main (get_target t) g0 -> cmoves a false (get_target t, g0) (q, g) -> fs q ->
       D cs (1 + Z.of_nat k) q g) /\
    (forall q j, has_key cs q j -> fs q).
  Record dfa_ok (d : pdfa) : Prop := {
    do_prec : is_precedence_dfa d = false;
    do_states : forall i st, vget (dfa_states d) i = Some st -> dstate_ok st;
    do_edges : forall i st t r, vget (dfa_states d) i = Some st -> p_get_edge (d_edges st) t = Some r -> edge_fine d (configs (d_configs st)) t r;
    do_start : forall r, s0 d = Some r -> exists st, vget (dfa_states d) r = Some st /\ covers_start (configs (d_configs st))
  }.

  Lemma edge_to_same cs t cs1 cs2 : same_keys cs1 cs2 -> edge_to cs t cs1 -> edge_to cs t cs2.
  Proof.
    intros E H Ok. destruct (H Ok) as (H1 & H2). split.
    - intros Nt. destruct (H1 Nt) as [Q|Q]; [left | right]; intros j q g X; eapply same_den; eauto.
    - intros Et. destruct (H2 Et) as (Q1 & Q2 & Q3). split; [intros; eapply same_den; eauto|]. split; [intros; eapply same_den; eauto|].
      intros q j X. eapply Q3, same_key; [apply same_sym, E | exact X].
  Qed.
  Lemma covers_same cs cs' : same_keys cs cs' -> covers_start cs -> covers_start cs'.
  Proof.
    intros E (H1 & H2). split; [intros; eapply same_den; eauto|]. intros q j X. eapply H2, same_key; [apply same_sym, E | exact X].
  Qed.

  (** ** Growing DFAs *)
  (** states stay where they are, only their edges change *)
  Definition grows (d d' : pdfa) : Prop :=
    ((length (dfa_states d) <= length (dfa_states d'))%nat /\ is_precedence_dfa d' = is_precedence_dfa d) /\
    forall i st, vget (dfa_states d) i = Some st -> exists st', vget (dfa_states d') i = Some st' /\ d_configs st' = d_configs st.
  Lemma grows_refl d : grows d d.
  Proof using. split; [split; [apply le_n | reflexivity]|]. eauto. Qed.
  Lemma grows_trans d d1 d2 : grows d d1 -> grows d1 d2 -> grows d d2.
  Proof using.
    intros ((L1 & P1) & H1) ((L2 & P2) & H2). split; [split; [eapply Nat.le_trans; eauto | congruence]|]. intros i st V. destruct (H1 _ _ V) as (st1 & V1 & E1). destruct (H2 _ _ V1) as (st2 & V2 & E2).
    exists st2. split; [exact V2 | congruence].
  Qed.
  Lemma edge_fine_grows d d' cs t r : grows d d' -> edge_fine d cs t r -> edge_fine d' cs t r.
  Proof using.
    intros (_ & H) [Q|(N & st & V & E)]; [left; exact Q|]. right. split; [exact N|]. destruct (H _ _ V) as (st' & V' & E'). exists st'.
    split; [exact V'|]. rewrite E'. exact E.
  Qed.

  Lemma good_of cs : Forall (cgood false) cs -> Forall (good_config (X := unit)) cs.
  Proof. rewrite !Forall_forall. intros H c I. destruct (H c I) as (x & E & W & _). exists x. auto. Qed.

  Section Ops.
    Variable dhash : list pconfig -> Z.
    Variable share : pctx -> pctx.
    Hypothesis Hshare : forall x, wf x -> share x = x.
    Notation add := (p_add_dfastate unit unit_eqb unit dhash share).

    Lemma find_state_inv l b cs i : find_state unit unit_eqb unit l b cs = Val (Some i) ->
      exists st, vget l i = Some st /\ configs_eqb unit unit_eqb (configs (d_configs st)) (configs cs) = true.
    Proof.
      induction b as [|x b IH]; cbn [find_state]; intros H; [discriminate|].
      bind H st Es. destruct (set_eqb unit unit_eqb (d_configs st) cs) eqn:Eq; [|auto].
      inversion H; subst x. exists st. split; [destruct (vget l i); [inversion Es; reflexivity | discriminate]|].
      unfold set_eqb in Eq. rewrite !andb_true_iff in Eq. apply Eq.
    Qed.

    Lemma add_grows d st d' r : add d st = Val (d', r) -> grows d d'.
    Proof using.
      unfold p_add_dfastate. destruct (d_number st =? ERROR_DFA_STATE_REF); [intros H; inversion H; apply grows_refl|].
      intros H. bind H found Ef. destruct found as [i|]; [inversion H; subst; apply grows_refl|].
      bind H cs Ec. inversion H; subst. split; cbn [dfa_states is_precedence_dfa]; [split; [rewrite app_length; apply Nat.le_add_r | reflexivity]|].
      intros i st0 V. exists st0. split; [|reflexivity]. rewrite vget_app. pose proof (vget_lt _ _ _ V) as (_ & Lt).
      apply Z.ltb_lt in Lt. rewrite Lt. exact V.
    Qed.

    Lemma add_dfa_ok d st d' r : dfa_ok d -> d_number st = 0 -> d_edges st = [] -> dstate_ok st -> add d st = Val (d', r) ->
      Z.of_nat (length (dfa_states d')) < ERROR_DFA_STATE_REF ->
      dfa_ok d' /\ grows d d' /\ r <> ERROR_DFA_STATE_REF /\ s0 d' = s0 d /\
      exists st', vget (dfa_states d') r = Some st' /\ same_keys (configs (d_configs st)) (configs (d_configs st')).
    Proof.
      intros Ok Nu Ed So H Len. pose proof (add_grows _ _ _ _ H) as Gr.
      unfold p_add_dfastate in H. rewrite Nu in H. change (0 =? ERROR_DFA_STATE_REF) with false in H. cbv beta iota in H.
      bind H found Ef. destruct found as [i|].
      - inversion H; subst d' r. split; [exact Ok|]. split; [apply grows_refl|].
        destruct (map_get (states_map d) (dhash (configs (d_configs st)))) as [b|]; [|discriminate].
        destruct (find_state_inv _ _ _ _ Ef) as (st1 & V & Eq). pose proof (vget_lt _ _ _ V). split; [lia|]. split; [reflexivity|].
        exists st1. split; [exact V|]. apply same_sym.
        apply (configs_eqb_ok unit unit_eqb) in Eq; [exact Eq | intros [] []; split; reflexivity | |].
        + apply good_of, (so_good _ (do_states _ Ok _ _ V)).
        + apply good_of, (so_good _ So).
      - bind H cs Ec. inversion H; subst d' r. clear H. cbn [dfa_states] in *. rewrite app_length in Len. cbn [length] in Len.
        assert (Ecs : configs cs = configs (d_configs st)).
        { destruct (read_only (d_configs st)); [inversion Ec; reflexivity|]. bind Ec cs1 E1. inversion Ec; subst cs. clear Ec.
          unfold optimize_configs in E1. rewrite (share_all_ok unit share Hshare) in E1 by apply good_of, (so_good _ So).
          cbn in E1. inversion E1; subst cs1. reflexivity. }
        set (st' := DState unit unit (Z.of_nat (length (dfa_states d))) cs (d_edges st) (d_accept st) (d_prediction st) (d_exec st) (d_full st) (d_preds st)) in *.
        assert (New : vget (dfa_states d ++ [st']) (Z.of_nat (length (dfa_states d))) = Some st').
        { rewrite vget_app. destruct (Z.ltb_spec (Z.of_nat (length (dfa_states d))) (Z.of_nat (length (dfa_states d)))); [lia|].
          rewrite Z.sub_diag. reflexivity. }
        assert (Old : forall i x, vget (dfa_states d ++ [st']) i = Some x -> vget (dfa_states d) i = Some x \/ x = st').
        { intros i x V. rewrite vget_app in V. destruct (Z.ltb_spec i (Z.of_nat (length (dfa_states d)))); [auto|]. right.
          unfold vget in V. destruct (Z.ltb_spec (i - Z.of_nat (length (dfa_states d))) 0); [discriminate|].
          destruct (Z.to_nat (i - Z.of_nat (length (dfa_states d)))) as [|n]; [cbn in V; congruence | destruct n; discriminate]. }
        split; [|split; [exact Gr|split; [lia|split; [reflexivity|]]]].
        + constructor; cbn [is_precedence_dfa dfa_states s0].
          * apply Ok.
          * intros i x V. apply Old in V as [V| -> ]; [apply (do_states _ Ok _ _ V)|].
            destruct So as [S1 S2 S3 S4]. constructor; unfold st'; cbn [d_configs d_preds d_accept d_full d_prediction]; rewrite ?Ecs; assumption.
          * intros i x t r V Q. apply Old in V as [V| -> ].
            -- eapply edge_fine_grows; [exact Gr|]. eapply (do_edges _ Ok); eauto.
            -- exfalso. unfold st' in Q. cbn [d_edges] in Q. rewrite Ed in Q. unfold p_get_edge, vget in Q. destruct (t + 1 <? 0); [discriminate|].
               destruct (Z.to_nat (t + 1)); discriminate.
          * intros r Q. destruct (do_start _ Ok _ Q) as (x & V & C). destruct Gr as (_ & Gr). destruct (Gr _ _ V) as (x' & V' & E'). cbn [dfa_states] in V'.
            exists x'. split; [exact V'|]. rewrite E'. exact C.
        + exists st'. split; [exact New|]. unfold st', same_keys. cbn [d_configs]. rewrite Ecs. reflexivity.
    Qed.

    Lemma add_edge_grows max d from t to d' : p_dfa_add_edge unit unit max d from t to = Val d' -> grows d d'.
    Proof using.
      unfold p_dfa_add_edge. intros H. bind H st Es. bind H es Ee. bind H l El. inversion H; subst d'. clear H.
      destruct (vget (dfa_states d) from) as [st0|] eqn:V; [|discriminate]. cbn in Es. inversion Es; subst st0.
      destruct (vset (dfa_states d) from _) as [l0|] eqn:El'; [|discriminate]. cbn in El. inversion El; subst l0.
      apply vset_ok in El' as (_ & Ll & Vl). split; cbn [dfa_states with_states is_precedence_dfa]; [split; [rewrite Ll; apply le_n | reflexivity]|].
      intros i x V'. rewrite Vl. destruct (Z.eqb_spec i from) as [->|N]; [|eauto]. rewrite V in V'. inversion V'; subst x.
      eexists. split; reflexivity.
    Qed.
    Lemma add_edge_ok max d from t to d' st : dfa_ok d -> vget (dfa_states d) from = Some st -> edge_fine d (configs (d_configs st)) t to ->
      p_dfa_add_edge unit unit max d from t to = Val d' -> dfa_ok d' /\ grows d d'.
    Proof.
      intros Ok V Ef H. pose proof (add_edge_grows _ _ _ _ _ _ H) as Gr. split; [|exact Gr].
      unfold p_dfa_add_edge in H. rewrite V in H. cbn [unwrap obindo] in H. bind H es Ee. bind H l El. inversion H; subst d'. clear H.
      destruct (vset (dfa_states d) from _) as [l0|] eqn:El'; [|discriminate]. cbn in El. inversion El; subst l0.
      apply vset_ok in El' as (_ & Ll & Vl). constructor; cbn [is_precedence_dfa dfa_states s0 with_states].
      - apply Ok.
      - intros i x V'. rewrite Vl in V'. destruct (Z.eqb_spec i from) as [->|N]; [|eapply (do_states _ Ok); eauto].
        inversion V'; subst x. destruct (do_states _ Ok _ _ V) as [S1 S2 S3 S4]. constructor; assumption.
      - intros i x t' r V' Q. eapply edge_fine_grows; [exact Gr|]. rewrite Vl in V'. destruct (Z.eqb_spec i from) as [->|N].
        + inversion V'; subst x. cbn [d_configs d_edges with_edges] in *. destruct (edge_get _ _ _ _ _ _ _ Ee Q) as [(-> & ->)|Q']; [exact Ef|].
          eapply (do_edges _ Ok); eauto.
        + eapply (do_edges _ Ok); eauto.
      - intros r Q. destruct (do_start _ Ok _ Q) as (x & V' & C). destruct Gr as (_ & Gr). destruct (Gr _ _ V') as (x' & V2 & E').
        exists x'. split; [exact V2|]. rewrite E'. exact C.
    Qed.
  End Ops.

  Lemma new_ok : dfa_ok (dfa_new unit unit false).
  Proof.
    assert (One : forall i st, vget (dfa_states (dfa_new unit unit false)) i = Some st -> st = new_dfastate unit unit ERROR_DFA_STATE_REF (new_base_config_set unit true)).
    { intros i st V. unfold vget in V. cbn [dfa_states dfa_new] in V. destruct (i <? 0); [discriminate|]. destruct (Z.to_nat i) as [|[|n]]; inversion V; reflexivity. }
    constructor.
    - reflexivity.
    - intros i st V. apply One in V. subst st. constructor; cbn; auto; [discriminate|]. left. intros q j (c & [] & _).
    - intros i st t r V Q. apply One in V. subst st. cbn in Q. unfold p_get_edge, vget in Q. destruct (t + 1 <? 0); [discriminate|].
      destruct (Z.to_nat (t + 1)); discriminate.
    - intros r Q. discriminate.
  Qed.

  (** ** New states *)
  Lemma decide_ok alt_order hash mode reach st : sgood a main false reach -> configs reach <> [] ->
    (forall q j, has_key (configs reach) q j -> fs q) \/ (exists p, forall q j, has_key (configs reach) q j -> j = p) ->
    decide_state a alt_order hash mode reach = Val st ->
    dstate_ok st /\ configs (d_configs st) = configs reach /\ d_edges st = [] /\ d_number st = 0 /\ has_semantic_context (d_configs st) = false.
  Proof.
    intros Sg Ne Fu H. unfold decide_state in H. pose proof (sg_configs _ _ _ _ Sg) as Gc. pose proof (sg_sem _ _ _ _ Sg) as Se.
    pose proof (fun p => unique_alt_all a main hash false (configs reach) p Gc Ne) as Ua.
    destruct (Z.eqb_spec (get_unique_alt unit (configs reach)) INVALID_ALT) as [U|U]; cbn [negb] in H.
    - assert (Fs : forall q j, has_key (configs reach) q j -> fs q) by (destruct Fu as [Q|(p & Q)]; [exact Q | destruct (proj2 (Ua p) U Q)]).
      bind H al Ea. bind H cf Ec. destruct cf.
      + bind H alts El. bind H hd0 Ef. inversion H; subst st. split; [|auto]. constructor; cbn; auto; discriminate.
      + inversion H; subst st. split; [|auto]. constructor; cbn; auto; discriminate.
    - inversion H; subst st. split; [|auto]. constructor; cbn; auto. intros _ _. apply (Ua 0), U.
  Qed.

  Section Predict.
    Context {S : Type}.
    Variable ts : seek_ops S.
    Variable ctx : Type.
    Variable sempred : S -> option ctx -> Z -> Z -> bool.
    Variable order : list nat -> list sem -> list sem.
    Variable alt_order : list (list Z) -> list (list Z).
    Variable hash : pctx -> Z.
    Variable dhash : list pconfig -> Z.
    Variable share : pctx -> pctx.
    Hypothesis Hshare : forall x, wf x -> share x = x.
    Variable fuel : nat.
    Variable mode : pmode.
    Variable start_index : Z.
    Variable precedence : Z.
    Variable outer : ctx.
    Variable outer_stack : list Z.
    Variable decision : Z.
    Variable atn_start_state : Z.
    Hypothesis Hs : state_at a atn_start_state = Some s.
    Notation target := (compute_target_state ts a ctx sempred order alt_order hash dhash share fuel mode start_index precedence outer decision atn_start_state).
    Notation small m := (Z.of_nat (length (dfa_states (m_dfa m))) < ERROR_DFA_STATE_REF).

    Lemma target_grows previous t m m' r : target previous t m = Val (m', r) -> grows (m_dfa m) (m_dfa m').
    Proof using.
      unfold compute_target_state. intros H. bind H prev Ep. bind2 H m1 o E1.
      assert (E : m_dfa m1 = m_dfa m) by (eapply PredictDfaFrameProofs.f_reach; [exact E1 | reflexivity]).
      rewrite <- E. destruct o as [reach|].
      - bind H st Est. bind2 H m2 st2 E2. bind2 H m3 r3 E3. bind H m4 E4. inversion H; subst m4 r3.
        assert (Em : m_dfa m2 = m_dfa m1).
        { destruct (d_accept st && has_semantic_context (d_configs st)); [|inversion E2; reflexivity].
          bind E2 ds Eds. bind E2 s1 Es. bind2 E2 m5 st5 E5. inversion E2; subst. clear E2.
          unfold predicate_dfa_state, get_preds_for_ambig_alts in E5. bind2 E5 m6 o6 E6. bind2 E6 m7 v7 E7. inversion E6; subst. inversion E5; subst.
          clear - E7. revert E7. generalize (repeat (@None sem) (Datatypes.S (length (st_trans s1)))). generalize (get_conflicting_alts_or_unique_alt unit (d_configs st)).
          intros am. revert m1. induction (configs (d_configs st)) as [|c l IH]; intros m1 v H; cbn [collect_preds] in H; [inversion H; reflexivity|].
          destruct (existsb (Z.eqb (c_alt c)) am); [|eauto]. bind H o Eo. bind H v1 Ev. rewrite (IH _ _ H). reflexivity. }
        unfold add_state in E3. bind2 E3 d3 r4 E5. inversion E3; subst. unfold add_edge in E4. bind E4 d4 E6. inversion E4; subst. cbn [m_dfa with_dfa] in *.
        rewrite <- Em. eapply grows_trans; [eapply add_grows; eauto | eapply add_edge_grows; eauto].
      - bind H m2 E2. inversion H; subst. unfold add_edge in E2. bind E2 d2 E3. inversion E2; subst. cbn. eapply add_edge_grows; eauto.
    Qed.

    Lemma target_ok previous t m m' r st : dfa_ok (m_dfa m) -> kgood a main false (m_cache m) -> vget (dfa_states (m_dfa m)) previous = Some st ->
      (forall q j, has_key (configs (d_configs st)) q j -> fs q) -> target previous t m = Val (m', r) -> small m' ->
      dfa_ok (m_dfa m') /\ kgood a main false (m_cache m') /\ m_input m' = m_input m /\ edge_fine (m_dfa m') (configs (d_configs st)) t r.
    Proof.
      intros Ok Kg V Fs H Len. unfold compute_target_state in H. unfold dfa_get in H. rewrite V in H. cbn [unwrap obindo] in H. bind2 H m1 o E1.
      destruct (reach_ok ts a main G ctx sempred order hash fuel start_index precedence outer atn_start_state false _ t m m1 o (so_good _ (do_states _ Ok _ _ V)) Fs)
        as (K1 & I1 & D1 & R1); [discriminate | exact Kg | apply Ok | exact E1|].
      cbn [negb] in R1. destruct o as [reach|].
      - destruct R1 as (Sg & Ne & Re). bind H st1 Est.
        destruct (decide_ok _ _ _ _ _ Sg Ne (match Re with or_introl Q => or_introl (re_fs _ _ _ _ _ _ Q) | or_intror Q => or_intror (lo_alt _ _ _ _ _ Q) end) Est)
          as (So & Ec & Ee & En & Es).
        rewrite Es, andb_false_r in H. cbn [obindo] in H. bind2 H m3 r3 E3. bind H m4 E4. inversion H; subst m4 r3. clear H.
        unfold add_state in E3. bind2 E3 d3 r4 E5. inversion E3; subst m3 r4. clear E3. unfold add_edge in E4. bind E4 d4 E6. inversion E4; subst m'. clear E4.
        cbn [m_dfa with_dfa m_cache m_input] in *. rewrite D1 in E5.
        assert (Len3 : Z.of_nat (length (dfa_states d3)) < ERROR_DFA_STATE_REF).
        { destruct (add_edge_grows _ _ _ _ _ _ E6) as ((L & _) & _). lia. }
        destruct (add_dfa_ok dhash share Hshare _ _ _ _ Ok En Ee So E5 Len3) as (Ok3 & Gr3 & Nr & _ & st' & V' & Sk).
        destruct (proj2 Gr3 _ _ V) as (st3 & V3 & Ec3).
        assert (Ef : edge_fine d3 (configs (d_configs st3)) t r).
        { right. split; [exact Nr|]. exists st'. split; [exact V'|]. rewrite Ec3. eapply edge_to_same; [exact Sk|]. rewrite Ec.
          intros Tk. destruct Re as [Re|Lo].
          - pose proof (re_complete _ _ _ _ _ _ Re Tk) as Co. split; [intros _; left; exact Co|]. intros Et. split; [exact Co|].
            split; [apply (re_kept _ _ _ _ _ _ Re Et eq_refl) | apply (re_stop _ _ _ _ _ _ Re Et)].
          - split; [|intros Et; destruct (lo_eof _ _ _ _ _ Lo Et)]. intros _. right. intros j q g Q. apply (lo_takes _ _ _ _ _ Lo Tk), Q. }
        destruct (add_edge_ok _ _ _ _ _ _ _ Ok3 V3 Ef E6) as (Ok4 & Gr4).
        split; [exact Ok4|]. split; [exact K1|]. split; [exact I1|]. rewrite Ec3 in Ef. eapply edge_fine_grows; eauto.
      - bind H m2 E2. inversion H; subst m2 r. clear H. unfold add_edge in E2. bind E2 d2 E3. inversion E2; subst m'. clear E2. cbn [m_dfa with_dfa m_cache m_input] in *.
        rewrite D1 in E3. assert (Ef : edge_fine (m_dfa m) (configs (d_configs st)) t ERROR_DFA_STATE_REF).
        { left. split; [reflexivity|]. intros Tk. destruct R1 as (R1 & R2). split; [exact (R1 Tk)|]. intros Et. apply R2. right. exact Et. }
        destruct (add_edge_ok _ _ _ _ _ _ _ Ok V Ef E3) as (Ok2 & Gr2).
        split; [exact Ok2|]. split; [exact K1|]. split; [exact I1|]. eapply edge_fine_grows; eauto.
    Qed.

    (** ** The start state *)
    Lemma start_grows m m' r : is_precedence_dfa (m_dfa m) = false ->
      start_state ts a ctx sempred order hash dhash share fuel start_index precedence outer atn_start_state m = Val (m', r) -> grows (m_dfa m) (m_dfa m').
    Proof using.
      intros Pr H. unfold start_state in H. rewrite Pr in H. cbn [obindo] in H. destruct (s0 (m_dfa m)) as [r0|]; [inversion H; apply grows_refl|].
      unfold make_start in H. bind2 H m1 cs E1.
      assert (E : m_dfa m1 = m_dfa m) by (eapply PredictDfaFrameProofs.f_compute_start; [exact E1 | reflexivity]).
      rewrite E, Pr in H. bind2 H m2 r2 E2. inversion H; subst. unfold add_state in E2. bind2 E2 d2 r3 E3. inversion E2; subst. cbn [m_dfa with_dfa].
      rewrite E in E3. pose proof (add_grows _ _ _ _ _ _ E3) as Gr. exact Gr.
    Qed.
    Lemma start_state_ok m m' r : dfa_ok (m_dfa m) -> kgood a main false (m_cache m) ->
      start_state ts a ctx sempred order hash dhash share fuel start_index precedence outer atn_start_state m = Val (m', r) -> small m' ->
      dfa_ok (m_dfa m') /\ kgood a main false (m_cache m') /\ m_input m' = m_input m /\
      exists st, vget (dfa_states (m_dfa m')) r = Some st /\ covers_start (configs (d_configs st)).
    Proof.
      intros Ok Kg H Len. unfold start_state in H. rewrite (do_prec _ Ok) in H. cbn [obindo] in H. destruct (s0 (m_dfa m)) as [r0|] eqn:Es0.
      - inversion H; subst. split; [exact Ok|]. split; [exact Kg|]. split; [reflexivity|]. apply (do_start _ Ok), Es0.
      - unfold make_start in H. bind2 H m1 cs E1.
        destruct (start_ok ts a main G ctx sempred order hash fuel start_index precedence outer atn_start_state _ _ false s m m1 cs Hs wf_EMPTY) as (Sg & K1 & I1 & D1 & (C1 & C2 & _)); auto.
        { discriminate. } { apply Ok. }
        rewrite D1, (do_prec _ Ok) in H. bind2 H m2 r2 E2. inversion H; subst. clear H. unfold add_state in E2. bind2 E2 d2 r3 E3. inversion E2; subst. clear E2. cbn [m_dfa with_dfa m_cache m_input] in *.
        assert (So : dstate_ok (new_dfastate unit unit 0 cs)).
        { constructor; cbn; auto; [apply Sg | discriminate]. }
        rewrite D1 in E3. destruct (add_dfa_ok dhash share Hshare (m_dfa m) (new_dfastate unit unit 0 cs) d2 r Ok eq_refl eq_refl So E3) as (Ok2 & Gr2 & Nr & S2 & st' & V' & Sk); [cbn in Len; exact Len|].
        assert (Cv : covers_start (configs (d_configs st'))).
        { eapply covers_same; [exact Sk|]. cbn. split; [|exact C2]. intros k t g0 q g N K M F. eapply C1; eauto. cbn [negb]. rewrite stands_EMPTY. auto. }
        split; [|split; [exact K1|split; [exact I1|exists st'; split; assumption]]].
        constructor; unfold set_dfa_s0; cbn; try apply Ok2.
        intros r5 Q. inversion Q; subst. exists st'. split; assumption.
    Qed.
  End Predict.
End Meaning.
