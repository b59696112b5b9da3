(** The DFAs that predictions meet, and what they do to them. *)
From Coq Require Import ZArith List Bool Lia Sorted Permutation ZifyBool ZifyNat.
From Verif Require Import Outcome IntervalSetModel PredContextModel PredContextSpec PredContextProofs SemContextModel SemContextProofs.
From Verif Require Import ConfigSetModel ConfigSetSpec ConfigSetProofs DfaModel DfaProofs AtnModel AtnSpec AtnProofs Ll1Model Ll1Spec ParserModel PredictModel.
From Verif Require Import PredictLLSpec PredictLLSetProofs PredictLLDfaProofs PredictTotalSpec PredictTotalBaseProofs PredictTotalContextProofs PredictTotalStackProofs PredictTotalSetProofs PredictTotalClosureProofs.
Import ListNotations.
Local Open Scope Z_scope.
Local Open Scope outcome_scope.

Section DfaTotal.
  Variable a : atn.
  Variable main : Z.
  Variable nalts : Z.
  Notation ckind := (ckind a main nalts false).
  Notation max := (max_token_type a).

  Record stok (st : pstate) : Prop := {
    st_sll : full_ctx (d_configs st) = false \/ configs (d_configs st) = [];
    st_any : Forall (ckind false) (configs (d_configs st));
    st_open : d_accept st = false -> Forall (ckind true) (configs (d_configs st));
    st_marks : d_accept st = true <-> unique_alt (d_configs st) <> INVALID_ALT \/ conflicting_alts (d_configs st) <> []
  }.
  (** not the state that keeps the start states of the precedences *)
  Definition plain (d : pdfa) (i : Z) : Prop := is_precedence_dfa d = true -> s0 d <> Some i.
  Definition normal (d : pdfa) (i : Z) : Prop := plain d i /\ exists st, vget (dfa_states d) i = Some st.
  Definition opened (d : pdfa) (i : Z) : Prop := plain d i /\ exists st, vget (dfa_states d) i = Some st /\ d_accept st = false.
  Definition accepts (d : pdfa) (i : Z) : Prop := exists st, vget (dfa_states d) i = Some st /\ d_accept st = true.
  Definition edges_ok (d : pdfa) (es : list Z) : Prop :=
    (es = [] \/ Z.of_nat (length es) = max + 2) /\
    (forall t r, p_get_edge es t = Some r -> r = ERROR_DFA_STATE_REF \/ normal d r) /\
    (forall r, p_get_edge es TOKEN_EOF = Some r -> r = ERROR_DFA_STATE_REF \/ accepts d r).
  Record dok (d : pdfa) : Prop := {
    dk_states : forall i st, vget (dfa_states d) i = Some st -> stok st;
    dk_edges : forall i st, vget (dfa_states d) i = Some st -> plain d i -> edges_ok d (d_edges st);
    dk_s0 : forall i, s0 d = Some i -> exists st, vget (dfa_states d) i = Some st /\ d_accept st = false /\
      (is_precedence_dfa d = true -> forall p r, slot (vget (d_edges st) p) = Some r -> opened d r);
    dk_prec : is_precedence_dfa d = true -> s0 d <> None;
    dk_map : forall k b i, map_get (states_map d) k = Some b -> In i b -> normal d i
  }.

  Lemma get_edge_nil t : p_get_edge [] t = None.
  Proof. unfold p_get_edge, vget. destruct (t + 1 <? 0); [reflexivity|]. destruct (Z.to_nat (t + 1)); reflexivity. Qed.
  Lemma edges_nil d : edges_ok d [].
  Proof. split; [auto|]. split; intros; rewrite get_edge_nil in *; discriminate. Qed.

  Lemma stok_new n : stok (new_dfastate unit unit n (new_base_config_set unit true)).
  Proof. constructor; cbn; [auto | constructor | constructor |]. split; [discriminate|]. intros [H|H]; destruct (H eq_refl). Qed.
  Lemma slot_nil p : slot (vget (A := Z) [] p) = None.
  Proof. unfold vget. destruct (p <? 0); [reflexivity|]. destruct (Z.to_nat p); reflexivity. Qed.
  Lemma dok_new prec : dok (dfa_new unit unit prec).
  Proof.
    unfold dfa_new. assert (Two : forall (x y : pstate) i st, vget [x; y] i = Some st -> st = x \/ st = y).
    { intros x y i st. unfold vget. destruct (i <? 0); [discriminate|]. destruct (Z.to_nat i) as [|[|[|n]]]; cbn; intros H; inversion H; auto. }
    assert (One : forall (x : pstate) i st, vget [x] i = Some st -> st = x).
    { intros x i st. unfold vget. destruct (i <? 0); [discriminate|]. destruct (Z.to_nat i) as [|[|n]]; cbn; intros H; inversion H; auto. }
    destruct prec; constructor; cbn [dfa_states s0 is_precedence_dfa states_map].
    - intros i st V. apply Two in V as [->| ->]; apply stok_new.
    - intros i st V _. apply Two in V as [->| ->]; apply edges_nil.
    - intros i Q. inversion Q; subst i. eexists. split; [reflexivity|]. split; [reflexivity|]. intros _ p r. cbn [d_edges new_dfastate]. rewrite slot_nil. discriminate.
    - discriminate.
    - discriminate.
    - intros i st V. apply One in V as ->; apply stok_new.
    - intros i st V _. apply One in V as ->; apply edges_nil.
    - discriminate.
    - discriminate.
    - discriminate.
  Qed.

  (** ** Growing *)
  Definition ext (d d' : pdfa) : Prop := is_precedence_dfa d' = is_precedence_dfa d /\ (is_precedence_dfa d = true -> s0 d' = s0 d) /\
    forall i st, vget (dfa_states d) i = Some st -> exists st', vget (dfa_states d') i = Some st' /\ d_accept st' = d_accept st.
  Lemma ext_refl d : ext d d.
  Proof. split; [reflexivity|]. split; [reflexivity|]. eauto. Qed.
  Lemma ext_trans d d1 d2 : ext d d1 -> ext d1 d2 -> ext d d2.
  Proof.
    intros (P1 & S1 & H1) (P2 & S2 & H2). split; [congruence|]. split; [intros Q; rewrite S2; [apply S1, Q | congruence]|].
    intros i st V. destruct (H1 _ _ V) as (st1 & V1 & A1). destruct (H2 _ _ V1) as (st2 & V2 & A2). exists st2. split; [exact V2 | congruence].
  Qed.
  Lemma plain_ext d d' i : ext d d' -> plain d i -> plain d' i.
  Proof. intros (P & Q & _) H E. rewrite P in E. rewrite (Q E). apply H, E. Qed.
  Lemma plain_ext' d d' i : ext d d' -> plain d' i -> plain d i.
  Proof. intros (P & Q & _) H E. rewrite <- (Q E). apply H. congruence. Qed.
  Lemma normal_ext d d' i : ext d d' -> normal d i -> normal d' i.
  Proof. intros X (P & st & V). split; [eapply plain_ext; eauto|]. destruct X as (_ & _ & H). destruct (H _ _ V) as (st' & V' & _). eauto. Qed.
  Lemma opened_ext d d' i : ext d d' -> opened d i -> opened d' i.
  Proof.
    intros X (P & st & V & A). split; [eapply plain_ext; eauto|]. destruct X as (_ & _ & H). destruct (H _ _ V) as (st' & V' & A'). exists st'. split; [exact V' | congruence].
  Qed.
  Lemma accepts_ext d d' i : ext d d' -> accepts d i -> accepts d' i.
  Proof. intros (_ & _ & H) (st & V & A). destruct (H _ _ V) as (st' & V' & A'). exists st'. split; [exact V' | congruence]. Qed.
  Lemma edges_ext d d' es : ext d d' -> edges_ok d es -> edges_ok d' es.
  Proof.
    intros X (A & B & C). split; [exact A|]. split.
    - intros t r Q. destruct (B _ _ Q) as [H|H]; [left; exact H | right; eapply normal_ext; eauto].
    - intros r Q. destruct (C _ Q) as [H|H]; [left; exact H | right; eapply accepts_ext; eauto].
  Qed.
  Lemma opened_normal d i : opened d i -> normal d i.
  Proof. intros (P & st & V & _). split; eauto. Qed.

  Section Ops.
    Variable dhash : list pconfig -> Z.
    Variable share : pctx -> pctx.
    Hypothesis Hshare : forall x, wf x -> share x = x.
    Notation add := (p_add_dfastate unit unit_eqb unit dhash share).

    Lemma kind_good fin l : Forall (ckind fin) l -> Forall (good_config (X := unit)) l.
    Proof. apply Forall_impl. intros c ((x & E & F & _) & _). exists x. split; [exact E | eapply fits_wf; eauto]. Qed.

    Lemma find_total l cs : forall b, (forall i, In i b -> exists st, vget l i = Some st) ->
      exists o, find_state unit unit_eqb unit l b cs = Val o /\
        forall i, o = Some i -> In i b /\ exists st, vget l i = Some st /\ set_eqb unit unit_eqb (d_configs st) cs = true.
    Proof.
      induction b as [|i b IH]; intros Hb; cbn [find_state].
      - exists None. split; [reflexivity | discriminate].
      - destruct (Hb i (or_introl eq_refl)) as (st & V). rewrite V. cbn [unwrap obindo]. destruct (set_eqb unit unit_eqb (d_configs st) cs) eqn:E.
        + exists (Some i). split; [reflexivity|]. intros i' Q. inversion Q; subst. split; [left; reflexivity | eauto].
        + destruct IH as (o & Eo & Ho); [intros j I; apply Hb; right; exact I|]. exists o. split; [exact Eo|]. intros j Q. destruct (Ho j Q). split; [right|]; assumption.
    Qed.
    Lemma map_push_in k x : forall mp k' b i, map_get (map_push mp k x) k' = Some b -> In i b -> i = x \/ exists b0, map_get mp k' = Some b0 /\ In i b0.
    Proof.
      induction mp as [|[k0 v] mp IH]; intros k' b i; cbn [map_push map_get].
      - destruct (k =? k'); [|discriminate]. intros Q I. inversion Q; subst. destruct I as [<-|[]]. auto.
      - destruct (k0 =? k) eqn:E; cbn [map_get].
        + destruct (k0 =? k') eqn:E'; [|intros Q I; right; eauto]. intros Q I. inversion Q; subst. apply in_app_iff in I as [I|[<-|[]]]; [right; eauto | auto].
        + destruct (k0 =? k') eqn:E'; [intros Q I; right; eauto|]. apply IH.
    Qed.

    Lemma add_dfa_total d st : dok d -> d_number st = 0 -> d_edges st = [] -> stok st ->
      exists d' r, add d st = Val (d', r) /\ dok d' /\ ext d d' /\ s0 d' = s0 d /\ plain d' r /\
        exists st', vget (dfa_states d') r = Some st' /\ d_accept st' = d_accept st.
    Proof.
      intros Ok Nu Ed So. unfold p_add_dfastate. rewrite Nu. change (0 =? ERROR_DFA_STATE_REF) with false. cbv beta iota.
      assert (Fd : exists o, match map_get (states_map d) (dhash (configs (d_configs st))) with
        | Some b => find_state unit unit_eqb unit (dfa_states d) b (d_configs st) | None => Val None end = Val o /\
        forall i, o = Some i -> plain d i /\ exists st1, vget (dfa_states d) i = Some st1 /\ set_eqb unit unit_eqb (d_configs st1) (d_configs st) = true).
      { destruct (map_get (states_map d) (dhash (configs (d_configs st)))) as [b|] eqn:Em; [|exists None; split; [reflexivity | discriminate]].
        destruct (find_total (dfa_states d) (d_configs st) b) as (o & Eo & Ho).
        - intros i I. apply (dk_map _ Ok _ _ _ Em I).
        - exists o. split; [exact Eo|]. intros i Q. destruct (Ho i Q) as (I & H). split; [apply (dk_map _ Ok _ _ _ Em I) | exact H]. }
      destruct Fd as (o & -> & Ho). cbn [obindo]. destruct o as [i|].
      - destruct (Ho i eq_refl) as (Pl & st1 & V & Eq). exists d, i. split; [reflexivity|]. split; [exact Ok|]. split; [apply ext_refl|]. split; [reflexivity|].
        split; [exact Pl|]. exists st1. split; [exact V|]. unfold set_eqb in Eq. rewrite !andb_true_iff in Eq. destruct Eq as (((((_ & _) & E1) & E2) & _) & _).
        apply Z.eqb_eq in E1. apply zlist_eqb_eq in E2. pose proof (st_marks _ (dk_states _ Ok _ _ V)) as M1. pose proof (st_marks _ So) as M2.
        rewrite E1, E2, <- M2 in M1. destruct (d_accept st1), (d_accept st); try reflexivity; intuition congruence.
      - clear Ho. set (n := Z.of_nat (length (dfa_states d))).
        assert (Cs : exists cs, (if ConfigSetModel.read_only (d_configs st) then Val (d_configs st)
             else let! cs := optimize_configs unit share (d_configs st) in Val (set_read_only unit cs true)) = Val cs /\
             full_ctx cs = full_ctx (d_configs st) /\ configs cs = configs (d_configs st) /\ unique_alt cs = unique_alt (d_configs st) /\ conflicting_alts cs = conflicting_alts (d_configs st)).
        { destruct (ConfigSetModel.read_only (d_configs st)); [eauto 9|]. unfold optimize_configs.
          rewrite (share_all_ok unit share Hshare) by (eapply kind_good, (st_any _ So)). cbn [obindo]. eexists. split; [reflexivity|]. cbn. auto. }
        destruct Cs as (cs & -> & C0 & C1 & C2 & C3). cbn [obindo]. set (st' := DState unit unit n cs (d_edges st) (d_accept st) (d_prediction st) (d_exec st) (d_full st) (d_preds st)).
        set (d' := Dfa unit unit _ _ _ _).
        assert (New : vget (dfa_states d') n = Some st').
        { unfold d'. cbn [dfa_states]. rewrite vget_app. destruct (Z.ltb_spec n (Z.of_nat (length (dfa_states d)))); [lia|].
          unfold n. rewrite Z.sub_diag. reflexivity. }
        assert (Old : forall i x, vget (dfa_states d') i = Some x -> vget (dfa_states d) i = Some x \/ x = st').
        { intros i x V. unfold d' in V. cbn [dfa_states] in V. rewrite vget_app in V. destruct (Z.ltb_spec i (Z.of_nat (length (dfa_states d)))); [auto|]. right.
          unfold vget in V. destruct (Z.ltb_spec (i - Z.of_nat (length (dfa_states d))) 0); [discriminate|].
          destruct (Z.to_nat (i - Z.of_nat (length (dfa_states d)))) as [|k]; [cbn in V; congruence | destruct k; discriminate]. }
        assert (Kept : forall i x, vget (dfa_states d) i = Some x -> vget (dfa_states d') i = Some x).
        { intros i x V. unfold d'. cbn [dfa_states]. rewrite vget_app. pose proof (vget_lt _ _ _ V) as (_ & Lt). apply Z.ltb_lt in Lt. rewrite Lt. exact V. }
        assert (X : ext d d') by (split; [reflexivity|]; split; [reflexivity|]; intros i x V; exists x; split; [apply Kept, V | reflexivity]).
        assert (Pn : plain d' n).
        { intros P Q. unfold d' in P, Q. cbn in P, Q. destruct (dk_s0 _ Ok _ Q) as (x & V & _). apply vget_lt in V. lia. }
        exists d', n. split; [reflexivity|]. split; [|split; [exact X|split; [reflexivity|split; [exact Pn|exists st'; split; [exact New | reflexivity]]]]].
        constructor.
        + intros i x V. apply Old in V as [V| ->]; [apply (dk_states _ Ok _ _ V)|]. destruct So as [S0 S1 S2 S3]. constructor; unfold st'; cbn [d_configs d_accept]; rewrite ?C0, ?C1, ?C2, ?C3; assumption.
        + intros i x V Pl. apply Old in V as [V| ->]; [|unfold st'; cbn [d_edges]; rewrite Ed; apply edges_nil].
          eapply edges_ext; [exact X|]. eapply (dk_edges _ Ok); [exact V | eapply plain_ext'; eauto].
        + intros i Q. destruct (dk_s0 _ Ok _ Q) as (x & V & A & H). exists x. split; [apply Kept, V|]. split; [exact A|]. intros P p r R. eapply opened_ext; [exact X | eapply H; eauto].
        + apply Ok.
        + intros k b i M I. unfold d' in M. cbn [states_map] in M. destruct (map_push_in _ _ _ _ _ _ M I) as [->|(b0 & M0 & I0)].
          * split; [exact Pn | eauto].
          * eapply normal_ext; [exact X | eapply (dk_map _ Ok); eauto].
    Qed.

    (** replacing a state by one with the same acceptance *)
    Lemma set_state_ok d i st st' l : dok d -> vget (dfa_states d) i = Some st -> vset (dfa_states d) i st' = Some l -> d_accept st' = d_accept st ->
      stok st' -> (plain d i -> edges_ok (with_states unit unit d l) (d_edges st')) ->
      (is_precedence_dfa d = true -> s0 d = Some i -> forall p r, slot (vget (d_edges st') p) = Some r -> opened d r) ->
      dok (with_states unit unit d l) /\ ext d (with_states unit unit d l).
    Proof.
      intros Ok V Vs Ac So He Hp. apply vset_ok in Vs as (_ & Ll & Vl). set (d' := with_states unit unit d l) in *.
      assert (X : ext d d').
      { split; [reflexivity|]. split; [reflexivity|]. intros j x Vj. unfold d'. cbn [dfa_states with_states]. rewrite Vl.
        destruct (Z.eqb_spec j i) as [->|N]; [|eauto]. exists st'. split; [reflexivity|]. congruence. }
      split; [|exact X]. constructor.
      - intros j x Vj. unfold d' in Vj. cbn [dfa_states with_states] in Vj. rewrite Vl in Vj. destruct (Z.eqb_spec j i) as [->|N]; [inversion Vj; subst x; exact So|].
        eapply (dk_states _ Ok); eauto.
      - intros j x Vj Pl. unfold d' in Vj. cbn [dfa_states with_states] in Vj. rewrite Vl in Vj. destruct (Z.eqb_spec j i) as [->|N].
        + inversion Vj; subst x. apply He. eapply plain_ext'; eauto.
        + eapply edges_ext; [exact X|]. eapply (dk_edges _ Ok); [exact Vj | eapply plain_ext'; eauto].
      - intros j Q. destruct (dk_s0 _ Ok _ Q) as (x & Vj & A & H). unfold d'. cbn [dfa_states with_states is_precedence_dfa]. rewrite Vl.
        destruct (Z.eqb_spec j i) as [->|N].
        + exists st'. split; [reflexivity|]. split; [congruence|]. intros P p r R. eapply opened_ext; [exact X | eapply Hp; eauto].
        + exists x. split; [exact Vj|]. split; [exact A|]. intros P p r R. eapply opened_ext; [exact X | eapply H; eauto].
      - apply Ok.
      - intros k b j M I. eapply normal_ext; [exact X | eapply (dk_map _ Ok); eauto].
    Qed.

    Lemma add_edge_total d from t r : dok d -> normal d from -> (r = ERROR_DFA_STATE_REF \/ normal d r) -> (t = TOKEN_EOF -> r = ERROR_DFA_STATE_REF \/ accepts d r) ->
      exists d', p_dfa_add_edge unit unit max d from t r = Val d' /\ dok d' /\ ext d d'.
    Proof.
      intros Ok (Pl & st & V) Hr He. unfold p_dfa_add_edge. rewrite V. cbn [unwrap obindo]. destruct (dk_edges _ Ok _ _ V Pl) as (Len & E1 & E2).
      assert (Pe : exists es, p_add_edge max (d_edges st) t r = Val es /\ (es = [] \/ Z.of_nat (length es) = max + 2)).
      { unfold p_add_edge. destruct ((t <? -1) || (t >? max)) eqn:R; [eauto|].
        set (es := match d_edges st with [] => resize [] (max + 2) 0 | _ => d_edges st end).
        assert (Le : Z.of_nat (length es) = max + 2).
        { unfold es. destruct (d_edges st); [|destruct Len as [Len|Len]; [discriminate | exact Len]]. unfold resize. rewrite firstn_nil. cbn [app length]. rewrite repeat_length. lia. }
        destruct (vset_some es (t + 1) r) as (es' & Ee); [lia|]. rewrite Ee. cbn [unwrap]. exists es'. split; [reflexivity|]. right.
        apply vset_ok in Ee as (_ & L' & _). lia. }
      destruct Pe as (es & Ee & Le). rewrite Ee. cbn [obindo].
      destruct (vset_some (dfa_states d) from (with_edges unit unit st es) (vget_lt _ _ _ V)) as (l & El). rewrite El. cbn [unwrap obindo].
      exists (with_states unit unit d l). split; [reflexivity|].
      assert (So : stok (with_edges unit unit st es)) by (destruct (dk_states _ Ok _ _ V) as [S0 S1 S2 S3]; constructor; assumption).
      assert (X : ext d (with_states unit unit d l)).
      { split; [reflexivity|]. split; [reflexivity|]. apply vset_ok in El as (_ & _ & Vl). intros j x Vj. cbn [dfa_states with_states]. rewrite Vl.
        destruct (Z.eqb_spec j from) as [->|N]; [|eauto]. eexists. split; [reflexivity|]. cbn. congruence. }
      eapply set_state_ok; [exact Ok | exact V | exact El | reflexivity | exact So | |].
      - intros _. cbn [d_edges with_edges]. split; [exact Le|]. split.
        + intros t' r' Q. destruct (edge_get _ _ _ _ _ _ _ Ee Q) as [(-> & ->)|Q'].
          * destruct Hr as [Hr|Hr]; [left; exact Hr | right; eapply normal_ext; eauto].
          * destruct (E1 _ _ Q') as [H|H]; [left; exact H | right; eapply normal_ext; eauto].
        + intros r' Q. destruct (edge_get _ _ _ _ _ _ _ Ee Q) as [(<- & ->)|Q'].
          * destruct (He eq_refl) as [H|H]; [left; exact H | right; eapply accepts_ext; eauto].
          * destruct (E2 _ Q') as [H|H]; [left; exact H | right; eapply accepts_ext; eauto].
      - intros P Q. destruct (Pl P Q).
    Qed.

    Lemma set_configs_total d i cs : dok d -> is_precedence_dfa d = true -> s0 d = Some i -> sok a main nalts false true cs ->
      exists d', set_configs_of d i cs = Val d' /\ dok d' /\ ext d d'.
    Proof.
      intros Ok P Q Sc. unfold set_configs_of. destruct (dk_s0 _ Ok _ Q) as (st & V & A & H). rewrite V. cbn [unwrap obindo].
      match goal with |- context [vset _ _ ?x] => set (st' := x) end. destruct (vset_some (dfa_states d) i st' (vget_lt _ _ _ V)) as (l & El). rewrite El.
      cbn [unwrap obindo]. exists (with_states unit unit d l). split; [reflexivity|]. eapply set_state_ok; [exact Ok | exact V | exact El | reflexivity | | |].
      - destruct (so_plain _ _ _ _ _ _ Sc) as (U & C). constructor; cbn [st' d_configs d_accept].
        + left. apply (so_full _ _ _ _ _ _ Sc).
        + apply (so_configs _ _ _ _ _ _ (sok_weaken _ _ _ _ _ Sc)).
        + intros _. apply (so_configs _ _ _ _ _ _ Sc).
        + rewrite A, U, C. split; [discriminate | intros [R|R]; congruence].
      - intros Pl. destruct (Pl P Q).
      - intros _ _ p r R. eapply H; eauto.
    Qed.
    Lemma set_precedence_total d p r : dok d -> is_precedence_dfa d = true -> opened d r ->
      exists d', set_precedence_start_state unit unit d p r = Val d' /\ dok d' /\ ext d d'.
    Proof.
      intros Ok P Op. unfold set_precedence_start_state. rewrite P. cbn [negb]. destruct (Z.ltb_spec p 0); [exists d; auto using ext_refl|].
      destruct (s0 d) as [i|] eqn:Q; [|exists d; auto using ext_refl]. destruct (dk_s0 _ Ok _ Q) as (st & V & A & H'). rewrite V. cbn [unwrap obindo].
      set (es := if Z.of_nat (length (d_edges st)) <=? p then resize (d_edges st) (p + 1) 0 else d_edges st).
      assert (Le : 0 <= p < Z.of_nat (length es)).
      { unfold es. destruct (Z.leb_spec (Z.of_nat (length (d_edges st))) p) as [L|L]; [|lia]. rewrite (proj1 (resize_grow (d_edges st) (p + 1) 0 ltac:(lia))). lia. }
      destruct (vset_some es p r Le) as (es' & Ee). rewrite Ee. cbn [unwrap obindo].
      destruct (vset_some (dfa_states d) i (with_edges unit unit st es') (vget_lt _ _ _ V)) as (l & El). rewrite El. cbn [unwrap obindo].
      exists (with_states unit unit d l). split; [reflexivity|]. eapply set_state_ok; [exact Ok | exact V | exact El | reflexivity | | |].
      - destruct (dk_states _ Ok _ _ V) as [S0 S1 S2 S3]. constructor; assumption.
      - intros Pl. destruct (Pl P Q).
      - intros _ _ p' r' R. cbn [d_edges with_edges] in R. apply vset_ok in Ee as (_ & _ & Vl). rewrite Vl in R. destruct (Z.eqb_spec p' p) as [->|N].
        + unfold slot in R. destruct r; inversion R; subst; exact Op.
        + apply (H' P p' r'). rewrite <- R. unfold es. destruct (Z.leb_spec (Z.of_nat (length (d_edges st))) p) as [L|L]; [|reflexivity].
          rewrite (proj2 (resize_grow (d_edges st) (p + 1) 0 ltac:(lia))). destruct (Z.ltb_spec p' (Z.of_nat (length (d_edges st)))) as [L'|L']; [reflexivity|].
          assert (Vn : vget (d_edges st) p' = None) by (destruct (vget (d_edges st) p') eqn:Vx; [apply vget_lt in Vx; lia | reflexivity]).
          rewrite Vn. destruct (p' <? p + 1); reflexivity.
    Qed.
    Lemma set_s0_ok d r : dok d -> is_precedence_dfa d = false -> opened d r -> dok (set_dfa_s0 d r).
    Proof.
      intros Ok P (_ & st & V & A). constructor; unfold set_dfa_s0; cbn [dfa_states s0 is_precedence_dfa states_map].
      - apply Ok.
      - intros i x Vi Pl. assert (Pi : plain d i) by (intros Q; congruence). destruct (dk_edges _ Ok _ _ Vi Pi) as (L & E1 & E2). split; [exact L|]. split.
        + intros t r' Q. destruct (E1 _ _ Q) as [H|(_ & H)]; [left; exact H | right; split; [intros Q'; cbn in Q'; congruence | exact H]].
        + intros r' Q. destruct (E2 _ Q) as [H|H]; [left; exact H | right; exact H].
      - intros i Q. inversion Q; subst i. exists st. split; [exact V|]. split; [exact A|]. congruence.
      - congruence.
      - intros k b i M I. destruct (dk_map _ Ok _ _ _ M I) as (_ & H). split; [intros Q; cbn in Q; congruence | exact H].
    Qed.
  End Ops.
End DfaTotal.

(** predictions without the caller's stack do not depend on the main rule *)
Lemma fits_main a m1 m2 R c : fits a m1 true R c -> fits a m2 true R c.
Proof. induction 1 as [R c W N X Q IH]. constructor; auto. intros r I. split; [apply (N r I) | discriminate]. Qed.
Lemma ckind_main a m1 m2 nalts fin c : ckind a m1 nalts false fin c -> ckind a m2 nalts false fin c.
Proof. intros ((x & E & F & H) & D). split; [|exact D]. exists x. split; [exact E|]. split; [eapply fits_main; eauto | exact H]. Qed.
Lemma dok_main a m1 m2 nalts d : dok a m1 nalts d -> dok a m2 nalts d.
Proof.
  intros [A B C D E]. constructor; auto. intros i st V. destruct (A _ _ V) as [S0 S1 S2 S3]. constructor; auto.
  - eapply Forall_impl; [|exact S1]. intros c. apply ckind_main.
  - intros Q. eapply Forall_impl; [|exact (S2 Q)]. intros c. apply ckind_main.
Qed.
