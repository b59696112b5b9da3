(** Start sets and the sets reached by one token, in terms of the moves of the grammar. *)
From Coq Require Import ZArith List Bool Lia Sorted ZifyBool ZifyNat.
From Verif Require Import Outcome IntervalSetModel PredContextModel PredContextSpec PredContextProofs SemContextModel SemContextProofs.
From Verif Require Import ConfigSetModel ConfigSetSpec ConfigSetProofs DfaModel AtnModel AtnSpec AtnProofs Ll1Model Ll1Spec ParserModel PredictModel.
From Verif Require Import PredictFrameProofs PredictLLSpec PredictLLContextProofs PredictLLSetProofs PredictLLClosureProofs.
Import ListNotations.
Local Open Scope Z_scope.
Local Open Scope outcome_scope.

Section Reach.
  Context {S : Type}.
  Variable ts : seek_ops S.
  Variable a : atn.
  Variable main : Z.
  Hypothesis G : simple_grammar a main.
  Variable ctx : Type.
  Variable sempred : S -> option ctx -> Z -> Z -> bool.
  Variable order : list nat -> list sem -> list sem.
  Variable hash : pctx -> Z.
  Variable fuel : nat.
  Variable start_index : Z.
  Variable precedence : Z.
  Variable outer : ctx.
  Variable atn_start_state : Z.

  Notation sim := (sim S).
  Notation stk := (stk a main).
  Notation fs := (fs a).
  Notation cmove := (cmove a).
  Notation cmoves := (cmoves a).
  Notation cgood := (cgood a main).
  Notation D full := (den (negb full)).
  Notation ready := (ready a main).
  Notation closed := (closed a main).
  Notation added := (added a main).
  Notation closure := (closure ts a ctx sempred order hash fuel start_index precedence outer atn_start_state).

  Lemma closure_ok full eof c col m cs b m' cs' b' : ready full m cs b -> cgood full c ->
    closure c col full eof (m, cs, b) = Val (m', cs', b') -> exists N, closed full eof [c] m cs b m' cs' b' N.
  Proof.
    intros R Gc H. unfold PredictModel.closure in H. bind3 H m1 cs1 b1 E.
    destruct (full && dips_into_outer_context cs1); [discriminate|]. inversion H; subst.
    destruct (css_ok _ _ _ G _ _ _ _ _ _ _ _ _ _ _ _ _ _ _ _ _ _ _ _ R Gc E) as (N & _ & A). eauto.
  Qed.
  Lemma close_all_ok full eof l : forall m cs b m' cs' b', ready full m cs b -> Forall (cgood full) l ->
    close_all ts a ctx sempred order hash fuel start_index precedence outer atn_start_state full eof l (m, cs, b) = Val (m', cs', b') ->
    exists N, closed full eof l m cs b m' cs' b' N.
  Proof.
    induction l as [|c l IH]; intros m cs b m' cs' b' R Gl H; cbn [close_all] in H.
    - inversion H; subst. exists []. apply closed_nil, R.
    - bind3 H m1 cs1 b1 E. inversion Gl; subst. destruct (closure_ok _ _ _ _ _ _ _ _ _ _ R H2 E) as (N1 & A1).
      destruct (IH _ _ _ _ _ _ (cl_ready _ _ _ _ _ _ _ _ _ _ _ _ A1) H3 H) as (N2 & A2).
      exists (N1 ++ N2). eapply (closed_app _ _ _ _ [c]); eauto.
  Qed.

  (** with nothing busy, all final positions that moves lead to are there *)
  Lemma closed_complete full eof L (m : sim) cs m' cs' b' N : closed full eof L m cs [] m' cs' b' N ->
    forall j q0 g0 q g, D full L j q0 g0 -> stk q0 g0 -> cmoves eof (q0, g0) (q, g) -> fs q -> D full (configs cs') j q g.
  Proof.
    intros A j q0 g0 q g Dl K M F.
    pose proof (cl_sub _ _ _ _ _ _ _ _ _ _ _ _ A _ _ _ Dl) as Dn. rewrite app_nil_r in Dn. clear Dl.
    remember (q0, g0) as p0. remember (q, g) as p. revert q0 g0 Heqp0 K Dn. induction M as [p1|p1 [q1 g1] r1 H M IHM]; intros; subst.
    - inversion Heqp0; subst. eapply (cl_add _ _ _ _ _ _ _ _ _ _ _ _ A); eauto.
    - eapply IHM; [reflexivity | reflexivity | |].
      + eapply cmove_stk; eauto.
      + pose proof (cl_step _ _ _ _ _ _ _ _ _ _ _ _ A _ _ _ _ _ Dn K H) as X. rewrite app_nil_r in X. exact X.
  Qed.

  (** ** Start sets *)
  Lemma start_loop_ok full x l : wf x -> (forall t, In t l -> full = true -> typed (rule_of a) main (rule_of a (get_target t)) x) ->
    forall i m cs m' cs', 1 <= i -> ready full m cs [] ->
    start_loop ts a ctx sempred order hash fuel start_index precedence outer atn_start_state x full i l m cs = Val (m', cs') ->
    ready full m' cs' [] /\ m_input m' = m_input m /\ m_dfa m' = m_dfa m /\
    (forall j q g, D full (configs cs) j q g -> D full (configs cs') j q g) /\
    (forall k t g0 q g, nth_error l k = Some t -> stands (negb full) x g0 -> stk (get_target t) g0 ->
       cmoves false (get_target t, g0) (q, g) -> fs q -> D full (configs cs') (i + Z.of_nat k) q g) /\
    (forall q j, has_key (configs cs') q j -> has_key (configs cs) q j \/ fs q) /\
    (full = true -> forall j q g, D full (configs cs') j q g -> D full (configs cs) j q g \/
       exists k t g0, j = i + Z.of_nat k /\ nth_error l k = Some t /\ stands (negb full) x g0 /\ cmoves false (get_target t, g0) (q, g)).
  Proof.
    intros Wx. induction l as [|t l IH]; intros Tx i m cs m' cs' Hi R H; cbn [start_loop] in H.
    - inversion H; subst. split; [exact R|]. repeat (split; [reflexivity|]). split; [auto|]. split; [intros [|k] ?; discriminate|].
      split; auto.
    - bind H s Es. bind3 H m1 cs1 b1 E1. pose proof (get_target_number _ _ G _ _ Es) as Nu. rewrite Nu in E1.
      assert (Gc : cgood full (new_config (get_target t) i (Some x))).
      { exists x. split; [reflexivity|]. split; [exact Wx|]. split; [|auto]. intros Fu. apply Tx; [left; reflexivity | exact Fu]. }
      destruct (closure_ok _ _ _ _ _ _ _ _ _ _ R Gc E1) as (N & A).
      assert (R1 : ready full m1 cs1 []).
      { pose proof (cl_ready _ _ _ _ _ _ _ _ _ _ _ _ A) as Q. constructor; try apply Q. constructor. }
      assert (Hi1 : 1 <= i + 1) by lia.
      destruct (IH (fun t' Ht => Tx t' (or_intror Ht)) _ _ _ _ _ Hi1 R1 H) as (R2 & I1 & I2 & I3 & I4 & I5 & I6).
      split; [exact R2|]. split; [rewrite I1; apply A|]. split; [rewrite I2; apply A|].
      split; [intros j q g Q; apply I3, (cl_mono _ _ _ _ _ _ _ _ _ _ _ _ A), Q|]. split; [|split].
      + intros [|k] t' g0 q g Nk Sx K M F.
        * cbn in Nk. inversion Nk; subst t'. apply I3. rewrite Z.add_0_r. eapply (closed_complete _ _ _ _ _ _ _ _ _ A); eauto.
          rewrite (den_one _ _ x) by reflexivity. auto.
        * replace (i + Z.of_nat (Datatypes.S k)) with (i + 1 + Z.of_nat k) by lia. eapply I4; eauto.
      + intros q j Q. apply I5 in Q as [Q|Q]; [|auto]. apply (cl_fs _ _ _ _ _ _ _ _ _ _ _ _ A) in Q. exact Q.
      + intros Fu j q g Q. apply (I6 Fu) in Q as [Q|(k & t' & g0 & -> & Nk & Sx & M)].
        * apply (cl_sound _ _ _ _ _ _ _ _ _ _ _ _ A Fu) in Q as [Q|(q0 & g0 & Q & M)]; [auto|]. right.
          rewrite (den_one _ _ x) in Q by reflexivity. destruct Q as (Q1 & Q2 & Q3). cbn in Q1, Q2. subst. exists 0%nat, t, g0.
          split; [lia|]. split; [reflexivity|]. auto.
        * right. exists (Datatypes.S k), t', g0. split; [lia|]. auto.
  Qed.

  Definition start_of (x : pctx) (full : bool) (s : atn_state) (cs : pset) : Prop :=
    (forall k t g0 q g, nth_error (st_trans s) k = Some t -> stands (negb full) x g0 -> stk (get_target t) g0 ->
       cmoves false (get_target t, g0) (q, g) -> fs q -> D full (configs cs) (1 + Z.of_nat k) q g) /\
    (forall q j, has_key (configs cs) q j -> fs q) /\
    (full = true -> forall j q g, D full (configs cs) j q g ->
       exists k t g0, j = 1 + Z.of_nat k /\ nth_error (st_trans s) k = Some t /\ stands (negb full) x g0 /\ cmoves false (get_target t, g0) (q, g)).
  Lemma start_ok st x full s m m' cs : state_at a st = Some s -> wf x ->
    (forall t, In t (st_trans s) -> full = true -> typed (rule_of a) main (rule_of a (get_target t)) x) ->
    kgood a main full (m_cache m) -> is_precedence_dfa (m_dfa m) = false ->
    compute_start_state ts a ctx sempred order hash fuel start_index precedence outer atn_start_state st x full m = Val (m', cs) ->
    sgood a main full cs /\ kgood a main full (m_cache m') /\ m_input m' = m_input m /\ m_dfa m' = m_dfa m /\ start_of x full s cs.
  Proof.
    intros Es Wx Tx Kg Pr H. unfold compute_start_state in H. rewrite (proj2 (get_state_at _ _ _) Es) in H. cbn [obindo] in H.
    assert (R : ready full m (new_base_config_set unit full) []) by (constructor; auto; apply sgood_empty).
    destruct (start_loop_ok full x _ Wx Tx _ _ _ _ _ (Z.le_refl 1) R H) as (R2 & I1 & I2 & I3 & I4 & I5 & I6).
    split; [apply R2|]. split; [apply R2|]. split; [exact I1|]. split; [exact I2|]. split; [exact I4|]. split.
    - intros q j Q. apply I5 in Q as [(c & [] & _)|Q]. exact Q.
    - intros Fu j q g Q. apply (I6 Fu) in Q as [Q|Q]; [destruct (den_nil _ _ _ _ Q) | exact Q].
  Qed.

  (** ** One token *)
  (** the types a stream yields, see [token_types] *)
  Definition tok_ok (t : Z) : Prop := t = TOKEN_EOF \/ (1 <= t /\
    ((exists i s g, state_at a i = Some s /\ In (Wildcard g) (st_trans s)) -> t < max_token_type a)).
  Definition stop_at (q : Z) : Prop := exists s, state_at a q = Some s /\ Ll1Spec.is_stop s.

  Lemma target_of t i s tr o : state_at a i = Some s -> ~ Ll1Spec.is_stop s -> In tr (st_trans s) ->
    get_reachable_target a tr t = Val o ->
    is_call tr = false /\ (o = None \/ o = Some (get_target tr)) /\
    (tok_ok t -> (o = Some (get_target tr) <-> symbols tr 1 (max_token_type a) t)).
  Proof.
    intros E St I H. destruct (proj2 (g_wf _ _ G) _ _ E) as (_ & W). destruct (W St _ I) as (_ & Sok & _).
    unfold get_reachable_target in H. bind H b Eb. inversion H; subst o. clear H.
    assert (Ic : is_call tr = false) by (destruct tr; try reflexivity; discriminate).
    split; [exact Ic|]. split; [destruct b; auto|]. intros Ok.
    assert (B : b = true <-> symbols tr 1 (max_token_type a) t).
    { pose proof (matches_ok tr 0 (max_token_type a) t Sok) as M.
      destruct tr; try (destruct M as (b' & M & Q); rewrite Eb in M; inversion M; subst b'; exact Q).
      - discriminate Ic.
      - destruct M as (b' & M & Q). rewrite Eb in M. inversion M; subst b'. rewrite Q. cbn [symbols].
        destruct Ok as [->|(Ok & _)]; unfold TOKEN_EOF; split; intros (L & N); split; auto; lia.
      - cbn in Eb. inversion Eb; subst b. cbn [symbols]. rewrite andb_true_iff, Z.ltb_lt, Z.gtb_lt.
        destruct Ok as [->|(Ok & Q)]; unfold TOKEN_EOF; [lia|]. specialize (Q ltac:(exists i, s; eauto)). lia. }
    rewrite <- B. destruct b; split; intros; auto; discriminate.
  Qed.

  Lemma reach_trans_ok full t c s l : cgood full c -> state_at a (c_state c) = Some s -> ~ Ll1Spec.is_stop s -> incl l (st_trans s) ->
    forall m cs m' cs', sgood a main full cs -> kgood a main full (m_cache m) -> reach_trans a hash (S := S) c t l m cs = Val (m', cs') ->
    exists L, added full m m' cs cs' L /\ Forall (cgood full) L /\ (forall q j, has_key L q j -> j = c_alt c) /\
      (tok_ok t -> forall j q' g, D full L j q' g <-> exists tr, In tr l /\ symbols tr 1 (max_token_type a) t /\ q' = get_target tr /\ D full [c] j (c_state c) g).
  Proof.
    intros Gc E St. induction l as [|tr l IH]; intros In1 m cs m' cs' Sg Kg H; cbn [reach_trans] in H.
    - inversion H; subst. exists []. split; [apply added_refl; assumption|]. split; [constructor|]. split; [intros q j (c' & [] & _)|].
      intros _ j q' g. split; [intros Q; destruct (den_nil _ _ _ _ Q) | intros (tr & [] & _)].
    - bind H o Eo. bind2 H m1 cs1 E1.
      destruct (target_of t _ _ _ _ E St (In1 _ (or_introl eq_refl)) Eo) as (Ic & Oo & Os).
      assert (X : exists L1, added full m m1 cs cs1 L1 /\ Forall (cgood full) L1 /\ (forall q j, has_key L1 q j -> j = c_alt c) /\
        (forall j q' g, D full L1 j q' g <-> o = Some (get_target tr) /\ q' = get_target tr /\ D full [c] j (c_state c) g)).
      { destruct Oo as [-> | ->].
        - inversion E1; subst. exists []. split; [apply added_refl; assumption|]. split; [constructor|]. split; [intros q j (c' & [] & _)|].
          intros j q' g. split; [intros Q; destruct (den_nil _ _ _ _ Q) | intros (Q & _); discriminate].
        - bind E1 s' Es'. pose proof (get_target_number _ _ G _ _ Es') as Nu.
          assert (Gp : cgood full (pcloned c s')).
          { unfold pcloned. apply cgood_moved; [exact Gc|]. rewrite Nu.
            destruct (proj2 (g_wf _ _ G) _ _ E) as (_ & W). destruct (W St _ (In1 _ (or_introl eq_refl))) as (_ & _ & X).
            rewrite (rule_at _ _ _ E). destruct tr; try discriminate Ic; exact X. }
          exists [pcloned c s']. split; [eapply add_good; eauto|]. split; [constructor; auto|]. split; [intros q j Q; apply key_one in Q; symmetry; apply Q|].
          intros j q' g. destruct Gc as (x & Ex & _). rewrite (den_one _ (pcloned c s') x), (den_one _ c x) by exact Ex. cbn. rewrite Nu. intuition. }
      destruct X as (L1 & A1 & G1 & K1 & D1).
      destruct (IH (fun t' Q => In1 t' (or_intror Q)) _ _ _ _ (ad_set _ _ _ _ _ _ _ _ A1) (ad_cache _ _ _ _ _ _ _ _ A1) H) as (L2 & A2 & G2 & K2 & D2).
      exists (L1 ++ L2). split; [eapply added_trans; eauto|]. split; [apply Forall_app; auto|].
      split; [intros q j Q; apply key_app in Q as [Q|Q]; eauto|].
      intros Ok j q' g. rewrite den_app, D1, (D2 Ok), (Os Ok). split.
      + intros [(Sy & -> & Q)|(tr' & I & Sy & Eq & Q)]; [exists tr | exists tr']; (split; [|auto]); [left; reflexivity | right; exact I].
      + intros (tr' & [<-|I] & Sy & Eq & Q); [left; auto | right; exists tr'; auto].
  Qed.

  Lemma empty_of x : wf x -> pc_is_empty x = Val true -> x = EMPTY.
  Proof.
    intros W H. destruct (pc_is_empty_wf hash x W) as (e & E & I). apply I. congruence.
  Qed.

  (** points of [from] moved over a token *)
  Definition takes (full : bool) (from : list pconfig) (t j q' : Z) (g : list Z) : Prop :=
    exists q, D full from j q g /\ take a t (q, g) (q', g).
  Lemma reach_step_ok full t l : Forall (cgood full) l ->
    forall m cs sk m' cs' sk', sgood a main full cs -> kgood a main full (m_cache m) -> reach_step a hash (S := S) t full l m cs sk = Val (m', cs', sk') ->
    exists L sk1, added full m m' cs cs' L /\ Forall (cgood full) L /\ (forall q j, has_key L q j -> exists q', has_key l q' j) /\
      (tok_ok t -> forall j q' g, D full L j q' g <-> takes full l t j q' g) /\
      sk' = sk ++ sk1 /\ (forall c, In c sk1 <-> In c l /\ stop_at (c_state c) /\ (full = true \/ t = TOKEN_EOF)) /\
      (forall c, In c l -> stop_at (c_state c) -> c_ctx c = Some EMPTY).
  Proof.
    induction 1 as [|c l Gc Gl IH]; intros m cs sk m' cs' sk' Sg Kg H; cbn [reach_step] in H.
    - inversion H; subst. exists [], []. split; [apply added_refl; assumption|]. split; [constructor|]. split; [intros q j (c' & [] & _)|].
      split; [|split; [rewrite app_nil_r; reflexivity|]; split; [cbn; tauto | intros c []]].
      intros _ j q' g. split; [intros Q; destruct (den_nil _ _ _ _ Q) | intros (q & Q & _); destruct (den_nil _ _ _ _ Q)].
    - bind H s Es. apply get_state_at in Es. destruct (is_stop s) eqn:St.
      + apply stop_iff in St. bind H x Ex. bind H e Ee. destruct e; [|discriminate]. cbn [negb] in H.
        destruct (c_ctx c) as [x'|] eqn:Ec; [|discriminate]. cbn in Ex. inversion Ex; subst x'. clear Ex.
        assert (X0 : x = EMPTY). { apply empty_of; [|exact Ee]. destruct Gc as (x1 & E1 & W1 & _). congruence. }
        destruct (IH _ _ _ _ _ _ Sg Kg H) as (L & sk1 & A & GL & KL & DL & Esk & Isk & Ctx).
        assert (B : (full || (t =? TOKEN_EOF)) = true <-> full = true \/ t = TOKEN_EOF) by (rewrite orb_true_iff, Z.eqb_eq; tauto).
        assert (Tk : forall j q' g, takes full (c :: l) t j q' g <-> takes full l t j q' g).
        { intros j q' g. unfold takes. split; intros (q & Q & M); exists q; (split; [|exact M]).
          - apply den_cons in Q as [Q|Q]; [|exact Q]. exfalso. apply den_key, key_one in Q as (<- & _).
            apply take_inv in M as (s' & tr & E' & St' & _). congruence.
          - apply den_cons. auto. }
        exists L, ((if full || (t =? TOKEN_EOF) then [c] else []) ++ sk1). split; [exact A|]. split; [exact GL|].
        split; [intros q j Q; destruct (KL _ _ Q) as (q' & c' & I & Q'); exists q', c'; cbn; auto|].
        split; [intros Ok j q' g; rewrite Tk; apply DL, Ok|]. split; [|split].
        * rewrite Esk. destruct (full || (t =? TOKEN_EOF)); [rewrite <- app_assoc|]; reflexivity.
        * intros c'. rewrite in_app_iff, Isk. cbn [In]. destruct (full || (t =? TOKEN_EOF)).
          -- pose proof (proj1 B eq_refl) as Q. split.
             ++ intros [[<-|[]]|(I & R)]; [|auto]. split; [auto|]. split; [|exact Q]. exists s. auto.
             ++ intros ([<-|I] & R); [left; left; reflexivity | auto].
          -- split.
             ++ intros [[]|(I & R)]. auto.
             ++ intros (I & R1 & R2). apply B in R2. discriminate.
        * intros c' [<-|I] St'; [congruence | auto].
      + apply stop_not in St. bind2 H m1 cs1 E1.
        destruct (reach_trans_ok full t c s _ Gc Es St (incl_refl _) _ _ _ _ Sg Kg E1) as (L1 & A1 & G1 & K1 & D1).
        destruct (IH _ _ _ _ _ _ (ad_set _ _ _ _ _ _ _ _ A1) (ad_cache _ _ _ _ _ _ _ _ A1) H) as (L & sk1 & A & GL & KL & DL & Esk & Isk & Ctx).
        exists (L1 ++ L), sk1. split; [eapply added_trans; eauto|]. split; [apply Forall_app; auto|]. split; [|split; [|split; [exact Esk|split]]].
        * intros q j Q. apply key_app in Q as [Q|Q].
          -- apply K1 in Q. subst j. exists (c_state c), c. cbn. auto.
          -- destruct (KL _ _ Q) as (q' & c' & I & Q'). exists q', c'. cbn. auto.
        * intros Ok j q' g. rewrite den_app, (D1 Ok), (DL Ok). unfold takes. split.
          -- intros [(tr & I & Sy & -> & Q)|(q & Q & M)].
             ++ exists (c_state c). split; [apply den_cons; auto|]. eapply take_token; eauto.
             ++ exists q. split; [apply den_cons; auto | exact M].
          -- intros (q & Q & M). apply den_cons in Q as [Q|Q]; [left | right; eauto].
             pose proof (proj1 (key_one _ _ _) (den_key _ _ _ _ _ Q)) as (<- & _).
             apply take_inv in M as (s' & tr & E' & St' & I & Sy & P). inversion P; subst. rewrite Es in E'. inversion E'; subst s'. exists tr. auto.
        * intros c'. rewrite Isk. cbn [In]. split; [intuition|]. intros ([<-|I] & (s' & E' & St') & R); [congruence|]. split; [auto|]. split; [exists s'; auto|auto].
        * intros c' [<-|I] St'; [|auto]. destruct St' as (s' & E' & St'). congruence.
  Qed.

  Lemma has_stop_ok l b : has_config_in_rule_stop_state a l = Val b -> (b = true <-> exists c, In c l /\ stop_at (c_state c)).
  Proof.
    induction l as [|c l IH]; cbn [has_config_in_rule_stop_state]; intros H.
    - inversion H; subst. split; [discriminate | intros (c & [] & _)].
    - bind H s Es. apply get_state_at in Es. destruct (is_stop s) eqn:St.
      + inversion H; subst. split; auto. intros _. exists c. split; [left; reflexivity|]. exists s. rewrite <- stop_iff. auto.
      + rewrite (IH H). apply stop_not in St. split; intros (c' & I & Q); [exists c'; cbn; auto|].
        destruct I as [<-|I]; [|eauto]. destruct Q as (s' & E' & Q). congruence.
  Qed.
  Lemma all_stop_ok l b : all_configs_in_rule_stop_state a l = Val b -> (b = true <-> forall c, In c l -> stop_at (c_state c)).
  Proof.
    induction l as [|c l IH]; cbn [all_configs_in_rule_stop_state]; intros H.
    - inversion H; subst. split; [intros _ c [] | auto].
    - bind H s Es. apply get_state_at in Es. destruct (is_stop s) eqn:St.
      + rewrite (IH H). apply stop_iff in St. split; intros Q c'; [|intros I; apply Q; right; exact I].
        intros [<-|I]; [exists s; auto | auto].
      + inversion H; subst. apply stop_not in St. split; [discriminate|]. intros Q. destruct (Q c (or_introl eq_refl)) as (s' & E' & Q'). congruence.
  Qed.

  Lemma add_each_ok full l : Forall (cgood full) l -> forall m cs m' cs', sgood a main full cs -> kgood a main full (m_cache m) ->
    add_each hash (S := S) l m cs = Val (m', cs') -> added full m m' cs cs' l.
  Proof.
    induction 1 as [|c l Gc Gl IH]; intros m cs m' cs' Sg Kg H; cbn [add_each] in H.
    - inversion H; subst. apply added_refl; assumption.
    - bind2 H m1 cs1 E1. pose proof (add_good _ _ _ _ _ _ _ _ _ Sg Gc Kg E1) as A.
      eapply (added_trans _ _ _ _ _ _ _ _ _ [c]); [exact A|]. apply IH; auto; apply A.
  Qed.
  Lemma remove_loop_ok full l : Forall (cgood full) l -> forall m cs m' cs', sgood a main full cs -> kgood a main full (m_cache m) ->
    remove_loop a hash fuel (S := S) false l m cs = Val (m', cs') ->
    exists L, added full m m' cs cs' L /\ forall c, In c L <-> In c l /\ stop_at (c_state c).
  Proof.
    induction 1 as [|c l Gc Gl IH]; intros m cs m' cs' Sg Kg H; cbn [remove_loop] in H.
    - inversion H; subst. exists []. split; [apply added_refl; assumption|]. cbn. tauto.
    - bind H s Es. bind2 H m1 cs1 E1. apply get_state_at in Es. destruct (is_stop s) eqn:St; cbn [andb] in E1.
      + pose proof (add_good _ _ _ _ _ _ _ _ _ Sg Gc Kg E1) as A. apply stop_iff in St.
        destruct (IH _ _ _ _ (ad_set _ _ _ _ _ _ _ _ A) (ad_cache _ _ _ _ _ _ _ _ A) H) as (L & A2 & I2). exists (c :: L).
        split; [eapply (added_trans _ _ _ _ _ _ _ _ _ [c]); eauto|]. intros c'. cbn [In]. rewrite I2. split.
        * intros [<-|(I & Q)]; [|auto]. split; [auto|]. exists s. auto.
        * intros ([<-|I] & Q); auto.
      + inversion E1; subst m1 cs1. apply stop_not in St. destruct (IH _ _ _ _ Sg Kg H) as (L & A2 & I2). exists L. split; [exact A2|].
        intros c'. cbn [In]. rewrite I2. split; [intuition|]. intros ([<-|I] & Q); [|auto]. destruct Q as (s' & E' & Q). congruence.
  Qed.

  (** positions after the token that come from [from] and are final (at EOF: at a rule stop state) *)
  Definition genuine (full : bool) (from : list pconfig) (t j q : Z) (g : list Z) : Prop :=
    exists q' g', takes full from t j q' g' /\ stk q' g' /\ cmoves (t =? TOKEN_EOF) (q', g') (q, g) /\ fs q /\ (t = TOKEN_EOF -> stop_at q).
  Record reached (full : bool) (from : list pconfig) (t : Z) (r : list pconfig) : Prop := {
    re_fs : forall q j, has_key r q j -> fs q;
    re_stop : t = TOKEN_EOF -> forall q j, has_key r q j -> stop_at q;
    re_complete : tok_ok t -> forall j q g, genuine full from t j q g -> D full r j q g;
    re_sound : tok_ok t -> full = true -> forall j q g, D full r j q g ->
      (exists q' g', takes full from t j q' g' /\ cmoves (t =? TOKEN_EOF) (q', g') (q, g)) \/
      (D full from j q g /\ stop_at q /\ forall j' q' g', genuine full from t j' q' g' -> ~ stop_at q');
    re_kept : t = TOKEN_EOF -> full = false -> forall j q g, D full from j q g -> stop_at q -> D full r j q g;
    re_stale : tok_ok t -> full = true -> (forall j' q' g', genuine full from t j' q' g' -> ~ stop_at q') ->
      forall j q g, D full from j q g -> stop_at q -> D full r j q g
  }.
  (** all have the same alternative: the closure is left out *)
  Record looked (full : bool) (from : list pconfig) (t : Z) (r : list pconfig) : Prop := {
    lo_eof : t <> TOKEN_EOF;
    lo_alt : exists p, forall q j, has_key r q j -> j = p;
    lo_takes : tok_ok t -> forall j q g, D full r j q g <-> takes full from t j q g;
    lo_stop : full = true -> forall j q g, D full from j q g -> ~ stop_at q
  }.

  Lemma has_no_nil {A} (l : list A) : has_no l = true -> l = [].
  Proof. destruct l; [reflexivity | discriminate]. Qed.
  Lemma one_alt full l : Forall (cgood full) l -> (Nat.eqb (length l) 1 || negb (get_unique_alt unit l =? INVALID_ALT)) = true ->
    l <> [] /\ exists p, forall q j, has_key l q j -> j = p.
  Proof.
    intros Gl H. apply orb_true_iff in H as [H|H].
    - apply Nat.eqb_eq in H. destruct l as [|c [|c' l]]; try discriminate H. split; [discriminate|]. exists (c_alt c).
      intros q j Q. apply key_one in Q. symmetry. apply Q.
    - destruct (unique_alt_ok unit l) as (U & _).
      { intros c I. rewrite Forall_forall in Gl. destruct (Gl _ I) as (x & _ & _ & _ & _ & Al & _). unfold INVALID_ALT. lia. }
      rewrite negb_true_iff, Z.eqb_neq in H. destruct (U H) as (Ne & Al). split; [exact Ne|]. exists (get_unique_alt unit l).
      intros q j (c & I & _ & <-). apply Al, I.
  Qed.

  Lemma reach_ok full from t m m' o : Forall (cgood full) from -> (forall q j, has_key from q j -> fs q) ->
    (full = true -> forall j q g, D full from j q g -> stk q g) ->
    kgood a main full (m_cache m) -> is_precedence_dfa (m_dfa m) = false ->
    compute_reach_set ts a ctx sempred order hash fuel start_index precedence outer atn_start_state from t full m = Val (m', o) ->
    kgood a main full (m_cache m') /\ m_input m' = m_input m /\ m_dfa m' = m_dfa m /\
    match o with
    | None => (tok_ok t -> forall j q g, ~ genuine full from t j q g) /\
              (full = true \/ t = TOKEN_EOF -> forall j q g, D full from j q g -> ~ stop_at q)
    | Some r => sgood a main full r /\ configs r <> [] /\ (reached full from t (configs r) \/ looked full from t (configs r))
    end.
  Proof.
    intros Gf Ff Sf Kg Pr H. unfold compute_reach_set in H.
    destruct (reach_step a hash t full from m (new_base_config_set unit full) []) as [((m1 & inter) & sk)| |] eqn:E1; try discriminate.
    cbn [obindo] in H.
    destruct (reach_step_ok full t from Gf _ _ _ _ _ _ (sgood_empty a main full) Kg E1) as (L & sk1 & A1 & GL & KL & DL & Esk & Isk & Ctx).
    cbn [app] in Esk. subst sk1.
    assert (Kin : forall q j, has_key (configs inter) q j <-> has_key L q j).
    { intros q j. rewrite (ad_key _ _ _ _ _ _ _ _ A1). split; [intros [(c & [] & _)|Q]; exact Q | auto]. }
    assert (Din : tok_ok t -> forall j q g, D full (configs inter) j q g <-> takes full from t j q g).
    { intros Ok j q g. rewrite (ad_den _ _ _ _ _ _ _ _ A1), <- (DL Ok). split; [intros [Q|Q]; [destruct (den_nil _ _ _ _ Q) | exact Q] | auto]. }
    assert (Skip : forall j q g, D full from j q g -> stop_at q -> (full = true \/ t = TOKEN_EOF) -> D full sk j q g).
    { intros j q g (c & x & I & <- & Q) Sq Fe. exists c, x. split; [apply Isk; auto | auto]. }
    assert (Skd : forall j q g, D full sk j q g -> D full from j q g /\ stop_at q).
    { intros j q g (c & x & I & <- & Q). apply Isk in I as (I & Sq & _). split; [exists c, x; auto | exact Sq]. }
    set (look := has_no sk && negb (t =? TOKEN_EOF) && (Nat.eqb (length (configs inter)) 1 || negb (get_unique_alt unit (configs inter) =? INVALID_ALT))) in *.
    destruct look eqn:El.
    - cbn [obindo] in H. unfold look in El. apply andb_true_iff in El as (El & E3). apply andb_true_iff in El as (El & E2).
      destruct sk as [|c0 sk]; [|discriminate]. apply negb_true_iff in E2. rewrite E2 in H. cbn [obindo has_no] in H. apply Z.eqb_neq in E2.
      destruct (one_alt full _ (sg_configs _ _ _ _ (ad_set _ _ _ _ _ _ _ _ A1)) E3) as (Ne & Ua).
      destruct (has_no (configs inter)) eqn:Hn; [exfalso; apply Ne, has_no_nil, Hn|]. inversion H; subst m' o.
      split; [apply A1|]. split; [apply A1|]. split; [apply A1|]. split; [apply A1|]. split; [exact Ne|]. right.
      constructor; auto. intros Fu j q g Q Sq. destruct (den_nil _ _ _ _ (Skip _ _ _ Q Sq (or_introl Fu))).
    - clear El look.
      destruct (close_all ts a ctx sempred order hash fuel start_index precedence outer atn_start_state full (t =? TOKEN_EOF) (configs inter) (m1, new_base_config_set unit full, []))
        as [((m2 & r0) & b2)| |] eqn:E2; try discriminate. cbn [obindo] in H.
      assert (R1 : ready full m1 (new_base_config_set unit full) []).
      { constructor; [apply sgood_empty | apply A1 | constructor|]. rewrite (ad_dfa _ _ _ _ _ _ _ _ A1). exact Pr. }
      destruct (close_all_ok _ _ _ _ _ _ _ _ _ R1 (sg_configs _ _ _ _ (ad_set _ _ _ _ _ _ _ _ A1)) E2) as (N & A2).
      match type of H with obindo ?X _ = _ => destruct X as [(m3 & r1)| |] eqn:E3; try discriminate end. cbn [obindo] in H.
      assert (A3 : sgood a main full r1 /\ kgood a main full (m_cache m3) /\ m_input m3 = m_input m2 /\ m_dfa m3 = m_dfa m2 /\
        (forall j q g, D full (configs r1) j q g <-> D full (configs r0) j q g /\ (t = TOKEN_EOF -> stop_at q)) /\
        (forall q j, has_key (configs r1) q j <-> has_key (configs r0) q j /\ (t = TOKEN_EOF -> stop_at q))).
      { pose proof (cl_ready _ _ _ _ _ _ _ _ _ _ _ _ A2) as R2. destruct (Z.eqb_spec t TOKEN_EOF) as [Et|Nt].
        - unfold remove_all_configs_not_in_rule_stop_state in E3. bind E3 al Ea. pose proof (all_stop_ok _ _ Ea) as Al. destruct al.
          + inversion E3; subst m3 r1. split; [apply R2|]. split; [apply R2|]. split; [reflexivity|]. split; [reflexivity|]. split.
            * intros j q g. split; [|tauto]. intros Q. split; [exact Q|]. intros _. destruct Q as (c & x & I & <- & _). apply Al; auto.
            * intros q j. split; [|tauto]. intros Q. split; [exact Q|]. intros _. destruct Q as (c & I & <- & _). apply Al; auto.
          + rewrite (sg_full _ _ _ _ (rd_set _ _ _ _ _ _ R2)) in E3.
            destruct (remove_loop_ok full _ (sg_configs _ _ _ _ (rd_set _ _ _ _ _ _ R2)) _ _ _ _ (sgood_empty a main full) (rd_cache _ _ _ _ _ _ R2) E3) as (L3 & A3 & I3).
            split; [apply A3|]. split; [apply A3|]. split; [apply A3|]. split; [apply A3|]. split.
            * intros j q g. rewrite (ad_den _ _ _ _ _ _ _ _ A3). split.
              -- intros [Q|(c & x & I & <- & Q)]; [destruct (den_nil _ _ _ _ Q)|]. apply I3 in I as (I & Sq). split; [exists c, x; auto | auto].
              -- intros ((c & x & I & <- & Q) & Sq). right. exists c, x. split; [apply I3; auto | auto].
            * intros q j. rewrite (ad_key _ _ _ _ _ _ _ _ A3). split.
              -- intros [(c & [] & _)|(c & I & <- & Q)]. apply I3 in I as (I & Sq). split; [exists c; auto | auto].
              -- intros ((c & I & <- & Q) & Sq). right. exists c. split; [apply I3; auto | auto].
        - inversion E3; subst m3 r1. split; [apply R2|]. split; [apply R2|]. repeat (split; [reflexivity|]). split; intros; tauto. }
      destruct A3 as (S3 & K3 & In3 & Df3 & D3 & Ky3).
      assert (Gn : tok_ok t -> forall j q g, genuine full from t j q g -> D full (configs r1) j q g).
      { intros Ok j q g (q' & g' & T & K & M & F & Sq). apply D3. split; [|exact Sq].
        eapply (closed_complete _ _ _ _ _ _ _ _ _ A2); eauto. apply (Din Ok), T. }
      assert (Fs1 : forall q j, has_key (configs r1) q j -> fs q).
      { intros q j Q. apply Ky3 in Q as (Q & _). apply (cl_fs _ _ _ _ _ _ _ _ _ _ _ _ A2) in Q as [(c & [] & _)|Q]. exact Q. }
      assert (Sd1 : tok_ok t -> full = true -> forall j q g, D full (configs r1) j q g ->
        (t = TOKEN_EOF -> stop_at q) /\ exists q' g', takes full from t j q' g' /\ cmoves (t =? TOKEN_EOF) (q', g') (q, g)).
      { intros Ok Fu j q g Q. apply D3 in Q as (Q & Sq). split; [exact Sq|].
        apply (cl_sound _ _ _ _ _ _ _ _ _ _ _ _ A2 Fu) in Q as [Q|(q0 & g0 & Q & M)]; [destruct (den_nil _ _ _ _ Q)|].
        exists q0, g0. split; [apply (Din Ok), Q | exact M]. }
      assert (Fr : m_input m3 = m_input m /\ m_dfa m3 = m_dfa m).
      { rewrite In3, Df3, (cl_input _ _ _ _ _ _ _ _ _ _ _ _ A2), (cl_dfa _ _ _ _ _ _ _ _ _ _ _ _ A2). split; apply A1. }
      destruct Fr as (Fi & Fd).
      match type of H with obindo ?X _ = _ => destruct X as [add| |] eqn:E4; try discriminate end. cbn [obindo] in H.
      match type of H with obindo ?X _ = _ => destruct X as [(m4 & r2)| |] eqn:E5; try discriminate end. cbn [obindo] in H.
      inversion H; subst m'. clear H.
      assert (Add : add = true -> full = true -> forall j q g, D full (configs r1) j q g -> ~ stop_at q).
      { intros -> -> j q g (c & x & I & <- & _) Sq. destruct (has_no sk); [discriminate|]. cbn [negb] in E4. bind E4 h Eh. inversion E4 as [Q].
        apply negb_true_iff in Q. subst h. enough (X : false = true) by discriminate. apply (has_stop_ok _ _ Eh). eauto. }
      assert (Nad : add = false -> sk = [] \/ full = true /\ exists j q g, D full (configs r1) j q g /\ stop_at q).
      { intros ->. destruct sk as [|c0 sk]; [left; reflexivity|]. right. cbn [has_no] in E4. destruct full; [|discriminate]. cbn [negb] in E4.
        bind E4 h Eh. inversion E4 as [Q]. apply negb_false_iff in Q. subst h. split; [reflexivity|].
        destruct (proj1 (has_stop_ok _ _ Eh) eq_refl) as (c & I & Sq). 
        destruct (key_den _ _ _ (negb true) _ (c_alt c) (c_state c) (sg_configs _ _ _ _ S3)) as (g & Q); [exists c; auto|]. eauto. }
      assert (Gsk : Forall (cgood full) sk).
      { rewrite Forall_forall in *. intros c I. apply Gf. apply Isk in I. apply I. }
      assert (A5 : sgood a main full r2 /\ kgood a main full (m_cache m4) /\ m_input m4 = m_input m3 /\ m_dfa m4 = m_dfa m3 /\
        (forall j q g, D full (configs r2) j q g <-> D full (configs r1) j q g \/ (add = true /\ D full sk j q g)) /\
        (forall q j, has_key (configs r2) q j <-> has_key (configs r1) q j \/ (add = true /\ has_key sk q j))).
      { destruct add.
        - pose proof (add_each_ok _ _ Gsk _ _ _ _ S3 K3 E5) as A5. split; [apply A5|]. split; [apply A5|]. split; [apply A5|]. split; [apply A5|].
          split; intros; [rewrite (ad_den _ _ _ _ _ _ _ _ A5) | rewrite (ad_key _ _ _ _ _ _ _ _ A5)]; tauto.
        - inversion E5; subst. split; [assumption|]. split; [assumption|]. split; [reflexivity|]. split; [reflexivity|].
          split; intros; (split; [tauto|]; intros [Q|(Q & _)]; [exact Q | discriminate]). }
      destruct A5 as (S5 & K5 & In5 & Df5 & D5 & Ky5).
      split; [exact K5|]. split; [congruence|]. split; [congruence|].
      assert (Ksk : forall q j, has_key sk q j -> stop_at q /\ has_key from q j).
      { intros q j (c & I & <- & <-). apply Isk in I as (I & Sq & _). split; [exact Sq | exists c; auto]. }
      destruct (has_no (configs r2)) eqn:Hn.
      + assert (Er2 : configs r2 = []) by (apply has_no_nil, Hn). rewrite Er2 in D5. split.
        * intros Ok j q g Gq. apply (den_nil (negb full) j q g), D5. left. apply Gn; auto.
        * intros Fe j q g Q Sq. pose proof (Skip _ _ _ Q Sq Fe) as Qs. destruct add.
          -- apply (den_nil (negb full) j q g), D5. auto.
          -- destruct (Nad eq_refl) as [->|(_ & j1 & q1 & g1 & Q1 & _)]; [destruct (den_nil _ _ _ _ Qs)|].
             apply (den_nil (negb full) j1 q1 g1), D5. auto.
      + split; [exact S5|]. split; [intros Q; rewrite Q in Hn; discriminate|]. left. constructor.
        * intros q j Q. apply Ky5 in Q as [Q|(_ & Q)]; [eauto|]. apply Ksk in Q as (_ & Q). eauto.
        * intros Et q j Q. apply Ky5 in Q as [Q|(_ & Q)]; [apply Ky3 in Q as (_ & Q); auto | apply Ksk in Q; apply Q].
        * intros Ok j q g Q. apply D5. left. auto.
        * intros Ok Fu j q g Q. apply D5 in Q as [Q|(Ea & Q)].
          -- left. apply Sd1; auto.
          -- right. apply Skd in Q as (Q & Sq). split; [exact Q|]. split; [exact Sq|]. intros j' q' g' Gq. eapply Add; eauto.
        * intros Et Nf j q g Q Sq. apply D5. pose proof (Skip _ _ _ Q Sq (or_intror Et)) as Qs. destruct add; [auto|].
          destruct (Nad eq_refl) as [->|(Fu & _)]; [destruct (den_nil _ _ _ _ Qs) | congruence].
        * intros Ok Fu Ng j q g Q Sq. apply D5. pose proof (Skip _ _ _ Q Sq (or_introl Fu)) as Qs. destruct add; [auto|].
          destruct (Nad eq_refl) as [->|(_ & j1 & q1 & g1 & Q1 & Sq1)]; [destruct (den_nil _ _ _ _ Qs)|]. exfalso.
          destruct (Sd1 Ok Fu _ _ _ Q1) as (_ & q' & g' & T & M). apply (Ng j1 q1 g1); [|exact Sq1].
          exists q', g'. split; [exact T|]. split; [|split; [exact M|]; split; [|auto]].
          -- destruct T as (q0 & T0 & T1). eapply take_stk; eauto.
          -- eapply Fs1, den_key, Q1.
  Qed.
End Reach.
