(** The loop of an operator rule: its start state after the precedence filter, and what one
    token leads to. *)
From Coq Require Import ZArith List Bool Lia.
From Verif Require Import Outcome IntervalSetModel PredContextModel PredContextSpec PredContextProofs SemContextModel SemContextProofs.
From Verif Require Import ConfigSetModel ConfigSetSpec ConfigSetProofs DfaModel DfaProofs AtnModel AtnSpec AtnProofs Ll1Model Ll1Spec ParserModel PredictModel.
From Verif Require Import PredictFrameProofs PredictLLSpec PredictLLSetProofs RecSpec OperatorSpec OperatorProofs.
Import ListNotations.
Local Open Scope Z_scope.
Local Open Scope outcome_scope.

(** sets built by adding configurations of one kind *)
Record made (P : pconfig -> Prop) (cs : pset) : Prop := {
  d_hasher : set_hasher cs = LocalKey;
  d_fullctx : full_ctx cs = false;
  d_lookup : lookup_good (config_lookup cs) (configs cs);
  d_all : Forall P (configs cs);
  d_sem : has_semantic_context cs = false;
  d_unique : unique_alt cs = 0
}.
Definition stable (P : pconfig -> Prop) : Prop := (forall e c mg, P e -> P c -> c_state e = c_state c -> c_alt e = c_alt c -> P (upd unit e c mg)) /\ (forall c, P c -> c_sem c = NONE).
Lemma made_new P : made P (new_base_config_set unit false).
Proof. constructor; cbn; auto. intros c i []. Qed.
Lemma made_cached P hash s c k s' k' : stable P -> add_cached unit unit_eqb hash s c k = Val (s', k') -> made P s -> P c ->
  made P s' /\ (forall q j, has_key (configs s') q j <-> has_key (configs s) q j \/ has_key [c] q j).
Proof.
  intros (St & Sn) E [H1 H2 H3 H4 H5 H6] Pc.
  destruct (add_gen P (fun _ => True) hash s c k s' k' E H1 H2 H3 H4 Pc Logic.I) as (A1 & A2 & A3 & A4 & _ & A6 & A7 & A8).
  { intros e ea cb mg n Pe Es Ea Ce Cc M. auto. }
  split; [|exact A6]. constructor; auto; [|congruence]. rewrite A7, (Sn _ Pc). exact H5.
Qed.
Lemma made_to {S} P hash (m : sim S) s c m' s' : stable P -> add_to hash m s c = Val (m', s') -> made P s -> P c ->
  made P s' /\ (forall q j, has_key (configs s') q j <-> has_key (configs s) q j \/ has_key [c] q j) /\ m_dfa m' = m_dfa m /\ m_input m' = m_input m.
Proof.
  unfold add_to. intros St H M Pc. bind2 H s1 k1 E. injection H as <- <-. destruct (made_cached _ _ _ _ _ _ _ St E M Pc) as (A & B).
  split; [exact A|]. split; [exact B|]. destruct k1; auto.
Qed.
Lemma key_nonempty l q j : has_key l q j -> l <> [].
Proof. intros (c & I & _). destruct l; [contradiction | discriminate]. Qed.

(** ** Sets with one alternative *)
Definition only (u : Z) (c : pconfig) : Prop := c_alt c = u /\ c_sem c = NONE.
Lemma only_stable u : stable (only u).
Proof. split; [|intros c (_ & H); exact H]. intros e c mg (A & B) _ _ _. split; [exact A | exact B]. Qed.
Lemma only_unique u l : Forall (only u) l -> l <> [] -> u <> 0 -> get_unique_alt unit l = u.
Proof.
  intros F N U. destruct l as [|c l]; [contradiction|]. unfold get_unique_alt. cbn. inversion F as [|? ? (A & _) F']; subst.
  clear F N. induction l as [|x l IH]; [reflexivity|]. inversion F' as [|? ? (B & _) F'']; subst. cbn. rewrite B, Z.eqb_refl.
  unfold INVALID_ALT. destruct (c_alt c =? 0) eqn:E; [apply Z.eqb_eq in E; contradiction|]. apply IH, F''.
Qed.

Section Closure.
  Context {S : Type}.
  Variable ts : seek_ops S.
  Variable a : atn.
  Variable ctx : Type.
  Variable sempred : S -> option ctx -> Z -> Z -> bool.
  Variable order : list nat -> list sem -> list sem.
  Variable hash : pctx -> Z.
  Variable fuel : nat.
  Variable start_index : Z.
  Variable precedence : Z.
  Variable outer : ctx.
  Variable entry : Z.
  Variable u : Z.
  Notation sim := (sim S).
  Notation edge := (closure_edge ts a ctx sempred order start_index precedence outer entry).
  Notation edges := (closure_edges ts a ctx sempred order start_index precedence outer entry).
  Notation work := (closure_work ts a ctx sempred order hash start_index precedence outer entry).
  Notation css := (closure_checking_stop_state ts a ctx sempred order hash start_index precedence outer entry).
  Definition mw (w : cwork (S := S)) : Prop := made (only u) (snd (fst w)).
  Definition quiet (rec : rec_closure (S := S)) : Prop := forall c depth w w', rec c false depth w = Val w' -> only u c -> mw w -> mw w'.

  Lemma q_epsilon m c t inc eof m' c' :
    get_epsilon_target ts a ctx sempred order start_index precedence outer m c t false inc false eof = Val (m', Some c') -> only u c -> only u c'.
  Proof.
    intros H (A & B). assert (Done : forall m1 g, Val (m1, Some (pcloned c g)) = Val (m', Some c') -> only u c') by (intros m1 g Q; injection Q as _ <-; split; [exact A | exact B]).
    destruct t; cbn [get_epsilon_target] in H; try discriminate.
    all: let b := fresh "b" in let E := fresh "E" in bind H b E; cbn [andb predicate_step] in H; try (eapply Done; exact H).
    all: try (destruct b; [let y := fresh "y" in let E := fresh "E" in bind H y E; eapply Done; exact H | discriminate]).
    bind H c1 Ec. unfold rule_transition in Ec. bind Ec x Ex. injection Ec as <-. injection H as _ <-. split; [exact A | exact B].
  Qed.
  Lemma q_dips s b : made (only u) s -> made (only u) (set_dips_into_outer_context s b).
  Proof. intros []. constructor; auto. Qed.
  Lemma q_edge rec c p d eof first t w w' : quiet rec -> edge rec c p false false d eof first t w = Val w' -> only u c -> mw w -> mw w'.
  Proof.
    intros R H Pc I. unfold closure_edge in H. bind H drop Ed. destruct drop; [inversion H; subst; auto|].
    destruct w as [[m cs] busy]. bind2 H m1 o E. assert (Ecol : (match t with Action _ _ _ _ _ => false | _ => false end) = false) by (destruct t; reflexivity). rewrite Ecol in *.
    destruct o as [c1|]; [|inversion H; subst; exact I]. apply q_epsilon in E; [|exact Pc].
    destruct (PredictModel.is_stop p).
    - bind H c2 E2. destruct (busy_has busy c2); [inversion H; subst; exact I|].
      assert (Q : only u c2).
      { unfold leave_decision_rule in E2. bind E2 c3 E3. inversion E2; subst. destruct E as (A & B). assert (Q3 : c_alt c3 = c_alt c1 /\ c_sem c3 = c_sem c1); [|destruct Q3; split; cbn; congruence].
        destruct (is_precedence_dfa (m_dfa m1)); [|inversion E3; auto].
        bind E3 o Eo. bind E3 s Es. inversion E3; subst. destruct (o =? st_rule s); auto. }
      eapply R; [exact H | exact Q |]. apply q_dips, I.
    - destruct (negb (is_epsilon t) && busy_has busy c1); [inversion H; subst; exact I|]. eapply R; [exact H | exact E | exact I].
  Qed.
  Lemma q_edges rec c p d eof l : quiet rec -> only u c -> forall first w w', edges rec c p false false d eof first l w = Val w' -> mw w -> mw w'.
  Proof.
    intros R Pc. induction l as [|t l IH]; cbn [closure_edges]; intros first w w' H I; [inversion H; subst; auto|].
    bind H w1 E. eapply IH; [exact H|]. eapply q_edge; eauto.
  Qed.
  Lemma q_work rec c d eof w w' : quiet rec -> work rec c false false d eof w = Val w' -> only u c -> mw w -> mw w'.
  Proof.
    intros R H Pc I. unfold closure_work in H. bind H p Ep. bind H w1 E. eapply q_edges; [exact R | exact Pc | exact H |].
    destruct (st_eps_only p); [inversion E; subst; exact I|]. destruct w as [[m cs] busy]. bind2 E m1 cs1 E1.
    inversion E; subst. apply (made_to _ _ _ _ _ _ _ (only_stable u) E1 I Pc).
  Qed.
  Lemma q_return rec c x d l : quiet rec -> only u c -> forall w w', return_to (S := S) rec c x false d l w = Val w' -> mw w -> mw w'.
  Proof.
    intros R Pc. induction l as [|i l IH]; cbn [return_to]; intros w w' H I; [inversion H; subst; auto|].
    bind H r Er. destruct (r =? EMPTY_RETURN_STATE).
    - destruct (negb (Nat.eqb i (pc_length x - 1))); [discriminate|]. eapply IH; eauto.
    - bind H p Ep. bind H w1 E1. eapply IH; [exact H|]. eapply R; [exact E1 | exact Pc | exact I].
  Qed.
  Lemma q_css eof n : quiet (css n false eof).
  Proof.
    induction n as [|n IH]; intros c d w w' H Pc I; cbn [closure_checking_stop_state] in H; [discriminate|].
    bind H s Es. destruct (PredictModel.is_stop s); [|eapply q_work; eauto].
    bind H x Ex. bind H e Ee. destruct (negb e); [|eapply q_work; eauto].
    bind H lst El. bind H w1 E1. eapply q_return; [apply IH | exact Pc | exact H |].
    destruct (lst =? EMPTY_RETURN_STATE); [eapply q_work; eauto | inversion E1; subst; exact I].
  Qed.
  Lemma q_close_all eof l : Forall (only u) l -> forall w w',
    close_all ts a ctx sempred order hash fuel start_index precedence outer entry false eof l w = Val w' -> mw w -> mw w'.
  Proof.
    induction 1 as [|c l Pc F IH]; cbn [close_all]; intros w w' H I; [inversion H; subst; auto|]. bind H w1 E. eapply IH; [exact H|].
    unfold closure in E. bind E w2 E2. destruct w2 as [[m2 cs2] b2]. cbn [andb] in E. inversion E; subst. eapply q_css; eauto.
  Qed.
  Lemma q_remove look l : Forall (only u) l -> forall m cs m' cs', remove_loop (S := S) a hash fuel look l m cs = Val (m', cs') -> made (only u) cs -> made (only u) cs'.
  Proof.
    induction 1 as [|c l Pc F IH]; cbn [remove_loop]; intros m cs m' cs' H I; [inversion H; subst; auto|]. bind H s Es. bind2 H m1 cs1 E. eapply IH; [exact H|].
    destruct (PredictModel.is_stop s); [apply (made_to _ _ _ _ _ _ _ (only_stable u) E I Pc)|].
    destruct (look && st_eps_only s); [|inversion E; subst; exact I]. bind E nx En. destruct (contains nx TOKEN_EPSILON); [|inversion E; subst; exact I].
    bind E e Ee. bind E es Ees. apply (made_to _ _ _ _ _ _ _ (only_stable u) E I). exact Pc.
  Qed.
  Lemma q_add_each l : Forall (only u) l -> forall (m : sim) cs m' cs', add_each hash l m cs = Val (m', cs') -> made (only u) cs -> made (only u) cs'.
  Proof.
    induction 1 as [|c l Pc F IH]; cbn [add_each]; intros m cs m' cs' H I; [inversion H; subst; auto|]. bind2 H m1 cs1 E. eapply IH; [exact H|].
    apply (made_to _ _ _ _ _ _ _ (only_stable u) E I Pc).
  Qed.

  (** *** One token, all of whose transitions belong to one alternative *)
  Lemma q_trans c t l : (forall tr, In tr l -> matches tr t 0 (max_token_type a) = Val true -> only u c) -> forall (m : sim) cs m' cs', reach_trans a hash c t l m cs = Val (m', cs') ->
    made (only u) cs -> made (only u) cs' /\ (configs cs <> [] \/ (exists tr, In tr l /\ matches tr t 0 (max_token_type a) = Val true) -> configs cs' <> []).
  Proof.
    induction l as [|tr l IH]; cbn [reach_trans]; intros Hm m cs m' cs' H I; [inversion H; subst; split; [exact I | intros [N|(tr & [] & _)]; exact N]|].
    bind H o Eo. bind2 H m1 cs1 E. unfold get_reachable_target in Eo. bind Eo b Eb. injection Eo as <-. destruct b.
    - bind E tg Eg. assert (Pc : only u (pcloned c tg)) by (exact (Hm tr (or_introl eq_refl) Eb)).
      destruct (made_to _ _ _ _ _ _ _ (only_stable u) E I Pc) as (M1 & K1 & _).
      destruct (IH (fun tr' I' => Hm tr' (or_intror I')) _ _ _ _ H M1) as (M2 & N2). split; [exact M2|]. intros _. apply N2. left.
      eapply key_nonempty. apply K1. right. apply key_one. split; reflexivity.
    - injection E as <- <-. destruct (IH (fun tr' I' => Hm tr' (or_intror I')) _ _ _ _ H I) as (M2 & N2). split; [exact M2|]. intros [N|(tr' & [<-|I'] & Q)]; apply N2; auto; [congruence|].
      right. exists tr'. auto.
  Qed.
  Definition moving (c : pconfig) (t : Z) : Prop := exists s tr, state_at a (c_state c) = Some s /\ ~ Ll1Spec.is_stop s /\ In tr (st_trans s) /\ matches tr t 0 (max_token_type a) = Val true.
  Lemma q_step t l : (forall c, In c l -> moving c t -> only u c) -> (forall c s, In c l -> state_at a (c_state c) = Some s -> Ll1Spec.is_stop s -> t = TOKEN_EOF -> only u c) ->
    forall (m : sim) cs sk m' cs' sk', reach_step a hash t false l m cs sk = Val (m', cs', sk') -> made (only u) cs -> Forall (only u) sk ->
    made (only u) cs' /\ Forall (only u) sk' /\ (t <> TOKEN_EOF -> sk' = sk) /\ (configs cs <> [] \/ (exists c, In c l /\ moving c t) -> configs cs' <> []).
  Proof.
    induction l as [|c l IH]; cbn [reach_step]; intros Hm Hs m cs sk m' cs' sk' H I F.
    { inversion H; subst. split; [exact I|]. split; [exact F|]. split; [auto|]. intros [N|(c & [] & _)]; exact N. }
    bind H s Es. apply get_state_at in Es. destruct (PredictModel.is_stop s) eqn:Est.
    - bind H x Ex. bind H e Ee. destruct (negb e); [discriminate|]. cbn [orb] in H.
      destruct (IH (fun c' I' => Hm c' (or_intror I')) (fun c' s' I' => Hs c' s' (or_intror I')) _ _ _ _ _ _ H I) as (M2 & F2 & Q2 & N2).
      { destruct (Z.eqb_spec t TOKEN_EOF) as [Et|Nt]; [|exact F]. apply Forall_app. split; [exact F|]. constructor; [|constructor]. apply (Hs c s); auto; [left; reflexivity | apply stop_iff, Est]. }
      split; [exact M2|]. split; [exact F2|]. split.
      + intros Nt. rewrite (Q2 Nt). destruct (Z.eqb_spec t TOKEN_EOF); [contradiction | reflexivity].
      + intros [N|(c' & [<-|I'] & Mv)]; apply N2; auto; [|right; exists c'; auto]. destruct Mv as (s' & tr & Es' & Ns' & _). rewrite Es in Es'. injection Es' as <-. apply stop_iff in Est. contradiction.
    - bind2 H m1 cs1 E. apply stop_not in Est. assert (T : forall tr, In tr (st_trans s) -> matches tr t 0 (max_token_type a) = Val true -> only u c).
      { intros tr It Mt. apply Hm; [left; reflexivity|]. exists s, tr. auto. }
      destruct (q_trans c t (st_trans s) T _ _ _ _ E I) as (M1 & N1).
      destruct (IH (fun c' I' => Hm c' (or_intror I')) (fun c' s' I' => Hs c' s' (or_intror I')) _ _ _ _ _ _ H M1 F) as (M2 & F2 & Q2 & N2).
      split; [exact M2|]. split; [exact F2|]. split; [exact Q2|]. intros [N|(c' & [<-|I'] & Mv)]; apply N2; auto.
      + left. apply N1. right. destruct Mv as (s' & tr & Es' & Ns' & It & Mt). rewrite Es in Es'. injection Es' as <-. exists tr. auto.
      + right. exists c'. auto.
  Qed.
  Lemma q_reach l t (m m' : sim) o : u <> 0 -> (forall c, In c l -> moving c t -> only u c) ->
    (forall c s, In c l -> state_at a (c_state c) = Some s -> Ll1Spec.is_stop s -> t = TOKEN_EOF -> only u c) ->
    compute_reach_set ts a ctx sempred order hash fuel start_index precedence outer entry l t false m = Val (m', o) ->
    (forall reach, o = Some reach -> made (only u) reach /\ configs reach <> []) /\ (t <> TOKEN_EOF -> (exists c, In c l /\ moving c t) -> o <> None).
  Proof.
    intros U Hm Hs H. unfold compute_reach_set in H. bind3 H m1 im sk E1.
    destruct (q_step t l Hm Hs _ _ _ _ _ _ E1 (made_new _) (Forall_nil _)) as (M1 & F1 & Q1 & N1).
    set (look := has_no sk && negb (t =? TOKEN_EOF) && (Nat.eqb (length (configs im)) 1 || negb (get_unique_alt unit (configs im) =? INVALID_ALT))) in *.
    bind2 H m2 r2 E2. bind2 H m3 r3 E3. bind H add Ea. bind2 H m4 r4 E4. injection H as <- <-.
    assert (M2 : made (only u) r2).
    { destruct look; [injection E2 as <- <-; exact M1|]. bind3 E2 m5 r5 b5 E5. injection E2 as <- <-. assert (X := q_close_all _ _ (d_all _ _ M1) _ _ E5 (made_new _)). exact X. }
    assert (M3 : made (only u) r3).
    { destruct (t =? TOKEN_EOF); [|injection E3 as <- <-; exact M2]. unfold remove_all_configs_not_in_rule_stop_state in E3. bind E3 al Eal. destruct al; [injection E3 as <- <-; exact M2|].
      rewrite (d_fullctx _ _ M2) in E3. eapply q_remove; [apply (d_all _ _ M2) | exact E3 | apply made_new]. }
    assert (M4 : made (only u) r4).
    { destruct add; [eapply q_add_each; eauto | injection E4 as <- <-; exact M3]. }
    split.
    - intros reach Q. destruct (configs r4) as [|x l4] eqn:E; [discriminate|]. cbn in Q. injection Q as <-. split; [exact M4 | rewrite E; discriminate].
    - intros Nt Mv. assert (Ni : configs im <> []) by (apply N1; auto). assert (Sk := Q1 Nt). apply Z.eqb_neq in Nt.
      assert (Lk : look = true).
      { unfold look. rewrite Sk, Nt. cbn [has_no negb andb]. apply orb_true_iff. right. apply negb_true_iff, Z.eqb_neq. rewrite (only_unique u _ (d_all _ _ M1) Ni U). exact U. }
      rewrite Lk in E2. rewrite Nt in E3. rewrite Sk in Ea. injection E2 as <- <-. injection E3 as <- <-. injection Ea as <-. injection E4 as <- <-. destruct (configs im); [contradiction | discriminate].
  Qed.
End Closure.

Section Start.
  Context {S : Type}.
  Variable ts : seek_ops S.
  Variable a : atn.
  Variable ctx : Type.
  Variable sempred : S -> option ctx -> Z -> Z -> bool.
  Variable order : list nat -> list sem -> list sem.
  Variable hash : pctx -> Z.
  Variable fuel : nat.
  Variable start_index : Z.
  Variable precedence : Z.
  Variable outer : ctx.
  Variable entry ops out : Z.
  Variable level : Z -> option Z.
  Variable where_ : Z -> place.
  Hypothesis WF : well_formed a.
  Hypothesis OL : operator_loop a entry ops out level where_.
  Hypothesis TL : token_levels a level.
  Notation sim := (sim S).
  Notation offers := (offers a where_).
  Notation sok := (sok a ops where_).

  (** *** The start state for precedence [q] *)
  Definition kept (q : Z) (c : pconfig) : Prop := c_sem c = NONE /\
    ((c_alt c = 1 /\ c_reach c = 0 /\ exists k, where_ (c_state c) = Operator k /\ q <= k) \/
     (c_alt c = 2 /\ match where_ (c_state c) with Operator k => k < q | Elsewhere => False | _ => True end)).
  Lemma kept_stable q : stable (kept q).
  Proof.
    split; [|intros c (H & _); exact H]. intros e c mg (E1 & E2) (C1 & C2) Es Ea. split; [exact E1|]. cbn. destruct E2 as [(A1 & A2 & A3)|E2]; [left | right; exact E2].
    destruct C2 as [(B1 & B2 & B3)|(B1 & _)]; [|congruence]. split; [exact A1|]. split; [rewrite A2, B2; reflexivity | exact A3].
  Qed.
  Definition starts (q : Z) (l : list pconfig) : Prop := Forall (kept q) l /\ forall j k, offers ops j -> where_ j = Operator k -> q <= k -> has_key l j 1.

  Lemma map_find_insert mp k v k' : map_find (map_insert mp k v) k' = if k =? k' then Some v else map_find mp k'.
  Proof.
    induction mp as [|[k0 v0] mp IH]; cbn [map_insert map_find]; [reflexivity|]. destruct (Z.eqb_spec k0 k) as [->|N]; cbn [map_find].
    - destruct (k =? k'); reflexivity.
    - rewrite IH. destruct (Z.eqb_spec k0 k') as [->|N']; [|reflexivity]. destruct (Z.eqb_spec k k'); [congruence | reflexivity].
  Qed.
  Definition empties (mp : list (Z * option pctx)) : Prop := forall k v, map_find mp k = Some v -> v = Some EMPTY.

  Lemma alt1_ok l : Forall (stored a ops where_) l -> forall mp (m : sim) cs m' cs' mp',
    filter_alt1 order hash precedence l mp m cs = Val (m', cs', mp') -> made (kept precedence) cs -> empties mp ->
    made (kept precedence) cs' /\ empties mp' /\ m_dfa m' = m_dfa m /\ m_input m' = m_input m /\
    (forall q j, has_key (configs cs) q j -> has_key (configs cs') q j) /\ (forall k, map_find mp k <> None -> map_find mp' k <> None) /\
    (forall c k, In c l -> c_alt c = 1 -> where_ (c_state c) = Operator k -> precedence <= k -> map_find mp' (c_state c) <> None /\ has_key (configs cs') (c_state c) 1).
  Proof.
    induction 1 as [|c l Sc F IH]; intros mp m cs m' cs' mp' H M Em; cbn [filter_alt1] in H.
    { injection H as <- <- <-. repeat (split; auto); contradiction. }
    destruct Sc as [(A1 & A2 & A3 & k & A4 & A5)|(A1 & A2 & A3)].
    - rewrite A1 in H. cbn in H. rewrite A5 in H. cbn [eval_precedence] in H. destruct (SemContextModel.precpred precedence k) eqn:Ek; unfold SemContextModel.precpred in Ek.
      + cbn in H. bind2 H m1 cs1 E. assert (Kc : kept precedence (new_with_semantic (c_state c) 1 (c_ctx c) NONE)).
        { split; [reflexivity|]. left. cbn. split; [reflexivity|]. split; [reflexivity|]. exists k. split; [exact A4 | lia]. }
        destruct (made_to _ _ _ _ _ _ _ (kept_stable precedence) E M Kc) as (M1 & K1 & D1 & I1).
        assert (Em1 : empties (map_insert mp (c_state c) (c_ctx c))).
        { intros k0 v Q. rewrite map_find_insert in Q. destruct (c_state c =? k0); [injection Q as <-; exact A2 | eapply Em, Q]. }
        destruct (IH _ _ _ _ _ _ H M1 Em1) as (B1 & B2 & B3 & B4 & B5 & B6 & B7). split; [exact B1|]. split; [exact B2|]. split; [rewrite B3, D1; reflexivity|]. split; [rewrite B4, I1; reflexivity|].
        split; [intros q j Hk; apply B5, K1; auto|]. split.
        * intros k0 N. apply B6. rewrite map_find_insert. destruct (c_state c =? k0); [discriminate | exact N].
        * intros c0 k0 [<-|I0] Ha Hw Hk; [|eapply B7; eauto]. split.
          -- apply B6. rewrite map_find_insert, Z.eqb_refl. discriminate.
          -- apply B5, K1. right. apply key_one. split; reflexivity.
      + destruct (IH _ _ _ _ _ _ H M Em) as (B1 & B2 & B3 & B4 & B5 & B6 & B7). repeat (split; [assumption|]). intros c0 k0 [<-|I0] Ha Hw Hk; [|eapply B7; eauto].
        rewrite A4 in Hw. injection Hw as <-. lia.
    - rewrite A1 in H. cbn in H. destruct (IH _ _ _ _ _ _ H M Em) as (B1 & B2 & B3 & B4 & B5 & B6 & B7). repeat (split; [assumption|]).
      intros c0 k0 [<-|I0] Ha Hw Hk; [congruence | eapply B7; eauto].
  Qed.
  Lemma others_ok mp l : (forall c, In c l -> stored a ops where_ c) -> empties mp ->
    (forall j k, offers ops j -> where_ j = Operator k -> precedence <= k -> map_find mp j <> None) -> forall cs cs',
    filter_others hash l mp cs = Val cs' -> made (kept precedence) cs ->
    made (kept precedence) cs' /\ (forall q j, has_key (configs cs) q j -> has_key (configs cs') q j).
  Proof.
    intros Sl Em Mp. induction l as [|c l IH]; intros cs cs' H M; cbn [filter_others] in H; [injection H as <-; auto|].
    assert (IH' := IH (fun c' I' => Sl c' (or_intror I'))). clear IH. destruct (Sl c (or_introl eq_refl)) as [(A1 & _)|(A1 & A2 & A3)]; rewrite A1 in H; cbn in H; [eauto|].
    destruct (negb (c_pfs c) && _) eqn:Ef; [eauto|]. bind H cs1 E. unfold add_plain in E. bind2 E s1 k1 E1. injection E as <-.
    assert (Kc : kept precedence c).
    { split; [exact A2|]. right. split; [exact A1|]. destruct A3 as [(I1 & I2 & I3)|(O1 & _)]; [|rewrite O1; exact Logic.I].
      destruct (where_ (c_state c)) eqn:Ew; auto. destruct (Z_lt_le_dec k precedence) as [Lt|Le]; [exact Lt|]. exfalso.
      rewrite I2 in Ef. cbn in Ef. destruct (map_find mp (c_state c)) as [v|] eqn:Ev; [|exact (Mp _ _ I3 Ew Le Ev)].
      rewrite (Em _ _ Ev), I1 in Ef. cbn in Ef. discriminate. }
    destruct (made_cached _ _ _ _ _ _ _ (kept_stable precedence) E1 M Kc) as (M1 & K1). destruct (IH' _ _ H M1) as (M2 & K2).
    split; [exact M2|]. intros q j Hk. apply K2, K1. auto.
  Qed.
  Lemma filter_ok cs (m : sim) m' cs' : sok cs -> all_offered a ops where_ cs -> apply_precedence_filter order hash precedence cs m = Val (m', cs') ->
    made (kept precedence) cs' /\ starts precedence (configs cs') /\ m_dfa m' = m_dfa m /\ m_input m' = m_input m.
  Proof.
    intros [H1 H2 H3 H4 H5] Ao H. unfold apply_precedence_filter in H. rewrite H2 in H. bind3 H m1 cs1 mp E1. bind H cs2 E2. injection H as <- <-.
    destruct (alt1_ok _ H4 _ _ _ _ _ _ E1 (made_new _)) as (B1 & B2 & B3 & B4 & B5 & B6 & B7); [intros k v Q; discriminate|].
    assert (Off : forall j k, offers ops j -> where_ j = Operator k -> precedence <= k -> map_find mp j <> None /\ has_key (configs cs1) j 1).
    { intros j k Of Ew Le. destruct (Ao j Of) as (c & Ic & Ec & Ea). subst j. eapply B7; eauto. }
    destruct (others_ok mp (configs cs) (proj1 (Forall_forall _ _) H4) B2 (fun j k A B C => proj1 (Off j k A B C)) _ _ E2 B1) as (M2 & K2).
    split; [exact M2|]. split; [|auto]. split; [apply M2|]. intros j k Of Ew Le. apply K2. apply (Off j k Of Ew Le).
  Qed.

  (** *** One token from there *)
  Definition goes (q t : Z) : Prop := exists k, level t = Some k /\ q <= k.
  Lemma goes_dec q t : goes q t \/ ~ goes q t.
  Proof. unfold goes. destruct (level t) as [k|]; [|right; intros (k & E & _); discriminate]. destruct (Z_le_gt_dec q k); [left; eauto | right; intros (k' & E & L); injection E as <-; lia]. Qed.
  Lemma set_of i s tr : state_at a i = Some s -> ~ Ll1Spec.is_stop s -> In tr (st_trans s) -> set_ok tr.
  Proof. intros Es Ns It. destruct WF as (_ & W). destruct (W _ _ Es) as (_ & W'). destruct (W' Ns _ It) as (_ & Ok & _). exact Ok. Qed.
  Lemma matches_symbols i s tr t : state_at a i = Some s -> ~ Ll1Spec.is_stop s -> In tr (st_trans s) -> plain_label tr -> (matches tr t 0 (max_token_type a) = Val true <-> symbols tr 1 (max_token_type a) t).
  Proof.
    intros Es Ns It Pl. pose proof (set_of _ _ _ Es Ns It) as Ok. pose proof (matches_ok tr 0 (max_token_type a) t Ok) as Mo.
    destruct tr; try contradiction; destruct Mo as (b & Eb & Hb); rewrite Eb; cbn [symbols] in *; split; intros Q; try (apply Hb; congruence); f_equal; apply Hb; exact Q.
  Qed.
  Lemma moving_alt q c t : kept q c -> moving a c t -> (goes q t -> c_alt c = 1) /\ (~ goes q t -> c_alt c = 2).
  Proof.
    intros (Se & K) (s & tr & Es & Ns & It & Mt). destruct K as [(A1 & _ & k & Ew & Le)|(A1 & Ew)].
    - split; [auto|]. intros Ng. exfalso. apply Ng. exists k. split; [|exact Le]. destruct (ol_operator _ _ _ _ _ _ OL _ _ _ _ Es Ew It) as (Pl & Lv). apply Lv. eapply matches_symbols; eauto.
    - split; [|auto]. intros (k & El & Le). exfalso. pose proof (TL _ _ El) as Tk. destruct (where_ (c_state c)) eqn:Ew'; try contradiction.
      + destruct (ol_enter _ _ _ _ _ _ OL _ _ _ Es Ew' It) as [(g & o & -> & _)|(g & k' & -> & _)]; discriminate.
      + destruct (ol_operator _ _ _ _ _ _ OL _ _ _ _ Es Ew' It) as (Pl & Lv). assert (Q := Lv t (proj1 (matches_symbols _ _ _ _ Es Ns It Pl) Mt)). rewrite El in Q. injection Q as <-. lia.
      + destruct (ol_leave _ _ _ _ _ _ OL _ _ _ Es Ew' Ns It) as (Si & _). destruct tr; try contradiction; discriminate.
      + destruct (Z.eq_dec (c_state c) entry) as [Ee|Ne].
        * destruct (ol_entry _ _ _ _ _ _ OL) as (sz & k' & gr & bk & o1 & o2 & E0 & _ & Tr). rewrite Ee, E0 in Es. injection Es as <-. rewrite Tr in It. destruct It as [<-|[<-|[]]]; discriminate.
        * destruct (ol_return _ _ _ _ _ _ OL _ _ _ Es Ew' Ne It) as (Si & _). destruct tr; try contradiction; discriminate.
      + pose proof (ol_outside _ _ _ _ _ _ OL _ _ _ Es Ew' It) as Ot. pose proof (set_of _ _ _ Es Ns It) as Ok.
        assert (Sy : symbols tr 1 (max_token_type a) t).
        { pose proof (matches_ok tr 0 (max_token_type a) t Ok) as Mo. destruct tr; try discriminate; try (destruct Mo as (b & Eb & Hb); rewrite Mt in Eb; injection Eb as <-; cbn [symbols] in *; intuition lia). cbn in *. lia. }
        assert (El' : level t = None) by (destruct tr; try contradiction; try discriminate; apply Ot, Sy). congruence.
  Qed.
  Lemma moving_exists q l t : starts q l -> goes q t -> exists c, In c l /\ moving a c t.
  Proof.
    intros (_ & St) (k & El & Le). destruct (ol_offered _ _ _ _ _ _ OL _ _ El) as (j & tr & Ew & Of & (s & Es & Ns & It) & Sy). destruct (St _ _ Of Ew Le) as (c & Ic & Ec & _).
    exists c. split; [exact Ic|]. subst j. exists s, tr. split; [exact Es|]. split; [exact Ns|]. split; [exact It|]. destruct (ol_operator _ _ _ _ _ _ OL _ _ _ _ Es Ew It) as (Pl & _). eapply matches_symbols; eauto.
  Qed.
  Lemma level_token q t : goes q t -> t <> TOKEN_EOF.
  Proof. intros (k & El & _) ->. apply TL in El. assert (TOKEN_EOF = -1) by reflexivity. lia. Qed.

  (** the alternative that a token leads to *)
  Definition choice (q t u : Z) : Prop := (goes q t /\ u = 1) \/ (~ goes q t /\ u = 2).
  Lemma choice_exists q t : exists u, choice q t u /\ u <> 0.
  Proof. destruct (goes_dec q t); [exists 1 | exists 2]; (split; [unfold choice; auto | lia]). Qed.
  Lemma start_reach q l t u (m m' : sim) o : starts q l -> choice q t u ->
    compute_reach_set ts a ctx sempred order hash fuel start_index precedence outer entry l t false m = Val (m', o) ->
    (forall reach, o = Some reach -> made (only u) reach /\ configs reach <> []) /\ (goes q t -> o <> None).
  Proof.
    intros St Ch H. assert (Kl : forall c, In c l -> kept q c) by (apply Forall_forall, St).
    assert (U : u <> 0) by (destruct Ch as [(_ & ->)|(_ & ->)]; lia).
    destruct (q_reach ts a ctx sempred order hash fuel start_index precedence outer entry u l t m m' o U) as (A & B).
    - intros c Ic Mv. split; [|apply (Kl c Ic)]. destruct (moving_alt q c t (Kl c Ic) Mv) as (M1 & M2). destruct Ch as [(G & ->)|(G & ->)]; auto.
    - intros c s Ic Es Ist Et. split; [|apply (Kl c Ic)]. destruct Ch as [(G & ->)|(G & ->)]; [destruct (level_token _ _ G Et)|].
      destruct (Kl c Ic) as (_ & [(_ & _ & k & Ew & _)|(A1 & _)]); [|exact A1]. destruct (proj1 (ol_operator_state _ _ _ _ _ _ OL _ _ _ Es Ew) Ist).
    - exact H.
    - split; [exact A|]. intros G. apply B; [eapply level_token; eauto | eapply moving_exists; eauto].
  Qed.
End Start.
