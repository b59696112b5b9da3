(** The closure of a set of configurations holds all positions that moves lead to, in
    full-context mode nothing else. *)
From Coq Require Import ZArith List Bool Lia Sorted ZifyBool ZifyNat.
From Verif Require Import Outcome IntervalSetModel PredContextModel PredContextSpec PredContextProofs SemContextModel SemContextProofs.
From Verif Require Import ConfigSetModel ConfigSetSpec ConfigSetProofs DfaModel AtnModel AtnSpec AtnProofs Ll1Model Ll1Spec ParserModel PredictModel.
From Verif Require Import PredictFrameProofs PredictLLSpec PredictLLContextProofs PredictLLSetProofs.
Import ListNotations.
Local Open Scope Z_scope.
Local Open Scope outcome_scope.

Section Machine.
  Variable a : atn.
  Variable main : Z.
  Hypothesis G : simple_grammar a main.

  Lemma g_wf : well_formed a. Proof. apply G. Qed.
  Lemma g_pf : predicate_free a. Proof. apply G. Qed.
  Lemma g_mk : marked a. Proof. apply G. Qed.
  Lemma g_lk : linked a. Proof. apply G. Qed.
  Lemma g_om : outermost a main. Proof. apply G. Qed.

  (** [g] is a stack of continuations of rule [R] *)
  Inductive stacked : Z -> list Z -> Prop :=
  | st_main : stacked main []
  | st_call : forall caller R f g, calls a caller R f -> stacked caller g -> stacked R (f :: g).
  Definition stk (q : Z) (g : list Z) : Prop := stacked (rule_of a q) g.

  Lemma calls_rule caller R f : calls a caller R f -> rule_of a f = caller /\ exists_state a f /\ R <> main.
  Proof.
    intros (i & s & g & r & p & A & B & C & D & E). destruct (proj2 g_wf _ _ A) as (_ & W). destruct (W B _ D) as (_ & _ & X & Y).
    split; [congruence|]. split; [exact X|]. intros ->. apply (proj1 g_om caller f). exists i, s, g, r, p. auto 6.
  Qed.
  Lemma stacked_nil R : stacked R [] -> R = main.
  Proof. inversion 1; reflexivity. Qed.
  Lemma stacked_cons R f g : stacked R (f :: g) -> R <> main /\ exists_state a f /\ stacked (rule_of a f) g /\ calls a (rule_of a f) R f.
  Proof. inversion 1; subst. destruct (calls_rule _ _ _ H3) as (E & X & N). rewrite E. auto. Qed.

  Lemma move_inv q g p : move a (q, g) p ->
    (exists s t, state_at a q = Some s /\ ~ Ll1Spec.is_stop s /\ In t (st_trans s) /\ ~ consuming t /\ is_call t = false /\ p = (get_target t, g)) \/
    (exists s g' f r n, state_at a q = Some s /\ ~ Ll1Spec.is_stop s /\ In (RuleTr g' f r n) (st_trans s) /\ p = (g', f :: g)) \/
    (exists s f g', state_at a q = Some s /\ Ll1Spec.is_stop s /\ g = f :: g' /\ p = (f, g')).
  Proof.
    inversion 1; subst.
    - left. exists s, t. auto 6.
    - right. left. exists s, g0, f, r, p0. auto.
    - right. right. exists s, f, st. auto.
  Qed.
  Lemma take_inv x q g p : take a x (q, g) p ->
    exists s t, state_at a q = Some s /\ ~ Ll1Spec.is_stop s /\ In t (st_trans s) /\ symbols t 1 (max_token_type a) x /\ p = (get_target t, g).
  Proof. inversion 1; subst. exists s, t. auto 6. Qed.

  Lemma move_stk q g q' g' : move a (q, g) (q', g') -> stk q g -> stk q' g'.
  Proof.
    unfold stk. intros M H. apply move_inv in M as [(s & t & E & St & I & C & K & P)|[(s & g1 & f & r & n & E & St & I & P)|(s & f & g1 & E & St & -> & P)]];
      inversion P; subst.
    - destruct (proj2 g_wf _ _ E) as (_ & W). destruct (W St _ I) as (_ & _ & X). rewrite (rule_at _ _ _ E) in H.
      destruct t; try discriminate; cbn [get_target] in *; rewrite X; exact H.
    - rewrite (rule_at _ _ _ E) in H. eapply st_call; [|exact H]. exists q, s, g1, r, n. auto 6.
    - apply stacked_cons in H. apply H.
  Qed.
  Lemma take_stk x q g q' g' : take a x (q, g) (q', g') -> stk q g -> stk q' g'.
  Proof.
    unfold stk. intros M H. apply take_inv in M as (s & t & E & St & I & Sy & P). inversion P; subst.
    destruct (proj2 g_wf _ _ E) as (_ & W). destruct (W St _ I) as (_ & _ & X). rewrite (rule_at _ _ _ E) in H.
    destruct t; cbn in Sy; try contradiction; cbn [get_target] in *; rewrite X; exact H.
  Qed.

  (** final states: those that configurations in a set are at *)
  Definition fs (q : Z) : Prop := exists s, state_at a q = Some s /\ st_eps_only s = false.
  Lemma fs_stop_stk q s g : state_at a q = Some s -> Ll1Spec.is_stop s -> stk q g -> (fs q <-> g = []).
  Proof.
    intros E St H. unfold stk in H. rewrite (rule_at _ _ _ E) in H. destruct g as [|f g].
    - apply stacked_nil in H. split; [reflexivity|]. intros _. exists s. split; [exact E|].
      apply (g_mk _ _ E). apply (proj2 g_om _ _ E St H).
    - split; [|discriminate]. intros (s' & E' & F). rewrite E in E'. inversion E'; subst s'.
      apply stacked_cons in H as (_ & _ & _ & C). destruct (proj2 (g_lk _ _ E St) _ _ C) as (o & I).
      pose proof (proj1 (g_mk _ _ E) _ I) as X. cbn in X. congruence.
  Qed.
  Lemma fs_no_move q g p : fs q -> stk q g -> ~ move a (q, g) p.
  Proof.
    intros F H M. pose proof F as (s & E & F').
    apply move_inv in M as [(s' & t & E' & St & I & C & K & P)|[(s' & g1 & f & r & n & E' & St & I & P)|(s' & f & g1 & E' & St & -> & P)]];
      rewrite E in E'; inversion E'; subst s'.
    - pose proof (proj1 (g_mk _ _ E) _ I) as X. rewrite F' in X. pose proof (proj2 (eps_consuming t) C). congruence.
    - pose proof (proj1 (g_mk _ _ E) _ I) as X. cbn in X. congruence.
    - apply (fs_stop_stk _ _ _ E St H) in F. discriminate.
  Qed.
  Lemma take_fs q g x p : take a x (q, g) p -> fs q.
  Proof.
    intros M. apply take_inv in M as (s & t & E & St & I & Sy & P). exists s. split; [assumption|]. rewrite <- (proj1 (g_mk _ _ E) _ I).
    destruct t; cbn in *; try contradiction; reflexivity.
  Qed.

  Definition cmove (eof : bool) (p p' : position) : Prop := move a p p' \/ (eof = true /\ take a TOKEN_EOF p p').
  Inductive cmoves (eof : bool) : position -> position -> Prop :=
  | cm_here : forall p, cmoves eof p p
  | cm_step : forall p q r, cmove eof p q -> cmoves eof q r -> cmoves eof p r.
  Lemma cmoves_trans eof p q r : cmoves eof p q -> cmoves eof q r -> cmoves eof p r.
  Proof. induction 1; [auto|]. intros. eapply cm_step; eauto. Qed.
  Lemma cmove_stk eof q g q' g' : cmove eof (q, g) (q', g') -> stk q g -> stk q' g'.
  Proof. intros [M|(_ & M)]; [eapply move_stk | eapply take_stk]; eauto. Qed.
  Lemma cmoves_stk eof q g q' g' : cmoves eof (q, g) (q', g') -> stk q g -> stk q' g'.
  Proof.
    intros M. remember (q, g) as p. remember (q', g') as p'. revert q g Heqp. induction M; intros; subst.
    - inversion Heqp; subst. assumption.
    - destruct q as [q1 g1]. eapply IHM; [reflexivity | reflexivity|]. eapply cmove_stk; eauto.
  Qed.
End Machine.

Section Closure.
  Context {S : Type}.
  Variable ts : seek_ops S.
  Variable a : atn.
  Variable main : Z.
  Hypothesis G : simple_grammar a main.
  Variable ctx : Type.
  Variable sempred : S -> option ctx -> Z -> Z -> bool.
  Variable order : list nat -> list sem -> list sem.
  Variable hash : pctx -> Z.
  Variable fuel : nat.
  Variable start_index : Z.
  Variable precedence : Z.
  Variable outer : ctx.
  Variable atn_start_state : Z.

  Notation sim := (sim S).
  Notation stk := (stk a main).
  Notation fs := (fs a).
  Notation cmove := (cmove a).
  Notation cmoves := (cmoves a).
  Notation cgood := (cgood a main).
  Notation D full := (den (negb full)).

  Record ready (full : bool) (m : sim) (cs : pset) (b : list pconfig) : Prop := {
    rd_set : sgood a main full cs;
    rd_cache : kgood a main full (m_cache m);
    rd_busy : Forall (cgood full) b;
    rd_prec : is_precedence_dfa (m_dfa m) = false
  }.

  (** what processing the configurations [L] does: [N] are the ones visited *)
  Record closed (full eof : bool) (L : list pconfig) (m : sim) (cs : pset) (b : list pconfig)
      (m' : sim) (cs' : pset) (b' N : list pconfig) : Prop := {
    cl_ready : ready full m' cs' b';
    cl_input : m_input m' = m_input m;
    cl_dfa : m_dfa m' = m_dfa m;
    cl_sub : forall j q g, D full L j q g -> D full (N ++ b) j q g;
    cl_busy : forall j q g, D full b' j q g -> D full (N ++ b) j q g;
    cl_mono : forall j q g, D full (configs cs) j q g -> D full (configs cs') j q g;
    cl_step : forall j q g q' g', D full N j q g -> stk q g -> cmove eof (q, g) (q', g') -> D full (N ++ b) j q' g';
    cl_add : forall j q g, D full N j q g -> stk q g -> fs q -> D full (configs cs') j q g;
    cl_fs : forall q j, has_key (configs cs') q j -> has_key (configs cs) q j \/ fs q;
    cl_sound : full = true -> forall j q g, D full (configs cs') j q g ->
      D full (configs cs) j q g \/ exists q0 g0, D full L j q0 g0 /\ cmoves eof (q0, g0) (q, g)
  }.

  Lemma closed_ready full eof L m cs b m' cs' b' N : closed full eof L m cs b m' cs' b' N -> ready full m' cs' b'.
  Proof. apply cl_ready. Qed.

  Lemma closed_stay full eof L m cs b : ready full m cs b -> (forall j q g, D full L j q g -> D full b j q g) ->
    closed full eof L m cs b m cs b [].
  Proof.
    intros R H. constructor; auto; cbn [app]; auto.
    - intros j q g q' g' X. destruct (den_nil _ _ _ _ X).
    - intros j q g X. destruct (den_nil _ _ _ _ X).
  Qed.
  Lemma closed_nil full eof m cs b : ready full m cs b -> closed full eof [] m cs b m cs b [].
  Proof. intros R. apply closed_stay; [exact R|]. intros j q g X. destruct (den_nil _ _ _ _ X). Qed.
  Lemma closed_app full eof L1 L2 m cs b m1 cs1 b1 m2 cs2 b2 N1 N2 :
    closed full eof L1 m cs b m1 cs1 b1 N1 -> closed full eof L2 m1 cs1 b1 m2 cs2 b2 N2 ->
    closed full eof (L1 ++ L2) m cs b m2 cs2 b2 (N1 ++ N2).
  Proof.
    intros A B.
    assert (Bu : forall j q g, D full (N2 ++ b1) j q g -> D full ((N1 ++ N2) ++ b) j q g).
    { intros j q g H. rewrite !den_app in *. destruct H as [H|H]; [auto|]. apply (cl_busy _ _ _ _ _ _ _ _ _ _ A) in H.
      rewrite den_app in H. tauto. }
    constructor.
    - apply B.
    - rewrite (cl_input _ _ _ _ _ _ _ _ _ _ B). apply A.
    - rewrite (cl_dfa _ _ _ _ _ _ _ _ _ _ B). apply A.
    - intros j q g H. rewrite den_app in H. destruct H as [H|H].
      + apply (cl_sub _ _ _ _ _ _ _ _ _ _ A) in H. rewrite !den_app in *. tauto.
      + apply Bu, (cl_sub _ _ _ _ _ _ _ _ _ _ B), H.
    - intros j q g H. apply Bu, (cl_busy _ _ _ _ _ _ _ _ _ _ B), H.
    - intros j q g H. apply (cl_mono _ _ _ _ _ _ _ _ _ _ B), (cl_mono _ _ _ _ _ _ _ _ _ _ A), H.
    - intros j q g q' g' H K M. rewrite den_app in H. destruct H as [H|H].
      + pose proof (cl_step _ _ _ _ _ _ _ _ _ _ A _ _ _ _ _ H K M) as X. rewrite !den_app in *. tauto.
      + apply Bu, (cl_step _ _ _ _ _ _ _ _ _ _ B _ _ _ _ _ H K M).
    - intros j q g H K F. rewrite den_app in H. destruct H as [H|H].
      + apply (cl_mono _ _ _ _ _ _ _ _ _ _ B), (cl_add _ _ _ _ _ _ _ _ _ _ A _ _ _ H K F).
      + apply (cl_add _ _ _ _ _ _ _ _ _ _ B _ _ _ H K F).
    - intros q j H. apply (cl_fs _ _ _ _ _ _ _ _ _ _ B) in H as [H|H]; [|auto]. apply (cl_fs _ _ _ _ _ _ _ _ _ _ A), H.
    - intros Fu j q g H. apply (cl_sound _ _ _ _ _ _ _ _ _ _ B Fu) in H as [H|(q0 & g0 & H & M)].
      + apply (cl_sound _ _ _ _ _ _ _ _ _ _ A Fu) in H as [H|(q0 & g0 & H & M)]; [auto|].
        right. exists q0, g0. rewrite den_app. auto.
      + right. exists q0, g0. rewrite den_app. auto.
  Qed.
  Lemma den_in full c N j q g : In c N -> D full [c] j q g -> D full N j q g.
  Proof. intros I (c' & x & [<-|[]] & R). exists c, x. auto. Qed.
  Lemma closed_push full eof c m cs b m' cs' b' N : closed full eof [c] m cs (c :: b) m' cs' b' N -> In c N ->
    closed full eof [c] m cs b m' cs' b' N.
  Proof.
    intros A I.
    assert (Bu : forall j q g, D full (N ++ c :: b) j q g -> D full (N ++ b) j q g).
    { intros j q g. rewrite !den_app, den_cons. intros [H|[H|H]]; auto. left. eapply den_in; eauto. }
    constructor; try apply A.
    - intros j q g H. rewrite den_app. left. eapply den_in; eauto.
    - intros j q g H. apply Bu, (cl_busy _ _ _ _ _ _ _ _ _ _ A), H.
    - intros j q g q' g' H K M. apply Bu, (cl_step _ _ _ _ _ _ _ _ _ _ A _ _ _ _ _ H K M).
  Qed.
  Lemma closed_configs full eof L m cs0 cs b m' cs' b' N : configs cs0 = configs cs ->
    closed full eof L m cs0 b m' cs' b' N -> closed full eof L m cs b m' cs' b' N.
  Proof. intros E A. constructor; try apply A; rewrite <- E; apply A. Qed.

  (** visiting [c]: it is added if it is final, and its successors are processed *)
  Lemma closed_node full eof c L m cs b m1 cs1 m' cs' b' N :
    m_input m1 = m_input m -> m_dfa m1 = m_dfa m ->
    (forall j q g, D full (configs cs) j q g -> D full (configs cs1) j q g) ->
    (forall j q g, D full [c] j q g -> stk q g -> fs q -> D full (configs cs1) j q g) ->
    (forall q j, has_key (configs cs1) q j -> has_key (configs cs) q j \/ fs q) ->
    (full = true -> forall j q g, D full (configs cs1) j q g -> D full (configs cs) j q g \/ D full [c] j q g) ->
    closed full eof L m1 cs1 b m' cs' b' N ->
    (forall j q g q' g', D full [c] j q g -> stk q g -> cmove eof (q, g) (q', g') -> D full L j q' g') ->
    (full = true -> forall j q' g', D full L j q' g' -> exists q g, D full [c] j q g /\ cmove eof (q, g) (q', g')) ->
    closed full eof [c] m cs b m' cs' b' (c :: N).
  Proof.
    intros E1 E2 Mo Ad Fs So A Cp Sd. change (c :: N) with ([c] ++ N). constructor.
    - apply A.
    - rewrite (cl_input _ _ _ _ _ _ _ _ _ _ A). exact E1.
    - rewrite (cl_dfa _ _ _ _ _ _ _ _ _ _ A). exact E2.
    - intros j q g H. rewrite !den_app. auto.
    - intros j q g H. apply (cl_busy _ _ _ _ _ _ _ _ _ _ A) in H. rewrite !den_app in *. tauto.
    - intros j q g H. apply (cl_mono _ _ _ _ _ _ _ _ _ _ A), Mo, H.
    - intros j q g q' g' H K M. rewrite den_app in H. destruct H as [H|H].
      + pose proof (cl_sub _ _ _ _ _ _ _ _ _ _ A _ _ _ (Cp _ _ _ _ _ H K M)) as X. rewrite !den_app in *. tauto.
      + pose proof (cl_step _ _ _ _ _ _ _ _ _ _ A _ _ _ _ _ H K M) as X. rewrite !den_app in *. tauto.
    - intros j q g H K F. rewrite den_app in H. destruct H as [H|H].
      + apply (cl_mono _ _ _ _ _ _ _ _ _ _ A), (Ad _ _ _ H K F).
      + apply (cl_add _ _ _ _ _ _ _ _ _ _ A _ _ _ H K F).
    - intros q j H. apply (cl_fs _ _ _ _ _ _ _ _ _ _ A) in H as [H|H]; [|auto]. apply Fs, H.
    - intros Fu j q g H. apply (cl_sound _ _ _ _ _ _ _ _ _ _ A Fu) in H as [H|(q0 & g0 & H & M)].
      + apply (So Fu) in H as [H|H]; [auto|]. right. exists q, g. split; [exact H | apply cm_here].
      + right. destruct (Sd Fu _ _ _ H) as (q1 & g1 & H1 & M1). exists q1, g1. split; [exact H1|]. eapply cm_step; eauto.
  Qed.

  Lemma busy_den full b c : Forall (cgood full) b -> cgood full c -> busy_has b c = true ->
    forall j q g, D full [c] j q g -> D full b j q g.
  Proof.
    intros Gb (x & Ex & Wx & _) H j q g. unfold busy_has in H. apply existsb_exists in H as (c' & I & H).
    unfold pconfig_eqb, config_eqb in H. rewrite !andb_true_iff in H. destruct H as (((((H1 & H2) & H3) & _) & _) & _).
    apply Z.eqb_eq in H1, H2. rewrite Forall_forall in Gb. destruct (Gb _ I) as (x' & Ex' & Wx' & _).
    rewrite Ex, Ex' in H3. apply opt_eqb_eq_wf in H3; [|intros y Hy; congruence | intros y Hy; congruence]. inversion H3; subst x'.
    rewrite (den_one _ _ _ _ _ _ Ex). intros (A & B & C). exists c', x. repeat split; auto; congruence.
  Qed.

  (** one transition *)
  Definition leads (eof : bool) (t : transition) (g : list Z) (p : position) : Prop :=
    (~ consuming t /\ is_call t = false /\ p = (get_target t, g)) \/
    (exists g' f r n, t = RuleTr g' f r n /\ p = (g', f :: g)) \/
    (eof = true /\ symbols t 1 (max_token_type a) TOKEN_EOF /\ p = (get_target t, g)).
  Lemma cmove_leads eof q s g p : state_at a q = Some s -> ~ Ll1Spec.is_stop s ->
    (cmove eof (q, g) p <-> exists t, In t (st_trans s) /\ leads eof t g p).
  Proof.
    intros E St. split.
    - intros [M|(Eo & M)].
      + apply move_inv in M as [(s' & t & E' & St' & I & C & K & P)|[(s' & g1 & f & r & n & E' & St' & I & P)|(s' & f & g1 & E' & St' & -> & P)]];
          rewrite E in E'; inversion E'; subst s'; [| |contradiction].
        * exists t. split; [exact I|]. left. auto.
        * eexists. split; [exact I|]. right. left. eauto 7.
      + apply take_inv in M as (s' & t & E' & St' & I & Sy & P). rewrite E in E'. inversion E'; subst s'.
        exists t. split; [exact I|]. right. right. auto.
    - intros (t & I & [(A & B & ->)|[(g' & f & r & n & -> & ->)|(Eo & Sy & ->)]]).
      + left. eapply move_epsilon; eauto.
      + left. eapply move_call; eauto.
      + right. split; [exact Eo|]. eapply take_token; eauto.
  Qed.

  Lemma get_target_number g s : get_state a g = Val s -> st_number s = g.
  Proof. intros H. apply get_state_at in H. apply (proj2 (g_wf _ _ G) _ _ H). Qed.

  Lemma cgood_moved full c q : cgood full c -> rule_of a q = rule_of a (c_state c) ->
    cgood full (Config q (c_alt c) (c_ctx c) (c_sem c) (c_reach c) (c_pfs c) (c_type c)).
  Proof. intros (x & H) E. exists x. cbn. rewrite E. exact H. Qed.

  Definition o_list (o : option pconfig) : list pconfig := match o with Some c => [c] | None => [] end.
  Lemma target_ok m c s t col inc full eof m' o : cgood full c -> state_at a (c_state c) = Some s -> ~ Ll1Spec.is_stop s -> In t (st_trans s) ->
    get_epsilon_target ts a ctx sempred order start_index precedence outer m c t col inc full eof = Val (m', o) ->
    m' = m /\ Forall (cgood full) (o_list o) /\
    (forall j q' g' , D full (o_list o) j q' g' <-> exists g, D full [c] j (c_state c) g /\ leads eof t g (q', g')).
  Proof.
    intros Gc E St I H. destruct (proj2 (g_wf _ _ G) _ _ E) as (_ & W). destruct (W St _ I) as (Xt & So & X). clear W.
    pose proof (proj1 (g_pf _ _ G _ _ E) _ I) as Pf. pose proof Gc as (x & Ex & Wx & Tx & Sem & Alt & Pfs).
    assert (Nil : m' = m -> o = None -> (forall g p, ~ leads eof t g p) -> m' = m /\ Forall (cgood full) (o_list o) /\
      (forall j q' g' , D full (o_list o) j q' g' <-> exists g, D full [c] j (c_state c) g /\ leads eof t g (q', g'))).
    { intros -> -> N. split; [reflexivity|]. split; [constructor|]. intros j q' g'. split.
      - intros Q. destruct (den_nil _ _ _ _ Q).
      - intros (g & _ & Q). destruct (N _ _ Q). }
    assert (Same : forall s', get_state a (get_target t) = Val s' -> rule_of a (get_target t) = st_rule s -> m' = m -> o = Some (pcloned c s') ->
      (forall g p, leads eof t g p <-> p = (get_target t, g)) -> m' = m /\ Forall (cgood full) (o_list o) /\
      (forall j q' g' , D full (o_list o) j q' g' <-> exists g, D full [c] j (c_state c) g /\ leads eof t g (q', g'))).
    { intros s' Es R -> -> N. pose proof (get_target_number _ _ Es) as Nu. split; [reflexivity|].
      unfold pcloned, o_list. rewrite Nu. split; [constructor; [|constructor]; apply cgood_moved; [exact Gc|]; rewrite R, (rule_at _ _ _ E); reflexivity|].
      intros j q' g'. rewrite (den_one _ _ x) by exact Ex. cbn [c_state c_alt]. setoid_rewrite (den_one (negb full) c x); [|exact Ex]. setoid_rewrite N. split.
      - intros (A & B & C). exists g'. subst. auto.
      - intros (g & (A & B & C) & P). inversion P; subst. auto. }
    assert (Eps : is_call t = false -> ~ consuming t -> forall g p, leads eof t g p <-> p = (get_target t, g)).
    { intros A B g p. unfold leads. split.
      - intros [(_ & _ & P)|[(g' & f & r & n & -> & _)|(_ & _ & P)]]; auto. discriminate.
      - intros ->. left. auto. }
    assert (Con : forall b, consuming t -> matches t TOKEN_EOF 0 1 = Val b -> (b = true <-> symbols t 1 (max_token_type a) TOKEN_EOF) ->
      (let! e := if eof then matches t TOKEN_EOF 0 1 else Val false in
        if e : bool then let! target := get_state a (get_target t) in Val (m, Some (pcloned c target)) else Val (m, None)) = Val (m', o) ->
      rule_of a (get_target t) = st_rule s ->
      m' = m /\ Forall (cgood full) (o_list o) /\
      (forall j q' g' , D full (o_list o) j q' g' <-> exists g, D full [c] j (c_state c) g /\ leads eof t g (q', g'))).
    { intros b Ct Mt Bt H0 R. destruct eof.
      - rewrite Mt in H0. cbn [obindo] in H0. destruct b.
        + bind H0 s' Es. inversion H0; subst. apply (Same s'); auto. intros g p. unfold leads. split.
          * intros [(N & _)|[(g' & f & r & n & -> & _)|(_ & _ & P)]]; [contradiction | destruct Ct | exact P].
          * intros ->. right. right. split; [reflexivity|]. split; [apply Bt|]; reflexivity.
        + inversion H0; subst. apply Nil; auto. intros g p. unfold leads. intros [(N & _)|[(g' & f & r & n & -> & _)|(_ & Sy & P)]];
            [contradiction | destruct Ct |]. apply Bt in Sy. discriminate.
      - cbn [obindo] in H0. inversion H0; subst. apply Nil; auto. intros g p. unfold leads.
        intros [(N & _)|[(g' & f & r & n & -> & _)|(Q & _)]]; [contradiction | destruct Ct | discriminate]. }
    destruct t; cbn [get_epsilon_target get_target] in *.
    - (* atom *) eapply Con; [exact Logic.I | reflexivity | | exact H | exact X]. cbn [symbols]. lia.
    - (* rule *) bind H s' Es. unfold rule_transition in H. rewrite Ex in H. cbn [unwrap obindo] in H. inversion H; subst m' o.
      destruct X as (Xf & Rf). pose proof (get_target_number _ _ Es) as Nu. split; [reflexivity|].
      unfold pcloned_with_new_ctx, o_list. rewrite Nu.
      assert (Lf : follow_state < EMPTY_RETURN_STATE).
      { pose proof (exists_at _ _ Xf) as (sf & Ef). unfold state_at in Ef. destruct (follow_state <? 0) eqn:Q; [discriminate|].
        pose proof (nth_error_Some (states a) (Z.to_nat follow_state)) as N. rewrite Ef in N. pose proof (proj1 N ltac:(discriminate)).
        pose proof (proj1 (g_wf _ _ G)). unfold EMPTY_RETURN_STATE. lia. }
      split.
      + constructor; [|constructor]. eexists. split; [reflexivity|]. cbn [c_state c_sem c_alt c_pfs c_ctx].
        split; [apply wf_single_some; auto|]. split; [|auto]. intros Fu.
        eapply (typed_push _ _ _ _ _ (Tx Fu)); [|exact Lf|].
        * rewrite Rf, (rule_at _ _ _ E). reflexivity.
        * apply (calls_rule _ _ G (st_rule s) _ follow_state). exists (c_state c), s, target, rule_index, precedence0. auto 6.
      + intros j q' g'. rewrite (den_one _ _ (Singleton follow_state (Some x))) by reflexivity. cbn [c_state c_alt].
        setoid_rewrite (den_one (negb full) c x); [|exact Ex]. rewrite stands_dent. cbn [entries]. rewrite dent_single. split.
        * intros (A & B & (s1 & -> & C)). exists s1. split; [auto|]. right. left. subst. eauto 7.
        * intros (g & (A & B & C) & [(_ & Q & _)|[(g1 & f & r & n & Q & P)|(_ & [] & _)]]); [discriminate|].
          inversion Q; subst. inversion P; subst. split; [auto|]. split; [auto|]. eauto.
    - (* epsilon *) bind H s' Es. inversion H; subst. apply (Same s'); auto.
    - (* range *) eapply Con; [exact Logic.I | reflexivity | | exact H | exact X]. cbn [symbols]. lia.
    - (* action *) bind H s' Es. inversion H; subst. apply (Same s'); auto.
    - (* set *) eapply Con; [exact Logic.I | reflexivity | | exact H | exact X]. cbn [symbols set_ok] in *. apply IntervalSetProofs.contains_spec. exact So.
    - (* not set *) inversion H; subst. apply Nil; auto. intros g p [(N & _)|[(g' & f & r & n & Q & _)|(_ & Sy & _)]]; [apply N; exact Logic.I | discriminate|].
      cbn [symbols] in Sy. unfold TOKEN_EOF in Sy. lia.
    - (* wildcard *) inversion H; subst. apply Nil; auto. intros g p [(N & _)|[(g' & f & r & n & Q & _)|(_ & Sy & _)]]; [apply N; exact Logic.I | discriminate|].
      cbn [symbols] in Sy. unfold TOKEN_EOF in Sy. lia.
    - destruct Pf.
    - destruct Pf.
  Qed.

  Definition rec_ok (full eof : bool) (rec : rec_closure) : Prop := forall c col d m cs b m' cs' b',
    ready full m cs b -> cgood full c -> rec c col d (m, cs, b) = Val (m', cs', b') ->
    exists N, In c N /\ closed full eof [c] m cs b m' cs' b' N.

  Lemma no_drop c s : state_at a (c_state c) = Some s -> can_drop_loop_entry_edge a c = Val false.
  Proof.
    intros E. unfold can_drop_loop_entry_edge. rewrite (proj2 (get_state_at _ _ _) E). cbn [obindo].
    pose proof (proj2 (g_pf _ _ G _ _ E)) as P. unfold is_loop_entry.
    destruct (st_type s); try reflexivity. destruct state; try reflexivity.
    match goal with |- context [negb ?p] => destruct p; [destruct P | reflexivity] end.
  Qed.

  Lemma ready_push full m cs b c : ready full m cs b -> cgood full c -> ready full m cs (c :: b).
  Proof. intros R Gc. constructor; try apply R. constructor; [exact Gc | apply R]. Qed.

  Lemma edge_ok rec full eof c s t col d first m cs b m' cs' b' : rec_ok full eof rec -> ready full m cs b -> cgood full c ->
    state_at a (c_state c) = Some s -> ~ Ll1Spec.is_stop s -> In t (st_trans s) ->
    closure_edge ts a ctx sempred order start_index precedence outer atn_start_state rec c s col full d eof first t (m, cs, b) = Val (m', cs', b') ->
    exists L N, closed full eof L m cs b m' cs' b' N /\
      forall j q' g', D full L j q' g' <-> exists g, D full [c] j (c_state c) g /\ leads eof t g (q', g').
  Proof.
    intros Hr R Gc E St I H. unfold closure_edge in H. bind H drop Ed.
    assert (drop = false) as -> by (destruct first; [rewrite (no_drop _ _ E) in Ed|]; congruence).
    bind2 H m1 o Et. destruct (target_ok _ _ _ _ _ _ _ _ _ _ Gc E St I Et) as (-> & Go & Dl).
    exists (o_list o). destruct o as [c'|]; cbn [o_list] in *.
    2:{ inversion H; subst. exists []. split; [apply closed_nil, R | exact Dl]. }
    inversion Go as [|? ? Gc' _]; subst. rewrite (proj2 (stop_not s) St) in H.
    destruct (negb (is_epsilon t) && busy_has b c') eqn:B.
    { inversion H; subst. exists []. split; [|exact Dl]. apply closed_stay; [exact R|]. apply andb_true_iff in B as (_ & B).
      apply busy_den; [apply R | exact Gc' | exact B]. }
    cbv zeta in H. destruct (is_epsilon t).
    - destruct (Hr _ _ _ _ _ _ _ _ _ R Gc' H) as (N & _ & A). eauto.
    - destruct (Hr _ _ _ _ _ _ _ _ _ (ready_push _ _ _ _ _ R Gc') Gc' H) as (N & In' & A).
      exists N. split; [|exact Dl]. eapply closed_push; eauto.
  Qed.
  Lemma edges_ok rec full eof c s col d : rec_ok full eof rec -> cgood full c -> state_at a (c_state c) = Some s -> ~ Ll1Spec.is_stop s ->
    forall l first m cs b m' cs' b', incl l (st_trans s) -> ready full m cs b ->
    closure_edges ts a ctx sempred order start_index precedence outer atn_start_state rec c s col full d eof first l (m, cs, b) = Val (m', cs', b') ->
    exists L N, closed full eof L m cs b m' cs' b' N /\
      forall j q' g', D full L j q' g' <-> exists t g, In t l /\ D full [c] j (c_state c) g /\ leads eof t g (q', g').
  Proof.
    intros Hr Gc E St. induction l as [|t l IH]; intros first m cs b m' cs' b' Il R H.
    - cbn in H. inversion H; subst. exists [], []. split; [apply closed_nil, R|]. intros j q' g'. split.
      + intros Q. destruct (den_nil _ _ _ _ Q).
      + intros (t & g & [] & _).
    - cbn [closure_edges] in H. bind3 H m1 cs1 b1 E1.
      destruct (edge_ok _ _ _ _ _ _ _ _ _ _ _ _ _ _ _ Hr R Gc E St (Il t (or_introl eq_refl)) E1) as (L1 & N1 & A1 & D1).
      destruct (IH _ _ _ _ _ _ _ (fun x Hx => Il x (or_intror Hx)) (cl_ready _ _ _ _ _ _ _ _ _ _ A1) H) as (L2 & N2 & A2 & D2).
      exists (L1 ++ L2), (N1 ++ N2). split; [eapply closed_app; eauto|]. intros j q' g'. rewrite den_app, D1, D2. split.
      + intros [(g & X & Y)|(t' & g & X & Y)]; [exists t, g | exists t', g]; cbn [In]; tauto.
      + intros (t' & g & [<-|X] & Y); [left | right]; eauto.
  Qed.

  (** leaving the rule the decision is in, when its callers are not known *)
  Lemma stop_edge_ok rec eof c s x t col d first m cs b m' cs' b' : rec_ok false eof rec -> ready false m cs b -> cgood false c ->
    state_at a (c_state c) = Some s -> Ll1Spec.is_stop s -> c_ctx c = Some x -> In (EMPTY_RETURN_STATE, None) (entries x) -> In t (st_trans s) ->
    closure_edge ts a ctx sempred order start_index precedence outer atn_start_state rec c s col false d eof first t (m, cs, b) = Val (m', cs', b') ->
    exists L N, closed false eof L m cs b m' cs' b' N /\ forall g, D false L (c_alt c) (get_target t) g.
  Proof.
    intros Hr R Gc E St Ex Em I H. unfold closure_edge in H. bind H drop Ed.
    assert (drop = false) as -> by (destruct first; [rewrite (no_drop _ _ E) in Ed|]; congruence).
    destruct (proj1 (g_lk _ _ G _ _ E St) _ I) as (f & o & -> & Xf). cbn [get_epsilon_target get_target] in *.
    bind2 H m1 o1 Et. bind Et s' Es. inversion Et; subst m1 o1. clear Et. rewrite (proj2 (stop_iff s) St) in H.
    bind H c' Ec. unfold leave_decision_rule in Ec. rewrite (rd_prec _ _ _ _ R) in Ec. cbn [obindo] in Ec. inversion Ec; subst c'. clear Ec.
    pose proof (get_target_number _ _ Es) as Nu. unfold pcloned, set_reaches in H. cbn [c_state c_alt c_ctx c_sem c_pfs c_type c_reach] in H. rewrite Nu in H.
    match type of H with (if busy_has b ?c0 then _ else _) = _ => set (c' := c0) in *; exists [c'] end.
    assert (Gc' : cgood false c').
    { destruct Gc as (x' & A1 & A2 & _ & A3). exists x'. split; [exact A1|]. split; [exact A2|]. split; [discriminate | exact A3]. }
    assert (Dc : forall g, D false [c'] (c_alt c) f g).
    { intros g. rewrite (den_one _ _ x) by exact Ex. split; [reflexivity|]. split; [reflexivity|]. apply PredContextSpec.Bottom; auto. }
    destruct (busy_has b c') eqn:B.
    { inversion H; subst. exists []. split; [|exact Dc]. apply closed_stay; [exact R|]. apply busy_den; [apply R | exact Gc' | exact B]. }
    assert (R' : ready false m (set_dips_into_outer_context cs true) (c' :: b)).
    { constructor; try apply R; [|constructor; [exact Gc' | apply R]]. destruct (rd_set _ _ _ _ R). constructor; assumption. }
    destruct (Hr _ _ _ _ _ _ _ _ _ R' Gc' H) as (N & In' & A). exists N. split; [|exact Dc].
    eapply closed_push; [|exact In']. eapply closed_configs; [|exact A]. reflexivity.
  Qed.
  Lemma stop_edges_ok rec eof c s x col d : rec_ok false eof rec -> cgood false c ->
    state_at a (c_state c) = Some s -> Ll1Spec.is_stop s -> c_ctx c = Some x -> In (EMPTY_RETURN_STATE, None) (entries x) ->
    forall l first m cs b m' cs' b', incl l (st_trans s) -> ready false m cs b ->
    closure_edges ts a ctx sempred order start_index precedence outer atn_start_state rec c s col false d eof first l (m, cs, b) = Val (m', cs', b') ->
    exists L N, closed false eof L m cs b m' cs' b' N /\ forall t g, In t l -> D false L (c_alt c) (get_target t) g.
  Proof.
    intros Hr Gc E St Ex Em. induction l as [|t l IH]; intros first m cs b m' cs' b' Il R H.
    - cbn in H. inversion H; subst. exists [], []. split; [apply closed_nil, R|]. intros t g [].
    - cbn [closure_edges] in H. bind3 H m1 cs1 b1 E1.
      destruct (stop_edge_ok _ _ _ _ _ _ _ _ _ _ _ _ _ _ _ Hr R Gc E St Ex Em (Il t (or_introl eq_refl)) E1) as (L1 & N1 & A1 & D1).
      destruct (IH _ _ _ _ _ _ _ (fun x Hx => Il x (or_intror Hx)) (cl_ready _ _ _ _ _ _ _ _ _ _ A1) H) as (L2 & N2 & A2 & D2).
      exists (L1 ++ L2), (N1 ++ N2). split; [eapply closed_app; eauto|]. intros t' g [<-|X]; rewrite den_app; auto.
  Qed.

  Lemma return_ok rec full eof c x col d : rec_ok full eof rec -> cgood full c -> c_ctx c = Some x ->
    forall l m cs b m' cs' b', (forall i, In i l -> (i < pc_length x)%nat) -> ready full m cs b ->
    return_to (S := S) rec c x col d l (m, cs, b) = Val (m', cs', b') ->
    exists L N, closed full eof L m cs b m' cs' b' N /\
      forall j q' g', D full L j q' g' <-> j = c_alt c /\ exists i p, In i l /\ nth_error (entries x) i = Some (q', Some p) /\ stands (negb full) p g'.
  Proof.
    intros Hr Gc Ex. destruct Gc as (x' & Ex' & Wx & Tx & Sem & Alt & Pfs). rewrite Ex in Ex'. inversion Ex'; subst x'. clear Ex'.
    induction l as [|i l IH]; intros m cs b m' cs' b' Il R H.
    - cbn in H. inversion H; subst. exists [], []. split; [apply closed_nil, R|]. intros j q' g'. split.
      + intros Q. destruct (den_nil _ _ _ _ Q).
      + intros (_ & i & p & [] & _).
    - cbn [return_to] in H. destruct (proj1 (lookups_in_range x Wx) i (Il i (or_introl eq_refl))) as (r & p & E1 & E2 & E3).
      rewrite E1 in H. cbn [obindo] in H. pose proof (proj1 (wf_iff x) Wx) as (_ & W1 & W2 & W3). pose proof (nth_error_In _ _ E3) as I3.
      destruct (r =? EMPTY_RETURN_STATE) eqn:Er.
      + destruct (negb (i =? pc_length x - 1)%nat); [discriminate|].
        destruct (IH _ _ _ _ _ _ (fun k Hk => Il k (or_intror Hk)) R H) as (L & N & A & DD). exists L, N. split; [exact A|].
        intros j q' g'. rewrite DD. split.
        * intros (J & k & p' & K1 & K2). split; [exact J|]. exists k, p'. cbn [In]. tauto.
        * intros (J & k & p' & [<-|K1] & K2 & K3); [|eauto 7]. rewrite E3 in K2. inversion K2; subst.
          specialize (W2 _ _ I3). lia.
      + rewrite E2 in H. cbn [obindo] in H. bind3 H m1 cs1 b1 EC.
        destruct p as [p|]; [|specialize (W1 _ I3); lia].
        unfold new_with_semantic, set_reaches in EC. cbn [c_state c_alt c_ctx c_sem c_pfs c_type c_reach] in EC.
        match type of EC with rec ?c0 _ _ _ = _ => set (c' := c0) in * end.
        assert (Gc' : cgood full c').
        { exists p. split; [reflexivity|]. split; [eapply W3; eauto|]. split; [|auto]. intros Fu. cbn.
          pose proof (proj1 (typed_iff _ _ _ _) (Tx Fu)) as (_ & _ & _ & T3). eapply T3; eauto. }
        destruct (Hr _ _ _ _ _ _ _ _ _ R Gc' EC) as (N1 & _ & A1).
        destruct (IH _ _ _ _ _ _ (fun k Hk => Il k (or_intror Hk)) (cl_ready _ _ _ _ _ _ _ _ _ _ A1) H) as (L2 & N2 & A2 & D2).
        exists ([c'] ++ L2), (N1 ++ N2). split; [eapply closed_app; eauto|].
        intros j q' g'. rewrite den_app, D2, (den_one _ _ p) by reflexivity. cbn [c' c_state c_alt]. split.
        * intros [(X & Y & Z)|(J & k & p' & K1 & K2)].
          -- subst. split; [reflexivity|]. exists i, p. cbn [In]. auto.
          -- split; [exact J|]. exists k, p'. cbn [In]. tauto.
        * intros (J & k & p' & [<-|K1] & K2 & K3).
          -- left. rewrite E3 in K2. inversion K2; subst. auto.
          -- right. eauto 7.
  Qed.

  Lemma add_node full m cs b c m1 cs1 : ready full m cs b -> cgood full c -> add_to hash m cs c = Val (m1, cs1) ->
    ready full m1 cs1 b /\ added a main full m m1 cs cs1 [c].
  Proof.
    intros R Gc H. pose proof (add_good _ _ _ _ _ _ _ _ _ (rd_set _ _ _ _ R) Gc (rd_cache _ _ _ _ R) H) as A. split; [|exact A].
    constructor; [apply A | apply A | apply R|]. rewrite (ad_dfa _ _ _ _ _ _ _ _ A). apply R.
  Qed.

  (** the first step of [closure_work]: add the configuration if it is at a final state *)
  Lemma work_add full m cs b c s m1 cs1 b1 : ready full m cs b -> cgood full c -> state_at a (c_state c) = Some s ->
    (if st_eps_only s then Val (m, cs, b) else let! (m, cs) := add_to hash m cs c in Val (m, cs, b)) = Val (m1, cs1, b1) ->
    b1 = b /\ ready full m1 cs1 b /\ m_input m1 = m_input m /\ m_dfa m1 = m_dfa m /\
    (forall j q g, D full (configs cs) j q g -> D full (configs cs1) j q g) /\
    (forall j q g, D full [c] j q g -> stk q g -> fs q -> D full (configs cs1) j q g) /\
    (forall q j, has_key (configs cs1) q j -> has_key (configs cs) q j \/ fs q) /\
    (full = true -> forall j q g, D full (configs cs1) j q g -> D full (configs cs) j q g \/ D full [c] j q g).
  Proof.
    intros R Gc E H. destruct (st_eps_only s) eqn:Ee.
    - inversion H; subst. split; [reflexivity|]. split; [exact R|]. split; [reflexivity|]. split; [reflexivity|]. split; [auto|].
      split; [|auto]. intros j q g (c' & x & [<-|[]] & <- & _) _ (s' & E' & F). rewrite E in E'. inversion E'; subst. congruence.
    - bind2 H m2 cs2 EA. inversion H; subst. destruct (add_node _ _ _ _ _ _ _ R Gc EA) as (R1 & A).
      split; [reflexivity|]. split; [exact R1|]. split; [apply A|]. split; [apply A|].
      split; [intros j q g Q; apply (ad_den _ _ _ _ _ _ _ _ A); auto|].
      split; [intros j q g Q _ _; apply (ad_den _ _ _ _ _ _ _ _ A); auto|].
      split.
      + intros q j Q. apply (ad_key _ _ _ _ _ _ _ _ A) in Q as [Q|Q]; [auto|]. apply key_one in Q as (<- & _). right. exists s. auto.
      + intros _ j q g Q. apply (ad_den _ _ _ _ _ _ _ _ A) in Q. exact Q.
  Qed.

  Notation css := (closure_checking_stop_state ts a ctx sempred order hash start_index precedence outer atn_start_state).
  Lemma work_ok rec full eof c s col d m cs b m' cs' b' : rec_ok full eof rec -> ready full m cs b -> cgood full c ->
    state_at a (c_state c) = Some s -> ~ Ll1Spec.is_stop s ->
    closure_work ts a ctx sempred order hash start_index precedence outer atn_start_state rec c col full d eof (m, cs, b) = Val (m', cs', b') ->
    exists N, In c N /\ closed full eof [c] m cs b m' cs' b' N.
  Proof.
    intros Hr R Gc E St H. unfold closure_work in H. rewrite (proj2 (get_state_at _ _ _) E) in H. cbn [obindo] in H.
    bind3 H m1 cs1 b1 EA. destruct (work_add _ _ _ _ _ _ _ _ _ R Gc E EA) as (-> & R1 & I1 & I2 & I3 & I4 & I5 & I6).
    destruct (edges_ok _ _ _ _ _ _ _ Hr Gc E St _ _ _ _ _ _ _ _ (incl_refl _) R1 H) as (L & N & A & DL).
    exists (c :: N). split; [left; reflexivity|]. eapply closed_node; eauto.
    - intros j q g q' g' Dc K M. pose proof Dc as (c' & x & [<-|[]] & <- & _).
      apply (proj1 (cmove_leads eof _ _ _ _ E St)) in M as (t & I & Ld). apply DL. eauto.
    - intros _ j q' g' Dl. apply DL in Dl as (t & g & I & Dc & Ld). exists (c_state c), g. split; [exact Dc|].
      apply (cmove_leads eof _ _ _ _ E St). eauto.
  Qed.

  Lemma stop_cmove eof q s g p : state_at a q = Some s -> Ll1Spec.is_stop s -> cmove eof (q, g) p -> exists f g', g = f :: g' /\ p = (f, g').
  Proof.
    intros E St [M|(_ & M)].
    - apply move_inv in M as [(s' & t & E' & St' & _)|[(s' & g1 & f & r & n & E' & St' & _)|(s' & f & g1 & E' & St' & -> & P)]]; [| | eauto];
        rewrite E in E'; inversion E'; subst; contradiction.
    - apply take_inv in M as (s' & t & E' & St' & _). rewrite E in E'. inversion E'; subst; contradiction.
  Qed.
  Lemma entries_length x i e : nth_error (entries x) i = Some e -> (i < pc_length x)%nat.
  Proof.
    intros H. assert (i < length (entries x))%nat by (apply nth_error_Some; congruence).
    destruct x; cbn [entries pc_length] in *; [exact H0|]. rewrite combine_length in H0. lia.
  Qed.

  Lemma css_ok n : forall full eof, rec_ok full eof (css n full eof).
  Proof.
    induction n as [|n IH]; intros full eof c col d m cs b m' cs' b' R Gc H; [discriminate|].
    cbn [closure_checking_stop_state] in H. bind H s Es. apply get_state_at in Es. specialize (IH full eof).
    destruct (PredictModel.is_stop s) eqn:St.
    2:{ apply stop_not in St. eapply work_ok; eauto. }
    apply stop_iff in St. pose proof Gc as (x & Ex & Wx & Tx & Sem & Alt & Pfs). rewrite Ex in H. cbn [unwrap obindo] in H.
    destruct (proj1 (proj2 (lookups_in_range x Wx))) as (e & Ee & He). rewrite Ee in H. cbn [obindo] in H.
    assert (Dc : forall j q g, D full [c] j q g <-> c_state c = q /\ c_alt c = j /\ stands (negb full) x g) by (intros; apply den_one; exact Ex).
    assert (Cp2 : forall L2, (forall j q' g', D full L2 j q' g' <-> j = c_alt c /\ exists i p, In i (seq 0 (pc_length x)) /\ nth_error (entries x) i = Some (q', Some p) /\ stands (negb full) p g') ->
      forall f g' p, In (f, Some p) (entries x) -> stands (negb full) p g' -> D full L2 (c_alt c) f g').
    { intros L2 D2 f g' p I0 Sp. apply D2. split; [reflexivity|]. apply In_nth_error in I0 as (i & Ni). exists i, p.
      split; [|auto]. apply in_seq. apply entries_length in Ni. lia. }
    assert (Hem : In (EMPTY_RETURN_STATE, None) (entries x) -> full = true -> x = EMPTY).
    { intros I0 Fu. pose proof (proj1 (typed_iff _ _ _ _) (Tx Fu)) as (_ & T1 & _). apply (typed_main (rule_of a) main).
      specialize (Tx Fu). rewrite (T1 _ I0) in Tx. exact Tx. }
    (* the parts of the work at a stop state whose callers are not known *)
    assert (Wk : forall m2 cs2 b2, full = false -> In (EMPTY_RETURN_STATE, None) (entries x) ->
      closure_work ts a ctx sempred order hash start_index precedence outer atn_start_state (css n full eof) c col full d eof (m, cs, b) = Val (m2, cs2, b2) ->
      exists m1 cs1 L N, ready full m1 cs1 b /\ m_input m1 = m_input m /\ m_dfa m1 = m_dfa m /\
        (forall j q g, D full (configs cs) j q g -> D full (configs cs1) j q g) /\
        (forall j q g, D full [c] j q g -> stk q g -> fs q -> D full (configs cs1) j q g) /\
        (forall q j, has_key (configs cs1) q j -> has_key (configs cs) q j \/ fs q) /\
        closed full eof L m1 cs1 b m2 cs2 b2 N /\ forall t g, In t (st_trans s) -> D full L (c_alt c) (get_target t) g).
    { intros m2 cs2 b2 Fu Em H0. unfold closure_work in H0. rewrite (proj2 (get_state_at _ _ _) Es) in H0. cbn [obindo] in H0.
      bind3 H0 m1 cs1 b1 EA. destruct (work_add _ _ _ _ _ _ _ _ _ R Gc Es EA) as (-> & R1 & I1 & I2 & I3 & I4 & I5 & I6).
      subst full. destruct (stop_edges_ok _ _ _ _ _ _ _ IH Gc Es St Ex Em _ _ _ _ _ _ _ _ (incl_refl _) R1 H0) as (L & N & A & DL).
      exists m1, cs1, L, N. auto 10. }
    assert (Follow : forall f g', stk (c_state c) (f :: g') -> exists o, In (Epsilon f o) (st_trans s)).
    { intros f g' K. red in K. rewrite (rule_at _ _ _ Es) in K. destruct (stacked_cons _ _ G _ _ _ K) as (_ & _ & _ & C).
      apply (proj2 (g_lk _ _ G _ _ Es St) _ _ C). }
    destruct e; cbn [negb] in H.
    - assert (x = EMPTY) by (apply He; reflexivity). subst x. destruct full.
      + bind2 H m1 cs1 EA. inversion H; subst. destruct (add_node _ _ _ _ _ _ _ R Gc EA) as (R1 & A).
        exists [c]. split; [left; reflexivity|]. eapply (closed_node true eof c [] m cs b' m' cs').
        * apply A.
        * apply A.
        * intros j q g Q; apply (ad_den _ _ _ _ _ _ _ _ A); auto.
        * intros j q g Q _ _; apply (ad_den _ _ _ _ _ _ _ _ A); auto.
        * intros q j Q. apply (ad_key _ _ _ _ _ _ _ _ A) in Q as [Q|Q]; [auto|]. apply key_one in Q as (<- & _). right.
          eapply (fs_stop_stk _ _ G _ _ []); [exact Es | exact St| |reflexivity]. red.
          pose proof (proj1 (typed_iff _ _ _ _) (Tx eq_refl)) as (_ & T1 & _). rewrite (T1 EMPTY_RETURN_STATE); [apply st_main | left; reflexivity].
        * intros _ j q g Q. apply (ad_den _ _ _ _ _ _ _ _ A) in Q. exact Q.
        * apply closed_nil, R1.
        * intros j q g q' g' Q K M. apply Dc in Q as (<- & _ & Q). apply stands_EMPTY in Q.
          destruct (stop_cmove _ _ _ _ _ Es St M) as (f & g1 & -> & _). destruct Q; discriminate.
        * intros _ j q g Q. destruct (den_nil _ _ _ _ Q).
      + destruct (Wk _ _ _ eq_refl (or_introl eq_refl) H) as (m1 & cs1 & L & N & R1 & I1 & I2 & I3 & I4 & I5 & A & DL).
        exists (c :: N). split; [left; reflexivity|]. eapply closed_node; eauto; [discriminate | | discriminate].
        intros j q g q' g' Q K M. apply Dc in Q as (<- & <- & Q). destruct (stop_cmove _ _ _ _ _ Es St M) as (f & g1 & -> & P).
        inversion P; subst. destruct (Follow _ _ K) as (o & I). apply (DL _ g1 I).
    - assert (Ne : x <> EMPTY) by (intros Q; apply He in Q; discriminate).
      destruct (proj2 (proj2 (lookups_in_range x Wx))) as (h & Eh & Hh). unfold has_empty_path in Eh.
      bind H lst El. assert (Hl : (lst =? EMPTY_RETURN_STATE) = true <-> In (EMPTY_RETURN_STATE, None) (entries x)).
      { destruct (pc_length x) as [|k]; [discriminate|]. rewrite El in Eh. cbn [obindo] in Eh. inversion Eh; subst h. rewrite Hh. split.
        - intros Q. inversion Q; subst; assumption.
        - intros Q. apply PredContextSpec.Bottom; auto. }
      clear h Eh Hh. bind3 H m2 cs2 b2 E2.
      assert (Ret : forall L m1 cs1 N1,
        m_input m1 = m_input m -> m_dfa m1 = m_dfa m ->
        (forall j q g, D full (configs cs) j q g -> D full (configs cs1) j q g) ->
        (forall j q g, D full [c] j q g -> stk q g -> fs q -> D full (configs cs1) j q g) ->
        (forall q j, has_key (configs cs1) q j -> has_key (configs cs) q j \/ fs q) ->
        (full = true -> configs cs1 = configs cs) -> (full = true -> L = []) ->
        closed full eof L m1 cs1 b m2 cs2 b2 N1 ->
        (In (EMPTY_RETURN_STATE, None) (entries x) -> forall t g, In t (st_trans s) -> D full L (c_alt c) (get_target t) g) ->
        exists N, In c N /\ closed full eof [c] m cs b m' cs' b' N).
      { intros L m1 cs1 N1 I1 I2 I3 I4 I5 I6 I7 A DL.
        assert (Sq : forall i, In i (seq 0 (pc_length x)) -> (i < pc_length x)%nat) by (intros i Hi; apply in_seq in Hi; lia).
        destruct (return_ok _ _ _ _ _ _ _ IH Gc Ex _ _ _ _ _ _ _ Sq (cl_ready _ _ _ _ _ _ _ _ _ _ A) H) as (L2 & N2 & A2 & D2).
        exists (c :: N1 ++ N2). split; [left; reflexivity|].
        eapply (closed_node full eof c (L ++ L2) m cs b m1 cs1); eauto using closed_app.
        - intros Fu j q g Q. rewrite (I6 Fu) in Q. auto.
        - intros j q g q' g' Q K M. apply Dc in Q as (<- & <- & Q). destruct (stop_cmove _ _ _ _ _ Es St M) as (f & g1 & -> & P).
          inversion P; subst f g1. rewrite den_app. inversion Q; subst.
          + left. destruct (Follow _ _ K) as (o & I). apply (DL H0 _ g' I).
          + right. eapply Cp2; eauto.
        - intros Fu j q' g' Q. rewrite (I7 Fu) in Q. cbn [app] in Q. apply D2 in Q as (-> & i & p & _ & Ni & Sp).
          exists (c_state c), (q' :: g'). split.
          + apply Dc. split; [reflexivity|]. split; [reflexivity|]. eapply PredContextSpec.Frame; [|exact Sp]. eapply nth_error_In; eauto.
          + left. eapply move_return; eauto. }
      destruct (lst =? EMPTY_RETURN_STATE) eqn:Q.
      + pose proof (proj1 Hl eq_refl) as Em. destruct full; [exfalso; apply Ne, Hem; auto|].
        destruct (Wk _ _ _ eq_refl Em E2) as (m1 & cs1 & L & N & R1 & I1 & I2 & I3 & I4 & I5 & A & DL).
        apply (Ret L m1 cs1 N); auto; discriminate.
      + assert (Nem : ~ In (EMPTY_RETURN_STATE, None) (entries x)) by (intros Q'; apply Hl in Q'; discriminate).
        inversion E2; subst m2 cs2 b2. eapply (Ret [] m cs []); auto.
        * intros j q g Q1 K F. exfalso. apply Dc in Q1 as (<- & _ & Q1). apply (fs_stop_stk _ _ G _ _ _ Es St K) in F. subst g.
          inversion Q1; subst. contradiction.
        * apply closed_nil, R.
        * intros Q'. contradiction.
  Qed.
End Closure.
