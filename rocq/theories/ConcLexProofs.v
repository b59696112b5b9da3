(** Proofs about lexers of threads that share DFAs (C92): one match by itself. *)
From Coq Require Import ZArith List Bool Lia.
From Verif Require Import Outcome CharStreamModel CharStreamSpec PredContextModel SemContextModel
  ConfigSetModel DfaModel DfaProofs AtnModel AtnSpec Ll1Spec LexerModel LexerSpec LexerProofs LexMatchSpec LexMatchProofs LexCacheProofs LexTextProofs LazyOrderProofs LazyProofs.
From Verif Require Import ConcModel ConcSpec ConcProofs ConcLexModel ConcLexSpec.
Import ListNotations.
Local Open Scope Z_scope.
Local Open Scope outcome_scope.

Section Job.
  Variable D : input_data.
  Variable U : Type.
  Variable a : atn.
  Variable action : Z -> Z -> lexer U -> lexer U.
  Variable sempred : Z -> Z -> lexer U -> bool * lexer U.
  Variable ctx_hash : pctx -> Z.
  Variable actions_hash : list lexer_action -> Z.
  Variable configs_hash : list (config hashed) -> Z.
  Variable code : executor -> Z -> lexer U -> lthread U.
  Notation lexer := (lexer U).
  Notation ljob := (ljob U).
  Notation match_job := (match_job D U a action sempred ctx_hash actions_hash configs_hash code).
  Notation exec_job := (exec_job D U a action sempred ctx_hash actions_hash configs_hash code).
  Notation enter_job := (enter_job D U a action sempred ctx_hash actions_hash configs_hash code).
  Notation round_job := (round_job D U action code).
  Notation fail_job := (fail_job U action code).

  (** ** The same as the match of LexerModel, on the DFA found *)
  Definition match_at_once (fuel : nat) (mode : Z) (l : lexer) (p : sim_state) (d : ldfa) : outcome (match_result * ldfa * sim_state * lexer) :=
    let start_index := is_index (lx_input U l) in
    match s0 d with
    | None => match_atn D U a action sempred ctx_hash actions_hash configs_hash fuel start_index mode d (sim_reset p) l
    | Some q => exec_atn D U a action sempred ctx_hash actions_hash configs_hash fuel start_index q d (sim_reset p) l
    end.
  (** no code of the user in the DFA *)
  Definition plain (d : ldfa) : Prop := forall i st e, vget (dfa_states d) i = Some st -> d_exec st = Some e -> custom e = false.
  Definition gives (j : ljob) (d : ldfa) (o : outcome (match_result * ldfa * sim_state * lexer)) : Prop :=
    forall d' r, alone j d d' r -> match o with
      | Val (x, d1, p, l) => d' = d1 /\ (plain d1 -> r = Val (x, p, l))
      | Panics => r = Panics
      | NoFuel => r = NoFuel
      end.
  Lemma gives_give {A} (o : outcome A) k d f : (forall x, o = Val x -> gives (k x) d (f x)) -> gives (give U o k) d (obindo o f).
  Proof. intros H. destruct o as [x| |]; cbn; [now apply H| |]; intros d' r R; now inversion R. Qed.
  Lemma gives_peek f d o : gives (f d) d o -> gives (Peek f) d o.
  Proof. intros H d' r R. inversion R; subst. now apply H. Qed.
  Lemma gives_grow w k d o f : w d = o -> (forall d1 x, gives (k x) d1 (f (d1, x))) -> gives (grow U w k) d (obindo o f).
  Proof.
    intros <- H d' r R. inversion R as [| | |g h d1 d2 r1 X|]; subst. destruct (w d) as [[d1 x]| |] eqn:E; cbn in *.
    - exact (H d1 x _ _ X).
    - now inversion X.
    - now inversion X.
  Qed.
  Lemma fail_gives si t p l d : gives (fail_job si t p l) d (let! (r, l) := fail_or_accept U action si t d p l in Val (r, d, p, l)).
  Proof.
    unfold ConcLexModel.fail_job, fail_or_accept. destruct (sa_state p) as [s|].
    - apply gives_peek. destruct (vget (dfa_states d) s) as [st|] eqn:E; cbn [unwrap obindo give].
      2: { intros d' r R. now inversion R. }
      destruct (d_exec st) as [e|] eqn:Ee.
      + destruct (custom e) eqn:Ec; intros d' r R.
        * assert (d' = d). { inversion R; subst. destruct v as [[ts l1]| |]; cbn in *; match goal with H : alone (Answer _) _ _ _ |- _ => now inversion H end. }
          split; [assumption|]. intros Pl. specialize (Pl _ _ _ E Ee). congruence.
        * inversion R; subst. auto.
      + intros d' r R. inversion R; subst. auto.
    - intros d' r R. inversion R; subst. destruct ((t =? EOF) && _); cbn; auto.
  Qed.

  Lemma target_split fuel si d s t l :
    compute_target_state D U a sempred ctx_hash actions_hash configs_hash fuel si d s t l =
    let! st := unwrap (vget (dfa_states d) s) in
    let! (reach, l) := get_reachable_config_set D U a sempred ctx_hash actions_hash fuel si (configs (d_configs st)) t l in
    let! (d, to) := target_write a configs_hash s t reach d in
    Val (d, to, l).
  Proof.
    unfold compute_target_state, target_write. destruct (unwrap _) as [st| |]; try reflexivity. cbn [obindo].
    destruct (get_reachable_config_set _ _ _ _ _ _ _ _ _ _ _) as [[reach l1]| |]; try reflexivity. cbn [obindo].
    destruct (configs reach).
    - destruct (if negb (has_semantic_context reach) then _ else _); reflexivity.
    - destruct (l_add_dfastate _ _ _ _) as [[d1 to]| |]; try reflexivity. cbn [obindo].
      destruct (if negb (has_semantic_context reach) then _ else _); reflexivity.
  Qed.
  (** the end of [exec_atn] *)
  Definition closing (si : Z) (o : outcome (Z * ldfa * sim_state * lexer)) : outcome (match_result * ldfa * sim_state * lexer) :=
    let! (symbol, d, p, l) := o in
    let! (r, l) := fail_or_accept U action si symbol d p l in
    Val (r, d, p, l).
  Lemma closing_bind {A} si (o : outcome A) f : closing si (obindo o f) = obindo o (fun x => closing si (f x)).
  Proof. now destruct o. Qed.
  Lemma exec_gives fuel si n : forall s symbol p l d,
    gives (exec_job fuel n si s symbol p l) d (closing si (exec_loop D U a sempred ctx_hash actions_hash configs_hash fuel n si d s symbol p l)).
  Proof.
    induction n as [|n IH]; intros s symbol p l d; cbn [ConcLexModel.exec_job].
    { intros d' r R. cbn. now inversion R. }
    assert (Round : forall l t d, gives (round_job (exec_job fuel n si) si symbol p l t) d
      (closing si (if t =? ERROR_DFA_STATE_REF then Val (symbol, d, p, l)
        else
          let! l := if symbol =? EOF then Val l else sim_consume D U l in
          let! (captured, p) := capture_sim_state U d l t p in
          if captured && (symbol =? EOF) then Val (symbol, d, p, l)
          else
            let! symbol := lift (la D (lx_input U l) 1) in
            exec_loop D U a sempred ctx_hash actions_hash configs_hash fuel n si d t symbol p l))).
    { clear l d. intros l t d. unfold ConcLexModel.round_job. destruct (t =? ERROR_DFA_STATE_REF); [apply fail_gives|].
      rewrite closing_bind. apply gives_give. intros l1 _. apply gives_peek. rewrite closing_bind. apply gives_give. intros [b p1] _.
      destruct (b && (symbol =? EOF)); [apply fail_gives|]. rewrite closing_bind. apply gives_give. intros sy _. apply IH. }
    apply gives_peek. rewrite exec_loop_unfold. unfold next_state. rewrite closing_bind.
    destruct (get_existing_target_state d s symbol) as [[t|]| |]; cbn [obindo give].
    - apply Round.
    - rewrite target_split. destruct (vget (dfa_states d) s) as [st|]; cbn [unwrap obindo give].
      2: { intros d' r R. now inversion R. }
      destruct (get_reachable_config_set _ _ _ _ _ _ _ _ _ _ _) as [[reach l1]| |]; cbn [obindo give].
      2,3: intros d' r R; now inversion R.
      match goal with |- gives (grow U ?w ?k) d (obindo (obindo ?o _) ?g) =>
        replace (obindo (obindo o (fun '(d2, to) => Val (d2, to, l1))) g) with (obindo o (fun x : ldfa * Z => g (fst x, snd x, l1))) by (destruct o as [[? ?]| |]; reflexivity) end.
      apply gives_grow; [reflexivity|]. intros d1 x. cbn [fst snd]. apply Round.
    - intros d' r R. now inversion R.
    - intros d' r R. now inversion R.
  Qed.
  Lemma enter_gives fuel si q p l d :
    gives (enter_job fuel si q p l) d (exec_atn D U a action sempred ctx_hash actions_hash configs_hash fuel si q d p l).
  Proof.
    unfold ConcLexModel.enter_job, exec_atn. apply gives_peek. apply gives_give. intros [b p1] _. apply gives_give. intros sy _. apply exec_gives.
  Qed.
  Lemma match_gives fuel mode l p d : gives (match_job fuel mode l p) d (match_at_once fuel mode l p d).
  Proof.
    unfold ConcLexModel.match_job, match_at_once. apply gives_peek. destruct (s0 d) as [q|]; [apply enter_gives|]. unfold match_atn.
    destruct (vget (mode_to_start_state a) mode) as [ss|]. 2: { intros d' r R. inversion R; subst. auto. }
    apply gives_give. intros st _. apply gives_give. intros [cl l1] _.
    match goal with |- gives (grow U ?w ?k) d (obindo ?o ?g) =>
      replace (obindo o g) with (obindo (start_write a configs_hash cl d) (fun x : ldfa * Z => exec_atn D U a action sempred ctx_hash actions_hash configs_hash fuel (is_index (lx_input U l)) (snd x) (fst x) (sim_reset p) l1)) end.
    - apply gives_grow; [reflexivity|]. intros d1 x. cbn [fst snd]. apply enter_gives.
    - unfold start_write. destruct (l_add_dfastate _ _ _ _) as [[d1 x]| |]; reflexivity.
  Qed.

  (** ** What a match leaves of the DFA, however it ends *)
  Hypothesis FM : lexer_formed a.
  Hypothesis RA : rules_apart a.
  Hypothesis NC : no_collisions D U a sempred ctx_hash actions_hash configs_hash.
  Notation dfa_good := (dfa_good D U a sempred ctx_hash actions_hash configs_hash).
  Notation views st := (configs (d_configs st)).
  Definition dfa_kept (m : Z) (j : ljob) (d : ldfa) : Prop := forall d' r, alone j d d' r -> dfa_good m d' /\ keeps d d'.
  Lemma kept_answer m r d : dfa_good m d -> dfa_kept m (Answer r) d.
  Proof. intros G d' r' R. inversion R; subst. split; [exact G|apply keeps_refl]. Qed.
  Lemma kept_give {A} m (o : outcome A) k d : dfa_good m d -> (forall x, o = Val x -> dfa_kept m (k x) d) -> dfa_kept m (give U o k) d.
  Proof. intros G H. destruct o as [x| |]; cbn; [now apply H| |]; now apply kept_answer. Qed.
  Lemma kept_peek m f d : dfa_kept m (f d) d -> dfa_kept m (Peek f) d.
  Proof. intros H d' r R. inversion R; subst. eapply H; eassumption. Qed.
  Lemma fail_kept m si t p l d : dfa_good m d -> dfa_kept m (fail_job si t p l) d.
  Proof.
    intros G. unfold ConcLexModel.fail_job. destruct (sa_state p) as [s|]; [|now apply kept_answer]. apply kept_peek. apply kept_give; auto. intros st _.
    destruct (d_exec st) as [e|]; [|now apply kept_answer]. destruct (custom e); [|now apply kept_answer].
    intros d' r R. inversion R as [| | | |t0 f0 v d1 d2 r1 X]; subst. revert X. apply kept_give; auto. intros x _. now apply kept_answer.
  Qed.
  Lemma exec_kept m fuel si n : forall s symbol p l d st, dfa_good m d -> 1 <= s -> vget (dfa_states d) s = Some st -> dfa_kept m (exec_job fuel n si s symbol p l) d.
  Proof.
    induction n as [|n IH]; intros s symbol p l d st G Ls Es; cbn [ConcLexModel.exec_job]; [now apply kept_answer|].
    assert (Round : forall l t d cl, dfa_good m d -> edge_good a m d symbol cl t -> dfa_kept m (round_job (exec_job fuel n si) si symbol p l t) d).
    { clear - FM RA NC IH. intros l t d cl G Eg. unfold ConcLexModel.round_job. destruct (Z.eqb_spec t ERROR_DFA_STATE_REF) as [_|N]; [now apply fail_kept|].
      destruct Eg as [(X & _)|(L1 & st1 & E1 & _)]; [congruence|].
      apply kept_give; auto. intros l1 _. apply kept_peek. apply kept_give; auto. intros [b p1] _. destruct (b && (symbol =? EOF)); [now apply fail_kept|].
      apply kept_give; auto. intros sy _. eapply IH; eauto. }
    apply kept_peek. apply kept_give; auto. intros existing Ee. unfold get_existing_target_state in Ee. rewrite Es in Ee. cbn [unwrap obindo] in Ee. injection Ee as Ee.
    destruct existing as [t|].
    - destruct G as (G0 & Sts & G2). destruct (Sts s st Ls Es) as (_ & _ & E). eapply Round; [exact (conj G0 (conj Sts G2))|]. apply E, Ee.
    - rewrite Es. cbn [unwrap give]. apply kept_give; auto. intros [reach l1] Er.
      destruct (target_total D U a sempred ctx_hash actions_hash configs_hash FM RA NC _ _ _ _ _ _ _ _ _ _ G Ls Es Er) as (d1 & to & E1 & G1 & K1 & Eg & _).
      rewrite target_split, Es in E1. cbn [unwrap obindo] in E1. rewrite Er in E1. cbn [obindo] in E1.
      destruct (target_write a configs_hash s symbol reach d) as [[d2 to2]| |] eqn:Ew; cbn [obindo] in E1; try discriminate. injection E1 as -> -> _.
      intros d' r R. inversion R as [| | |g h d3 d4 r1 X|]; subst. rewrite Ew in X. cbn [give snd] in X.
      destruct (Round l1 to d1 _ G1 Eg d' r X) as (G2 & K2). split; [exact G2|]. eapply keeps_trans; eauto.
  Qed.
  Lemma enter_kept m fuel si q p l d st : dfa_good m d -> 1 <= q -> vget (dfa_states d) q = Some st -> dfa_kept m (enter_job fuel si q p l) d.
  Proof.
    intros G Lq Eq. apply kept_peek. apply kept_give; auto. intros [b p1] _. apply kept_give; auto. intros sy _. eapply exec_kept; eauto.
  Qed.
  Lemma match_kept m fuel l p d : dfa_good m d -> dfa_kept m (match_job fuel m l p) d.
  Proof.
    intros G. apply kept_peek. destruct (s0 d) as [q|] eqn:E0.
    { destruct (proj2 (proj2 (proj2 G)) q E0) as (Lq & st & Eq & _). eapply enter_kept; eauto. }
    rewrite vget_item. destruct (item (mode_to_start_state a) m) as [ms|] eqn:Em; [|now apply kept_answer].
    destruct (mode_state a FM _ _ Em) as (st & Est). rewrite (state_of_ok a _ _ Est). cbn [give]. apply kept_give; auto. intros [cl l1] Ecl.
    destruct (match_start_total D U a sempred ctx_hash actions_hash configs_hash FM RA NC _ _ _ _ _ _ _ _ G E0 Em Est Ecl) as (d2 & q & st2 & -> & E2 & Sm & G2 & K2 & Lq & Vq & _).
    intros d' r R. inversion R as [| | |g h d3 d4 r1 X|]; subst. unfold start_write in X. rewrite E2 in X. cbn [obindo] in X. rewrite Sm in X. cbn [give snd] in X.
    destruct (enter_kept m fuel _ q _ _ _ st2 G2 Lq Vq d' r X) as (G3 & K3). split; [exact G3|].
    eapply keeps_trans; [|exact K3]. destruct K2 as (K2 & K4 & K5). split; [exact K2|]. split; [exact K4|]. congruence.
  Qed.

  (** ** The user's code is not in the DFA *)
  Definition tidy_state (st : lstate) : Prop := d_accept st = false -> d_exec st = None.
  Definition tidy (d : ldfa) : Prop := Forall tidy_state (dfa_states d).
  Lemma add_tidy d cs d' i : tidy d -> l_add_dfastate a configs_hash d cs = Val (d', i) -> tidy d'.
  Proof.
    intros T H. unfold l_add_dfastate in H. destruct (has_semantic_context cs); [discriminate|]. step H found Ef. step H x Ex. destruct x as [[acc pr] ex].
    destruct (map_get (states_map d) _).
    - step H i0 Ei. now inversion H; subst.
    - inversion H; subst. apply Forall_app. split; [exact T|]. constructor; [|constructor]. unfold tidy_state. cbn. intros ->.
      destruct found as [c|]; [|now inversion Ex]. step Ex s Es. step Ex p0 Ep. inversion Ex.
  Qed.
  Lemma edge_tidy d s t to d' : tidy d -> l_dfa_add_edge d s t to = Val d' -> tidy d'.
  Proof.
    intros T H. unfold l_dfa_add_edge in H. destruct (vget (dfa_states d) s) as [st|] eqn:E; [|discriminate]. cbn [unwrap obindo] in H. step H es Ee.
    destruct (vset (dfa_states d) s _) as [sts|] eqn:Ev; [|discriminate]. cbn [unwrap obindo] in H. inversion H; subst. unfold tidy. cbn.
    apply Forall_forall. intros x Ix. apply In_nth_error in Ix as (n & En). destruct (vset_ok _ _ _ _ Ev) as (_ & _ & Get). unfold tidy in T. rewrite Forall_forall in T.
    specialize (Get (Z.of_nat n)).
    assert (Eg : vget sts (Z.of_nat n) = Some x) by (unfold vget; destruct (Z.ltb_spec (Z.of_nat n) 0); [lia|]; now rewrite Nat2Z.id). rewrite Eg in Get.
    assert (Iv : forall i y, vget (dfa_states d) i = Some y -> In y (dfa_states d)).
    { intros i y. unfold vget. destruct (i <? 0); [discriminate|]. apply nth_error_In. }
    destruct (Z.of_nat n =? s); [|symmetry in Get; eauto]. injection Get as ->. exact (T st (Iv _ _ E)).
  Qed.
  Lemma target_tidy s t reach d d' to : tidy d -> target_write a configs_hash s t reach d = Val (d', to) -> tidy d'.
  Proof.
    intros T H. unfold target_write in H. destruct (configs reach).
    - step H d1 E. inversion H; subst. destruct (negb _); [eapply edge_tidy; eauto|now inversion E; subst].
    - step H x E. destruct x as [d1 i]. apply add_tidy in E; auto. step H d2 E2. inversion H; subst. destruct (negb _); [eapply edge_tidy; eauto|now inversion E2; subst].
  Qed.
  Lemma start_tidy cl d d' q : tidy d -> start_write a configs_hash cl d = Val (d', q) -> tidy d'.
  Proof.
    intros T H. unfold start_write in H. step H x E. destruct x as [d1 i]. apply add_tidy in E; auto. inversion H; subst. destruct (has_semantic_context cl); exact E.
  Qed.
  Definition tidied (j : ljob) : Prop := forall d d' r, alone j d d' r -> tidy d -> tidy d'.
  Lemma tidied_answer r : tidied (Answer r).
  Proof. intros d d' r' R T. now inversion R; subst. Qed.
  Lemma tidied_give {A} (o : outcome A) k : (forall x, tidied (k x)) -> tidied (give U o k).
  Proof. intros H. destruct o; cbn; auto using tidied_answer. Qed.
  Lemma tidied_peek f : (forall d, tidied (f d)) -> tidied (Peek f).
  Proof. intros H d d' r R T. inversion R; subst. eapply H; eauto. Qed.
  Lemma tidied_grow w k : (forall d d' x, tidy d -> w d = Val (d', x) -> tidy d') -> (forall x, tidied (k x)) -> tidied (grow U w k).
  Proof.
    intros W H d d' r R T. inversion R as [| | |g h d3 d4 r1 X|]; subst. destruct (w d) as [[d1 x]| |] eqn:E; cbn in X.
    - eapply H; [exact X|]. eapply W; eauto.
    - inversion X; now subst.
    - inversion X; now subst.
  Qed.
  Lemma fail_tidied si t p l : tidied (fail_job si t p l).
  Proof.
    unfold ConcLexModel.fail_job. destruct (sa_state p); [|apply tidied_answer]. apply tidied_peek. intros d. apply tidied_give. intros st.
    destruct (d_exec st) as [e|]; [|apply tidied_answer]. destruct (custom e); [|apply tidied_answer]. intros d1 d2 r R T. inversion R as [| | | |t0 f0 v d3 d4 r1 X]; subst.
    destruct v; cbn in X; inversion X; now subst.
  Qed.
  Lemma exec_tidied fuel si n : forall s symbol p l, tidied (exec_job fuel n si s symbol p l).
  Proof.
    induction n as [|n IH]; intros s symbol p l; cbn [ConcLexModel.exec_job]; [apply tidied_answer|].
    assert (Round : forall l t, tidied (round_job (exec_job fuel n si) si symbol p l t)).
    { intros l0 t. unfold ConcLexModel.round_job. destruct (t =? _); [apply fail_tidied|]. apply tidied_give. intros l1. apply tidied_peek. intros d. apply tidied_give. intros [b p1].
      destruct (b && _); [apply fail_tidied|]. apply tidied_give. intros sy. apply IH. }
    apply tidied_peek. intros d. apply tidied_give. intros [t|]; [apply Round|]. apply tidied_give. intros st. apply tidied_give. intros [reach l1].
    apply tidied_grow; [|intros x; apply Round]. intros d1 d2 x. apply target_tidy.
  Qed.
  Lemma match_tidied fuel mode l p : tidied (match_job fuel mode l p).
  Proof.
    assert (En : forall q l0, tidied (enter_job fuel (is_index (lx_input U l)) q (sim_reset p) l0)).
    { intros q l0. apply tidied_peek. intros d. apply tidied_give. intros [b p1]. apply tidied_give. intros sy. apply exec_tidied. }
    apply tidied_peek. intros d. destruct (s0 d); [apply En|]. destruct (vget _ mode); [|apply tidied_answer]. apply tidied_give. intros st. apply tidied_give. intros [cl l1].
    apply tidied_grow; [|intros x; apply En]. intros d1 d2 x. apply start_tidy.
  Qed.

  (** the DFAs that matches leave behind *)
  Definition cache_good (m : Z) (d : ldfa) : Prop :=
    dfa_good m d /\ tidy d /\ forall st, vget (dfa_states d) 0 = Some st -> d_accept st = false.
  Lemma cache_new m : cache_good m (dfa_new lexer_type executor false).
  Proof.
    split; [|split].
    - split; [cbn; lia|]. split; [|split].
      + intros i st Li E. apply vget_lt in E. cbn in E. lia.
      + cbn. discriminate.
      + cbn. discriminate.
    - constructor; [|constructor]. intros _. reflexivity.
    - intros st E. now injection E as <-.
  Qed.
  Lemma cache_match m fuel l p d d' r : cache_good m d -> alone (match_job fuel m l p) d d' r -> cache_good m d' /\ keeps d d'.
  Proof.
    intros (G & T & B) R. destruct (match_kept m fuel l p d G d' r R) as (G' & K). split; [|exact K]. split; [exact G'|]. split; [eapply match_tidied; eauto|].
    intros st E. destruct (vget (dfa_states d) 0) as [st0|] eqn:E0.
    - destruct (proj1 K _ _ E0) as (st' & E' & _ & Sa & _). rewrite E in E'. injection E' as <-. rewrite Sa. auto.
    - destruct G as (L & _). unfold vget in E0. cbn in E0. destruct (dfa_states d); [cbn in L; lia|discriminate].
  Qed.
  Lemma run_of p w xs q : run a p w xs q -> forall x, In x xs -> In x (lexer_actions a).
  Proof.
    induction 1 as [|w xs q ys r R IH S|w xs q c r R IH S]; intros x I; [contradiction| |auto].
    apply in_app_or in I. destruct I as [I|I]; [auto|]. destruct S; try contradiction. destruct I as [<-|[]].
    unfold item in *. destruct (k <? 0); [discriminate|]. eapply nth_error_In; eauto.
  Qed.
  Lemma runs_bare x : runs_code (bare x) = runs_code x.
  Proof. induction x; cbn; auto. Qed.
  Lemma cache_plain m d : no_custom_actions a -> cache_good m d -> plain d.
  Proof.
    intros NCA ((_ & Sts & _) & T & B) i st e E Ee. destruct (d_accept st) eqn:Ea.
    2: { unfold tidy in T. rewrite Forall_forall in T. rewrite (T st) in Ee; [discriminate| |exact Ea]. unfold vget in E. destruct (i <? 0); [discriminate|]. eapply nth_error_In; eauto. }
    destruct (Z.eq_dec i 0) as [->|N]; [rewrite (B _ E) in Ea; discriminate|].
    assert (Li : 1 <= i) by (unfold vget in E; destruct (Z.ltb_spec i 0); [discriminate|lia]).
    destruct (Sts i st Li E) as (((Ar & _) & Ac) & _). destruct (stop_total a m _ Ar) as (o & Eo & Ho). rewrite Eo in Ac. destruct o as [c|]; [|congruence].
    destruct Ac as (_ & Ex & _). destruct Ho as (l & r & s & Ev & _). rewrite Forall_forall in Ar.
    destruct (Ar c) as (_ & k & q & w & xs & p & _ & _ & R & _ & Xs). { rewrite Ev. apply in_elt. }
    rewrite Ex in Ee. unfold acts in Xs. rewrite Ee in Xs. unfold custom. apply Bool.not_true_iff_false. intros H. apply existsb_exists in H as (x & Ix & Px).
    assert (Ib : In (bare x) (map bare xs)) by (rewrite <- Xs; now apply in_map). apply in_map_iff in Ib as (y & Ey & Iy).
    assert (Py := NCA y (run_of _ _ _ _ R y Iy)). rewrite <- runs_bare, <- Ey, runs_bare in Px. destruct y; discriminate.
  Qed.

  (** ** What a match answers *)
  Lemma match_answer m fuel l p d d' x : no_custom_actions a -> cache_good m d -> alone (match_job fuel m l p) d d' (Val x) ->
    match_at_once fuel m l p d = Val (fst (fst x), d', snd (fst x), snd x).
  Proof.
    intros NCA G R. assert (H := match_gives fuel m l p d d' _ R). destruct (match_at_once fuel m l p d) as [[[[r d1] p1] l1]| |]; try discriminate.
    destruct H as (-> & H). destruct (cache_match m fuel l p d d1 _ G R) as (G1 & _). specialize (H (cache_plain m d1 NCA G1)). injection H as ->. reflexivity.
  Qed.
  Variables raw cs : list Z.
  Variable pos : nat -> Z.
  Hypothesis TS : text_source D raw cs pos.
  Hypothesis OC : Forall ordinary_char cs.
  Lemma match_ends k m fuel l p d r d' p' l' : (k <= length cs)%nat -> lx_input U l = IStream raw (pos k) -> item (mode_to_start_state a) m <> None ->
    dfa_good m d -> match_at_once fuel m l p d = Val (r, d', p', l') -> Z.of_nat (length (dfa_states d')) < 2 ^ 64 - 1 -> ends_lazy D U a cs k l m action r l'.
  Proof.
    intros Lk Here Mo G H F. unfold match_at_once in H. destruct (s0 d) as [q|] eqn:E0.
    - destruct (proj2 (proj2 (proj2 G)) q E0) as (Lq & st & Eq & Co).
      eapply (exec_atn_lazy D U a sempred ctx_hash actions_hash configs_hash FM RA NC raw cs pos TS); [exact Here|exact Lk|exact OC|exact G|exact Lq|exact Eq|apply meets_start, Co| |exact H|exact F]. reflexivity.
    - unfold match_atn in H. rewrite vget_item in H. destruct (item (mode_to_start_state a) m) as [ms|] eqn:Em; [|congruence].
      destruct (mode_state a FM _ _ Em) as (st & Est). rewrite (state_of_ok a _ _ Est) in H. cbn [obindo] in H. step H cl Ecl. destruct cl as [c0 l2].
      destruct (match_start_total D U a sempred ctx_hash actions_hash configs_hash FM RA NC _ _ _ _ _ _ _ _ G E0 Em Est Ecl) as (d2 & q & st2 & -> & E2 & Sm & G2 & K2 & Lq & Vq & Co).
      rewrite E2 in H. cbn [obindo] in H. rewrite Sm in H.
      eapply (exec_atn_lazy D U a sempred ctx_hash actions_hash configs_hash FM RA NC raw cs pos TS); [exact Here|exact Lk|exact OC|exact G2|exact Lq|exact Vq|apply meets_start, Co| |exact H|exact F]. reflexivity.
  Qed.
End Job.
