(** Proofs about lexers of threads that share DFAs (C92): the tokens. *)
From Coq Require Import ZArith List Bool Lia.
From Verif Require Import Outcome CharStreamModel CharStreamSpec PredContextModel SemContextModel
  ConfigSetModel DfaModel DfaProofs AtnModel AtnSpec Ll1Spec LexerModel LexerSpec LexerProofs LexMatchSpec LexMatchProofs LexCacheProofs LexTextProofs LexMatchProps LazyProofs LazyLexSpec LazySameProofs.
From Verif Require Import ConcModel ConcSpec ConcProofs ConcResultProofs ConcLexModel ConcLexSpec ConcLexProofs.
From Verif Require FactoryModel.
Import ListNotations.
Local Open Scope Z_scope.
Local Open Scope outcome_scope.

Section Tokens.
  Variable D : input_data.
  Variable U : Type.
  Variable a : atn.
  Variable action : Z -> Z -> lexer U -> lexer U.
  Variable sempred : Z -> Z -> lexer U -> bool * lexer U.
  Variable before_emit : lexer U -> lexer U.
  Variable ctx_hash : pctx -> Z.
  Variable actions_hash : list lexer_action -> Z.
  Variable configs_hash : list (config hashed) -> Z.
  Variable code : executor -> Z -> lexer U -> lthread U.
  Notation lexer := (lexer U).
  Notation sys := (sys ldfa (lanswer U) (lvalue U)).
  Notation event := (event ldfa (lanswer U) (lvalue U)).
  Notation ljob := (ljob U). Notation lthread := (lthread U).
  Notation match_job := (match_job D U a action sempred ctx_hash actions_hash configs_hash code).
  Notation lexing_job := (lexing_job D U a action sempred ctx_hash actions_hash configs_hash code).
  Notation lexing := (lexing D U a action sempred ctx_hash actions_hash configs_hash code).
  Notation cache_good := (cache_good D U a sempred ctx_hash actions_hash configs_hash).
  Hypothesis FM : lexer_formed a.
  Hypothesis RA : rules_apart a.
  Hypothesis NC : no_collisions D U a sempred ctx_hash actions_hash configs_hash.
  Hypothesis NCA : no_custom_actions a.

  (** ** Every match finds a DFA as matches leave it *)
  Lemma serial_good k d es d' : one_by_one k d es d' -> Forall (began_ok lexing_job) es -> cache_good (Z.of_nat k) d -> cache_good (Z.of_nat k) d'.
  Proof.
    intros W. induction W as [d|d es d1 i j d2 r W IH A]; intros F G; auto.
    apply Forall_app in F as [F1 F2]. specialize (IH F1 G). apply Forall_inv in F2. destruct F2 as (_ & fuel & l & p & ->).
    exact (proj1 (cache_match D U a action sempred ctx_hash actions_hash configs_hash code FM RA NC _ _ _ _ _ _ _ IH A)).
  Qed.
  Lemma began_in (s : sys) k i j es later : on k (trace s) = es ++ Began i k j :: later -> In (Began i k j) (trace s).
  Proof. intros E. apply (proj1 (filter_In (about k) (Began i k j) (trace s))). fold (on k (trace s)). rewrite E. apply in_or_app. right. now left. Qed.
  Lemma on_uses ts (s : sys) k : Forall lexing ts -> steps (start new_dfas ts) s -> Forall (began_ok lexing_job) (on k (trace s)).
  Proof.
    intros F St. pose proof (start_uses new_dfas lexing_job ts s F St) as B. rewrite Forall_forall in *. intros e Ie. apply B. exact (proj1 (proj1 (filter_In _ _ _) Ie)).
  Qed.
  Lemma found ts (s : sys) k es i j i' r later : Forall lexing ts -> steps (start new_dfas ts) s -> on k (trace s) = es ++ Began i k j :: Ended i' k r :: later ->
    lexing_job k j /\ exists d d', cache_good (Z.of_nat k) d /\ alone j d d' r.
  Proof.
    intros F St E. pose proof (on_uses ts s k F St) as B. pose proof (steps_ok new_dfas _ _ St (ok_start new_dfas ts)) as O.
    destruct (ended_alone new_dfas s k es i j i' r later O E) as (d1 & d2 & W & A & _). rewrite E in B. apply Forall_app in B as [B1 B2]. split; [exact (Forall_inv B2)|].
    exists d1, d2. split; [|exact A]. eapply serial_good; eauto. apply (cache_new D U a action sempred ctx_hash actions_hash configs_hash code).
  Qed.
  Lemma found_last ts (s : sys) k es i j r : Forall lexing ts -> steps (start new_dfas ts) s -> on k (trace s) = es ++ [Began i k j; Ended i k r] ->
    lexing_job k j /\ exists d, cache_good (Z.of_nat k) d /\ alone j d (dfas s k) r.
  Proof.
    intros F St E. pose proof (on_uses ts s k F St) as B. pose proof (steps_ok new_dfas _ _ St (ok_start new_dfas ts)) as O.
    destruct (on_at new_dfas s k O) as (es1 & d1 & last & E1 & W & [(-> & <-)|(x & y & ->)]).
    - rewrite app_nil_r in E1. rewrite E in E1, B. subst es1. clear E O.
      assert (G : forall d (es1 : list event) d2, one_by_one k d es1 d2 -> es1 = es ++ [Began i k j; Ended i k r] -> exists d1, one_by_one k d es d1 /\ alone j d1 d2 r).
      { intros d es1 d2 H. destruct H as [d|d es1 d1 i1 j1 d2 r1 H A]; intros E; [destruct es; discriminate|].
        change ([Began i1 k j1; Ended i1 k r1]) with ([Began i1 k j1] ++ [Ended i1 k r1] : list event) in E. change ([Began i k j; Ended i k r]) with ([Began i k j] ++ [Ended i k r] : list event) in E.
        rewrite !app_assoc in E. apply app_inj_tail in E as (E & Er). apply app_inj_tail in E as (-> & Ej). injection Er as -> ->. injection Ej as ->. eauto. }
      destruct (G _ _ _ W eq_refl) as (d1 & H & A). apply Forall_app in B as [B1 B2]. split; [exact (Forall_inv B2)|]. exists d1. split; [|exact A]. eapply serial_good; eauto. apply (cache_new D U a action sempred ctx_hash actions_hash configs_hash code).
    - exfalso. rewrite E in E1. change ([Began i k j; Ended i k r]) with ([Began i k j] ++ [Ended i k r] : list event) in E1. rewrite app_assoc in E1. apply app_inj_tail in E1 as (_ & E1). discriminate.
  Qed.

  (** ** What a match answers *)
  Variables raw cs : list Z.
  Variable pos : nat -> Z.
  Hypothesis TS : text_source D raw cs pos.
  Hypothesis OC : Forall ordinary_char cs.
  Definition answers_well (k : nat) (j : ljob) (r : lanswer U) : Prop :=
    forall fuel m l p n x p' l', j = match_job fuel m l p -> k = Z.to_nat m -> item (mode_to_start_state a) m <> None ->
      standing raw cs pos U n l -> r = Val (x, p', l') -> ends_lazy D U a cs n l m action x l'.
  Lemma well_answered k j d d' r : cache_good (Z.of_nat k) d -> alone j d d' r -> Z.of_nat (length (dfa_states d')) < 2 ^ 64 - 1 -> answers_well k j r.
  Proof.
    intros G A F fuel m l p n x p' l' -> -> Mo (Ln & Here) ->.
    assert (Em : Z.of_nat (Z.to_nat m) = m) by (unfold item in Mo; destruct (Z.ltb_spec m 0); [congruence|lia]). rewrite Em in G.
    pose proof (match_answer D U a action sempred ctx_hash actions_hash configs_hash code FM RA NC m fuel l p d d' _ NCA G A) as H. cbn in H.
    destruct G as (G & _). eapply ConcLexProofs.match_ends; eauto.
  Qed.

  (** ** The same lexers, alone *)
  Hypothesis KE : place_keeping action sempred before_emit.
  Hypothesis GD : greedy_or_delimited a.
  Hypothesis One : one_action_list a.
  Notation sim_good := (sim_good D U a sempred ctx_hash actions_hash configs_hash).
  Notation at_char := (at_char U raw cs pos).
  Notation may_stop := (may_stop answers_well).
  Lemma kept_input r i l : lx_input U (action r i l) = lx_input U l.
  Proof. destruct KE as (K & _). destruct (K r i l) as (H & _). exact H. Qed.

  Lemma fits_before fuel m l s r l' s' : sim_good s -> match_token D U a action sempred ctx_hash actions_hash configs_hash fuel m l s = Val (r, l', s') -> cache_fits s' -> cache_fits s.
  Proof.
    intros (Len & G) H F. unfold match_token in H. destruct (vget (sm_dfas s) m) as [d|] eqn:Ed; [|inversion H; subst; exact F].
    step H rd Er. destruct rd as [[[r1 d1] p1] l1]. step H fs Ev. inversion H; subst; clear H.
    assert (K : (length (dfa_states d) <= length (dfa_states d1))%nat).
    { destruct (s0 d) as [q|] eqn:E0.
      - destruct (G _ _ Ed) as (A & B & C & E). destruct (E q E0) as (Lq & st & Eq & _).
        destruct (exec_atn_good D U a sempred ctx_hash actions_hash configs_hash FM RA NC _ _ _ _ _ _ _ _ _ _ _ _ _ (G _ _ Ed) Lq Eq Er) as (_ & (_ & X & _) & _). exact X.
      - unfold match_atn in Er. rewrite vget_item in Er. destruct (item (mode_to_start_state a) m) as [ms|] eqn:Em; [|inversion Er; subst; auto].
        destruct (mode_state a FM _ _ Em) as (st & Est). rewrite (state_of_ok a _ _ Est) in Er. cbn [obindo] in Er.
        step Er cl Ecl. destruct cl as [c0 l2].
        destruct (match_start_total D U a sempred ctx_hash actions_hash configs_hash FM RA NC _ _ _ _ _ _ _ _ (G _ _ Ed) E0 Em Est Ecl) as (d2 & q & st2 & -> & E2 & Sm & G2 & K2 & Lq & Vq & _).
        rewrite E2 in Er. cbn [obindo] in Er. rewrite Sm in Er.
        destruct (exec_atn_good D U a sempred ctx_hash actions_hash configs_hash FM RA NC _ _ _ _ _ _ _ _ _ _ _ _ _ G2 Lq Vq Er) as (_ & (_ & X & _) & _).
        destruct K2 as (_ & Y & _). cbn in X. lia. }
    assert (Ev' : vset (sm_dfas s) m d1 = Some fs) by (destruct (vset (sm_dfas s) m d1); cbn in Ev; congruence). destruct (vset_ok _ _ _ _ Ev') as (_ & Len' & Get).
    assert (In' : forall i x, vget fs i = Some x -> In x fs) by (intros i x; unfold vget; destruct (i <? 0); [discriminate|apply nth_error_In]).
    intros x Ix. apply In_nth_error in Ix as (n & En). assert (Ex : vget (sm_dfas s) (Z.of_nat n) = Some x) by (unfold vget; destruct (Z.ltb_spec (Z.of_nat n) 0); [lia|]; now rewrite Nat2Z.id).
    specialize (Get (Z.of_nat n)). destruct (Z.eqb_spec (Z.of_nat n) m) as [<-|N].
    - rewrite Ed in Ex. injection Ex as ->. specialize (F d1 (In' _ _ Get)). lia.
    - rewrite Ex in Get. exact (F x (In' _ _ Get)).
  Qed.
  Lemma inner_good fuel n : forall l s b l' s', sim_good s -> inner_loop D U a action sempred ctx_hash actions_hash configs_hash fuel n l s = Val (b, l', s') ->
    sim_good s' /\ (cache_fits s' -> cache_fits s).
  Proof.
    induction n as [|n IH]; intros l s b l' s' G H; [discriminate|]. cbn [inner_loop] in H. step H ml Em. destruct ml as [[r l1] s1]. step H tyl Et. destruct tyl as [ttype l2].
    step H c Ec. assert (G1 := match_good D U a sempred ctx_hash actions_hash configs_hash FM RA NC action _ _ _ _ _ _ _ G Em).
    assert (F1 := fits_before _ _ _ _ _ _ _ G Em). set (l5 := with_log U _ _) in *.
    destruct (lx_type U l5 =? LEXER_SKIP); [inversion H; subst; auto|]. destruct (lx_type U l5 =? LEXER_MORE); [|inversion H; subst; auto].
    destruct (IH _ _ _ _ _ G1 H) as (X & Y). auto.
  Qed.
  Lemma outer_good fuel n : forall l s l' s', sim_good s -> outer_loop D U a action sempred before_emit ctx_hash actions_hash configs_hash fuel n l s = Val (l', s') ->
    sim_good s' /\ (cache_fits s' -> cache_fits s).
  Proof.
    induction n as [|n IH]; intros l s l' s' G H; [discriminate|]. cbn [outer_loop] in H. destruct (lx_hit_eof U l); [step H l1 E; inversion H; subst; auto|].
    step H bl Eb. destruct bl as [[b l1] s1]. destruct (inner_good _ _ _ _ _ _ _ G Eb) as (G1 & F1).
    assert (R : outer_loop D U a action sempred before_emit ctx_hash actions_hash configs_hash fuel n l1 s1 = Val (l', s') -> sim_good s' /\ (cache_fits s' -> cache_fits s)).
    { intros H1. destruct (IH _ _ _ _ G1 H1) as (X & Y). auto. }
    destruct b; cbn [negb] in H; auto. destruct (lx_token U l1); auto. step H l2 E. inversion H; subst; auto.
  Qed.
  Lemma tokens_good fuel n : forall l s ts l' s', sim_good s -> next_tokens D U a action sempred before_emit ctx_hash actions_hash configs_hash fuel n l s = Val (ts, l', s') ->
    sim_good s' /\ (cache_fits s' -> cache_fits s).
  Proof.
    induction n as [|n IH]; intros l s ts l' s' G H; cbn [next_tokens] in H; [inversion H; subst; auto|]. step H tls E. destruct tls as [[t l1] s1]. unfold next_token in E.
    step E ls Eo. destruct ls as [l2 s2]. step E t' Et. inversion E; subst. destruct (outer_good _ _ _ _ _ _ G Eo) as (G1 & F1). step H tls E2. destruct tls as [[ts1 l3] s3]. inversion H; subst.
    destruct (IH _ _ _ _ _ G1 E2) as (X & Y). auto.
  Qed.
  Lemma live_stop {A} (o : outcome A) k v : may_stop (live U o k) (Val v) -> exists x, o = Val x /\ may_stop (k x) (Val v).
  Proof. destruct o as [x| |]; cbn; intros H; [eauto| |]; inversion H. Qed.

  (** one match *)
  Lemma match_same fuel1 fuel2 l s p n r l' s' k v : at_char n l -> sim_good s ->
    match_token D U a action sempred ctx_hash actions_hash configs_hash fuel2 (lx_mode U l) l s = Val (r, l', s') -> cache_fits s' ->
    may_stop (match_thread D U a action sempred ctx_hash actions_hash configs_hash code fuel1 (lx_mode U l) l p k) (Val v) ->
    exists p', may_stop (k (r, p', l')) (Val v).
  Proof.
    intros At G H F M. unfold match_thread in M. rewrite vget_item in M. destruct (item (mode_to_start_state a) (lx_mode U l)) as [ms|] eqn:Em.
    - inversion M as [|k0 j c r0 v0 Q M1|]; subst. apply live_stop in M1 as ([[x p'] l1] & -> & M1). destruct At as (A1 & A2 & A3).
      assert (E1 := Q fuel1 (lx_mode U l) l p n x p' l1 eq_refl eq_refl ltac:(congruence) (conj A1 A2) eq_refl).
      assert (E2 : ends_lazy D U a cs n l (lx_mode U l) action r l').
      { eapply (match_lazy D U a sempred ctx_hash actions_hash configs_hash FM RA NC raw cs pos TS); eauto. congruence. }
      destruct (lazy_ends_same _ _ _ _ _ _ _ _ _ _ _ _ GD kept_input One NCA E1 E2) as (-> & ->). eauto.
    - exists (sim_reset p). unfold match_token in H. destruct G as (Len & _). destruct (vget (sm_dfas s) (lx_mode U l)) as [d|] eqn:Ed.
      + exfalso. unfold vget in Ed. unfold item in Em. destruct (lx_mode U l <? 0); [discriminate|]. apply nth_error_None in Em. assert (nth_error (sm_dfas s) (Z.to_nat (lx_mode U l)) <> None) as X by congruence.
        apply nth_error_Some in X. lia.
      + inversion H; subst. exact M.
  Qed.
  Lemma inner_same fuel1 fuel2 n1 : forall n2 l s p n b l' s' k v, at_char n l -> sim_good s ->
    inner_loop D U a action sempred ctx_hash actions_hash configs_hash fuel2 n2 l s = Val (b, l', s') -> cache_fits s' ->
    may_stop (inner_thread D U a action sempred ctx_hash actions_hash configs_hash code fuel1 n1 l p k) (Val v) ->
    (exists n', at_char n' l') /\ exists p', may_stop (k b l' p') (Val v).
  Proof.
    induction n1 as [|n1 IH]; intros n2 l s p n b l' s' k v At G H F M. { cbn in M. inversion M. }
    destruct n2 as [|n2]; [discriminate|]. cbn [inner_loop] in H. step H ml Em. destruct ml as [[r l1] s1]. step H tyl Et. destruct tyl as [ttype l2].
    step H c Ec. assert (At0 : at_char n (with_type U l TOKEN_INVALID_TYPE)) by exact At.
    assert (G1 := match_good D U a sempred ctx_hash actions_hash configs_hash FM RA NC action _ _ _ _ _ _ _ G Em).
    destruct (match_place D U a action sempred before_emit ctx_hash actions_hash configs_hash KE raw cs pos TS _ _ _ _ _ _ _ _ At0 Em) as (n' & _ & At1 & _).
    assert (At2 : exists n', at_char n' l2).
    { destruct r as [t|e]; [inversion Et; subst; eauto|]. step Et l3 En. step Et l4 Er. inversion Et; subst. unfold notify_listeners in En. step En txt Ex. inversion En; subst.
      assert (At3 : at_char n' (with_errors U l1 (lx_errors U l1 ++ [(lx_start_line U l1, lx_start_column U l1, txt)]))) by exact At1.
      destruct (recover_place D U raw cs pos TS _ _ _ At3 Er) as (X & _). eauto. }
    destruct At2 as (n2' & At2).
    assert (F1 : cache_fits s1).
    { set (l5 := with_log U _ _) in *. destruct (lx_type U l5 =? LEXER_SKIP); [inversion H; subst; exact F|]. destruct (lx_type U l5 =? LEXER_MORE); [|inversion H; subst; exact F].
      exact (proj2 (inner_good _ _ _ _ _ _ _ G1 H) F). }
    cbn [inner_thread] in M. destruct (match_same fuel1 fuel2 (with_type U l TOKEN_INVALID_TYPE) s p n r l1 s1 _ _ At0 G Em F1 M) as (p' & M').
    clear M. cbn beta iota in M'. rewrite Et in M'. cbn [live] in M'. rewrite Ec in M'. cbn [live] in M'.
    set (l3 := if c =? EOF then with_hit_eof U l2 else l2) in *. assert (At3 : at_char n2' l3) by (unfold l3; destruct (c =? EOF); exact At2).
    cbv zeta in M'. set (l4 := if lx_type U l3 =? TOKEN_INVALID_TYPE then with_type U l3 ttype else l3) in *. assert (At4 : at_char n2' l4) by (unfold l4; destruct (lx_type U l3 =? TOKEN_INVALID_TYPE); exact At3).
    set (l5 := with_log U l4 _) in *. assert (At5 : at_char n2' l5) by exact At4.
    destruct (lx_type U l5 =? LEXER_SKIP). { inversion H; subst b l' s'. eauto 10. }
    destruct (lx_type U l5 =? LEXER_MORE).
    - exact (IH _ _ _ _ _ _ _ _ _ _ At5 G1 H F M').
    - inversion H; subst b l' s'. eauto 10.
  Qed.
  Lemma outer_same fuel1 fuel2 n1 : forall n2 l s p n l' s' k v, at_char n l -> sim_good s ->
    outer_loop D U a action sempred before_emit ctx_hash actions_hash configs_hash fuel2 n2 l s = Val (l', s') -> cache_fits s' ->
    may_stop (outer_thread D U a action sempred before_emit ctx_hash actions_hash configs_hash code fuel1 n1 l p k) (Val v) ->
    (exists n', at_char n' l') /\ exists p', may_stop (k l' p') (Val v).
  Proof.
    induction n1 as [|n1 IH]; intros n2 l s p n l' s' k v At G H F M. { cbn in M. inversion M. }
    destruct n2 as [|n2]; [discriminate|]. cbn [outer_loop] in H. cbn [outer_thread] in M. destruct (lx_hit_eof U l).
    { step H l1 E. inversion H; subst l1 s'. apply live_stop in M as (x & Ex & M). rewrite E in Ex. injection Ex as <-. split; [|exists p; exact M]. exists n. unfold emit_eof in E. step E t Et. inversion E; subst l'. exact At. }
    step H bl Eb. destruct bl as [[b l1] s1]. assert (At0 : at_char n (start_token U l)) by exact At. destruct (inner_good _ _ _ _ _ _ _ G Eb) as (G1 & _).
    assert (F1 : cache_fits s1).
    { destruct b; cbn [negb] in H; [|exact (proj2 (outer_good _ _ _ _ _ _ G1 H) F)]. destruct (lx_token U l1); [exact (proj2 (outer_good _ _ _ _ _ _ G1 H) F)|]. step H l2 E. inversion H; subst; exact F. }
    destruct (inner_same _ _ _ _ _ _ _ _ _ _ _ _ _ At0 G Eb F1 M) as ((n' & At1) & p' & M'). cbn beta in M'.
    destruct b; cbn [negb] in H, M'; [|exact (IH _ _ _ _ _ _ _ _ _ At1 G1 H F M')]. destruct (lx_token U l1) eqn:Tk; [exact (IH _ _ _ _ _ _ _ _ _ At1 G1 H F M')|].
    step H l2 E. inversion H; subst l2 s'. apply live_stop in M' as (x & Ex & M'). rewrite E in Ex. injection Ex as <-. split; [|exists p'; exact M']. exists n'. unfold emit in E. step E t Et. inversion E; subst l'.
    exact (at_char_place U raw cs pos _ _ _ At1 (proj1 (proj2 KE) l1)).
  Qed.
  Lemma tokens_same fuel1 fuel2 n1 : forall l s p n ts l' s' k v, at_char n l -> sim_good s ->
    next_tokens D U a action sempred before_emit ctx_hash actions_hash configs_hash fuel2 n1 l s = Val (ts, l', s') -> cache_fits s' ->
    may_stop (tokens_thread D U a action sempred before_emit ctx_hash actions_hash configs_hash code fuel1 n1 l p k) (Val v) ->
    exists p', may_stop (k ts l' p') (Val v).
  Proof.
    induction n1 as [|n1 IH]; intros l s p n ts l' s' k v At G H F M; cbn [next_tokens] in H; cbn [tokens_thread] in M. { inversion H; subst. eauto. }
    step H tls E. destruct tls as [[t l1] s1]. unfold next_token in E. step E ls Eo. destruct ls as [l2 s2]. step E t' Et. inversion E; subst. step H tls E2. destruct tls as [[ts1 l3] s3]. inversion H; subst.
    destruct (outer_good _ _ _ _ _ _ G Eo) as (G1 & _). assert (F1 := proj2 (tokens_good _ _ _ _ _ _ _ G1 E2) F).
    destruct (outer_same _ _ _ _ _ _ _ _ _ _ _ _ At G Eo F1 M) as ((n' & At1) & p' & M'). cbn beta in M'. rewrite Et in M'. cbn [live] in M'.
    assert (At2 : at_char n' (with_token U l2 None)) by exact At1.
    exact (IH _ _ _ _ _ _ _ _ _ At2 G1 E2 F M').
  Qed.
End Tokens.

(** ** What is true of all steps of a match *)
Section Closed.
  Variable D : input_data.
  Variable U : Type.
  Variable a : atn.
  Variable action : Z -> Z -> lexer U -> lexer U.
  Variable sempred : Z -> Z -> lexer U -> bool * lexer U.
  Variable before_emit : lexer U -> lexer U.
  Variable ctx_hash : pctx -> Z.
  Variable actions_hash : list lexer_action -> Z.
  Variable configs_hash : list (config hashed) -> Z.
  Variable code : executor -> Z -> lexer U -> lthread U.
  Notation lexer := (lexer U).
  Notation ljob := (ljob U). Notation lthread := (lthread U).
  Notation match_job := (match_job D U a action sempred ctx_hash actions_hash configs_hash code).
  Notation exec_job := (exec_job D U a action sempred ctx_hash actions_hash configs_hash code).
  Notation lexing_job := (lexing_job D U a action sempred ctx_hash actions_hash configs_hash code).
  Notation lexing := (lexing D U a action sempred ctx_hash actions_hash configs_hash code).
  Definition longer (d d' : ldfa) : Prop := (length (dfa_states d) <= length (dfa_states d'))%nat.
  Lemma add_longer d c d' i : l_add_dfastate a configs_hash d c = Val (d', i) -> longer d d'.
  Proof.
    unfold l_add_dfastate. intros H. destruct (has_semantic_context c); [discriminate|]. step H f Ef. step H x Ex. destruct x as [[acc pr] ex].
    destruct (map_get (states_map d) _); [step H i0 Ei; inversion H; subst; unfold longer; lia|]. inversion H; subst. unfold longer. cbn. rewrite app_length. lia.
  Qed.
  Lemma edge_longer d s t to d' : l_dfa_add_edge d s t to = Val d' -> longer d d'.
  Proof.
    unfold l_dfa_add_edge. intros H. destruct (vget (dfa_states d) s) as [st|]; [|discriminate]. cbn [unwrap obindo] in H. step H es Ee.
    destruct (vset (dfa_states d) s _) as [sts|] eqn:Ev; [|discriminate]. cbn [unwrap obindo] in H. inversion H; subst. unfold longer. cbn. destruct (vset_ok _ _ _ _ Ev) as (_ & -> & _). lia.
  Qed.
  Lemma target_longer s t reach d d' x : target_write a configs_hash s t reach d = Val (d', x) -> longer d d'.
  Proof.
    unfold target_write. intros H. destruct (configs reach).
    - step H d1 E. inversion H; subst. destruct (negb _); [eapply edge_longer; eauto|inversion E; subst; unfold longer; lia].
    - step H y E. destruct y as [d1 i]. apply add_longer in E. step H d2 E2. inversion H; subst. unfold longer in *. destruct (negb _); [apply edge_longer in E2; unfold longer in *; lia|now inversion E2; subst].
  Qed.
  Lemma start_longer cl d d' x : start_write a configs_hash cl d = Val (d', x) -> longer d d'.
  Proof. unfold start_write. intros H. step H y E. destruct y as [d1 i]. apply add_longer in E. inversion H; subst. destruct (has_semantic_context cl); exact E. Qed.
  Section Each.
    Variable J : ljob -> Prop.
    Hypothesis J_answer : forall r, J (Answer r).
    Hypothesis J_peek : forall f, (forall d, J (f d)) -> J (Peek f).
    Hypothesis J_grow : forall g f, (forall d, longer d (g d)) -> (forall d, J (f d)) -> J (Grow g f).
    Hypothesis J_call : forall e si l f, (forall v, J (f v)) -> J (Callback (code e si l) f).
    Lemma closed_give {A} (o : outcome A) k : (forall x, J (k x)) -> J (give U o k).
    Proof. intros H. destruct o; cbn; auto. Qed.
    Lemma closed_grow w k : (forall d d' x, w d = Val (d', x) -> longer d d') -> (forall x, J (k x)) -> J (grow U w k).
    Proof.
      intros W H. apply J_grow; [|intros d; now apply closed_give]. intros d. destruct (w d) as [[d' x]| |] eqn:E; [now apply (W d d' x)| |]; unfold longer; lia.
    Qed.
    Lemma closed_fail si t p l : J (fail_job U action code si t p l).
    Proof.
      unfold fail_job. destruct (sa_state p); auto. apply J_peek. intros d. apply closed_give. intros st. destruct (d_exec st) as [e|]; auto. destruct (custom e); auto.
      apply J_call. intros v. apply closed_give. auto.
    Qed.
    Lemma closed_exec fuel si : forall n s symbol p l, J (exec_job fuel n si s symbol p l).
    Proof.
      induction n as [|n IH]; intros s symbol p l; cbn [ConcLexModel.exec_job]; auto.
      assert (Round : forall l t, J (round_job D U action code (exec_job fuel n si) si symbol p l t)).
      { intros l0 t. unfold round_job. destruct (t =? _); [apply closed_fail|]. apply closed_give. intros l1. apply J_peek. intros d. apply closed_give. intros [b p1].
        destruct (b && _); [apply closed_fail|]. apply closed_give. intros sy. apply IH. }
      apply J_peek. intros d. apply closed_give. intros [t|]; auto. apply closed_give. intros st. apply closed_give. intros [reach l1]. apply closed_grow; auto. intros d1 d2 x. apply target_longer.
    Qed.
    Lemma closed_match fuel mode l p : J (match_job fuel mode l p).
    Proof.
      assert (En : forall q p l, J (enter_job D U a action sempred ctx_hash actions_hash configs_hash code fuel (is_index (lx_input U l)) q p l)).
      { intros q p0 l0. apply J_peek. intros d. apply closed_give. intros [b p1]. apply closed_give. intros sy. apply closed_exec. }
      assert (En' : forall si q p l, J (enter_job D U a action sempred ctx_hash actions_hash configs_hash code fuel si q p l)).
      { intros si q p0 l0. apply J_peek. intros d. apply closed_give. intros [b p1]. apply closed_give. intros sy. apply closed_exec. }
      apply J_peek. intros d. destruct (s0 d); auto. destruct (vget _ mode); auto. apply closed_give. intros st. apply closed_give. intros [cl l1]. apply closed_grow; auto.
      intros d1 d2 x. apply start_longer.
    Qed.
  End Each.
  Lemma match_growing fuel mode l p : growing longer (match_job fuel mode l p).
  Proof. apply (closed_match (growing longer)); cbn; auto. Qed.
  Lemma match_uses P fuel mode l p : (forall e si l, uses P (code e si l)) -> job_uses P (match_job fuel mode l p).
  Proof. intros H. apply (closed_match (job_uses P)); [intros; exact I|intros f Hf; exact Hf|intros g f _ Hf; exact Hf|]. intros e si l0 f Hf. split; [apply H|exact Hf]. Qed.
  Lemma match_ranked rank b fuel mode l p : (forall e si l, ranked_thread rank b (code e si l)) -> ranked_job rank b (match_job fuel mode l p).
  Proof. intros H. apply (closed_match (ranked_job rank b)); [intros; exact I|intros f Hf; exact Hf|intros g f _ Hf; exact Hf|]. intros e si l0 f Hf. split; [apply H|exact Hf]. Qed.

  (** ** Threads that lex *)
  Hypothesis lex_code : forall e si l, lexing (code e si l).
  Lemma live_lexing {A} (o : outcome A) k : (forall x, lexing (k x)) -> lexing (live U o k).
  Proof. intros H. destruct o; [apply H|exact I|exact I]. Qed.
  Lemma match_lexing fuel mode l p k : (forall x, lexing (k x)) -> lexing (match_thread D U a action sempred ctx_hash actions_hash configs_hash code fuel mode l p k).
  Proof.
    intros H. unfold match_thread. destruct (vget (mode_to_start_state a) mode) as [ms|] eqn:E; [|apply H].
    assert (Em : Z.of_nat (Z.to_nat mode) = mode) by (unfold vget in E; destruct (Z.ltb_spec mode 0); [discriminate|lia]).
    split; [|split; [now apply match_uses|intros r; now apply live_lexing]]. split; [rewrite Em, <- vget_item; congruence|]. rewrite Em. eauto.
  Qed.
  Lemma inner_lexing fuel n : forall l p k, (forall b l p, lexing (k b l p)) -> lexing (inner_thread D U a action sempred ctx_hash actions_hash configs_hash code fuel n l p k).
  Proof.
    induction n as [|n IH]; intros l p k H; cbn [inner_thread]; [exact I|]. apply match_lexing. intros [[r p1] l1]. apply live_lexing. intros [ty l2]. apply live_lexing. intros c. cbv zeta.
    set (l3 := with_log U _ _). destruct (lx_type U l3 =? LEXER_SKIP); auto. destruct (lx_type U l3 =? LEXER_MORE); auto.
  Qed.
  Lemma outer_lexing fuel n : forall l p k, (forall l p, lexing (k l p)) -> lexing (outer_thread D U a action sempred before_emit ctx_hash actions_hash configs_hash code fuel n l p k).
  Proof.
    induction n as [|n IH]; intros l p k H; cbn [outer_thread]; [exact I|]. destruct (lx_hit_eof U l); [apply live_lexing; auto|]. apply inner_lexing. intros b l1 p1.
    destruct (negb b); auto. destruct (lx_token U l1); auto. apply live_lexing. auto.
  Qed.
  Lemma tokens_lexing fuel n : forall l p k, (forall ts l p, lexing (k ts l p)) -> lexing (tokens_thread D U a action sempred before_emit ctx_hash actions_hash configs_hash code fuel n l p k).
  Proof.
    induction n as [|n IH]; intros l p k H; cbn [tokens_thread]; auto. apply outer_lexing. intros l1 p1. apply live_lexing. intros t. apply IH. auto.
  Qed.
  Lemma lexer_lexing fuel n input u : lexing (lexer_thread D U a action sempred before_emit ctx_hash actions_hash configs_hash code fuel n input u).
  Proof. apply tokens_lexing. intros ts l p. exact I. Qed.
End Closed.
