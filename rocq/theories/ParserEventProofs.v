(** Proofs about what parse listeners and error listeners are told during a run. *)
From Coq Require Import ZArith List Bool Lia.
From Verif Require Import Outcome IntervalSetModel DfaModel AtnModel Ll1Model ParserModel ParserSpec ParserTreeProofs ParserRunProofs.
Import ListNotations.
Local Open Scope Z_scope.
Local Open Scope outcome_scope.

Lemma brackets_app : forall es es' st, brackets st (es ++ es') = match brackets st es with Some st' => brackets st' es' | None => None end.
Proof.
  induction es as [|e es IH]; intros es' st; cbn; auto. destruct e; auto. destruct st as [|j st]; auto. destruct (Nat.eqb i j); auto.
Qed.
Lemma brackets_frame : forall es st st' more, brackets st es = Some st' -> brackets (st ++ more) es = Some (st' ++ more).
Proof.
  induction es as [|e es IH]; intros st st' more H; cbn in *; [congruence|]. destruct e; auto.
  - apply (IH (i :: st)). auto.
  - destruct st as [|j st]; try discriminate. cbn. destruct (Nat.eqb i j); auto; discriminate.
Qed.
Lemma balanced_any : forall es st, balanced es -> brackets st es = Some st.
Proof. intros es st H. apply (brackets_frame es [] [] st H). Qed.
Lemma balanced_app : forall es es', balanced es -> balanced es' -> balanced (es ++ es').
Proof. intros es es' H H'. unfold balanced. rewrite brackets_app, H. auto. Qed.
Definition visit (e : event) : Prop := match e with VisitTerminal _ | VisitError _ => True | _ => False end.
Lemma visits_balanced : forall es, Forall visit es -> balanced es.
Proof. induction 1 as [|e es H _ IH]; [reflexivity|]. destruct e; cbn in *; try contradiction; auto. Qed.
Lemma visits_of_acts : forall acts, Forall visit (flat_map visit_of acts).
Proof. induction acts as [|[t []|t []|t] acts IH]; cbn; auto; constructor; auto; exact Logic.I. Qed.

Section Noted.
  Context {S : Type}.
  Variable ts : stream_ops S.
  Variable a : atn.
  Variable names : naming.
  Variable fuel : nat.

  Ltac step H := match type of H with obindo ?x _ = Val _ => let E := fresh "E" in destruct x eqn:E; cbn [obindo] in H; [|discriminate|discriminate] end.

  (** recovery mode is only entered when an error is reported *)
  Definition noted (r : bool) (p : parser S) (r' : bool) (p' : parser S) : Prop :=
    exists more, p_notices p' = p_notices p ++ more /\ (more = [] -> r = false -> r' = false).
  Lemma noted_refl : forall r p, noted r p r p.
  Proof. intros. exists []. rewrite app_nil_r. auto. Qed.
  Lemma noted_trans : forall r p r' p' r'' p'', noted r p r' p' -> noted r' p' r'' p'' -> noted r p r'' p''.
  Proof.
    intros r p r' p' r'' p'' (m & E & H) (m' & E' & H'). exists (m ++ m'). rewrite E', E, app_assoc. split; auto.
    intros Hm. apply app_eq_nil in Hm as [-> ->]. auto.
  Qed.
  Definition same_notices (p p' : parser S) : Prop := p_notices p' = p_notices p.
  Lemma same_noted : forall r p p', same_notices p p' -> noted r p r p'.
  Proof. intros r p p' E. exists []. rewrite app_nil_r. auto. Qed.
  Lemma off_noted : forall r p p', same_notices p p' -> noted r p false p'.
  Proof. intros r p p' E. exists []. rewrite app_nil_r. auto. Qed.
  Lemma off_noted' : forall r r' p p', noted r p r' p' -> noted r p false p'.
  Proof. intros r r' p p' (m & E & H). exists m. auto. Qed.

  Lemma lt_notices : forall p k p' t, lt ts p k = Val (p', t) -> same_notices p p'.
  Proof. intros p k p' t H. unfold lt in H. step H. destruct a0. inversion H; subst. reflexivity. Qed.
  Lemma la_notices : forall p k p' t, la ts p k = Val (p', t) -> same_notices p p'.
  Proof. intros p k p' t H. unfold la in H. step H. destruct a0. inversion H; subst. eapply lt_notices; eauto. Qed.
  Lemma consume_notices : forall rec p p', consume ts rec p = Val p' -> same_notices p p'.
  Proof.
    intros rec p p' H. unfold consume in H. step H. step H.
    assert (same_notices p a1).
    { destruct (_ =? _); [inversion E0; subst; reflexivity|]. step E0. inversion E0; subst. reflexivity. }
    unfold same_notices in *. destruct (_ || _); [|inversion H; subst; auto]. step H. destruct rec; inversion H; subst; auto.
  Qed.
  Lemma trans_noted : forall r r' p q p', same_notices p q -> noted r q r' p' -> noted r p r' p'.
  Proof. intros. eapply noted_trans; [apply same_noted; eauto|auto]. Qed.

  Lemma report_token_noted : forall msg d p d' p', report_token ts a fuel msg d p = Val (d', p') -> noted (recovering d) p (recovering d') p'.
  Proof.
    intros msg d p d' p' H. unfold report_token in H. destruct (recovering d) eqn:R; [inversion H; subst; rewrite R; apply noted_refl|].
    step H. step H. step H. inversion H; subst. unfold notify_error_listeners in E1. step E1. inversion E1; subst.
    eexists. split; [reflexivity|discriminate].
  Qed.
  Lemma insertion_noted : forall d p d' p' b, single_token_insertion ts a names fuel d p = Val (d', p', b) -> noted (recovering d) p (recovering d') p'.
  Proof.
    intros d p d' p' b H. unfold single_token_insertion in H.
    destruct (la ts p 1) as [[q cur]| |] eqn:E1; cbn [obindo] in H; try discriminate.
    do 6 step H. eapply trans_noted; [eapply la_notices; eauto|].
    destruct (contains _ _).
    - unfold report_missing_token in H. destruct (report_token ts a fuel _ d q) as [[d1 q1]| |] eqn:E7; cbn [obindo] in H; try discriminate.
      inversion H; subst. eapply report_token_noted; eauto.
    - inversion H; subst. apply noted_refl.
  Qed.
  Lemma deletion_noted : forall d p d' p' t, single_token_deletion ts a names fuel d p = Val (d', p', t) -> noted (recovering d) p (recovering d') p'.
  Proof.
    intros d p d' p' t H. unfold single_token_deletion in H.
    destruct (la ts p 2) as [[q cur]| |] eqn:E1; cbn [obindo] in H; try discriminate.
    step H. eapply trans_noted; [eapply la_notices; eauto|].
    destruct (contains _ _).
    - unfold report_unwanted_token in H. destruct (report_token ts a fuel _ d q) as [[d1 q1]| |] eqn:E7; cbn [obindo] in H; try discriminate.
      step H. step H. inversion H; subst. eapply noted_trans; [eapply report_token_noted; eauto|]. apply off_noted. eapply consume_notices; eauto.
    - inversion H; subst. apply noted_refl.
  Qed.
  Lemma consume_loop_notices : forall n rec set p ty p', consume_loop ts n rec set p ty = Val p' -> same_notices p p'.
  Proof.
    induction n as [|n IH]; intros rec set p ty p' H; cbn [consume_loop] in H; destruct (_ && _); try discriminate;
      try (inversion H; subst; reflexivity).
    destruct (consume ts rec p) as [q| |] eqn:E; cbn [obindo] in H; try discriminate.
    destruct (la ts q 1) as [[q1 ty1]| |] eqn:E1; cbn [obindo] in H; try discriminate.
    unfold same_notices in *. rewrite (IH _ _ _ _ _ H), (la_notices _ _ _ _ E1), (consume_notices _ _ _ E). auto.
  Qed.
  Lemma consume_until_notices : forall d p set p', consume_until ts fuel d p set = Val p' -> same_notices p p'.
  Proof.
    intros d p set p' H. unfold consume_until in H.
    destruct (la ts p 1) as [[q ty]| |] eqn:E; cbn [obindo] in H; try discriminate.
    unfold same_notices. rewrite (consume_loop_notices _ _ _ _ _ _ H). eapply la_notices; eauto.
  Qed.
  Lemma d_recover_inline_noted : forall d p d' p' r, d_recover_inline ts a names fuel d p = Val (d', p', r) -> noted (recovering d) p (recovering d') p'.
  Proof.
    intros d p d' p' r H. unfold d_recover_inline in H.
    destruct (single_token_deletion ts a names fuel d p) as [[[d1 q] t]| |] eqn:E; cbn [obindo] in H; try discriminate.
    pose proof (deletion_noted _ _ _ _ _ E). eapply noted_trans; [eauto|].
    destruct t as [t|].
    - step H. inversion H; subst. apply same_noted. eapply consume_notices; eauto.
    - destruct (single_token_insertion ts a names fuel d1 q) as [[[d2 q2] b]| |] eqn:E2; cbn [obindo] in H; try discriminate.
      pose proof (insertion_noted _ _ _ _ _ E2). destruct b; step H; inversion H; subst; auto.
  Qed.
  Lemma d_recover_noted : forall d p d' p', d_recover ts a fuel d p = Val (d', p') -> noted (recovering d) p (recovering d') p'.
  Proof.
    intros d p d' p' H. unfold d_recover in H. step H. step H. step H. inversion H; subst. cbn [recovering].
    apply same_noted. unfold same_notices. rewrite (consume_until_notices _ _ _ _ E1).
    destruct (_ && _); [eapply consume_notices; eauto|inversion E; subst; auto].
  Qed.
  Lemma d_sync_noted : forall d p d' p' r, d_sync ts a names fuel d p = Val (d', p', r) -> noted (recovering d) p (recovering d') p'.
  Proof.
    intros d p d' p' r H. unfold d_sync in H. destruct (recovering d) eqn:R; [inversion H; subst; rewrite R; apply noted_refl|].
    destruct (la ts p 1) as [[q next]| |] eqn:E; cbn [obindo] in H; try discriminate.
    step H. step H. eapply trans_noted; [eapply la_notices; eauto|].
    destruct (contains a1 next); [inversion H; subst; apply noted_refl|].
    destruct (contains a1 TOKEN_EPSILON).
    { destruct (nt_ctx d); [inversion H; subst; rewrite R; apply noted_refl|]. step H. inversion H; subst. apply noted_refl. }
    rewrite <- R. destruct (sync_case _); try discriminate.
    - destruct (single_token_deletion ts a names fuel d q) as [[[d1 q1] t]| |] eqn:E3; cbn [obindo] in H; try discriminate.
      pose proof (deletion_noted _ _ _ _ _ E3). destruct t; [|step H]; inversion H; subst; auto.
    - unfold report_unwanted_token in H.
      destruct (report_token ts a fuel _ d q) as [[d1 q1]| |] eqn:E3; cbn [obindo] in H; try discriminate.
      step H. step H. step H. inversion H; subst. eapply noted_trans; [eapply report_token_noted; eauto|].
      apply same_noted. eapply consume_until_notices; eauto.
  Qed.
  Lemma d_report_error_noted : forall d p e d' p', d_report_error ts a names fuel d p e = Val (d', p') ->
    noted (recovering d) p (recovering d') p' /\ (recovering d = false -> p_notices p' <> p_notices p).
  Proof.
    intros d p e d' p' H. unfold d_report_error in H. destruct (recovering d) eqn:R.
    - inversion H; subst. rewrite R. split; [apply noted_refl|discriminate].
    - step H. step H. inversion H; subst. unfold notify_error_listeners in E0. step E0. inversion E0; subst. split.
      + eexists. split; [reflexivity|discriminate].
      + intros _ C. cbn in C. apply (f_equal (@length notice)) in C. rewrite app_length in C. cbn in C. lia.
  Qed.

  Notation mode := in_error_recovery_mode.
  Lemma recover_inline_noted : forall g p g' p' r, recover_inline ts a names fuel g p = Val (g', p', r) -> noted (mode g) p (mode g') p'.
  Proof.
    intros g p g' p' r H. destruct g as [d|d]; cbn [recover_inline] in H.
    - destruct (d_recover_inline ts a names fuel d p) as [[[d1 q] r1]| |] eqn:E; cbn [obindo] in H; try discriminate.
      inversion H; subst. eapply d_recover_inline_noted; eauto.
    - step H. step H. inversion H; subst. apply noted_refl.
  Qed.
  Lemma recover_noted : forall g p e g' p' r, recover ts a fuel g p e = Val (g', p', r) -> noted (mode g) p (mode g') p'.
  Proof.
    intros g p e g' p' r H. destruct g as [d|d]; cbn [recover] in H.
    - destruct (d_recover ts a fuel d p) as [[d1 q]| |] eqn:E; cbn [obindo] in H; try discriminate.
      inversion H; subst. eapply d_recover_noted; eauto.
    - step H. inversion H; subst. apply noted_refl.
  Qed.
  Lemma sync_noted : forall g p g' p' r, sync ts a names fuel g p = Val (g', p', r) -> noted (mode g) p (mode g') p'.
  Proof.
    intros g p g' p' r H. destruct g as [d|d]; cbn [sync] in H; [|inversion H; subst; apply noted_refl].
    destruct (d_sync ts a names fuel d p) as [[[d1 q] r1]| |] eqn:E; cbn [obindo] in H; try discriminate.
    inversion H; subst. eapply d_sync_noted; eauto.
  Qed.
  Lemma report_error_noted : forall g p e g' p', report_error ts a names fuel g p e = Val (g', p') ->
    noted (mode g) p (mode g') p' /\ (mode g = false -> p_notices p' <> p_notices p).
  Proof.
    intros g p e g' p' H. destruct g as [d|d]; cbn [report_error] in H;
      destruct (d_report_error ts a names fuel d p e) as [[d1 q]| |] eqn:E; cbn [obindo] in H; try discriminate;
      inversion H; subst; eapply d_report_error_noted; eauto.
  Qed.
  Lemma noted_more : forall r p r' p', noted r p r' p' -> exists more, p_notices p' = p_notices p ++ more.
  Proof. intros r p r' p' (m & E & _). eauto. Qed.
  Lemma catch_noted : forall g p r g' p' r', catch ts a names fuel g p r = Val (g', p', r') ->
    noted (mode g) p (mode g') p' /\
    (mode g = false -> p_notices p' = p_notices p -> match r with None | Some (FallThrough _) => True | _ => False end).
  Proof.
    intros g p r g' p' r' H. unfold catch in H.
    destruct r as [e|]; [|inversion H; subst; split; auto using noted_refl].
    destruct e; try (inversion H; subst; split; auto using noted_refl; fail);
      match type of H with (let! _ := report_error ts a names fuel g p ?e in _) = _ =>
        destruct (report_error ts a names fuel g p e) as [[g1 q]| |] eqn:E; cbn [obindo] in H; try discriminate end;
      destruct (report_error_noted _ _ _ _ _ E) as [N1 C]; pose proof (recover_noted _ _ _ _ _ _ H) as N2;
      (split; [eapply noted_trans; eauto|]); intros M X; apply (C M);
      destruct (noted_more _ _ _ _ N1) as [m1 M1]; destruct (noted_more _ _ _ _ N2) as [m2 M2];
      rewrite M2, M1, <- app_assoc in X; rewrite <- (app_nil_r (p_notices p)) in X at 2; apply app_inv_head in X;
      apply app_eq_nil in X as [-> _]; rewrite M1; apply app_nil_r.
  Qed.

  Lemma add_missing_notices : forall p t p', add_missing p t = Val p' -> same_notices p p'.
  Proof.
    intros p t p' H. unfold add_missing in H. destruct (_ && _); [|inversion H; subst; reflexivity]. step H. inversion H; subst. reflexivity.
  Qed.
  Lemma mode_match : forall g, mode g = false -> mode (report_match g) = false.
  Proof. intros [d|d] H; auto. Qed.
  Lemma matched_noted : forall g p q, same_notices p q -> noted (mode g) p (mode (report_match g)) q.
  Proof. intros g p q E. exists []. rewrite app_nil_r. split; auto. intros _. apply mode_match. Qed.

  Lemma match_token_noted : forall g p ty g' p' r, match_token ts a names fuel g p ty = Val (g', p', r) -> noted (mode g) p (mode g') p'.
  Proof.
    intros g p ty g' p' r H. unfold match_token in H. step H.
    destruct (_ =? ty).
    - step H. inversion H; subst. apply matched_noted. pose proof (consume_notices _ _ _ E0) as C. destruct (_ =? _); auto.
    - destruct (recover_inline ts a names fuel g p) as [[[g1 q] r1]| |] eqn:E1; cbn [obindo] in H; try discriminate.
      pose proof (recover_inline_noted _ _ _ _ _ E1). destruct r1; [step H|]; inversion H; subst; auto.
      eapply noted_trans; [eauto|]. apply same_noted. eapply add_missing_notices; eauto.
  Qed.
  Lemma match_wildcard_noted : forall g p g' p' r, match_wildcard ts a names fuel g p = Val (g', p', r) -> noted (mode g) p (mode g') p'.
  Proof.
    intros g p g' p' r H. unfold match_wildcard in H. step H.
    destruct (_ >? 0).
    - step H. inversion H; subst. apply matched_noted. eapply consume_notices; eauto.
    - destruct (recover_inline ts a names fuel g p) as [[[g1 q] r1]| |] eqn:E1; cbn [obindo] in H; try discriminate.
      pose proof (recover_inline_noted _ _ _ _ _ E1). destruct r1; [step H|]; inversion H; subst; auto.
      eapply noted_trans; [eauto|]. apply same_noted. eapply add_missing_notices; eauto.
  Qed.
  Lemma match_set_noted : forall i g p g' p' r, match_set ts a names fuel i g p = Val (g', p', r) -> noted (mode g) p (mode g') p'.
  Proof.
    intros i g p g' p' r H. unfold match_set in H.
    destruct (la ts p 1) as [[q next]| |] eqn:E; cbn [obindo] in H; try discriminate.
    eapply trans_noted; [eapply la_notices; eauto|]. destruct (i next).
    - destruct (la ts q 1) as [[q1 next1]| |] eqn:E1; cbn [obindo] in H; try discriminate. step H. inversion H; subst.
      eapply trans_noted; [eapply la_notices; eauto|]. apply matched_noted.
      pose proof (consume_notices _ _ _ E0) as C. destruct (_ =? _); auto.
    - destruct (recover_inline ts a names fuel g q) as [[[g1 q1] r1]| |] eqn:E1; cbn [obindo] in H; try discriminate.
      inversion H; subst. eapply recover_inline_noted; eauto.
  Qed.
End Noted.

Section Ran.
  Context {S : Type}.
  Variable ts : stream_ops S.
  Variable a : atn.
  Variable names : naming.
  Variable fuel : nat.

  Definition no_inv (s : S) : Prop := False.
  Definition no_past (s : S) : list tok := [].
  Lemma no_history : history ts no_inv no_past.
  Proof. constructor; contradiction. Qed.

  Notation run_call := (run_call ts a names fuel).
  Notation run_calls := (run_calls ts a names fuel).
  Notation flat := (flat no_inv no_past).
  Notation flat_ex := (flat_ex no_inv no_past).
  Notation inv := (@inv S).
  Notation mode := in_error_recovery_mode.
  Ltac step H := match type of H with obindo ?x _ = Val _ => let E := fresh "E" in destruct x eqn:E; cbn [obindo] in H; [|discriminate|discriminate] end.

  Definition keeps_plain (h h' : heap) : Prop :=
    forall i c, nth_error h i = Some c -> exists c', nth_error h' i = Some c' /\ x_plain c' = x_plain c.
  Lemma keeps_refl : forall h, keeps_plain h h.
  Proof. intros h i c H. eauto. Qed.
  Lemma keeps_trans : forall h h' h'', keeps_plain h h' -> keeps_plain h' h'' -> keeps_plain h h''.
  Proof. intros h h' h'' H H' i c Hc. destruct (H i c Hc) as (c' & E & P). destruct (H' i c' E) as (c'' & E' & P'). exists c''. split; congruence. Qed.
  Lemma keeps_update : forall h i u, (forall c, x_plain (u c) = x_plain c) -> keeps_plain h (update h i u).
  Proof.
    intros h i u Hu j c Hc. destruct (Nat.eq_dec i j) as [->|D].
    - exists (u c). split; auto. now apply nth_update_same.
    - exists c. split; auto. rewrite nth_update_other; auto.
  Qed.
  Lemma keeps_app : forall h c, keeps_plain h (h ++ [c]).
  Proof. intros h c i c' H. exists c'. split; auto. rewrite nth_error_app1; auto. apply nth_error_Some. congruence. Qed.
  Lemma keeps_grow : forall h c ks, keeps_plain h (grow c ks h).
  Proof. intros h [i|] ks; cbn; [apply keeps_update; auto|apply keeps_refl]. Qed.

  Definition told_all (p p' : parser S) (es : list event) : Prop :=
    p_listeners p' = p_listeners p /\ p_events p' = p_events p ++ flat_map (told (p_listeners p)) es.
  Lemma told_all_refl : forall p, told_all p p [].
  Proof. intros. split; auto. now rewrite app_nil_r. Qed.
  Lemma told_all_trans : forall p q r es es', told_all p q es -> told_all q r es' -> told_all p r (es ++ es').
  Proof. intros p q r es es' [L E] [L' E']. split; [congruence|]. rewrite E', E, L, flat_map_app, app_assoc. auto. Qed.
  Lemma told_all_same : forall p q, p_listeners q = p_listeners p -> p_events q = p_events p -> told_all p q [].
  Proof. intros. split; auto. cbn. now rewrite app_nil_r. Qed.
  Lemma told_flat : forall acts p q, flat acts p q -> told_all p q (flat_map visit_of acts).
  Proof. intros acts p q [F1 F2 F3 F4 F5 F6 F7 F8 F9]. split; auto. Qed.

  Record ran (g : strategy) (p : parser S) (g' : strategy) (p' : parser S) : Prop := Ran {
    ra_told : exists es, told_all p p' es;
    ra_plain : keeps_plain (p_heap p) (p_heap p');
    ra_noted : noted (mode g) p (mode g') p'
  }.
  Lemma ran_refl : forall g p, ran g p g p.
  Proof. intros. constructor; [exists []; apply told_all_refl|apply keeps_refl|apply noted_refl]. Qed.
  Lemma ran_trans : forall g p g' p' g'' p'', ran g p g' p' -> ran g' p' g'' p'' -> ran g p g'' p''.
  Proof.
    intros g p g' p' g'' p'' [[es T] K N] [[es' T'] K' N']. constructor.
    - eexists. eapply told_all_trans; eauto.
    - eapply keeps_trans; eauto.
    - eapply noted_trans; eauto.
  Qed.
  Lemma ran_flat : forall g p g' p', flat_ex p p' -> noted (mode g) p (mode g') p' -> ran g p g' p'.
  Proof.
    intros g p g' p' [acts F] N. constructor; auto.
    - eexists. eapply told_flat; eauto.
    - rewrite (fl_heap _ _ _ _ _ F). apply keeps_grow.
  Qed.
  Lemma ran_same : forall g p p', told_all p p' [] -> keeps_plain (p_heap p) (p_heap p') -> p_notices p' = p_notices p -> ran g p g p'.
  Proof. intros g p p' T K N. constructor; eauto. now apply same_noted. Qed.

  Lemma lt_ran : forall g p k p' t, lt ts p k = Val (p', t) -> ran g p g p'.
  Proof.
    intros. apply ran_flat; [eexists; eapply lt_flat; eauto using no_history|]. apply same_noted. eapply lt_notices; eauto.
  Qed.
  Lemma heap_ran : forall g p h, keeps_plain (p_heap p) h -> ran g p g (with_heap p h).
  Proof. intros. apply ran_same; auto. apply told_all_same; auto. Qed.
  Lemma modify_ran : forall g p i u, (forall c, x_plain (u c) = x_plain c) -> ran g p g (modify p i u).
  Proof. intros. apply heap_ran. now apply keeps_update. Qed.
  Lemma ctx_ran : forall g p c, ran g p g (with_ctx p c).
  Proof. intros. apply ran_same; auto using keeps_refl. apply told_all_same; auto. Qed.
  Lemma state_ran : forall g p c, ran g p g (set_state p c).
  Proof. intros. apply ran_same; auto using keeps_refl. apply told_all_same; auto. Qed.
  Lemma prec_ran : forall g p c, ran g p g (with_prec p c).
  Proof. intros. apply ran_same; auto using keeps_refl. apply told_all_same; auto. Qed.
  Lemma alloc_ran : forall g p c, ran g p g (with_heap p (p_heap p ++ [c])).
  Proof. intros. apply heap_ran. apply keeps_app. Qed.

  Definition entered (h : heap) (i : nat) : list event :=
    match nth_error h i with Some c => if x_plain c then [] else [EnterRule i] | None => [] end.
  Definition left_ (h : heap) (i : nat) : list event :=
    match nth_error h i with Some c => if x_plain c then [] else [ExitRule i] | None => [] end.
  Lemma enter_told : forall p q, trigger_enter_rule_event p = Val q -> exists i, p_ctx p = Some i /\ told_all p q (entered (p_heap p) i).
  Proof.
    intros p q H. unfold trigger_enter_rule_event, get_ctx in H. destruct (p_ctx p) as [i|]; cbn [unwrap obindo] in H; try discriminate.
    exists i. split; auto. unfold deref in H. unfold entered. destruct (nth_error (p_heap p) i) as [c|]; cbn [unwrap obindo] in H; try discriminate.
    inversion H; subst. destruct (x_plain c); [apply told_all_refl|]. split; auto. cbn. now rewrite app_nil_r.
  Qed.
  Lemma exit_told : forall p q, trigger_exit_rule_event p = Val q -> exists i, p_ctx p = Some i /\ told_all p q (left_ (p_heap p) i).
  Proof.
    intros p q H. unfold trigger_exit_rule_event, get_ctx in H. destruct (p_ctx p) as [i|]; cbn [unwrap obindo] in H; try discriminate.
    exists i. split; auto. unfold deref in H. unfold left_. destruct (nth_error (p_heap p) i) as [c|]; cbn [unwrap obindo] in H; try discriminate.
    inversion H; subst. destruct (x_plain c); [apply told_all_refl|]. split; auto. cbn. now rewrite app_nil_r.
  Qed.
  Lemma enter_same : forall p q : parser S, trigger_enter_rule_event p = Val q -> p_notices q = p_notices p.
  Proof. intros p q H. unfold trigger_enter_rule_event in H. step H. step H. inversion H; subst. destruct (x_plain a1); auto. Qed.
  Lemma exit_same : forall p q : parser S, trigger_exit_rule_event p = Val q -> p_notices q = p_notices p.
  Proof. intros p q H. unfold trigger_exit_rule_event in H. step H. step H. inversion H; subst. destruct (x_plain a1); auto. Qed.
  Lemma enter_ran : forall g p q, trigger_enter_rule_event p = Val q -> ran g p g q.
  Proof.
    intros g p q H. destruct (enter_told _ _ H) as (i & _ & T). destruct (enter_event _ _ H) as (B1 & B2 & B3 & B4 & B5 & B6 & _).
    constructor; eauto; [rewrite B4; apply keeps_refl|]. apply same_noted. now apply enter_same.
  Qed.
  Lemma exit_ran : forall g p q, trigger_exit_rule_event p = Val q -> ran g p g q.
  Proof.
    intros g p q H. destruct (exit_told _ _ H) as (i & _ & T). destruct (exit_event _ _ H) as (B1 & B2 & B3 & B4 & B5 & B6 & _).
    constructor; eauto; [rewrite B4; apply keeps_refl|]. apply same_noted. now apply exit_same.
  Qed.

  Hint Resolve lt_ran modify_ran ctx_ran state_ran prec_ran alloc_ran enter_ran exit_ran : ran.

  Lemma enter_rule_ran : forall g p n s q, enter_rule ts p n s = Val q -> ran g p g q.
  Proof.
    intros g p n s q H. unfold enter_rule in H. step H. destruct a0 as [q1 t].
    eapply ran_trans; [apply state_ran|]. eapply ran_trans; [eapply lt_ran; eauto|].
    eapply ran_trans; [apply (modify_ran _ _ n (set_start t)); auto|]. eapply ran_trans; [apply (ctx_ran _ _ (Some n))|].
    destruct (p_build _); [|inversion H; subst; apply ran_refl].
    unfold add_context_to_parse_tree in H. step H. step H. inversion H; subst. destruct (x_parent a1); [|apply ran_refl].
    apply modify_ran; auto.
  Qed.
  Lemma exit_rule_ran : forall g p q, exit_rule ts p = Val q -> ran g p g q.
  Proof.
    intros g p q H. unfold exit_rule in H. step H. step H. destruct a1 as [q1 t]. step H. step H. inversion H; subst.
    eapply ran_trans; [eapply lt_ran; eauto|]. eapply ran_trans; [apply (modify_ran _ _ a0 (set_stop t)); auto|].
    eapply ran_trans; [eapply exit_ran; eauto|]. eapply ran_trans; [apply state_ran|apply ctx_ran].
  Qed.
  Lemma outer_alt_ran : forall g p n q, enter_outer_alt p n = Val q -> ran g p g q.
  Proof.
    intros g p n q H. unfold enter_outer_alt in H. step H. eapply ran_trans; [|eapply enter_ran; eauto].
    destruct n as [n|]; [|inversion E; subst; apply ran_refl]. step E. step E. inversion E; subst.
    eapply ran_trans; [|apply ctx_ran]. destruct (_ && _); [|apply ran_refl]. destruct (x_parent a2); [|apply ran_refl].
    eapply ran_trans; apply modify_ran; auto.
  Qed.
  Lemma enter_rec_ran : forall g p n s k q, enter_recursion_rule ts p n s k = Val q -> ran g p g q.
  Proof.
    intros g p n s k q H. unfold enter_recursion_rule in H. step H. destruct a0 as [q1 t]. inversion H; subst.
    eapply ran_trans; [apply state_ran|]. eapply ran_trans; [apply prec_ran|]. eapply ran_trans; [eapply lt_ran; eauto|].
    eapply ran_trans; [|apply ctx_ran]. apply modify_ran. auto.
  Qed.
  Lemma push_ran : forall g p n s q, push_new_recursion_context ts p n s = Val q -> ran g p g q.
  Proof.
    intros g p n s q H. unfold push_new_recursion_context in H. step H. step H. destruct a1 as [q1 t]. step H.
    eapply ran_trans; [|eapply enter_ran; eauto].
    eapply ran_trans; [apply (modify_ran _ _ a0 (set_parent (Some n))); auto|].
    eapply ran_trans; [apply (modify_ran _ _ a0 (set_invoking_state s)); auto|].
    eapply ran_trans; [eapply lt_ran; eauto|].
    eapply ran_trans; [apply (modify_ran _ _ a0 (set_stop t)); auto|].
    eapply ran_trans; [apply (modify_ran _ _ n (set_start (Some (x_start a1)))); auto|].
    eapply ran_trans; [apply (ctx_ran _ _ (Some n))|].
    destruct (p_build _); [apply modify_ran; auto|apply ran_refl].
  Qed.
  Lemma unroll_loop_ran : forall n g p parent q, unroll_loop n p parent = Val q -> ran g p g q.
  Proof.
    induction n as [|n IH]; intros g p parent q H; cbn [unroll_loop] in H; destruct (same_ctx _ _); try discriminate;
      try (inversion H; subst; apply ran_refl).
    step H. step H. step H. eapply ran_trans; [eapply exit_ran; eauto|]. eapply ran_trans; [apply ctx_ran|]. eauto.
  Qed.
  Lemma unroll_ran : forall g p parent q, unroll_recursion_context ts p parent = Val q -> ran g p g q.
  Proof.
    intros g p parent q H. unfold unroll_recursion_context in H. step H. step H. destruct a1 as [q1 t]. step H. inversion H; subst. clear H.
    eapply ran_trans; [apply prec_ran|]. eapply ran_trans; [eapply lt_ran; eauto|].
    eapply ran_trans; [apply (modify_ran _ _ a0 (set_stop t)); auto|].
    eapply ran_trans with (p' := a1) (g' := g).
    - destruct (p_listeners _); [inversion E1; subst; apply ctx_ran|]. eapply unroll_loop_ran; eauto.
    - eapply ran_trans; [apply (modify_ran _ _ a0 (set_parent (p_ctx a1))); auto|].
      destruct (p_ctx _); [destruct (p_build _)|]; try apply ran_refl. apply modify_ran; auto.
  Qed.
  Lemma catch_ran : forall g p r g' p' r', catch ts a names fuel g p r = Val (g', p', r') -> ran g p g' p'.
  Proof. intros. apply ran_flat; [eapply catch_flat; eauto using no_history|]. eapply catch_noted; eauto. Qed.

  Definition runs (c : call) : Prop := forall g p f g' p' f' r, run_call c g p f = Val (g', p', f', r) -> ran g p g' p'.
  Lemma runs_all : forall cs, Forall runs cs -> forall g p f g' p' f' r, run_calls cs g p f = Val (g', p', f', r) -> ran g p g' p'.
  Proof.
    induction 1 as [|c cs Hc _ IH]; intros g p f g' p' f' r H; cbn [ParserModel.run_calls] in H.
    - inversion H; subst. apply ran_refl.
    - step H. destruct a0 as [[[g1 p1] f1] r1]. apply Hc in E. destruct r1; [inversion H; subst; auto|].
      eapply ran_trans; eauto.
  Qed.
  Lemma call_ran : forall c, runs c.
  Proof.
    induction c as [c N1 N2|rule s pl body IH|rule s n pl body IH] using call_ind'; intros g p f g' p' f' r H.
    - destruct c as [s|k| |ty| |inset|n|e|[k|]|k| | |k pl|r0 s pl b|r0 s n pl b];
        try solve [exfalso; eapply N1; eauto|exfalso; eapply N2; eauto]; cbn [ParserModel.run_call alloc] in H.
      + inversion H; subst. apply state_ran.
      + step H. destruct a0 as [q t]. inversion H; subst. unfold la in E. step E. destruct a0 as [q' t']. inversion E; subst. eapply lt_ran; eauto.
      + unfold no_result in H. step H. destruct a0 as [[g1 p1] r1]. inversion H; subst.
        apply ran_flat; [eapply sync_flat; eauto using no_history|eapply sync_noted; eauto].
      + unfold no_tok in H. step H. destruct a0 as [[g1 p1] r1]. inversion H; subst.
        apply ran_flat; [eapply match_token_flat; eauto using no_history|eapply match_token_noted; eauto].
      + unfold no_tok in H. step H. destruct a0 as [[g1 p1] r1]. inversion H; subst.
        apply ran_flat; [eapply match_wildcard_flat; eauto using no_history|eapply match_wildcard_noted; eauto].
      + unfold no_result in H. step H. destruct a0 as [[g1 p1] r1]. inversion H; subst.
        apply ran_flat; [eapply match_set_flat; eauto using no_history|eapply match_set_noted; eauto].
      + destruct (precpred p n); [|step H]; inversion H; subst; apply ran_refl.
      + inversion H; subst. apply ran_refl.
      + step H. step H. inversion H; subst. eapply ran_trans; [apply alloc_ran|eapply outer_alt_ran; eauto].
      + step H. inversion H; subst. eapply outer_alt_ran; eauto.
      + step H. inversion H; subst. eapply ran_trans; [apply alloc_ran|apply ctx_ran].
      + step H. destruct a0 as [q t]. step H. inversion H; subst. eapply ran_trans; [eapply lt_ran; eauto|apply modify_ran; auto].
      + step H. inversion H; subst. eapply exit_ran; eauto.
      + step H. inversion H; subst. eapply ran_trans; [apply alloc_ran|eapply push_ran; eauto].
    - cbn [ParserModel.run_call alloc] in H. step H. rename a0 into p1.
      match type of H with obindo (?rc body g p1 ?fr) _ = _ => change (rc body g p1 fr) with (run_calls body g p1 fr) in H end.
      step H. destruct a0 as [[[g2 p2] f2] r2]. step H. destruct a0 as [[g3 p3] r3].
      assert (R : ran g p g3 p3).
      { eapply ran_trans; [apply alloc_ran|]. eapply ran_trans; [eapply enter_rule_ran; eauto|].
        eapply ran_trans; [eapply runs_all; eauto|]. eapply catch_ran; eauto. }
      destruct r3; [inversion H; subst; auto|]. step H. inversion H; subst. eapply ran_trans; [eauto|eapply exit_rule_ran; eauto].
    - cbn [ParserModel.run_call alloc] in H. step H. rename a0 into p1.
      match type of H with obindo (?rc body g p1 ?fr) _ = _ => change (rc body g p1 fr) with (run_calls body g p1 fr) in H end.
      step H. destruct a0 as [[[g2 p2] f2] r2]. step H. destruct a0 as [[g3 p3] r3].
      assert (R : ran g p g3 p3).
      { eapply ran_trans; [apply alloc_ran|]. eapply ran_trans; [eapply enter_rec_ran; eauto|].
        eapply ran_trans; [eapply runs_all; eauto|]. eapply catch_ran; eauto. }
      destruct r3; [inversion H; subst; auto|]. step H. inversion H; subst. eapply ran_trans; [eauto|eapply unroll_ran; eauto].
  Qed.
  Lemma calls_ran : forall cs g p f g' p' f' r, run_calls cs g p f = Val (g', p', f', r) -> ran g p g' p'.
  Proof. intros cs. apply runs_all. apply Forall_forall. intros. apply call_ran. Qed.

  (** if the end of a run has no new notice, nor has any point on the way *)
  Lemma ran_silent : forall g p g' p' g'' p'', ran g p g' p' -> ran g' p' g'' p'' -> p_notices p'' = p_notices p ->
    p_notices p' = p_notices p /\ p_notices p'' = p_notices p'.
  Proof.
    intros g p g' p' g'' p'' R R' E. destruct (noted_more _ _ _ _ (ra_noted _ _ _ _ R)) as [m M]. destruct (noted_more _ _ _ _ (ra_noted _ _ _ _ R')) as [m' M'].
    rewrite M', M, <- app_assoc in E. rewrite <- (app_nil_r (p_notices p)) in E at 2. apply app_inv_head in E. apply app_eq_nil in E as [-> ->].
    rewrite app_nil_r in M, M'. auto.
  Qed.
  Lemma ran_calm : forall g p g' p', ran g p g' p' -> p_notices p' = p_notices p -> mode g = false -> mode g' = false.
  Proof.
    intros g p g' p' R E M. destruct (ra_noted _ _ _ _ R) as (m & Em & C). apply C; auto.
    rewrite Em in E. rewrite <- (app_nil_r (p_notices p)) in E at 2. now apply app_inv_head in E.
  Qed.
End Ran.

Section Brackets.
  Context {S : Type}.
  Variable ts : stream_ops S.
  Variable a : atn.
  Variable names : naming.
  Variable fuel : nat.

  Notation run_call := (run_call ts a names fuel).
  Notation run_calls := (run_calls ts a names fuel).
  Notation flat := (flat (@no_inv S) no_past).
  Notation flat_ex := (flat_ex (@no_inv S) no_past).
  Notation inv := (@inv S).
  Notation mode := in_error_recovery_mode.
  Notation Hist := (no_history ts).
  Ltac step H := match type of H with obindo ?x _ = Val _ => let E := fresh "E" in destruct x eqn:E; cbn [obindo] in H; [|discriminate|discriminate] end.

  Definition opens (h : heap) (i : nat) (st : list nat) : list nat :=
    match nth_error h i with Some c => if x_plain c then st else i :: st | None => st end.
  Lemma opens_entered : forall h i st, brackets st (entered h i) = Some (opens h i st).
  Proof. intros h i st. unfold entered, opens. destruct (nth_error h i) as [c|]; auto. destruct (x_plain c); auto. Qed.
  Lemma opens_left : forall h i st, brackets (opens h i st) (left_ h i) = Some st.
  Proof.
    intros h i st. unfold left_, opens. destruct (nth_error h i) as [c|]; auto. destruct (x_plain c); auto. cbn. now rewrite Nat.eqb_refl.
  Qed.
  Lemma opens_keeps : forall h h' i st, (i < length h)%nat -> keeps_plain h h' -> opens h' i st = opens h i st.
  Proof.
    intros h h' i st Hi K. unfold opens. destruct (nth_error h i) as [c|] eqn:E; [|apply nth_error_None in E; lia].
    destruct (K i c E) as (c' & E' & P). now rewrite E', P.
  Qed.

  Definition told_balanced (p p' : parser S) : Prop := exists es, told_all p p' es /\ balanced es.
  Lemma tb_trans : forall p q r, told_balanced p q -> told_balanced q r -> told_balanced p r.
  Proof.
    intros p q r (es & T & B) (es' & T' & B'). exists (es ++ es'). split; [eapply told_all_trans; eauto|now apply balanced_app].
  Qed.
  Lemma tb_same : forall p q : parser S, p_listeners q = p_listeners p -> p_events q = p_events p -> told_balanced p q.
  Proof. intros. exists []. split; [now apply told_all_same|reflexivity]. Qed.
  Lemma tb_flat : forall p q, flat_ex p q -> told_balanced p q.
  Proof. intros p q [acts F]. exists (flat_map visit_of acts). split; [eapply told_flat; eauto|]. apply visits_balanced. apply visits_of_acts. Qed.

  Definition brackets_ok (c : call) : Prop :=
    forall rec h0 b pr st0 f x p g g' p' f', generated rec c -> inv rec h0 b pr st0 f x p ->
      run_call c g p f = Val (g', p', f', None) -> mode g = false -> p_notices p' = p_notices p ->
      f' = f /\ told_balanced p p'.

  Lemma lt_tb : forall p k p' t, lt ts p k = Val (p', t) -> told_balanced p p'.
  Proof. intros. apply tb_flat. eexists. eapply lt_flat; eauto using no_history. Qed.
  Lemma inside_ok : forall c g p f g' p' f' r, inside c -> run_call c g p f = Val (g', p', f', r) -> f' = f /\ told_balanced p p'.
  Proof.
    intros c g p f g' p' f' r HI H. destruct c; cbn [inside] in HI; try contradiction; cbn [ParserModel.run_call] in H.
    - inversion H; subst. split; auto. now apply tb_same.
    - step H. destruct a0 as [q t]. inversion H; subst. unfold la in E. step E. destruct a0 as [q' t']. inversion E; subst.
      split; auto. eapply lt_tb; eauto.
    - unfold no_result in H. step H. destruct a0 as [[g1 p1] r1]. inversion H; subst. split; auto. apply tb_flat. eapply sync_flat; eauto using no_history.
    - unfold no_tok in H. step H. destruct a0 as [[g1 p1] r1]. inversion H; subst. split; auto. apply tb_flat. eapply match_token_flat; eauto using no_history.
    - unfold no_tok in H. step H. destruct a0 as [[g1 p1] r1]. inversion H; subst. split; auto. apply tb_flat. eapply match_wildcard_flat; eauto using no_history.
    - unfold no_result in H. step H. destruct a0 as [[g1 p1] r1]. inversion H; subst. split; auto. apply tb_flat. eapply match_set_flat; eauto using no_history.
    - destruct (precpred p _); [|step H]; inversion H; subst; split; auto; now apply tb_same.
    - inversion H; subst. split; auto. now apply tb_same.
    - step H. destruct a0 as [q t]. step H. inversion H; subst. split; auto. eapply tb_trans; [eapply lt_tb; eauto|now apply tb_same].
  Qed.
  Lemma before_inside : forall c, before_alt c -> inside c.
  Proof. intros []; cbn; auto. Qed.
  Lemma insides_ok : forall cs g p f g' p' f' r, Forall inside cs -> run_calls cs g p f = Val (g', p', f', r) -> f' = f /\ told_balanced p p'.
  Proof.
    induction cs as [|c cs IH]; intros g p f g' p' f' r HF H; cbn [ParserModel.run_calls] in H.
    - inversion H; subst. split; auto. now apply tb_same.
    - inversion HF; subst. step H. destruct a0 as [[[g1 p1] f1] r1]. destruct (inside_ok _ _ _ _ _ _ _ _ H2 E) as [-> T].
      destruct r1; [inversion H; subst; auto|]. destruct (IH _ _ _ _ _ _ _ H3 H) as [-> T']. split; auto. eapply tb_trans; eauto.
  Qed.

  Lemma run_calls_app : forall cs cs' g p f,
    run_calls (cs ++ cs') g p f = let! (g1, p1, f1, r) := run_calls cs g p f in
                                  match r with None => run_calls cs' g1 p1 f1 | Some e => Val (g1, p1, f1, Some e) end.
  Proof.
    induction cs as [|c cs IH]; intros; cbn [app ParserModel.run_calls obindo]; auto.
    destruct (ParserModel.run_call ts a names fuel c g p f) as [[[[g1 p1] f1] r1]| |]; cbn [obindo]; auto.
    destruct r1; auto.
  Qed.

  (** one more call of a body: the invariant, the mode, no notices *)
  Lemma one_more : forall c cs rec h0 b pr st0 f x p g g' p' f', Forall (generated rec) (c :: cs) -> inv rec h0 b pr st0 f x p ->
    run_calls (c :: cs) g p f = Val (g', p', f', None) -> mode g = false -> p_notices p' = p_notices p ->
    exists g1 p1 f1 x1, run_call c g p f = Val (g1, p1, f1, None) /\ run_calls cs g1 p1 f1 = Val (g', p', f', None) /\
      inv rec h0 b pr st0 f1 x1 p1 /\ mode g1 = false /\ p_notices p1 = p_notices p /\ p_notices p' = p_notices p1.
  Proof.
    intros c cs rec h0 b pr st0 f x p g g' p' f' HG A H M N. cbn [ParserModel.run_calls] in H. step H. destruct a0 as [[[g1 p1] f1] r1].
    destruct r1; try discriminate. inversion HG; subst.
    destruct (all_ok ts a names fuel _ _ Hist _ _ _ _ _ _ _ _ _ _ _ _ _ _ H2 A E Logic.I) as (x1 & A1 & _).
    pose proof (call_ran _ _ _ _ _ _ _ _ _ _ _ _ E) as R1. pose proof (calls_ran _ _ _ _ _ _ _ _ _ _ _ _ H) as R2.
    destruct (ran_silent _ _ _ _ _ _ R1 R2 N) as [N1 N2].
    exists g1, p1, f1, x1. repeat (split; [solve [auto]|]). split; auto. eapply ran_calm; eauto.
  Qed.

  Lemma all_brackets : forall cs, Forall brackets_ok cs -> 
    forall rec h0 b pr st0 f x p g g' p' f', Forall (generated rec) cs -> inv rec h0 b pr st0 f x p ->
      run_calls cs g p f = Val (g', p', f', None) -> mode g = false -> p_notices p' = p_notices p ->
      f' = f /\ told_balanced p p'.
  Proof.
    induction 1 as [|c cs Hc _ IH]; intros rec h0 b pr st0 f x p g g' p' f' HG A H M N.
    - cbn in H. inversion H; subst. split; auto. now apply tb_same.
    - destruct (one_more _ _ _ _ _ _ _ _ _ _ _ _ _ _ HG A H M N) as (g1 & p1 & f1 & x1 & E1 & E2 & A1 & M1 & N1 & N2).
      inversion HG; subst. destruct (Hc _ _ _ _ _ _ _ _ _ _ _ _ H2 A E1 M N1) as [-> T1].
      destruct (IH _ _ _ _ _ _ _ _ _ _ _ _ H3 A1 E2 M1 N2) as [-> T2]. split; auto. eapply tb_trans; eauto.
  Qed.

  Lemma inv_local : forall rec h0 b pr st0 f x p, inv rec h0 b pr st0 f x p -> (f_local f < length (p_heap p))%nat.
  Proof. intros rec h0 b pr st0 f x p [A1 A2 A3 A4 A5 A6 (c & Hc & _) A8]. apply nth_error_Some. congruence. Qed.

  Lemma exit_call : forall rec h0 b pr st0 f x p g g' p' f' r, inv rec h0 b pr st0 f x p ->
    run_call CExitEvent g p f = Val (g', p', f', r) -> f' = f /\ told_all p p' (left_ (p_heap p) (f_local f)).
  Proof.
    intros rec h0 b pr st0 f x p g g' p' f' r A H. cbn [ParserModel.run_call] in H. step H. inversion H; subst.
    destruct (exit_told _ _ E) as (i & Hi & T). rewrite (i_ctx _ _ _ _ _ _ _ _ A) in Hi. inversion Hi; subst. auto.
  Qed.
  Lemma next_call : forall rec h0 b pr st0 f x p g g' p' f' r k pl, inv rec h0 b pr st0 f x p ->
    run_call (CNext k pl) g p f = Val (g', p', f', r) -> told_all p p' (entered (p_heap p') (f_local f')).
  Proof.
    intros rec h0 b pr st0 f x p g g' p' f' r k pl A H. cbn [ParserModel.run_call alloc] in H. step H. inversion H; subst. clear H.
    unfold push_new_recursion_context in E. step E. step E. destruct a1 as [q t]. step E.
    destruct (enter_told _ _ E) as (i & Hi & T). destruct (enter_event _ _ E) as (_ & _ & _ & B4 & _).
    rewrite B4. cbn [f_local set_local]. unfold lt in E1. step E1. destruct a2 as [s u]. inversion E1; subst. clear E1.
    destruct (p_build _) eqn:Eb in *; cbn in Hi; inversion Hi; subst; destruct T as [T1 T2]; (split; [exact T1|exact T2]).
  Qed.
  Lemma alt_call : forall rec h0 b pr st0 f x p g g' p' f' r l, inv rec h0 b pr st0 f x p ->
    run_call (CAlt l) g p f = Val (g', p', f', r) -> told_all p p' (entered (p_heap p') (f_local f')).
  Proof.
    intros rec h0 b pr st0 f x p g g' p' f' r l A H. pose proof (i_ctx _ _ _ _ _ _ _ _ A) as Ec. destruct l as [k|]; cbn [ParserModel.run_call alloc] in H.
    - step H. step H. inversion H; subst. clear H. unfold enter_outer_alt in E0. step E0. step E1. step E1.
      destruct (enter_told _ _ E0) as (i & Hi & T). destruct (enter_event _ _ E0) as (_ & _ & _ & B4 & _). rewrite B4. cbn [f_local set_local].
      inversion E1 as [E1']. clear E1. subst a1. cbn in Hi. inversion Hi; subst. destruct T as [T1 T2].
      destruct (_ && _); [destruct (x_parent a3)|]; (split; [exact T1|exact T2]).
    - step H. inversion H; subst. cbn [enter_outer_alt obindo] in E. destruct (enter_told _ _ E) as (i & Hi & T). destruct (enter_event _ _ E) as (_ & _ & _ & B4 & _).
      rewrite B4. rewrite Ec in Hi. inversion Hi; subst. auto.
  Qed.

  Lemma rounds_brackets : forall (P : call -> Prop) o cs, rounds P o cs -> Forall (fun c => P c -> brackets_ok c) cs ->
    forall h0 b pr st0 f x p g g' p' f', Forall (generated true) cs -> inv true h0 b pr st0 f x p ->
      run_calls cs g p f = Val (g', p', f', None) -> mode g = false -> p_notices p' = p_notices p ->
      exists es, told_all p p' es /\
        forall st, brackets (if o then opens (p_heap p) (f_local f) st else st) es = Some (opens (p_heap p') (f_local f') st).
  Proof.
    intros P o cs HR. induction HR as [|c cs Pc _ IH|c cs Bc _ IH|cs _ IH|k pl cs _ IH]; intros HP h0 b pr st0 f x p g g' p' f' HG A H M N.
    - cbn in H. inversion H; subst. exists []. split; [apply told_all_refl|reflexivity].
    - destruct (one_more _ _ _ _ _ _ _ _ _ _ _ _ _ _ HG A H M N) as (g1 & p1 & f1 & x1 & E1 & E2 & A1 & M1 & N1 & N2).
      inversion HG; subst. inversion HP; subst.
      destruct (H4 Pc _ _ _ _ _ _ _ _ _ _ _ _ H2 A E1 M N1) as [-> (es & T & B)].
      destruct (IH H5 _ _ _ _ _ _ _ _ _ _ _ H3 A1 E2 M1 N2) as (es' & T' & B').
      exists (es ++ es'). split; [eapply told_all_trans; eauto|]. intros st. rewrite brackets_app, (balanced_any _ _ B).
      rewrite <- (opens_keeps (p_heap p) (p_heap p1) _ _ (inv_local _ _ _ _ _ _ _ _ A)); auto.
      eapply ra_plain. eapply call_ran; eauto.
    - destruct (one_more _ _ _ _ _ _ _ _ _ _ _ _ _ _ HG A H M N) as (g1 & p1 & f1 & x1 & E1 & E2 & A1 & M1 & N1 & N2).
      inversion HG; subst. inversion HP; subst.
      destruct (inside_ok _ _ _ _ _ _ _ _ (before_inside _ Bc) E1) as [-> (es & T & B)].
      destruct (IH H5 _ _ _ _ _ _ _ _ _ _ _ H3 A1 E2 M1 N2) as (es' & T' & B').
      exists (es ++ es'). split; [eapply told_all_trans; eauto|]. intros st. rewrite brackets_app, (balanced_any _ _ B). auto.
    - destruct (one_more _ _ _ _ _ _ _ _ _ _ _ _ _ _ HG A H M N) as (g1 & p1 & f1 & x1 & E1 & E2 & A1 & M1 & N1 & N2).
      inversion HG; subst. inversion HP; subst.
      destruct (exit_call _ _ _ _ _ _ _ _ _ _ _ _ _ A E1) as [-> T].
      destruct (IH H5 _ _ _ _ _ _ _ _ _ _ _ H3 A1 E2 M1 N2) as (es' & T' & B').
      eexists. split; [eapply told_all_trans; eauto|]. intros st. rewrite brackets_app, opens_left. auto.
    - destruct (one_more _ _ _ _ _ _ _ _ _ _ _ _ _ _ HG A H M N) as (g1 & p1 & f1 & x1 & E1 & E2 & A1 & M1 & N1 & N2).
      inversion HG; subst. inversion HP; subst.
      pose proof (next_call _ _ _ _ _ _ _ _ _ _ _ _ _ _ _ A E1) as T.
      destruct (IH H5 _ _ _ _ _ _ _ _ _ _ _ H3 A1 E2 M1 N2) as (es' & T' & B').
      eexists. split; [eapply told_all_trans; eauto|]. intros st. rewrite brackets_app, opens_entered. auto.
  Qed.

  Lemma enter_rule_quiet : forall p n s q, enter_rule ts p n s = Val q -> told_all p q [].
  Proof.
    intros p n s q H. unfold enter_rule in H. step H. destruct a0 as [q1 t]. unfold lt in E. step E. destruct a0. inversion E; subst.
    apply told_all_same; (destruct (p_build _); [unfold add_context_to_parse_tree in H; step H; step H; inversion H; subst; destruct (x_parent a1)|inversion H; subst]); reflexivity.
  Qed.
  Lemma enter_rec_quiet : forall p n s k q, enter_recursion_rule ts p n s k = Val q -> told_all p q [].
  Proof.
    intros p n s k q H. unfold enter_recursion_rule in H. step H. destruct a0 as [q1 t]. unfold lt in E. step E. destruct a0. inversion E; subst.
    inversion H; subst. apply told_all_same; reflexivity.
  Qed.
  Lemma left_stop : forall h i t j, left_ (update h i (set_stop t)) j = left_ h j.
  Proof.
    intros h i t j. unfold left_. destruct (Nat.eq_dec i j) as [->|D].
    - destruct (nth_error h j) as [c|] eqn:E; [rewrite (nth_update_same _ _ _ _ E); auto|now rewrite (update_none _ _ _ E), E].
    - rewrite nth_update_other; auto.
  Qed.
  Lemma exit_rule_told : forall p i q, exit_rule ts p = Val q -> p_ctx p = Some i -> told_all p q (left_ (p_heap p) i).
  Proof.
    intros p i q H Hi. unfold exit_rule, get_ctx in H. rewrite Hi in H. cbn [unwrap obindo] in H. step H. destruct a0 as [q1 t]. unfold lt in E. step E. destruct a0. inversion E; subst. clear E.
    step H. step H. inversion H; subst. destruct (exit_told _ _ E) as (j & Hj & T). cbn in Hj. rewrite Hi in Hj. inversion Hj; subst.
    cbn [p_heap modify with_heap with_input] in T. rewrite left_stop in T. destruct T as [T1 T2]. split; auto.
  Qed.
  Lemma told_none : forall p q : parser S, p_listeners p = [] -> p_listeners q = [] -> p_events q = p_events p -> forall es, told_all p q es.
  Proof.
    intros p q L L' E es. split; [congruence|]. rewrite L, E. symmetry. rewrite <- app_nil_r. f_equal. induction es as [|[] es IH]; cbn; auto.
  Qed.
  Lemma unroll_told : forall rec h0 b pr st0 f x p q, inv rec h0 b pr st0 f x p ->
    unroll_recursion_context ts p (f_parent f) = Val q -> told_all p q (left_ (p_heap p) (f_local f)).
  Proof.
    intros rec h0 b pr st0 f x p q A H. pose proof A as [A1 A2 A3 A4 A5 A6 (c & Hc & C1 & _) A8].
    unfold unroll_recursion_context, get_ctx in H. cbn [p_ctx with_prec] in H. rewrite A1 in H. cbn [unwrap obindo] in H.
    step H. destruct a0 as [q1 t]. unfold lt in E. step E. destruct a0. inversion E; subst. clear E. step H. inversion H as [H']. clear H.
    assert (HF : told_all p a0 (left_ (p_heap p) (f_local f))).
    { clear H'. cbn [p_listeners modify with_heap with_input with_prec] in E. destruct (p_listeners p) eqn:El.
      - inversion E; subst. apply told_none; auto.
      - cbn [p_heap modify with_heap with_input with_prec] in E. rewrite update_length in E.
        assert (Hl : (f_local f < length (p_heap p))%nat) by (apply nth_error_Some; congruence).
        destruct (length (p_heap p)) as [|m]; [lia|]. cbn [unroll_loop] in E.
        cbn [p_ctx modify with_heap with_input with_prec] in E. rewrite A1 in E.
        assert (D : same_ctx (Some (f_local f)) (f_parent f) = false).
        { destruct (f_parent f) as [j|] eqn:Ej; cbn; auto. apply Nat.eqb_neq. specialize (A6 j eq_refl). lia. }
        rewrite D in E. step E. destruct (exit_told _ _ E1) as (i & Hi & T). destruct (exit_event _ _ E1) as (B1 & B2 & B3 & B4 & B5 & B6 & _).
        cbn [p_ctx modify with_heap with_input with_prec] in Hi, B1. rewrite A1 in Hi. inversion Hi; subst i. clear Hi.
        unfold get_ctx in E. rewrite B1, A1 in E. cbn [unwrap obindo] in E. unfold deref in E. rewrite B4 in E.
        cbn [p_heap modify with_heap with_input with_prec] in E. rewrite (nth_update_same _ _ _ _ Hc) in E. cbn [unwrap obindo] in E.
        cbn [x_parent set_stop] in E. rewrite C1 in E.
        cbn [p_heap modify with_heap with_input with_prec] in T. rewrite left_stop in T.
        assert (a0 = with_ctx a1 (f_parent f)).
        { destruct m; cbn [unroll_loop p_ctx with_ctx] in E;
            (replace (same_ctx (f_parent f) (f_parent f)) with true in E by (destruct (f_parent f); cbn; auto; symmetry; apply Nat.eqb_refl));
            inversion E; auto. }
        subst a0. destruct T as [T1 T2]. split; auto. }
    destruct HF as [T1 T2]. clear H'. destruct (p_ctx a0); [destruct (p_build a0)|]; (split; [exact T1|exact T2]).
  Qed.

  Lemma rounds_generated : forall o post, rounds announced o post ->
    Forall (fun c => announced c -> forall rec, generated rec c) post -> Forall (generated true) post.
  Proof.
    intros o post HR. induction HR; intros IHp; inversion IHp; subst; constructor; auto; try reflexivity.
    destruct c; cbn in *; auto; contradiction.
  Qed.
  Lemma announced_generated : forall c, announced c -> forall rec, generated rec c.
  Proof.
    induction c as [c N1 N2|rule s pl body IH|rule s n pl body IH] using call_ind'; intros H rec.
    - inversion H; subst; [|exfalso; eapply N1; eauto|exfalso; eapply N2; eauto]. destruct c; cbn in *; auto; contradiction.
    - cbn [generated]. apply generated_forall. inversion H; subst; [contradiction|]. apply Forall_app in IH as [_ IH]. inversion IH; subst.
      apply Forall_app. split.
      + eapply Forall_impl; [|eauto]. intros [] Hc; cbn in *; auto; contradiction.
      + constructor; [destruct l; reflexivity|]. rewrite Forall_forall in *. intros c Hc. apply H4; auto.
    - cbn [generated]. apply generated_forall. inversion H as [| |r0 s0 n0 pl0 pre post HB HR]; subst; [contradiction|].
      apply Forall_app in IH as [_ IH]. inversion IH as [|? ? _ IHp]; subst.
      apply Forall_app. split.
      + eapply Forall_impl; [|eauto]. intros [] Hc; cbn in *; auto; contradiction.
      + constructor; [reflexivity|]. eapply rounds_generated; eauto.
  Qed.
  Lemma before_generated : forall rec pre, Forall before_alt pre -> Forall (generated rec) pre.
  Proof. intros rec pre. apply Forall_impl. intros [] Hc; cbn in *; auto; contradiction. Qed.
  Lemma before_insides : forall pre, Forall before_alt pre -> Forall inside pre.
  Proof. intros pre. apply Forall_impl. apply before_inside. Qed.

  (** the part of a body up to the announcement *)
  Lemma announcement : forall rec pre l post h0 b pr st0 f x p g g' p' f', Forall before_alt pre ->
    Forall (generated rec) (pre ++ CAlt l :: post) -> inv rec h0 b pr st0 f x p ->
    run_calls (pre ++ CAlt l :: post) g p f = Val (g', p', f', None) -> mode g = false -> p_notices p' = p_notices p ->
    exists g1 p1 f1 x1 es, run_calls post g1 p1 f1 = Val (g', p', f', None) /\ inv rec h0 b pr st0 f1 x1 p1 /\
      mode g1 = false /\ p_notices p' = p_notices p1 /\ told_all p p1 es /\ (forall st, brackets st es = Some (opens (p_heap p1) (f_local f1) st)).
  Proof.
    intros rec pre l post. induction pre as [|c pre IH]; intros h0 b pr st0 f x p g g' p' f' HB HG A H M N; cbn [app] in *;
      destruct (one_more _ _ _ _ _ _ _ _ _ _ _ _ _ _ HG A H M N) as (g1 & p1 & f1 & x1 & E1 & E2 & A1 & M1 & N1 & N2).
    - exists g1, p1, f1, x1. eexists. split; [eauto|]. split; [eauto|]. split; [auto|]. split; [auto|]. split; [eapply alt_call; eauto|].
      intros. apply opens_entered.
    - inversion HB; subst. inversion HG; subst.
      destruct (inside_ok _ _ _ _ _ _ _ _ (before_inside _ H2) E1) as [-> (es0 & T0 & B0)].
      destruct (IH _ _ _ _ _ _ _ _ _ _ _ H3 H5 A1 E2 M1 N2) as (g2 & p2 & f2 & x2 & es & K1 & K2 & K3 & K4 & K5 & K6).
      exists g2, p2, f2, x2, (es0 ++ es). repeat (split; [assumption|]). split; [eapply told_all_trans; eauto|].
      intros st. rewrite brackets_app, (balanced_any _ _ B0). auto.
  Qed.

  Lemma tb_wrap : forall p p0 p1 p2 q h i es es0, told_all p p0 [] -> told_all p0 p1 es -> told_balanced p1 p2 -> told_all p2 q es0 ->
    (forall st, brackets st es = Some (opens h i st)) -> (forall st, brackets (opens h i st) es0 = Some st) -> told_balanced p q.
  Proof.
    intros p p0 p1 p2 q h i es es0 T0 T1 (es2 & T2 & B2) T3 B1 B3. exists (([] ++ es) ++ es2 ++ es0). split.
    - eapply told_all_trans; eapply told_all_trans; eauto.
    - unfold balanced. cbn [app]. rewrite brackets_app, B1, brackets_app, (balanced_any _ _ B2). auto.
  Qed.

  (** a rule call from a parser whose current context exists *)
  Lemma called_brackets : forall c, announced c -> 
    match c with CRule _ _ _ body | CRec _ _ _ _ body => Forall (fun c => announced c -> brackets_ok c) body | _ => False end ->
    forall p g f g' p' f', wf p -> run_call c g p f = Val (g', p', f', None) -> mode g = false -> p_notices p' = p_notices p ->
    f' = f /\ told_balanced p p'.
  Proof.
    intros c HA IH p g f g' p' f' W H M N. pose proof (announced_generated _ HA false) as HG.
    destruct c as [s|k| |ty| |inset|n|e|lb|k| | |k pl|rule s pl body|rule s n pl body]; try contradiction.
    - cbn [generated] in HG. apply generated_forall in HG. inversion HA as [|r0 s0 pl0 pre l post HB HP|]; subst; [contradiction|].
      cbn [ParserModel.run_call alloc] in H. step H. rename a0 into p1.
      destruct (enter_rule_inv ts _ _ Hist _ _ _ _ _ _ W E) as ((st0 & A1) & L1 & _).
      pose proof (enter_rule_quiet _ _ _ _ E) as T0.
      pose proof (enter_rule_ran ts g _ _ _ _ E) as R0.
      match type of H with obindo (?rc ?bd g p1 ?fr) _ = _ => change (rc bd g p1 fr) with (run_calls bd g p1 fr) in H end.
      step H. destruct a0 as [[[g2 p2] f2] r2]. step H. destruct a0 as [[g3 p3] r3]. destruct r3; [discriminate|]. step H. inversion H; subst. clear H.
      pose proof (calls_ran _ _ _ _ _ _ _ _ _ _ _ _ E0) as R1. pose proof (catch_ran _ _ _ _ _ _ _ _ _ _ E1) as R2. pose proof (exit_rule_ran ts g' _ _ E2) as R3.
      assert (R : ran g p g p1) by (eapply ran_trans; [apply alloc_ran|eauto]).
      destruct (ran_silent _ _ _ _ _ _ R (ran_trans _ _ _ _ _ _ R1 (ran_trans _ _ _ _ _ _ R2 R3)) N) as [N1 N1'].
      destruct (ran_silent _ _ _ _ _ _ R1 (ran_trans _ _ _ _ _ _ R2 R3) N1') as [N2 N2'].
      destruct (ran_silent _ _ _ _ _ _ R2 R3 N2') as [N3 N3'].
      pose proof (ran_calm _ _ _ _ R1 N2 M) as M2.
      destruct (catch_noted _ _ _ _ _ _ _ _ _ _ E1) as [_ C]. specialize (C M2 N3).
      destruct r2 as [[]|]; try contradiction; [cbn in E1; inversion E1|]. cbn in E1. inversion E1; subst. clear E1.
      split; auto.
      destruct (announcement _ _ _ _ _ _ _ _ _ _ _ _ _ _ _ HB HG A1 E0 M N2) as (g4 & p4 & f4 & x4 & es & K1 & K2 & K3 & K4 & K5 & K6).
      apply Forall_app in IH as [_ IH]. inversion IH as [|? ? _ IHp]; subst.
      apply Forall_app in HG as [_ HG]. inversion HG as [|? ? _ HGp]; subst.
      assert (FB : Forall brackets_ok post). { rewrite Forall_forall in *. auto. }
      destruct (all_brackets _ FB _ _ _ _ _ _ _ _ _ _ _ _ HGp K2 K1 K3 K4) as [-> T2].
      destruct (all_bodies_ok ts a names fuel _ _ Hist _ _ _ _ _ _ _ _ _ _ _ _ _ _ HGp K2 K1 Logic.I) as (x5 & A5 & _).
      pose proof (exit_rule_told _ _ _ E2 (i_ctx _ _ _ _ _ _ _ _ A5)) as T3.
      eapply tb_wrap with (p0 := p1) (p1 := p4) (p2 := p3); eauto.
      intros st. rewrite <- (opens_keeps (p_heap p4) (p_heap p3)); [apply opens_left|eapply inv_local; eauto|].
      eapply ra_plain. eapply calls_ran; eauto.
    - pose proof (announced_generated _ HA true) as HG'. clear HG. rename HG' into HG.
      cbn [generated] in HG. apply generated_forall in HG. inversion HA as [| |r0 s0 n0 pl0 pre post HB HP]; subst; [contradiction|].
      cbn [ParserModel.run_call alloc] in H. step H. rename a0 into p1.
      destruct (enter_recursion_inv ts _ _ Hist _ _ _ _ _ _ _ W E) as ((st0 & A1) & L1 & _).
      pose proof (enter_rec_quiet _ _ _ _ _ E) as T0.
      pose proof (enter_rec_ran ts g _ _ _ _ _ E) as R0.
      match type of H with obindo (?rc ?bd g p1 ?fr) _ = _ => change (rc bd g p1 fr) with (run_calls bd g p1 fr) in H end.
      step H. destruct a0 as [[[g2 p2] f2] r2]. step H. destruct a0 as [[g3 p3] r3]. destruct r3; [discriminate|]. step H. inversion H; subst. clear H.
      pose proof (calls_ran _ _ _ _ _ _ _ _ _ _ _ _ E0) as R1. pose proof (catch_ran _ _ _ _ _ _ _ _ _ _ E1) as R2. pose proof (unroll_ran ts g' _ _ _ E2) as R3.
      assert (R : ran g p g p1) by (eapply ran_trans; [apply alloc_ran|eauto]).
      destruct (ran_silent _ _ _ _ _ _ R (ran_trans _ _ _ _ _ _ R1 (ran_trans _ _ _ _ _ _ R2 R3)) N) as [N1 N1'].
      destruct (ran_silent _ _ _ _ _ _ R1 (ran_trans _ _ _ _ _ _ R2 R3) N1') as [N2 N2'].
      destruct (ran_silent _ _ _ _ _ _ R2 R3 N2') as [N3 N3'].
      pose proof (ran_calm _ _ _ _ R1 N2 M) as M2.
      destruct (catch_noted _ _ _ _ _ _ _ _ _ _ E1) as [_ C]. specialize (C M2 N3).
      destruct r2 as [[]|]; try contradiction; [cbn in E1; inversion E1|]. cbn in E1. inversion E1; subst. clear E1.
      split; auto.
      destruct (announcement _ _ _ _ _ _ _ _ _ _ _ _ _ _ _ HB HG A1 E0 M N2) as (g4 & p4 & f4 & x4 & es & K1 & K2 & K3 & K4 & K5 & K6).
      apply Forall_app in IH as [_ IH]. inversion IH as [|? ? _ IHp]; subst.
      pose proof HG as HGa. apply Forall_app in HG as [_ HG]. inversion HG as [|? ? _ HGp]; subst.
      destruct (rounds_brackets _ _ _ HP IHp _ _ _ _ _ _ _ _ _ _ _ HGp K2 K1 K3 K4) as (es2 & T2 & B2).
      destruct (all_bodies_ok ts a names fuel _ _ Hist _ _ _ _ _ _ _ _ _ _ _ _ _ _ HGa A1 E0 Logic.I) as (x5 & A5 & SF & _).
      destruct SF as (SF & _). cbn [f_parent] in SF. rewrite <- SF in E2.
      pose proof (unroll_told _ _ _ _ _ _ _ _ _ A5 E2) as T3.
      exists (([] ++ es) ++ es2 ++ left_ (p_heap p3) (f_local f2)). split.
      + eapply told_all_trans; eapply told_all_trans; eauto.
      + unfold balanced. cbn [app]. rewrite brackets_app, K6, brackets_app, (B2 []). apply opens_left.
  Qed.

  Lemma announced_brackets : forall c, announced c -> brackets_ok c.
  Proof.
    induction c as [c N1 N2|rule s pl body IH|rule s n pl body IH] using call_ind'; intros HA rec h0 b pr st0 f x p g g' p' f' HG A H M N.
    - inversion HA; subst; [|exfalso; eapply N1; eauto|exfalso; eapply N2; eauto]. eapply inside_ok; eauto.
    - eapply (called_brackets _ HA); eauto. eapply inv_wf; eauto.
    - eapply (called_brackets _ HA); eauto. eapply inv_wf; eauto.
  Qed.
End Brackets.
