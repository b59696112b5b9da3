(** Proofs about the start and stop tokens of the nodes of a parse tree (SpanSpec.v). *)
From Coq Require Import ZArith List Bool Lia.
From Coq Require Import ZifyBool ZifyNat.
From Verif Require Import Outcome IntervalSetModel AtnModel TokenStreamModel TokenStreamSpec Ll1Model.
From Verif Require Import ParserModel ParserSpec ParserTreeProofs ParserRunProofs RecBuildProofs SpanModel SpanSpec.
Import ListNotations.
Local Open Scope Z_scope.
Local Open Scope outcome_scope.

(** ** Calls that leave the end-of-input flag alone *)
Section Eof.
  Context {S : Type}.
  Variable ts : stream_ops S.
  Variable a : atn.
  Variable names : naming.
  Variable fuel : nat.
  Definition same (p p' : parser S) : Prop := p_eof p' = p_eof p.
  Lemma same_refl : forall p, same p p.
  Proof. reflexivity. Qed.
  Lemma same_trans : forall p q r, same p q -> same q r -> same p r.
  Proof. unfold same. congruence. Qed.
  Ltac step H := match type of H with obindo ?x _ = Val _ => let E := fresh "E" in destruct x eqn:E; cbn [obindo] in H; [|discriminate|discriminate] end.

  Lemma lt_eof : forall p k p' t, lt ts p k = Val (p', t) -> same p p'.
  Proof. intros p k p' t H. unfold lt in H. step H. destruct a0. inversion H; subst. reflexivity. Qed.
  Lemma la_eof : forall p k p' t, la ts p k = Val (p', t) -> same p p'.
  Proof. intros p k p' t H. unfold la in H. step H. destruct a0. inversion H; subst. eapply lt_eof; eauto. Qed.
  Lemma notify_eof : forall p m o e p', notify_error_listeners ts p m o e = Val p' -> same p p'.
  Proof. intros p m o e p' H. unfold notify_error_listeners in H. step H. inversion H; subst. reflexivity. Qed.
  Lemma consume_eof : forall rec p p', consume ts rec p = Val p' -> same p p'.
  Proof.
    intros rec p p' H. unfold consume in H. step H. 
    match type of H with obindo ?x _ = _ => assert (Hq : forall q, x = Val q -> same p q) end.
    { intros q Hq. destruct (_ =? _); [inversion Hq; subst; reflexivity|]. step Hq. inversion Hq; subst. reflexivity. }
    step H. specialize (Hq _ eq_refl). destruct (_ || _).
    - step H. destruct rec; inversion H; subst; exact Hq.
    - inversion H; subst. exact Hq.
  Qed.
  Hint Resolve same_refl : eofr.
  Hint Resolve lt_eof la_eof notify_eof consume_eof : eof.

  Lemma report_token_eof : forall msg d p d' p', report_token ts a fuel msg d p = Val (d', p') -> same p p'.
  Proof.
    intros msg d p d' p' H. unfold report_token in H. destruct (recovering d); [inversion H; subst; auto with eof eofr|].
    step H. step H. step H. inversion H; subst. eauto with eof.
  Qed.
  Lemma insertion_eof : forall d p d' p' b, single_token_insertion ts a names fuel d p = Val (d', p', b) -> same p p'.
  Proof.
    intros d p d' p' b H. unfold single_token_insertion in H.
    destruct (la ts p 1) as [[q cur]| |] eqn:E1; cbn [obindo] in H; try discriminate.
    do 6 step H. eapply same_trans; [eauto with eof|].
    destruct (contains _ _).
    - unfold report_missing_token in H. destruct (report_token ts a fuel _ d q) as [[d1 q1]| |] eqn:E7; cbn [obindo] in H; try discriminate.
      inversion H; subst. eapply report_token_eof; eauto.
    - inversion H; subst. auto with eof eofr.
  Qed.
  Lemma deletion_eof : forall d p d' p' t, single_token_deletion ts a names fuel d p = Val (d', p', t) -> same p p'.
  Proof.
    intros d p d' p' t H. unfold single_token_deletion in H.
    destruct (la ts p 2) as [[q cur]| |] eqn:E1; cbn [obindo] in H; try discriminate.
    step H. eapply same_trans; [eauto with eof|].
    destruct (contains _ _).
    - unfold report_unwanted_token in H. destruct (report_token ts a fuel _ d q) as [[d1 q1]| |] eqn:E7; cbn [obindo] in H; try discriminate.
      step H. step H. inversion H; subst. eapply same_trans; [eapply report_token_eof; eauto|eauto with eof].
    - inversion H; subst. auto with eof eofr.
  Qed.
  Lemma consume_loop_eof : forall n rec set p ty p', consume_loop ts n rec set p ty = Val p' -> same p p'.
  Proof.
    induction n as [|n IH]; intros rec set p ty p' H; cbn [consume_loop] in H; destruct (_ && _); try discriminate;
      try (inversion H; subst; auto with eof eofr; fail).
    destruct (consume ts rec p) as [q| |] eqn:E; cbn [obindo] in H; try discriminate.
    destruct (la ts q 1) as [[q1 ty1]| |] eqn:E1; cbn [obindo] in H; try discriminate.
    eapply same_trans; [eauto with eof|]. eapply same_trans; [eauto with eof|]. eauto.
  Qed.
  Lemma consume_until_eof : forall d p set p', consume_until ts fuel d p set = Val p' -> same p p'.
  Proof.
    intros d p set p' H. unfold consume_until in H.
    destruct (la ts p 1) as [[q ty]| |] eqn:E; cbn [obindo] in H; try discriminate.
    eapply same_trans; [eauto with eof|]. eapply consume_loop_eof; eauto.
  Qed.
  Lemma d_recover_inline_eof : forall d p d' p' r, d_recover_inline ts a names fuel d p = Val (d', p', r) -> same p p'.
  Proof.
    intros d p d' p' r H. unfold d_recover_inline in H.
    destruct (single_token_deletion ts a names fuel d p) as [[[d1 q] t]| |] eqn:E; cbn [obindo] in H; try discriminate.
    pose proof (deletion_eof _ _ _ _ _ E). eapply same_trans; [eauto|].
    destruct t as [t|].
    - step H. inversion H; subst. eauto with eof.
    - destruct (single_token_insertion ts a names fuel d1 q) as [[[d2 q2] b]| |] eqn:E2; cbn [obindo] in H; try discriminate.
      pose proof (insertion_eof _ _ _ _ _ E2). destruct b; step H; inversion H; subst; auto.
  Qed.
  Lemma d_recover_eof : forall d p d' p', d_recover ts a fuel d p = Val (d', p') -> same p p'.
  Proof.
    intros d p d' p' H. unfold d_recover in H. step H. step H. step H. inversion H; subst.
    assert (same p a0). { destruct (_ && _); [eauto with eof|inversion E; subst; auto with eof eofr]. }
    eapply same_trans; [eauto|]. eapply consume_until_eof; eauto.
  Qed.
  Lemma d_sync_eof : forall d p d' p' r, d_sync ts a names fuel d p = Val (d', p', r) -> same p p'.
  Proof.
    intros d p d' p' r H. unfold d_sync in H. destruct (recovering d); [inversion H; subst; auto with eof eofr|].
    destruct (la ts p 1) as [[q next]| |] eqn:E; cbn [obindo] in H; try discriminate.
    step H. step H. eapply same_trans; [eauto with eof|].
    destruct (contains a1 next); [inversion H; subst; auto with eof eofr|].
    destruct (contains a1 TOKEN_EPSILON).
    { destruct (nt_ctx d); [inversion H; subst; auto with eof eofr|]. step H. inversion H; subst. auto with eof eofr. }
    destruct (sync_case _); try discriminate.
    - destruct (single_token_deletion ts a names fuel d q) as [[[d1 q1] t]| |] eqn:E3; cbn [obindo] in H; try discriminate.
      pose proof (deletion_eof _ _ _ _ _ E3). destruct t; [|step H]; inversion H; subst; auto.
    - unfold report_unwanted_token in H.
      destruct (report_token ts a fuel _ d q) as [[d1 q1]| |] eqn:E3; cbn [obindo] in H; try discriminate.
      step H. step H. step H. inversion H; subst. eapply same_trans; [eapply report_token_eof; eauto|].
      eapply consume_until_eof; eauto.
  Qed.
  Lemma d_report_error_eof : forall d p e d' p', d_report_error ts a names fuel d p e = Val (d', p') -> same p p'.
  Proof.
    intros d p e d' p' H. unfold d_report_error in H. destruct (recovering d); [inversion H; subst; auto with eof eofr|].
    step H. step H. inversion H; subst. eauto with eof.
  Qed.
  Lemma recover_inline_eof : forall g p g' p' r, recover_inline ts a names fuel g p = Val (g', p', r) -> same p p'.
  Proof.
    intros g p g' p' r H. destruct g as [d|d]; cbn [recover_inline] in H.
    - destruct (d_recover_inline ts a names fuel d p) as [[[d1 q] r1]| |] eqn:E; cbn [obindo] in H; try discriminate.
      inversion H; subst. eapply d_recover_inline_eof; eauto.
    - step H. step H. inversion H; subst. auto with eof eofr.
  Qed.
  Lemma recover_eof : forall g p e g' p' r, recover ts a fuel g p e = Val (g', p', r) -> same p p'.
  Proof.
    intros g p e g' p' r H. destruct g as [d|d]; cbn [recover] in H.
    - destruct (d_recover ts a fuel d p) as [[d1 q]| |] eqn:E; cbn [obindo] in H; try discriminate.
      inversion H; subst. eapply d_recover_eof; eauto.
    - step H. inversion H; subst. auto with eof eofr.
  Qed.
  Lemma sync_eof : forall g p g' p' r, sync ts a names fuel g p = Val (g', p', r) -> same p p'.
  Proof.
    intros g p g' p' r H. destruct g as [d|d]; cbn [sync] in H; [|inversion H; subst; auto with eof eofr].
    destruct (d_sync ts a names fuel d p) as [[[d1 q] r1]| |] eqn:E; cbn [obindo] in H; try discriminate.
    inversion H; subst. eapply d_sync_eof; eauto.
  Qed.
  Lemma report_error_eof : forall g p e g' p', report_error ts a names fuel g p e = Val (g', p') -> same p p'.
  Proof.
    intros g p e g' p' H. destruct g as [d|d]; cbn [report_error] in H;
      destruct (d_report_error ts a names fuel d p e) as [[d1 q]| |] eqn:E; cbn [obindo] in H; try discriminate;
      inversion H; subst; eapply d_report_error_eof; eauto.
  Qed.
  Lemma catch_eof : forall g p r g' p' r', catch ts a names fuel g p r = Val (g', p', r') -> same p p'.
  Proof.
    intros g p r g' p' r' H. unfold catch in H.
    destruct r as [e|]; [|inversion H; subst; auto with eof eofr].
    destruct e; try (inversion H; subst; auto with eof eofr; fail);
      match type of H with (let! _ := report_error ts a names fuel g p ?e in _) = _ =>
        destruct (report_error ts a names fuel g p e) as [[g1 q]| |] eqn:E; cbn [obindo] in H; try discriminate end;
      (eapply same_trans; [eapply report_error_eof; eauto|eapply recover_eof; eauto]).
  Qed.
  Lemma add_missing_eof : forall p t p', add_missing p t = Val p' -> same p p'.
  Proof.
    intros p t p' H. unfold add_missing in H. destruct (_ && _); [|inversion H; subst; auto with eof eofr].
    unfold get_ctx in H. destruct (p_ctx p) as [c|] eqn:Ec; cbn in H; try discriminate. inversion H; subst. reflexivity.
  Qed.
  Lemma match_wildcard_eof : forall g p g' p' r, match_wildcard ts a names fuel g p = Val (g', p', r) -> same p p'.
  Proof.
    intros g p g' p' r H. unfold match_wildcard in H. step H.
    destruct (_ >? 0).
    - step H. inversion H; subst. eauto with eof.
    - destruct (recover_inline ts a names fuel g p) as [[[g1 q] r1]| |] eqn:E1; cbn [obindo] in H; try discriminate.
      pose proof (recover_inline_eof _ _ _ _ _ E1). destruct r1; [step H|]; inversion H; subst; auto.
      eapply same_trans; [eauto|eapply add_missing_eof; eauto].
  Qed.
End Eof.

Lemma merged_filter : forall (P : tok -> bool) l r m, merged l r m -> Forall (fun t => P t = true) l -> Forall (fun t => P t = false) r -> filter P m = l.
Proof.
  intros P l r m M. induction M; intros A B; auto.
  - inversion A; subst. cbn. rewrite H1. f_equal. auto.
  - inversion B; subst. cbn. rewrite H1. auto.
Qed.
Lemma not_consumed_unread : forall t, not_consumed t -> was_read t = false.
Proof. intros t [H|H]; unfold was_read; rewrite H; cbn; [reflexivity|apply andb_false_r]. Qed.
Lemma merged_in : forall A (l r m : list A) x, merged l r m -> In x r -> In x m.
Proof. intros A l r m x M. induction M; cbn; intuition. Qed.

(** ** Trees whose nodes cover what was read *)
Section Spanned.
Context {the_end : tok -> Prop}.
Inductive spanned (h : heap) (P : nat -> Prop) : kid -> tree -> Prop :=
| sp_term : forall t, spanned h P (KTerm t) (Leaf t)
| sp_err : forall t, spanned h P (KErr t) (ErrLeaf t)
| sp_rule : forall i c ks, P i -> nth_error h i = Some c -> Forall2 (spanned h P) (x_children c) ks ->
    covers the_end c (Node (x_rule c) (x_kind c) ks) -> spanned h P (KRule i) (Node (x_rule c) (x_kind c) ks).

Lemma spanned_mono : forall h (P : nat -> Prop) h' (P' : nat -> Prop),
  (forall i, P i -> (i < length h)%nat -> P' i /\ nth_error h' i = nth_error h i) ->
  forall T k, spanned h P k T -> spanned h' P' k T.
Proof.
  intros h P h' P' H. induction T as [t|t|r k ks IH] using tree_ind'; intros x D; inversion D; subst; [constructor|constructor|].
  match goal with E : nth_error h i = Some c |- _ =>
    assert (i < length h)%nat by (apply nth_error_Some; congruence); destruct (H i) as [HP HE]; auto;
    apply sp_rule; auto; [rewrite HE; auto|] end.
  eapply Forall2_impl_in; [|eauto]. exact IH.
Qed.
Lemma spanned_denotes : forall h P T k, spanned h P k T -> denotes h P k T.
Proof.
  intros h P. induction T as [t|t|r k ks IH] using tree_ind'; intros x D; inversion D; subst; [constructor|constructor|].
  apply d_rule; auto. eapply Forall2_impl_in; [|eauto]. exact IH.
Qed.
Lemma spanned_acts : forall h P acts, Forall2 (spanned h P) (map kid_of acts) (map tree_of acts).
Proof. induction acts as [|[t []|t []|t] acts IH]; cbn; constructor; auto; constructor. Qed.
Lemma spanned_det : forall h P P' k T T', spanned h P k T -> denotes h P' k T' -> spanned h P k T'.
Proof. intros h P P' k T T' A B. now rewrite <- (denotes_det _ _ _ _ (spanned_denotes _ _ _ _ A) _ _ B). Qed.

(** every node of the tree *)
Lemma shows_denotes : forall h T k, shows h k T -> denotes h (fun _ => True) k T.
Proof.
  intros h. induction T as [t|t|r k ks IH] using tree_ind'; intros x D; inversion D; subst; [constructor|constructor|].
  apply d_rule; auto. eapply Forall2_impl_in; [|eauto]. exact IH.
Qed.
Lemma spanned_below : forall h P k k', below h k k' -> forall T, spanned h P k T -> exists T', spanned h P k' T'.
Proof.
  intros h P k k' B. induction B as [k|i c k k' Hc Hk _ IH]; intros T D; eauto.
  inversion D; subst. match goal with A : nth_error h i = Some _ |- _ => rewrite Hc in A; inversion A; subst end.
  match goal with F : Forall2 _ (x_children _) _ |- _ => revert Hk F; clear - IH; generalize (x_children c0) as cs end.
  intros cs Hk F. induction F; [contradiction|destruct Hk as [->|Hk]; eauto].
Qed.
Lemma spanned_covers : forall h P k T i c T', spanned h P k T -> below h k (KRule i) -> nth_error h i = Some c ->
  shows h (KRule i) T' -> covers the_end c T'.
Proof.
  intros h P k T i c T' D B Hc Sh. destruct (spanned_below _ _ _ _ B _ D) as [T1 D1].
  pose proof (spanned_det _ _ _ _ _ _ D1 (shows_denotes _ _ _ Sh)) as D2. inversion D2 as [| |i' c' ks HP Hc' F Cv]; subst i' T'. rewrite Hc in Hc'. inversion Hc'; subst c'. exact Cv.
Qed.
End Spanned.

Section Span.
  Context {S : Type}.
  Variable ts : stream_ops S.
  Variable a : atn.
  Variable names : naming.
  Variable fuel : nat.
  Variable Inv : S -> Prop.
  Variable past : S -> list tok.
  Variable now : S -> tok.
  Variable the_end : tok -> Prop.
  Hypothesis Hist : history ts Inv past.
  Hypothesis Look : looking ts Inv past now the_end.
  Notation spanned := (@spanned the_end).
  Ltac step H := match type of H with obindo ?x _ = Val _ => let E := fresh "E" in destruct x eqn:E; cbn [obindo] in H; [|discriminate|discriminate] end.

  Notation run_call := (run_call ts a names fuel).
  Notation run_calls := (run_calls ts a names fuel).
  Notation flat := (flat Inv past).
  Notation consumed := (consumed Inv past).
  Notation eof_now p := (t_type (now (p_input p)) = -1).

  (** a stretch of calls: it adds the nodes [acts], and if it sets the end-of-input flag then
      one of these is the end of input *)
  Definition flate (p p' : parser S) : Prop :=
    exists acts, flat acts p p' /\
      (Inv (p_input p) -> p_eof p' = true -> p_eof p = true \/ eof_now p' /\ exists t e, In (Saw t e) acts).
  Lemma flate_same : forall p p', flat_ex Inv past p p' -> same p p' -> flate p p'.
  Proof. intros p p' [acts F] E. exists acts. split; auto. unfold same in E. intros _ H. left. congruence. Qed.

  Lemma past_now : forall p p' acts, flat acts p p' -> flat_map took acts = [] -> Inv (p_input p) -> now (p_input p') = now (p_input p).
  Proof.
    intros p p' acts F E HI. destruct (fl_past _ _ _ _ _ F HI) as [I1 P1]. rewrite E, app_nil_r in P1. eapply lk_same; eauto.
  Qed.
  (** consuming the end of input after setting the flag *)
  Lemma consume_seen : forall rec q p', consume ts rec (with_eof q) = Val p' -> Inv (p_input q) -> eof_now q ->
    exists t, flat [Saw t rec] q p' /\ eof_now p'.
  Proof.
    intros rec q p' H HI HE. destruct (consume_flat ts Inv past Hist _ _ _ H) as (t & Ht & F).
    unfold get_current_token in Ht. cbn [p_input with_eof] in Ht. pose proof (lk_get _ _ _ _ _ Look _ _ HI Ht) as ->. rewrite HE in F. cbn in F.
    exists (now (p_input q)). assert (F' : flat [Saw (now (p_input q)) rec] q p').
    { change [Saw (now (p_input q)) rec] with ([] ++ [Saw (now (p_input q)) rec]). eapply flat_trans; [apply eof_flat|exact F]. }
    split; auto. rewrite (past_now _ _ _ F' eq_refl HI). exact HE.
  Qed.

  Lemma match_token_e : forall g p ty g' p' r, match_token ts a names fuel g p ty = Val (g', p', r) -> Inv (p_input p) -> flate p p'.
  Proof.
    intros g p ty g' p' r H HI. pose proof (match_token_flat ts a names fuel Inv past Hist _ _ _ _ _ _ H) as FX. unfold match_token in H. step H.
    rename a0 into t. destruct (t_type t =? ty) eqn:Ety.
    - step H. inversion H; subst. destruct (ty =? IntervalSetModel.TOKEN_EOF) eqn:Eeof.
      + unfold get_current_token in E. pose proof (lk_get _ _ _ _ _ Look _ _ HI E) as ->.
        assert (HE : eof_now p) by (unfold IntervalSetModel.TOKEN_EOF in Eeof; lia). destruct (consume_seen _ _ _ E0 HI HE) as (t & F & N).
        exists [Saw t (in_error_recovery_mode (report_match g))]. split; auto. intros _ _. right. split; auto. eexists _, _. left. reflexivity.
      + apply flate_same; auto. eapply consume_eof; eauto.
    - destruct (recover_inline ts a names fuel g p) as [[[g1 q] r1]| |] eqn:E1; cbn [obindo] in H; try discriminate.
      pose proof (recover_inline_eof _ _ _ _ _ _ _ _ _ E1) as SE. apply flate_same; auto.
      destruct r1; [step H|]; inversion H; subst; auto. eapply same_trans; [exact SE|eapply add_missing_eof; eauto].
  Qed.
  Lemma match_set_e : forall i g p g' p' r, match_set ts a names fuel i g p = Val (g', p', r) -> Inv (p_input p) -> flate p p'.
  Proof.
    intros i g p g' p' r H HI. pose proof (match_set_flat ts a names fuel Inv past Hist _ _ _ _ _ _ H) as FX. unfold match_set in H.
    destruct (la ts p 1) as [[q next]| |] eqn:E; cbn [obindo] in H; try discriminate. destruct (i next).
    - destruct (la ts q 1) as [[q1 next1]| |] eqn:E1; cbn [obindo] in H; try discriminate. step H. inversion H; subst.
      pose proof (la_eof _ _ _ _ _ E) as SE. pose proof (la_eof _ _ _ _ _ E1) as SE1.
      pose proof (flat_trans _ _ _ _ _ _ _ (la_flat ts Inv past Hist _ _ _ _ E) (la_flat ts Inv past Hist _ _ _ _ E1)) as F1. cbn [app] in F1.
      destruct (next1 =? IntervalSetModel.TOKEN_EOF) eqn:Eeof.
      + destruct (fl_past _ _ _ _ _ F1 HI) as [I1 P1].
        assert (HE : eof_now q1).
        { unfold la in E1. destruct (lt ts q 1) as [[q2 o]| |] eqn:E2; cbn [obindo] in E1; try discriminate. inversion E1; subst. unfold lt in E2.
          destruct (s_lt ts (p_input q) 1) as [[s' o']| |] eqn:El; cbn [obindo] in E2; try discriminate. inversion E2; subst.
          destruct (fl_past _ _ _ _ _ (la_flat ts Inv past Hist _ _ _ _ E) HI) as [Iq Pq].
          pose proof (lk_lt _ _ _ _ _ Look _ _ _ Iq El) as ->. cbn [p_input with_input] in *. destruct (h_lt _ _ _ Hist _ _ _ _ Iq El) as [Is Ps].
          rewrite (lk_same _ _ _ _ _ Look _ _ Iq Is Ps). unfold IntervalSetModel.TOKEN_EOF in Eeof. lia. }
        destruct (consume_seen _ _ _ E0 I1 HE) as (t & F & N).
        exists ([] ++ [Saw t (in_error_recovery_mode (report_match g))]). split; [eapply flat_trans; eauto|]. intros _ _. right. split; auto.
        eexists _, _. left. reflexivity.
      + apply flate_same; auto. eapply same_trans; [exact SE|]. eapply same_trans; [exact SE1|]. eapply consume_eof; eauto.
    - destruct (recover_inline ts a names fuel g q) as [[[g1 q1] r1]| |] eqn:E1; cbn [obindo] in H; try discriminate.
      inversion H; subst. apply flate_same; auto. eapply same_trans; [eapply la_eof; eauto|eapply recover_inline_eof; eauto].
  Qed.

  (** ** What has been read since a rule was entered *)
  Definition honest (p : parser S) : Prop := p_eof p = true -> eof_now p.
  Definition has_eof (l : list tok) : Prop := exists t, In t l /\ t_type t = -1.
  Record since (p1 : parser S) (l : list tok) (p : parser S) : Prop := Since {
    si_inv1 : Inv (p_input p1);
    si_honest1 : honest p1;
    si_inv : Inv (p_input p);
    si_honest : honest p;
    si_past : past (p_input p) = past (p_input p1) ++ filter was_read l;
    si_eof : p_eof p = true -> p_eof p1 = true \/ has_eof l
  }.
  Lemma since_refl : forall p, Inv (p_input p) -> honest p -> since p [] p.
  Proof. intros p A B. constructor; auto. cbn. now rewrite app_nil_r. Qed.

  (** a stretch during which the flag was set only together with a leaf *)
  Lemma since_step : forall p1 l p l' p', since p1 l p -> consumed l l' p p' ->
    (p_eof p' = true -> p_eof p = true \/ eof_now p' /\ has_eof l') -> since p1 l' p'.
  Proof.
    intros p1 l p l' p' [A1 A2 A3 A4 A5 A6] C HE. destruct (C A3) as (I' & taken & extra & new & P' & -> & M & X).
    pose proof (lk_real _ _ _ _ _ Look _ I') as RL. rewrite P' in RL. apply Forall_app in RL as [_ RL].
    assert (Fn : filter was_read new = taken).
    { eapply merged_filter; eauto. eapply Forall_impl; [|exact X]. intros. now apply not_consumed_unread. }
    constructor; auto.
    - intros E. destruct (HE E) as [E0|[N _]]; auto. specialize (A4 E0). destruct taken as [|x taken].
      + rewrite app_nil_r in P'. rewrite (lk_same _ _ _ _ _ Look _ _ A3 I' P'). exact A4.
      + destruct (lk_next _ _ _ _ _ Look _ _ _ _ A3 I' P') as [_ N]. congruence.
    - rewrite P', A5, filter_app, Fn, app_assoc. reflexivity.
    - intros E. destruct (HE E) as [E0|[_ N]]; auto. destruct (A6 E0) as [H|(t & H1 & H2)]; auto. right. exists t. rewrite in_app_iff. auto.
  Qed.

  Definition starts (p1 : parser S) (st0 : tok) : Prop := st0 = now (p_input p1).

  (** the context closed at [p] with stop token [t] covers what it has read *)
  Lemma since_covers : forall p1 p st0 c r kd ks t k s, starts p1 st0 -> since p1 (flat_map leaves ks) p ->
    x_start c = st0 -> x_stop c = or_invalid t -> s_lt ts (p_input p) k = Val (s, t) ->
    k = -1 \/ k = (if p_eof p then 1 else -1) -> covers the_end c (Node r kd ks).
  Proof.
    intros p1 p st0 c r kd ks t k s St [A1 A2 A3 A4 A5 A6] C1 C2 L K first rest E. unfold read_leaves in E. cbn [leaves] in E.
    rewrite E in A5. destruct (lk_next _ _ _ _ _ Look _ _ _ _ A1 A3 A5) as [N1 N2].
    split; [rewrite C1, St; auto|].
    assert (B : forall s t, s_lt ts (p_input p) (-1) = Val (s, t) -> t = Some (last rest first)).
    { intros s0 t0 L0. eapply (lk_back _ _ _ _ _ Look) with (l := past (p_input p1) ++ removelast (first :: rest)); eauto.
      rewrite A5, <- app_assoc. f_equal.
      replace (last rest first) with (last (first :: rest) first) by (destruct rest; reflexivity).
      apply app_removelast_last. discriminate. }
    destruct K as [->| ->]; [left; rewrite C2, (B _ _ L); reflexivity|].
    destruct (p_eof p) eqn:Ep; [|left; rewrite C2, (B _ _ L); reflexivity].
    right. rewrite (lk_lt _ _ _ _ _ Look _ _ _ A3 L) in C2. rewrite C2. cbn [or_invalid]. split; [apply (lk_end _ _ _ _ _ Look); auto; apply A4; auto|].
    destruct (A6 eq_refl) as [H|H]; [exfalso; apply N2; apply A2; auto|]. exact H.
  Qed.

  (** ** One call *)
  Notation inv := (@inv S).
  Definition sinv (h0 : heap) (f : frame) (p : parser S) : Prop :=
    exists c ks, nth_error (p_heap p) (f_local f) = Some c /\
      Forall2 (spanned (p_heap p) (open_ids (length h0) (f_local f))) (x_children c) ks.
  Lemma Forall2_det : forall h P P' l ks ks', Forall2 (spanned h P) l ks -> Forall2 (denotes h P') l ks' -> ks = ks'.
  Proof.
    intros h P P' l ks ks' A. revert ks'. induction A; intros ks' B; inversion B; subst; auto. f_equal; auto.
    eapply denotes_det; eauto. eapply spanned_denotes; eauto.
  Qed.
  Lemma sinv_tree : forall rec h0 pr st0 f x p, inv rec h0 true pr st0 f x p -> sinv h0 f p ->
    exists c, nth_error (p_heap p) (f_local f) = Some c /\ x_start c = st0 /\ x_rule c = f_rule f /\ x_kind c = fst x /\
      Forall2 (spanned (p_heap p) (open_ids (length h0) (f_local f))) (x_children c) (snd x).
  Proof.
    intros rec h0 pr st0 f x p A (c & ks & Hc & F). destruct (i_node _ _ _ _ _ _ _ _ A) as (c' & Hc' & C1 & C2 & C3 & C4 & C5 & C6).
    rewrite Hc in Hc'. inversion Hc'; subst c'. exists c. specialize (C6 eq_refl). rewrite <- (Forall2_det _ _ _ _ _ _ F C6) in *. auto.
  Qed.
  Lemma Forall2_spanned_mono : forall h (P : nat -> Prop) h' (P' : nat -> Prop) l ks,
    (forall i, P i -> (i < length h)%nat -> P' i /\ nth_error h' i = nth_error h i) ->
    Forall2 (spanned h P) l ks -> Forall2 (spanned h' P') l ks.
  Proof.
    intros h P h' P' l ks H F. eapply Forall2_impl_in; [|exact F]. apply Forall_forall. intros T _ k. now apply spanned_mono.
  Qed.

  Definition goes (p1 : parser S) (h0 : heap) (x' : content) (f' : frame) (p' : parser S) : Prop :=
    sinv h0 f' p' /\ since p1 (all_leaves x') p'.

  Lemma span_flat : forall rec h0 pr st0 f x p p1 p' x', inv rec h0 true pr st0 f x p -> sinv h0 f p ->
    since p1 (all_leaves x) p -> flate p p' -> inv rec h0 true pr st0 f x' p' -> goes p1 h0 x' f p'.
  Proof.
    intros rec h0 pr st0 f x p p1 p' x' A Si Sn (acts & F & HE) A'.
    pose proof (inv_flat _ _ _ _ _ _ _ _ _ _ _ _ A F) as A2.
    pose proof (inv_det _ _ _ _ _ _ _ _ _ _ _ _ _ A' A2 eq_refl eq_refl) as ->.
    destruct (sinv_tree _ _ _ _ _ _ _ A Si) as (c & Hc & C1 & C2 & C3 & C4).
    split.
    - pose proof (fl_heap _ _ _ _ _ F) as FH. rewrite (i_ctx _ _ _ _ _ _ _ _ A) in FH. unfold kids_of, showing in FH.
      rewrite (i_build _ _ _ _ _ _ _ _ A) in FH. cbn [orb grow] in FH.
      eexists _, (snd x ++ map tree_of acts). split; [rewrite FH; apply nth_update_same; eauto|].
      cbn [add_kids set_children x_children]. apply Forall2_app; [|apply spanned_acts].
      eapply Forall2_spanned_mono; [|exact C4]. intros i [Hi1 Hi2] _. split; [split; auto|]. rewrite FH. apply nth_update_other. congruence.
    - eapply since_step; [exact Sn| |].
      + unfold all_leaves. cbn [snd]. rewrite flat_map_app. now apply flat_consumed.
      + intros E. destruct (HE (si_inv _ _ _ Sn) E) as [E0|(N & t & e & Hin)]; auto. right. split; auto.
        exists t. split; [|exact (proj1 (Forall_forall _ _) (fl_ok _ _ _ _ _ F) _ Hin)].
        unfold all_leaves. cbn [snd]. rewrite flat_map_app, in_app_iff. right. apply in_flat_map. exists (tree_of (Saw t e)).
        split; [now apply in_map|]. destruct e; cbn; auto.
  Qed.

  (** calls that change at most the links and the stop token of the current context *)
  Lemma span_quiet : forall rec h0 pr st0 f x p p1 p' x' u, inv rec h0 true pr st0 f x p -> sinv h0 f p ->
    since p1 (all_leaves x) p -> p_heap p' = update (p_heap p) (f_local f) u -> (forall c, x_children (u c) = x_children c) ->
    (Inv (p_input p) -> Inv (p_input p') /\ past (p_input p') = past (p_input p)) -> same p p' ->
    inv rec h0 true pr st0 f x' p' -> goes p1 h0 x' f p'.
  Proof.
    intros rec h0 pr st0 f x p p1 p' x' u A Si Sn Hh Hu HI HS A'.
    destruct (sinv_tree _ _ _ _ _ _ _ A Si) as (c & Hc & C1 & C2 & C3 & C4).
    assert (Si' : Forall2 (spanned (p_heap p') (open_ids (length h0) (f_local f))) (x_children (u c)) (snd x)).
    { rewrite Hu. eapply Forall2_spanned_mono; [|exact C4]. intros i [Hi1 Hi2] _. split; [split; auto|]. rewrite Hh. apply nth_update_other. congruence. }
    assert (Hc' : nth_error (p_heap p') (f_local f) = Some (u c)) by (rewrite Hh; now apply nth_update_same).
    assert (Si2 : sinv h0 f p') by (exists (u c), (snd x); auto).
    split; auto. destruct (i_node _ _ _ _ _ _ _ _ A') as (c' & Hc'' & _ & _ & _ & _ & _ & C6). rewrite Hc' in Hc''. inversion Hc''; subst c'.
    unfold all_leaves. rewrite <- (Forall2_det _ _ _ _ _ _ Si' (C6 eq_refl)).
    eapply since_step; [exact Sn|apply consumed_refl; auto|]. unfold same in HS. intros E. left. congruence.
  Qed.

  (** calls that replace the current context by a copy *)
  Lemma span_copy : forall rec h0 pr st0 f f' x p p1 p' x' c c', inv rec h0 true pr st0 f x p -> sinv h0 f p ->
    since p1 (all_leaves x) p -> nth_error (p_heap p) (f_local f) = Some c -> 
    f_local f' = length (p_heap p) -> nth_error (p_heap p') (length (p_heap p)) = Some c' -> x_children c' = x_children c ->
    (forall i, (length h0 <= i < length (p_heap p))%nat -> nth_error (p_heap p') i = nth_error (p_heap p) i) ->
    p_input p' = p_input p -> same p p' ->
    inv rec h0 true pr st0 f' x' p' -> goes p1 h0 x' f' p'.
  Proof.
    intros rec h0 pr st0 f f' x p p1 p' x' c c' A Si Sn Hc Hf Hc' Hk Ho HI HS A'.
    destruct (sinv_tree _ _ _ _ _ _ _ A Si) as (c0 & Hc0 & C1 & C2 & C3 & C4). rewrite Hc in Hc0. inversion Hc0; subst c0. clear Hc0.
    assert (Si' : Forall2 (spanned (p_heap p') (open_ids (length h0) (f_local f'))) (x_children c') (snd x)).
    { rewrite Hk. eapply Forall2_spanned_mono; [|exact C4]. intros i [Hi1 Hi2] Hl. split; [split; auto; lia|]. apply Ho. lia. }
    assert (Hc2 : nth_error (p_heap p') (f_local f') = Some c') by (rewrite Hf; auto).
    split; [exists c', (snd x); auto|]. destruct (i_node _ _ _ _ _ _ _ _ A') as (c2 & Hc'' & _ & _ & _ & _ & _ & C6). rewrite Hc2 in Hc''. inversion Hc''; subst c2.
    unfold all_leaves. rewrite <- (Forall2_det _ _ _ _ _ _ Si' (C6 eq_refl)).
    eapply since_step; [exact Sn|apply consumed_refl; rewrite HI; auto|]. unfold same in HS. intros E. left. congruence.
  Qed.

  Lemma enter_event_eof : forall p q : parser S, trigger_enter_rule_event p = Val q -> same p q.
  Proof. intros p q H. unfold trigger_enter_rule_event in H. step H. step H. inversion H; subst. unfold same. destruct (x_plain a1); reflexivity. Qed.
  Lemma exit_event_eof : forall p q : parser S, trigger_exit_rule_event p = Val q -> same p q.
  Proof. intros p q H. unfold trigger_exit_rule_event in H. step H. step H. inversion H; subst. unfold same. destruct (x_plain a1); reflexivity. Qed.

  Lemma label_span : forall k rec h0 pr st0 f x p p1 g g' p' f' r x', generated rec (CLabel k) ->
    inv rec h0 true pr st0 f x p -> sinv h0 f p -> since p1 (all_leaves x) p ->
    run_call (CLabel k) g p f = Val (g', p', f', r) -> inv rec h0 true pr st0 f' x' p' -> goes p1 h0 x' f' p'.
  Proof.
    intros k rec h0 pr st0 f x p p1 g g' p' f' r x' HG A Si Sn H A'. cbn [ParserModel.run_call] in H.
    destruct (i_node _ _ _ _ _ _ _ _ A) as (c & Hc & _). unfold deref in H. rewrite Hc in H. cbn [unwrap obindo alloc] in H.
    inversion H; subst p' f' r g'. clear H.
    eapply (span_copy _ _ _ _ _ _ _ _ _ _ _ c (copy_from c k false) A Si Sn Hc); eauto; try reflexivity.
    - cbn [p_heap with_heap with_ctx]. apply nth_app_new.
    - intros i Hi. cbn [p_heap with_heap with_ctx]. apply nth_app_old. lia.
  Qed.

  Lemma alt_span : forall k rec h0 pr st0 f x p p1 g g' p' f' r x', generated rec (CAlt (Some k)) ->
    inv rec h0 true pr st0 f x p -> sinv h0 f p -> since p1 (all_leaves x) p ->
    run_call (CAlt (Some k)) g p f = Val (g', p', f', r) -> inv rec h0 true pr st0 f' x' p' -> goes p1 h0 x' f' p'.
  Proof.
    intros k rec h0 pr st0 f x p p1 g g' p' f' r x' HG A Si Sn H A'. cbn [ParserModel.run_call] in H.
    pose proof A as [A1 A2 A3 A4 A5 A6 (c & Hc & C1 & C2 & C3 & C4 & C5 & C6) A8].
    unfold deref in H. rewrite Hc in H. cbn [unwrap obindo alloc] in H.
    assert (Hloc : (f_local f < length (p_heap p))%nat) by (apply nth_error_Some; congruence).
    unfold enter_outer_alt in H. cbn [get_ctx p_ctx with_heap] in H. unfold get_ctx in H. cbn [p_ctx with_heap] in H. rewrite A1 in H.
    cbn [unwrap obindo] in H. unfold deref in H. cbn [p_heap with_heap] in H. rewrite nth_app_old, Hc in H by auto.
    cbn [unwrap obindo] in H. cbn [p_build with_heap] in H.
    set (n := length (p_heap p)) in *. replace (Nat.eqb n (f_local f)) with false in H by (symmetry; apply Nat.eqb_neq; lia).
    rewrite A2, andb_true_r, C1 in H.
    set (h1 := p_heap p ++ [copy_from c k false]) in *. cbv iota in H.
    set (q1 := match f_parent f with
               | Some j => modify (modify (with_heap p h1) j remove_last_child) j (add_child (KRule n))
               | None => with_heap p h1 end) in *.
    step H. inversion H; subst p' f' r g'. clear H.
    destruct (enter_event _ _ E) as (B1 & B2 & B3 & B4 & B5 & B6 & _).
    assert (P1 : p_input q1 = p_input p /\ p_eof q1 = p_eof p).
    { subst q1. destruct (f_parent f); cbn; auto. }
    destruct P1 as (P4 & P5). cbn [p_ctx p_build p_prec p_heap p_listeners p_input with_ctx] in *.
    assert (Hheap : p_heap q1 = match f_parent f with
                        | Some j => update (update h1 j remove_last_child) j (add_child (KRule n)) | None => h1 end).
    { subst q1. destruct (f_parent f); cbn; auto. }
    assert (Hhi : forall i, (length h0 <= i)%nat -> nth_error (p_heap q1) i = nth_error h1 i).
    { intros i Hi. rewrite Hheap. destruct (f_parent f) as [j|]; auto. specialize (A6 j eq_refl).
      rewrite !nth_update_other by lia. auto. }
    eapply (span_copy _ _ _ _ _ _ _ _ _ _ _ c (copy_from c k false) A Si Sn Hc); eauto; try reflexivity; try congruence.
    - rewrite B4, Hhi by (unfold n in *; lia). apply nth_app_new.
    - intros i Hi. rewrite B4, Hhi by lia. apply nth_app_old. lia.
    - eapply same_trans; [|eapply enter_event_eof; exact E]. unfold same. cbn. exact P5.
  Qed.

  Lemma next_span : forall k pl rec h0 pr st0 f x p p1 g g' p' f' r x', generated rec (CNext k pl) ->
    inv rec h0 true pr st0 f x p -> sinv h0 f p -> starts p1 st0 -> since p1 (all_leaves x) p ->
    run_call (CNext k pl) g p f = Val (g', p', f', r) -> inv rec h0 true pr st0 f' x' p' -> goes p1 h0 x' f' p'.
  Proof.
    intros k pl rec h0 pr st0 f x p p1 g g' p' f' r x' HG A Si St Sn H A'. cbn [ParserModel.run_call] in H.
    pose proof A as [A1 A2 A3 A4 A5 A6 (c & Hc & C1 & C2 & C3 & C4 & C5 & C6) A8].
    destruct (sinv_tree _ _ _ _ _ _ _ A Si) as (cc & Hcc & _ & _ & _ & F4). rewrite Hc in Hcc. inversion Hcc; subst cc. clear Hcc.
    cbn [alloc] in H. set (n := length (p_heap p)) in *. set (c1 := new_parser_ctx _ _ _ _ _) in *.
    assert (Hloc : (f_local f < n)%nat) by (apply nth_error_Some; congruence).
    unfold push_new_recursion_context in H. unfold get_ctx in H. cbn [p_ctx with_heap] in H. rewrite A1 in H. cbn [unwrap obindo] in H.
    set (p0 := modify (modify (with_heap p (p_heap p ++ [c1])) (f_local f) (set_parent (Some n))) (f_local f) (set_invoking_state (f_start f))) in *.
    destruct (lt ts p0 (-1)) as [[q t]| |] eqn:Elt; cbn [obindo] in H; try discriminate.
    pose proof (lt_eof _ _ _ _ _ Elt) as Leof. unfold same in Leof.
    pose proof (lt_flat ts Inv past Hist _ _ _ _ Elt) as F. destruct F as [F1 F2 F3 F4' F5 F6 F7 F8 F9].
    assert (Ls : exists s, s_lt ts (p_input p) (-1) = Val (s, t)).
    { unfold lt in Elt. change (p_input p0) with (p_input p) in Elt. destruct (s_lt ts (p_input p) (-1)) as [[s t']| |]; cbn [obindo] in Elt; try discriminate.
      inversion Elt; subst. eauto. }
    destruct Ls as (s & Ls).
    assert (Fh : p_heap q = p_heap p0).
    { rewrite F6. unfold kids_of. destruct (showing p0); apply grow_nil. }
    set (u := fun c => set_stop t (set_invoking_state (f_start f) (set_parent (Some n) c))).
    assert (Hq : update (p_heap q) (f_local f) (set_stop t) = update (p_heap p) (f_local f) u ++ [c1]).
    { rewrite Fh. subst p0. cbn. rewrite !update_update. rewrite update_app_old by auto. reflexivity. }
    unfold deref, modify in H. cbn [p_heap with_heap] in H. rewrite Hq in H. 
    rewrite nth_app_old in H by (rewrite update_length; auto). rewrite (nth_update_same _ _ _ _ Hc) in H. cbn [unwrap obindo] in H.
    assert (Hnew : forall y v, update (update (p_heap p) (f_local f) u ++ [y]) n v = update (p_heap p) (f_local f) u ++ [v y]).
    { intros y v. replace n with (length (update (p_heap p) (f_local f) u)) by apply update_length. apply update_app_new. }
    rewrite Hnew in H.
    set (c2 := set_start (Some (x_start (u c))) c1) in *.
    cbn [p_build with_ctx with_heap] in H. rewrite F2 in H. replace (p_build p0) with true in H by (subst p0; cbn; auto). cbv iota in H.
    cbn [p_heap with_ctx with_heap] in H. rewrite Hnew in H.
    step H. inversion H; subst p' f' r g'. clear H.
    destruct (enter_event _ _ E) as (B1 & B2 & B3 & B4 & B5 & B6 & _). pose proof (enter_event_eof _ _ E) as B8. unfold same in B8.
    cbn [p_heap p_input p_eof with_heap with_ctx] in B4, B6, B8.
    set (c3 := add_child (KRule (f_local f)) c2) in *.
    assert (Hn : nth_error (p_heap a0) n = Some c3).
    { rewrite B4. replace n with (length (update (p_heap p) (f_local f) u)) by apply update_length. apply nth_app_new. }
    assert (Hold : forall i, (i < n)%nat -> i <> f_local f -> nth_error (p_heap a0) i = nth_error (p_heap p) i).
    { intros i Hi D. rewrite B4. rewrite nth_app_old by (rewrite update_length; auto). apply nth_update_other. congruence. }
    assert (Hl : nth_error (p_heap a0) (f_local f) = Some (u c)).
    { rewrite B4. rewrite nth_app_old by (rewrite update_length; auto). now apply nth_update_same. }
    assert (Cv : covers the_end (u c) (Node (x_rule (u c)) (x_kind (u c)) (snd x))).
    { eapply since_covers with (p := p) (t := t) (k := -1); eauto. }
    assert (Si' : Forall2 (spanned (p_heap a0) (open_ids (length h0) n)) (x_children c3) [Node (x_rule (u c)) (x_kind (u c)) (snd x)]).
    { constructor; [|constructor]. apply sp_rule; auto.
      - split; [auto|lia].
      - eapply Forall2_spanned_mono; [|exact F4]. intros i [Hi1 Hi2] Hlt. split; [split; auto; unfold n; lia|]. apply Hold; auto. }
    split; [exists c3, [Node (x_rule (u c)) (x_kind (u c)) (snd x)]; auto|].
    destruct (i_node _ _ _ _ _ _ _ _ A') as (c' & Hc' & _ & _ & _ & _ & _ & D6). cbn [f_local set_local] in Hc', D6. rewrite Hn in Hc'. inversion Hc'; subst c'.
    unfold all_leaves. rewrite <- (Forall2_det _ _ _ _ _ _ Si' (D6 eq_refl)). cbn [flat_map leaves]. rewrite app_nil_r.
    eapply since_step; [exact Sn|apply consumed_refl|].
    - rewrite B6. intros HI. destruct (F8 HI) as [I1 P1]. cbn in P1. rewrite app_nil_r in P1. auto.
    - intros E8. left. rewrite B8, Leof in E8. exact E8.
  Qed.

  (** ** Entering and leaving *)
  Lemma enter_starts : forall p c n start q, nth_error (p_heap p) n = Some c -> x_parent c <> Some n -> Inv (p_input p) -> enter_rule ts p n start = Val q ->
    same p q /\ exists c', nth_error (p_heap q) n = Some c' /\ x_start c' = now (p_input q) /\ x_children c' = x_children c.
  Proof.
    intros p c n start q Hn Hp HI H. unfold enter_rule in H. step H. destruct a0 as [p1 t].
    pose proof (lt_eof _ _ _ _ _ E) as LE. destruct (lt_same ts Inv past Hist _ _ _ _ E) as (B1 & B2 & B3 & B4 & B5 & B6 & B7).
    cbn [p_heap p_input set_state] in *. destruct (B7 HI) as [I1 P1].
    assert (t = Some (now (p_input p))) as ->.
    { unfold lt in E. destruct (s_lt ts (p_input (set_state p start)) 1) as [[s t']| |] eqn:El; cbn [obindo] in E; try discriminate. inversion E; subst.
      eapply (lk_lt _ _ _ _ _ Look); [|exact El]. exact HI. }
    assert (Hc1 : nth_error (update (p_heap p1) n (set_start (Some (now (p_input p))))) n = Some (set_start (Some (now (p_input p))) c)).
    { apply nth_update_same. now rewrite B4. }
    cbn [p_build with_ctx modify with_heap] in H. destruct (p_build p1).
    - unfold add_context_to_parse_tree, get_ctx in H. cbn [p_ctx with_ctx unwrap obindo] in H. unfold deref in H. cbn [p_heap with_ctx modify with_heap] in H.
      rewrite Hc1 in H. cbn [unwrap obindo] in H. inversion H; subst q. clear H. change (x_parent (set_start _ c)) with (x_parent c).
      destruct (x_parent c) as [j|] eqn:Ej; (split; [exact LE|]); eexists; cbn [p_heap p_input modify with_heap with_ctx].
      + rewrite nth_update_other by congruence. split; [exact Hc1|]. split; [|reflexivity]. cbn. symmetry. now apply (lk_same _ _ _ _ _ Look).
      + split; [exact Hc1|]. split; [|reflexivity]. cbn. symmetry. now apply (lk_same _ _ _ _ _ Look).
    - inversion H; subst q. split; [exact LE|]. eexists. cbn [p_heap p_input modify with_heap with_ctx]. split; [exact Hc1|].
      split; [|reflexivity]. cbn. symmetry. now apply (lk_same _ _ _ _ _ Look).
  Qed.
  Lemma enter_rec_starts : forall p c n start prec q, nth_error (p_heap p) n = Some c -> Inv (p_input p) -> enter_recursion_rule ts p n start prec = Val q ->
    same p q /\ exists c', nth_error (p_heap q) n = Some c' /\ x_start c' = now (p_input q) /\ x_children c' = x_children c.
  Proof.
    intros p c n start prec q Hn HI H. unfold enter_recursion_rule in H. step H. destruct a0 as [p1 t].
    pose proof (lt_eof _ _ _ _ _ E) as LE. destruct (lt_same ts Inv past Hist _ _ _ _ E) as (B1 & B2 & B3 & B4 & B5 & B6 & B7).
    cbn [p_heap p_input set_state with_prec] in *. destruct (B7 HI) as [I1 P1].
    assert (t = Some (now (p_input p))) as ->.
    { unfold lt in E. destruct (s_lt ts (p_input (with_prec (set_state p start) _)) 1) as [[s t']| |] eqn:El; cbn [obindo] in E; try discriminate. inversion E; subst.
      eapply (lk_lt _ _ _ _ _ Look); [|exact El]. exact HI. }
    inversion H; subst q. split; [exact LE|]. eexists. cbn [p_heap p_input modify with_heap with_ctx].
    split; [apply nth_update_same; rewrite B4; exact Hn|]. split; [|reflexivity]. cbn. symmetry. now apply (lk_same _ _ _ _ _ Look).
  Qed.

  (** a context that only got its stop token and other links *)
  Definition closed (c c' : rctx) (t : option tok) : Prop :=
    x_children c' = x_children c /\ x_start c' = x_start c /\ x_rule c' = x_rule c /\ x_kind c' = x_kind c /\ x_stop c' = or_invalid t.
  Record left_at (low n : nat) (p p' : parser S) (k : Z) : Prop := LeftAt {
    la_node : exists c c' t s, nth_error (p_heap p) n = Some c /\ nth_error (p_heap p') n = Some c' /\ closed c c' t /\
      s_lt ts (p_input p) k = Val (s, t);
    la_others : forall i, (low <= i)%nat -> i <> n -> nth_error (p_heap p') i = nth_error (p_heap p) i;
    la_eof_same : same p p'
  }.
  Lemma lt_s : forall p k q t, lt ts p k = Val (q, t) -> exists s, s_lt ts (p_input p) k = Val (s, t).
  Proof.
    intros p k q t H. unfold lt in H. destruct (s_lt ts (p_input p) k) as [[s t']| |]; cbn [obindo] in H; try discriminate. inversion H; subst. eauto.
  Qed.
  Lemma exit_left : forall low n c p p', p_ctx p = Some n -> nth_error (p_heap p) n = Some c -> exit_rule ts p = Val p' ->
    left_at low n p p' (if p_eof p then 1 else -1).
  Proof.
    intros low n c p p' Hc Hn H. unfold exit_rule, get_ctx in H. rewrite Hc in H. cbn [unwrap obindo] in H.
    step H. destruct a0 as [p4 t]. destruct (lt_same ts Inv past Hist _ _ _ _ E) as (B1 & B2 & B3 & B4 & B5 & B6 & B7).
    pose proof (lt_eof _ _ _ _ _ E) as LE. destruct (lt_s _ _ _ _ E) as (s & Ls).
    step H. rename a0 into p5. destruct (exit_event _ _ E0) as (X1 & X2 & X3 & X4 & X5 & X6 & X7). pose proof (exit_event_eof _ _ E0) as XE.
    step H. inversion H; subst p'. clear H. cbn [p_heap modify with_heap] in X4. rewrite B4 in X4.
    constructor; cbn [p_heap with_ctx set_state]; rewrite ?X4.
    - exists c, (set_stop t c), t, s. split; auto. split; [now apply nth_update_same|]. split; [repeat split|exact Ls].
    - intros i _ D. apply nth_update_other. congruence.
    - unfold same in *. cbn in *. congruence.
  Qed.
  Lemma unroll_loop_same : forall m (p : parser S) parent p', unroll_loop m p parent = Val p' -> p_heap p' = p_heap p /\ same p p' /\ p_build p' = p_build p /\ p_ctx p' = parent.
  Proof.
    induction m as [|m IH]; intros p parent p' H; cbn [unroll_loop] in H.
    - destruct (same_ctx (p_ctx p) parent) eqn:Es; [|discriminate]. inversion H; subst. repeat split.
      destruct (p_ctx p'), parent; cbn in Es; try discriminate; auto. apply Nat.eqb_eq in Es. congruence.
    - destruct (same_ctx (p_ctx p) parent) eqn:Es.
      + inversion H; subst. repeat split. destruct (p_ctx p'), parent; cbn in Es; try discriminate; auto. apply Nat.eqb_eq in Es. congruence.
      + step H. step H. step H. destruct (exit_event _ _ E) as (X1 & X2 & X3 & X4 & X5 & X6 & X7). pose proof (exit_event_eof _ _ E) as XE.
        destruct (IH _ _ _ H) as (Y1 & Y2 & Y3 & Y4). cbn in Y1, Y2, Y3. unfold same in *. cbn in Y2. repeat split; congruence.
  Qed.
  Lemma unroll_left : forall low n c p parent p', (forall j, parent = Some j -> (j < low)%nat) -> (low <= n)%nat ->
    p_ctx p = Some n -> nth_error (p_heap p) n = Some c -> unroll_recursion_context ts p parent = Val p' -> left_at low n p p' (-1).
  Proof.
    intros low n c p parent p' Hpar Hlow Hc Hn H. unfold unroll_recursion_context, get_ctx in H. cbn [p_ctx with_prec] in H. rewrite Hc in H. cbn [unwrap obindo] in H.
    step H. destruct a0 as [p4 t]. destruct (lt_same ts Inv past Hist _ _ _ _ E) as (B1 & B2 & B3 & B4 & B5 & B6 & B7).
    pose proof (lt_eof _ _ _ _ _ E) as LE. destruct (lt_s _ _ _ _ E) as (s & Ls). cbn [p_heap p_input with_prec] in *.
    set (p5 := modify p4 n (set_stop t)) in *.
    assert (HU : forall p6, (match p_listeners p5 with [] => Val (with_ctx p5 parent) | _ => unroll_loop (length (p_heap p5)) p5 parent end) = Val p6 ->
                 p_heap p6 = p_heap p5 /\ same p5 p6 /\ p_ctx p6 = parent).
    { intros p6 HU. destruct (p_listeners p5); [inversion HU; subst; repeat split|]. destruct (unroll_loop_same _ _ _ _ HU) as (Y1 & Y2 & Y3 & Y4). auto. }
    step H. destruct (HU _ eq_refl) as (U1 & U2 & U3). clear HU. injection H as H'. cbn [p_ctx modify with_heap] in H'. rewrite U3 in H'.
    set (u := set_parent parent) in *.
    assert (Hfin : p_eof p' = p_eof a0 /\ forall i, (low <= i)%nat -> nth_error (p_heap p') i = nth_error (update (p_heap a0) n u) i).
    { rewrite <- H'. destruct parent as [j|]; [|split; auto]. specialize (Hpar j eq_refl). cbn [p_build modify with_heap]. destruct (p_build a0); (split; [reflexivity|]); auto.
      intros i Hi. cbn [p_heap modify with_heap]. apply nth_update_other. lia. }
    destruct Hfin as [Fe Fh]. clear H'. rewrite U1 in Fh. unfold p5 in Fh. cbn [p_heap modify with_heap] in Fh. rewrite B4, update_update in Fh.
    constructor.
    - exists c, (u (set_stop t c)), t, s. split; auto. split; [rewrite Fh by auto; exact (nth_update_same _ _ _ _ Hn)|]. split; [repeat split|exact Ls].
    - intros i Hi D. rewrite Fh by auto. apply nth_update_other. congruence.
    - unfold same in *. rewrite Fe, U2. unfold p5. cbn. exact LE.
  Qed.

  (** closing the context: its node covers what it has read *)
  Lemma close_span : forall rec h0 pr st0 f x p p1 p' k, inv rec h0 true pr st0 f x p -> sinv h0 f p -> starts p1 st0 ->
    since p1 (all_leaves x) p -> left_at (length h0) (f_local f) p p' k -> k = -1 \/ k = (if p_eof p then 1 else -1) ->
    spanned (p_heap p') (fun j => (length h0 <= j)%nat) (KRule (f_local f)) (Node (f_rule f) (fst x) (snd x)).
  Proof.
    intros rec h0 pr st0 f x p p1 p' k A Si St Sn [(c & c' & t & s & Hc & Hc' & (D1 & D2 & D3 & D4 & D5) & Ls) Ho _] K.
    destruct (sinv_tree _ _ _ _ _ _ _ A Si) as (c0 & Hc0 & C1 & C2 & C3 & C4). rewrite Hc in Hc0. inversion Hc0; subst c0. clear Hc0.
    rewrite <- C2, <- C3, <- D3, <- D4. apply sp_rule; auto.
    - apply (i_low _ _ _ _ _ _ _ _ A).
    - rewrite D1. eapply Forall2_spanned_mono; [|exact C4]. intros i [Hi1 Hi2] _. split; auto.
    - eapply since_covers; eauto. congruence.
  Qed.

  Definition call_span (c : call) : Prop :=
    forall rec h0 pr st0 f x p p1 g g' p' f' r x', generated rec c -> inv rec h0 true pr st0 f x p -> sinv h0 f p -> starts p1 st0 ->
      since p1 (all_leaves x) p -> run_call c g p f = Val (g', p', f', r) -> ended r ->
      inv rec h0 true pr st0 f' x' p' -> goes p1 h0 x' f' p'.
  Definition body_span (cs : list call) : Prop :=
    forall rec h0 pr st0 f x p p1 g g' p' f' r x', Forall (generated rec) cs -> inv rec h0 true pr st0 f x p -> sinv h0 f p -> starts p1 st0 ->
      since p1 (all_leaves x) p -> run_calls cs g p f = Val (g', p', f', r) -> ended r ->
      inv rec h0 true pr st0 f' x' p' -> goes p1 h0 x' f' p'.

  Lemma body_spans : forall cs, Forall call_span cs -> body_span cs.
  Proof.
    induction 1 as [|c cs Hc _ IH]; intros rec h0 pr st0 f x p p1 g g' p' f' r x' HG A Si St Sn H E A'; cbn [ParserModel.run_calls] in H.
    - inversion H; subst. rewrite (inv_det _ _ _ _ _ _ _ _ _ _ _ _ _ A' A eq_refl eq_refl). split; auto.
    - inversion HG as [|? ? G1 G2]; subst.
      destruct (ParserModel.run_call ts a names fuel c g p f) as [[[[g1 q1] f1] r1]| |] eqn:E1; cbn [obindo] in H; try discriminate.
      destruct r1 as [e|].
      + inversion H; subst. exact (Hc _ _ _ _ _ _ _ _ _ _ _ _ _ _ G1 A Si St Sn E1 E A').
      + destruct (all_ok ts a names fuel Inv past Hist c _ _ _ _ _ _ _ _ _ _ _ _ _ G1 A E1 Logic.I) as (x1 & A1 & _).
        destruct (Hc _ _ _ _ _ _ _ _ _ _ _ _ _ _ G1 A Si St Sn E1 Logic.I A1) as [Si1 Sn1].
        exact (IH _ _ _ _ _ _ _ _ _ _ _ _ _ _ G2 A1 Si1 St Sn1 H E A').
  Qed.

  Record span_returned (p p' : parser S) (n : nat) (T : tree) : Prop := SpanReturned {
    sr_tree : spanned (p_heap p') (fun j => (length (p_heap p) <= j)%nat) (KRule n) T;
    sr_inv : Inv (p_input p');
    sr_honest : honest p';
    sr_eof : p_eof p' = true -> p_eof p = true \/ has_eof (leaves T)
  }.

  Lemma rule_span : forall rule start pl body g p f g' p' f' r, body_span body -> Forall (generated false) body -> wf p ->
    p_build p = true -> Inv (p_input p) -> honest p ->
    run_call (CRule rule start pl body) g p f = Val (g', p', f', r) -> ended r ->
    exists n T, returned Inv past rule body p p' n T /\ span_returned p p' n T.
  Proof.
    intros rule start pl body g p f g' p' f' r HB HG W Hb HI HH H HE.
    destruct (rule_returned_at ts a names fuel Inv past Hist _ _ _ _ _ _ _ _ _ _ _ (all_bodies_ok ts a names fuel Inv past Hist body) HG W H HE)
      as (-> & -> & _ & n & T & R & At).
    exists n, T. split; auto. cbn [ParserModel.run_call alloc] in H. step H. rename a0 into p1.
    destruct (enter_rule_inv ts Inv past Hist _ _ _ _ _ _ W E) as ((st0 & A1) & L1 & I1). destruct (I1 HI) as [J1 K1].
    match type of H with obindo (?rc body g p1 ?fr) _ = _ => change (rc body g p1 fr) with (run_calls body g p1 fr) in H end.
    step H. destruct a0 as [[[g2 p2] f2] r2]. step H. destruct a0 as [[g3 p3] r3].
    destruct (At _ _ _ _ _ _ _ _ eq_refl E0 E1) as (-> & _ & st1 & x3 & A3 & ->).
    destruct r3; [discriminate|]. step H. inversion H; subst g' a0. clear H At.
    destruct (enter_starts (with_heap p (p_heap p ++ [new_parser_ctx (p_ctx p) (p_state p) rule 0 pl])) (new_parser_ctx (p_ctx p) (p_state p) rule 0 pl) _ _ _ (nth_app_new _ _) (fun Q => wf_not_self _ W Q) HI E) as (SE & c1 & Hc1 & Hst & Hk).
    unfold same in SE. cbn [p_eof with_heap] in SE.
    assert (E2' : ended r2) by (destruct r2 as [[]|]; cbn; auto; cbn in E1; inversion E1).
    rewrite Hb in *.
    destruct (all_bodies_ok ts a names fuel Inv past Hist body _ _ _ _ _ _ _ _ _ _ _ _ _ HG A1 E0 E2') as (x2 & A2 & SF & _ & _ & _).
    assert (St0 : starts p1 st0).
    { destruct (i_node _ _ _ _ _ _ _ _ A1) as (c & Hc & _ & _ & _ & C4 & _). cbn [f_local] in Hc. rewrite Hc1 in Hc. inversion Hc; subst c.
      unfold starts. congruence. }
    assert (H1 : honest p1).
    { unfold honest. rewrite SE. intros Q. rewrite (lk_same _ _ _ _ _ Look _ _ HI J1 K1). auto. }
    assert (Si1 : sinv (p_heap p) (Frame (length (p_heap p)) (p_ctx p) (p_state p) start rule) p1).
    { exists c1, []. split; auto. rewrite Hk. constructor. }
    destruct (HB _ _ _ _ _ _ _ _ _ _ _ _ _ _ HG A1 Si1 St0 (since_refl _ J1 H1) E0 E2' A2) as [Si2 Sn2].
    assert (A3' : inv false (p_heap p) true (p_prec p) st0 f2 x3 p3).
    { destruct (catch_flat ts a names fuel Inv past Hist _ _ _ _ _ _ E1) as [acts F].
      pose proof (inv_flat _ _ _ _ _ _ _ _ _ _ _ _ A2 F) as A4. rewrite (inv_det _ _ _ _ _ _ _ _ _ _ _ _ _ A3 A4 eq_refl eq_refl). exact A4. }
    assert (Fl : flate p2 p3) by (apply flate_same; [eapply catch_flat; eauto|eapply catch_eof; eauto]).
    destruct (span_flat _ _ _ _ _ _ _ _ _ _ A2 Si2 Sn2 Fl A3') as [Si3 Sn3].
    destruct (i_node _ _ _ _ _ _ _ _ A3') as (c3 & Hc3 & _).
    pose proof (exit_left (length (p_heap p)) _ _ _ _ (i_ctx _ _ _ _ _ _ _ _ A3') Hc3 E2) as Lf.
    destruct SF as (S1 & S2 & S3 & S4). cbn [f_rule] in S4.
    assert (I3 : Inv (p_input p') /\ past (p_input p') = past (p_input p3)).
    { unfold exit_rule, get_ctx in E2. rewrite (i_ctx _ _ _ _ _ _ _ _ A3') in E2. cbn [unwrap obindo] in E2. step E2. destruct a0 as [p4 t].
      destruct (lt_same ts Inv past Hist _ _ _ _ E3) as (B1 & B2 & B3 & B4 & B5 & B6 & B7). step E2. destruct (exit_event _ _ E4) as (X1 & X2 & X3 & X4 & X5 & X6 & X7).
      step E2. inversion E2; subst. cbn. rewrite X6. cbn. apply B7. apply (si_inv _ _ _ Sn3). }
    destruct I3 as [I3 P3]. pose proof (la_eof_same _ _ _ _ _ Lf) as LE. unfold same in LE.
    constructor; auto.
    - rewrite <- S4. eapply close_span; eauto.
    - unfold honest. rewrite LE. intros Q. rewrite (lk_same _ _ _ _ _ Look _ _ (si_inv _ _ _ Sn3) I3 P3). apply (si_honest _ _ _ Sn3 Q).
    - rewrite LE. intros Q. destruct (si_eof _ _ _ Sn3 Q) as [Q1|Q1]; [left; congruence|right; exact Q1].
  Qed.

  Lemma rec_span : forall rule start prec pl body g p f g' p' f' r, body_span body -> Forall (generated true) body -> wf p ->
    p_build p = true -> Inv (p_input p) -> honest p ->
    run_call (CRec rule start prec pl body) g p f = Val (g', p', f', r) -> ended r ->
    exists n T, returned Inv past rule body p p' n T /\ span_returned p p' n T.
  Proof.
    intros rule start prec pl body g p f g' p' f' r HB HG W Hb HI HH H HE.
    destruct (rec_returned_at ts a names fuel Inv past Hist _ _ _ _ _ _ _ _ _ _ _ _ (all_bodies_ok ts a names fuel Inv past Hist body) HG W H HE)
      as (-> & -> & n & T & R & At).
    exists n, T. split; auto. cbn [ParserModel.run_call alloc] in H. step H. rename a0 into p1.
    destruct (enter_recursion_inv ts Inv past Hist _ _ _ _ _ _ _ W E) as ((st0 & A1) & L1 & I1). destruct (I1 HI) as [J1 K1].
    match type of H with obindo (?rc body g p1 ?fr) _ = _ => change (rc body g p1 fr) with (run_calls body g p1 fr) in H end.
    step H. destruct a0 as [[[g2 p2] f2] r2]. step H. destruct a0 as [[g3 p3] r3].
    destruct (At _ _ _ _ _ _ _ _ eq_refl E0 E1) as (-> & _ & st1 & x3 & A3 & ->).
    destruct r3; [discriminate|]. step H. inversion H; subst g' a0. clear H At.
    destruct (enter_rec_starts (with_heap p (p_heap p ++ [new_parser_ctx (p_ctx p) (p_state p) rule 0 pl])) (new_parser_ctx (p_ctx p) (p_state p) rule 0 pl) _ _ _ _ (nth_app_new _ _) HI E) as (SE & c1 & Hc1 & Hst & Hk).
    unfold same in SE. cbn [p_eof with_heap] in SE.
    assert (E2' : ended r2) by (destruct r2 as [[]|]; cbn; auto; cbn in E1; inversion E1).
    rewrite Hb in *.
    destruct (all_bodies_ok ts a names fuel Inv past Hist body _ _ _ _ _ _ _ _ _ _ _ _ _ HG A1 E0 E2') as (x2 & A2 & SF & _ & _ & _).
    assert (St0 : starts p1 st0).
    { destruct (i_node _ _ _ _ _ _ _ _ A1) as (c & Hc & _ & _ & _ & C4 & _). cbn [f_local] in Hc. rewrite Hc1 in Hc. inversion Hc; subst c.
      unfold starts. congruence. }
    assert (H1 : honest p1).
    { unfold honest. rewrite SE. intros Q. rewrite (lk_same _ _ _ _ _ Look _ _ HI J1 K1). auto. }
    assert (Si1 : sinv (p_heap p) (Frame (length (p_heap p)) (p_ctx p) (p_state p) start rule) p1).
    { exists c1, []. split; auto. rewrite Hk. constructor. }
    destruct (HB _ _ _ _ _ _ _ _ _ _ _ _ _ _ HG A1 Si1 St0 (since_refl _ J1 H1) E0 E2' A2) as [Si2 Sn2].
    assert (A3' : inv true (p_heap p) true (p_prec p ++ [prec]) st0 f2 x3 p3).
    { destruct (catch_flat ts a names fuel Inv past Hist _ _ _ _ _ _ E1) as [acts F].
      pose proof (inv_flat _ _ _ _ _ _ _ _ _ _ _ _ A2 F) as A4. rewrite (inv_det _ _ _ _ _ _ _ _ _ _ _ _ _ A3 A4 eq_refl eq_refl). exact A4. }
    assert (Fl : flate p2 p3) by (apply flate_same; [eapply catch_flat; eauto|eapply catch_eof; eauto]).
    destruct (span_flat _ _ _ _ _ _ _ _ _ _ A2 Si2 Sn2 Fl A3') as [Si3 Sn3].
    destruct (i_node _ _ _ _ _ _ _ _ A3') as (c3 & Hc3 & _).
    pose proof (unroll_left (length (p_heap p)) _ _ _ _ _ W (i_low _ _ _ _ _ _ _ _ A3') (i_ctx _ _ _ _ _ _ _ _ A3') Hc3 E2) as Lf.
    destruct SF as (S1 & S2 & S3 & S4). cbn [f_rule] in S4.
    destruct (r_tree _ _ _ _ _ _ _ _ R Hb) as (_ & _ & C). destruct (C HI) as (I3 & taken & extra & new & P3 & Eq & M & X). cbn [app] in Eq. subst new.
    pose proof (la_eof_same _ _ _ _ _ Lf) as LE. unfold same in LE.
    assert (P3' : past (p_input p') = past (p_input p3)).
    { rewrite (si_past _ _ _ Sn3), P3, K1. f_equal. symmetry. eapply merged_filter; eauto.
      - pose proof (lk_real _ _ _ _ _ Look _ I3) as RL. rewrite P3 in RL. apply Forall_app in RL. tauto.
      - eapply Forall_impl; [|exact X]. intros. now apply not_consumed_unread. }
    constructor; auto.
    - rewrite <- S4. eapply close_span; eauto.
    - unfold honest. rewrite LE. intros Q. rewrite (lk_same _ _ _ _ _ Look _ _ (si_inv _ _ _ Sn3) I3 P3'). apply (si_honest _ _ _ Sn3 Q).
    - rewrite LE. intros Q. destruct (si_eof _ _ _ Sn3 Q) as [Q1|Q1]; [left; congruence|right; exact Q1].
  Qed.

  (** the rule call seen from its caller *)
  Lemma caller_span : forall rec h0 pr st0 f x p p1 rule body p' n T x', inv rec h0 true pr st0 f x p -> sinv h0 f p -> since p1 (all_leaves x) p ->
    returned Inv past rule body p p' n T -> span_returned p p' n T -> inv rec h0 true pr st0 f x' p' -> goes p1 h0 x' f p'.
  Proof.
    intros rec h0 pr st0 f x p p1 rule body p' n T x' A Si Sn R SR A'.
    pose proof (inv_returned Inv past _ _ _ _ _ _ _ _ _ _ _ _ _ A R) as A2.
    rewrite (inv_det _ _ _ _ _ _ _ _ _ _ _ _ _ A' A2 eq_refl eq_refl). clear x' A'.
    destruct (sinv_tree _ _ _ _ _ _ _ A Si) as (c & Hc & C1 & C2 & C3 & C4).
    assert (Hloc : (f_local f < length (p_heap p))%nat) by (apply nth_error_Some; congruence).
    destruct R as [R1 R2 R3 R4 R5 R6 R7 R8 R9]. pose proof (i_build _ _ _ _ _ _ _ _ A) as Hb. rewrite Hb, (i_ctx _ _ _ _ _ _ _ _ A) in R8. cbn [grow] in R8.
    split.
    - exists (add_kids [KRule n] c), (snd x ++ [T]). split; [rewrite R8 by auto; now apply nth_update_same|].
      cbn [x_children add_kids set_children]. apply Forall2_app.
      + eapply Forall2_spanned_mono; [|exact C4]. intros i [I1 I2] Hi. split; [split; auto|]. rewrite R8 by auto. apply nth_update_other. congruence.
      + constructor; [|constructor]. eapply spanned_mono; [|exact (sr_tree _ _ _ _ SR)]. intros i Hi _. cbn in Hi.
        pose proof (i_low _ _ _ _ _ _ _ _ A). pose proof (i_len _ _ _ _ _ _ _ _ A). split; [split; lia|auto].
    - destruct (R9 Hb) as (_ & _ & C). eapply since_step; [exact Sn| |].
      + unfold all_leaves. cbn [snd]. rewrite flat_map_app. cbn [flat_map]. rewrite app_nil_r.
        intros HI. destruct (C HI) as (I1 & t1 & e1 & n1 & P1 & P2 & P3 & P4). cbn in P2. subst n1. split; auto. exists t1, e1, (leaves T). auto.
      + intros E. destruct (sr_eof _ _ _ _ SR E) as [Q|(t & Q1 & Q2)]; auto. right. split; [apply (sr_honest _ _ _ _ SR E)|].
        exists t. split; auto. unfold all_leaves. cbn [snd]. rewrite flat_map_app, in_app_iff. right. cbn [flat_map]. rewrite app_nil_r. exact Q1.
  Qed.

  Lemma calls_span : forall c, call_span c.
  Proof.
    induction c as [c N1 N2|rule s pl body IH|rule s n pl body IH] using call_ind'.
    - destruct c as [s|k| |ty| |inset|n|e|[k|]|k| | |k pl|r s pl b|r s n pl b];
        try solve [exfalso; eapply N1; eauto|exfalso; eapply N2; eauto]; clear N1 N2;
        intros rec h0 pr st0 f x p p1 g g' p' f' r x' HG A Si St Sn H HE A';
        try solve [exact (alt_span _ _ _ _ _ _ _ _ _ _ _ _ _ _ _ HG A Si Sn H A')|exact (label_span _ _ _ _ _ _ _ _ _ _ _ _ _ _ _ HG A Si Sn H A')
                  |exact (next_span _ _ _ _ _ _ _ _ _ _ _ _ _ _ _ _ HG A Si St Sn H A')]; cbn [ParserModel.run_call] in H.
      + inversion H; subst. eapply (span_quiet _ _ _ _ _ _ _ _ _ _ (fun c => c) A Si Sn); eauto; try reflexivity. symmetry. apply update_id.
      + step H. destruct a0 as [q t]. inversion H; subst. pose proof (la_eof _ _ _ _ _ E) as LE. unfold la in E. step E. destruct a0 as [q' t']. inversion E; subst.
        destruct (lt_same ts Inv past Hist _ _ _ _ E0) as (B1 & B2 & B3 & B4 & B5 & B6 & B7).
        eapply (span_quiet _ _ _ _ _ _ _ _ _ _ (fun c => c) A Si Sn); eauto. rewrite B4. symmetry. apply update_id.
      + unfold no_result in H. step H. destruct a0 as [[g1 q1] r1]. inversion H; subst.
        eapply (span_flat _ _ _ _ _ _ _ _ _ _ A Si Sn); eauto. apply flate_same; [eapply sync_flat; eauto|eapply sync_eof; eauto].
      + unfold no_tok in H. step H. destruct a0 as [[g1 q1] r1]. inversion H; subst.
        eapply (span_flat _ _ _ _ _ _ _ _ _ _ A Si Sn); eauto. eapply match_token_e; eauto. apply (si_inv _ _ _ Sn).
      + unfold no_tok in H. step H. destruct a0 as [[g1 q1] r1]. inversion H; subst.
        eapply (span_flat _ _ _ _ _ _ _ _ _ _ A Si Sn); eauto. apply flate_same; [eapply match_wildcard_flat; eauto|eapply match_wildcard_eof; eauto].
      + unfold no_result in H. step H. destruct a0 as [[g1 q1] r1]. inversion H; subst.
        eapply (span_flat _ _ _ _ _ _ _ _ _ _ A Si Sn); eauto. eapply match_set_e; eauto. apply (si_inv _ _ _ Sn).
      + assert (p' = p /\ f' = f) as [-> ->].
        { destruct (precpred p n); [inversion H; auto|]. step H. inversion H; auto. }
        eapply (span_quiet _ _ _ _ _ _ _ _ _ _ (fun c => c) A Si Sn); eauto; try reflexivity. symmetry. apply update_id.
      + inversion H; subst. eapply (span_quiet _ _ _ _ _ _ _ _ _ _ (fun c => c) A Si Sn); eauto; try reflexivity. symmetry. apply update_id.
      + step H. inversion H; subst. cbn [enter_outer_alt obindo] in E.
        destruct (enter_event _ _ E) as (B1 & B2 & B3 & B4 & B5 & B6 & _).
        eapply (span_quiet _ _ _ _ _ _ _ _ _ _ (fun c => c) A Si Sn); eauto.
        * rewrite B4. symmetry. apply update_id.
        * rewrite B6. auto.
        * eapply enter_event_eof; eauto.
      + step H. destruct a0 as [q t]. destruct (lt_same ts Inv past Hist _ _ _ _ E) as (B1 & B2 & B3 & B4 & B5 & B6 & B7).
        pose proof (lt_eof _ _ _ _ _ E) as LE.
        unfold get_ctx in H. rewrite B1, (i_ctx _ _ _ _ _ _ _ _ A) in H. cbn [unwrap obindo] in H. inversion H; subst.
        eapply (span_quiet _ _ _ _ _ _ _ _ _ _ (set_stop t) A Si Sn); eauto. cbn. now rewrite B4.
      + step H. inversion H; subst. destruct (exit_event _ _ E) as (B1 & B2 & B3 & B4 & B5 & B6 & _).
        eapply (span_quiet _ _ _ _ _ _ _ _ _ _ (fun c => c) A Si Sn); eauto.
        * rewrite B4. symmetry. apply update_id.
        * rewrite B6. auto.
        * eapply exit_event_eof; eauto.
    - intros rec h0 pr st0 f x p p1 g g' p' f' r x' HG A Si St Sn H HE A'. cbn [generated] in HG. apply generated_forall in HG.
      destruct (rule_span _ _ _ _ _ _ _ _ _ _ _ (body_spans _ IH) HG (inv_wf _ _ _ _ _ _ _ _ A) (i_build _ _ _ _ _ _ _ _ A) (si_inv _ _ _ Sn) (si_honest _ _ _ Sn) H HE) as (n & T & R & SR).
      destruct (rule_returned ts a names fuel Inv past Hist _ _ _ _ _ _ _ _ _ _ _ (all_bodies_ok ts a names fuel Inv past Hist body) HG (inv_wf _ _ _ _ _ _ _ _ A) H HE) as (_ & -> & _).
      exact (caller_span _ _ _ _ _ _ _ _ _ _ _ _ _ _ A Si Sn R SR A').
    - intros rec h0 pr st0 f x p p1 g g' p' f' r x' HG A Si St Sn H HE A'. cbn [generated] in HG. apply generated_forall in HG.
      destruct (rec_span _ _ _ _ _ _ _ _ _ _ _ _ (body_spans _ IH) HG (inv_wf _ _ _ _ _ _ _ _ A) (i_build _ _ _ _ _ _ _ _ A) (si_inv _ _ _ Sn) (si_honest _ _ _ Sn) H HE) as (m & T & R & SR).
      destruct (rec_returned ts a names fuel Inv past Hist _ _ _ _ _ _ _ _ _ _ _ _ (all_bodies_ok ts a names fuel Inv past Hist body) HG (inv_wf _ _ _ _ _ _ _ _ A) H HE) as (_ & -> & _).
      exact (caller_span _ _ _ _ _ _ _ _ _ _ _ _ _ _ A Si Sn R SR A').
  Qed.
  Lemma bodies_span : forall body, body_span body.
  Proof. intros. apply body_spans. apply Forall_forall. intros. apply calls_span. Qed.
End Span.
