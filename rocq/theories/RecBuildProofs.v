(** The trees generated parsers build for valid input. *)
From Coq Require Import ZArith List Bool Lia.
From Verif Require Import CharStreamModel TokenStreamModel TokenStreamSpec TokenStreamProofs CommonTokenStreamProofs.
From Verif Require Import Outcome IntervalSetModel IntervalSetSpec PredContextModel SemContextModel ConfigSetModel DfaModel AtnModel AtnSpec Ll1Model Ll1Spec ParserModel ParserSpec ParserTreeProofs ParserRunProofs ParserEventProofs ParserStreamProofs.
From Verif Require Import PredictModel GenModel GenSpec GenBaseProofs GenStepProofs GenSoundProofs RecModel RecSpec RecCallsProofs RecSoundProofs RecTreeProofs RecBuildSpec.
Import ListNotations.
Local Open Scope Z_scope.
Local Open Scope outcome_scope.

Lemma denotes_det h P : forall T k, denotes h P k T -> forall P' T', denotes h P' k T' -> T = T'.
Proof.
  induction T as [t|t|r kd ks IH] using tree_ind'; intros k D P' T' D'; inversion D; subst; inversion D'; subst; auto.
  match goal with A : nth_error h ?i = Some ?c, B : nth_error h ?i = Some ?c' |- _ => assert (c = c') as <- by congruence end.
  f_equal. match goal with F1 : Forall2 _ (x_children ?c) ?l1, F2 : Forall2 _ (x_children ?c) ?l2 |- _ => revert F1 F2; generalize (x_children c); clear D D'; revert l2 end.
  induction IH as [|T ks HT _ IHk]; intros l2 cs F1 F2; inversion F1; subst; inversion F2; subst; auto. f_equal; [eapply HT; eauto | eapply IHk; eauto].
Qed.
Lemma inv_det {S} rec rec' h0 h0' pr pr' s s' f f' x x' (p : parser S) :
  inv rec h0 true pr s f x p -> inv rec' h0' true pr' s' f' x' p -> f_local f = f_local f' -> f_rule f = f_rule f' -> x = x'.
Proof.
  intros A B E R. pose proof (inv_tree _ _ _ _ _ _ _ _ A eq_refl) as DA. pose proof (inv_tree _ _ _ _ _ _ _ _ B eq_refl) as DB.
  rewrite E in DA. pose proof (denotes_det _ _ _ _ DA _ _ DB) as Q. injection Q as _ Q1 Q2. destruct x, x'; cbn in *; congruence.
Qed.
Lemma merged_none {A} (l r : list A) : merged l r [] -> l = [] /\ r = [].
Proof. inversion 1; auto. Qed.

Section Build.
  Variable src : nat -> tok.
  Variable ch : Z.
  Variable sfuel : nat.
  Variable e : nat.
  Hypothesis He : eof_number src e.
  Hypothesis Hf : (e <= sfuel)%nat.
  Notation ts := (common_seek src ch sfuel).
  Notation base := (common_stream src ch sfuel).
  Notation ahead := (ahead src ch sfuel).
  Notation parser := (parser uts).
  Implicit Types p : parser.
  Notation mode := in_error_recovery_mode.
  Notation reading := (reading src ch).
  Notation past := (read_so_far src ch).
  Notation Hist := (common_history src ch sfuel e He Hf).
  Notation flat := (flat reading past).
  Variable a : atn.
  Variable names : naming.
  Variable fuel : nat.
  Notation run_calls := (ParserModel.run_calls base a names fuel).
  Notation run_call := (ParserModel.run_call base a names fuel).
  Ltac step H := match type of H with obindo ?x _ = Val _ => let E := fresh "E" in destruct x eqn:E; cbn [obindo] in H; [|discriminate|discriminate] end.

  (** ** Calls without errors *)
  Lemma sync_exact g p g' p' : sync base a names fuel g p = Val (g', p', None) -> mode g = false -> p_notices p' = p_notices p -> flat [] p p'.
  Proof.
    intros H M N. destruct g as [d|d]; cbn [sync] in H; [|injection H as <- <-; apply flat_refl].
    destruct (d_sync base a names fuel d p) as [[[d1 p1] r1]| |] eqn:E; cbn [obindo] in H; try discriminate. injection H as <- <- ->.
    unfold d_sync in E. cbn [mode] in M. rewrite M in E. destruct (ParserModel.la base p 1) as [[q x]| |] eqn:E1; cbn [obindo] in E; try discriminate.
    pose proof (la_flat _ _ _ Hist _ _ _ _ E1) as Fq. pose proof (la_notices base _ _ _ _ E1) as Nq. unfold same_notices in Nq. step E. step E.
    destruct (contains a1 x); [injection E as <- <-; exact Fq|].
    destruct (contains a1 TOKEN_EPSILON); [destruct (nt_ctx d); [injection E as <- <-; exact Fq|]; step E; injection E as <- <-; exact Fq|].
    destruct (sync_case _).
    - destruct (single_token_deletion base a names fuel d q) as [[[d2 p2] t2]| |] eqn:E4; cbn [obindo] in E; try discriminate.
      destruct t2 as [t2|]; [|step E; discriminate]. injection E as <- <-. destruct (deletion_clean src ch sfuel e Hf a names fuel _ _ _ _ _ E4 M) as (Q & _); [congruence | discriminate].
    - exfalso. unfold report_unwanted_token in E. destruct (report_token base a fuel _ d q) as [[d2 q2]| |] eqn:E4; cbn [obindo] in E; try discriminate.
      step E. step E. step E. injection E as <- <-. destruct (report_token_grows src ch sfuel e Hf a fuel _ _ _ _ _ E4 M) as (Ne & _). apply Ne.
      pose proof (consume_until_notices base fuel _ _ _ _ E6) as N5. unfold same_notices in N5. congruence.
    - discriminate.
  Qed.
  Lemma matched_mode g : mode g = false -> mode (report_match g) = false.
  Proof. destruct g; cbn; auto. Qed.
  Definition taken (k : tok) : act := if t_type k =? -1 then Saw k false else Took k false.
  Lemma consume_exact q p p' w : flat [] p q -> ParserModel.consume base false q = Val p' -> ahead (p_input q) w ->
    exists k, flat [taken k] p p' /\ t_type k = hd TOKEN_EOF w.
  Proof.
    intros F H A. destruct (consume_flat base _ _ Hist _ _ _ H) as (t & Ht & G). destruct (p_current src ch sfuel e Hf q w A) as (tk & Ec & T).
    assert (tk = t) by congruence. subst tk. exists t. split; [|exact T]. exact (flat_trans _ _ _ _ _ _ _ F G).
  Qed.
  Lemma label_exact t g p g' p' w : match_label ts a names fuel t g p = Val (g', p', None) -> mode g = false -> p_notices p' = p_notices p -> ahead (p_input p) w ->
    exists k, flat [taken k] p p' /\ t_type k = hd TOKEN_EOF w.
  Proof.
    intros H M N A.
    assert (EF : forall (b : bool) p, flat [] p (if b then with_eof p else p)) by (intros [] q; [apply eof_flat | apply flat_refl]).
    assert (EI : forall (b : bool) p, p_input (if b then with_eof p else p) = p_input p) by (intros [] q; reflexivity).
    assert (SET : forall i, match_set base a names fuel i g p = Val (g', p', None) -> exists k, flat [taken k] p p' /\ t_type k = hd TOKEN_EOF w).
    { intros i X. unfold match_set in X. destruct (ParserModel.la base p 1) as [[q x]| |] eqn:E; cbn [obindo] in X; try discriminate.
      destruct (la_ahead src ch sfuel e He Hf p 1 q x w E A) as (Aq & Nq & Tq). pose proof (la_flat _ _ _ Hist _ _ _ _ E) as Fq. destruct (i x).
      - destruct (ParserModel.la base q 1) as [[q1 x1]| |] eqn:E1; cbn [obindo] in X; try discriminate. step X. injection X as <- <-.
        destruct (la_ahead src ch sfuel e He Hf q 1 q1 x1 w E1 Aq) as (Aq1 & _). pose proof (la_flat _ _ _ Hist _ _ _ _ E1) as Fq1.
        rewrite (matched_mode _ M) in E0. eapply consume_exact; [|exact E0 | rewrite EI; exact Aq1].
        exact (flat_trans _ _ _ _ _ _ _ Fq (flat_trans _ _ _ _ _ _ _ Fq1 (EF _ _))).
      - exfalso. destruct (recover_inline base a names fuel g q) as [[[g1 q1] [r1|r1]]| |] eqn:E1; cbn [obindo] in X; try discriminate.
        injection X as <- <-. apply (inline_clean src ch sfuel e Hf a names fuel _ _ _ _ _ E1 M). congruence. }
    destruct t as [g0 x0|? ? ? ?|? ?|g0 lo hi|? ? ? ? ?|g0 ss|g0 ss|g0|? ? ? ?|? ?]; cbn [match_label k_base common_seek] in H; try discriminate; try (eapply SET; exact H); clear SET.
    - destruct (match_token _ _ _ _ _ _ _) as [[[g1 p1] [r1|r1]]| |] eqn:E; cbn [obindo] in H; try discriminate. injection H as <- <-.
      unfold match_token in E. destruct (p_current src ch sfuel e Hf p w A) as (tk & Ec & T). rewrite Ec in E. cbn [obindo] in E. destruct (t_type tk =? x0).
      + step E. injection E as <- <- <-. rewrite (matched_mode _ M) in E0. eapply consume_exact; [apply EF | exact E0 | rewrite EI; exact A].
      + exfalso. destruct (recover_inline base a names fuel g p) as [[[g2 q] [r2|r2]]| |] eqn:E1; cbn [obindo] in E; try discriminate.
        step E. injection E as <- <- <-. apply (inline_clean src ch sfuel e Hf a names fuel _ _ _ _ _ E1 M). pose proof (add_missing_notices _ _ _ E0) as N2. unfold same_notices in N2. congruence.
    - destruct (match_wildcard _ _ _ _ _ _) as [[[g1 p1] [r1|r1]]| |] eqn:E; cbn [obindo] in H; try discriminate. injection H as <- <-.
      unfold match_wildcard in E. destruct (p_current src ch sfuel e Hf p w A) as (tk & Ec & T). rewrite Ec in E. cbn [obindo] in E. destruct (t_type tk >? 0).
      + step E. injection E as <- <- <-. rewrite (matched_mode _ M) in E0. eapply consume_exact; [apply flat_refl | exact E0 | exact A].
      + exfalso. destruct (recover_inline base a names fuel g p) as [[[g2 q] [r2|r2]]| |] eqn:E1; cbn [obindo] in E; try discriminate.
        step E. injection E as <- <- <-. apply (inline_clean src ch sfuel e Hf a names fuel _ _ _ _ _ E1 M). pose proof (add_missing_notices _ _ _ E0) as N2. unfold same_notices in N2. congruence.
  Qed.

  Definition same_past p p' : Prop := reading (p_input p) -> reading (p_input p') /\ past (p_input p') = past (p_input p).
  Lemma same_past_refl p : same_past p p.
  Proof. split; auto. Qed.
  Lemma same_past_trans p p' p'' : same_past p p' -> same_past p' p'' -> same_past p p''.
  Proof. intros A B R. destruct (A R) as [R' E]. destruct (B R') as [R'' E']. split; [exact R'' | congruence]. Qed.
  Lemma consumed_same l l' p p' : consumed reading past l l' p p' -> l = l' -> same_past p p'.
  Proof.
    intros C <- R. destruct (C R) as (R' & tk & ex & nw & P & Q & Mg & _). split; [exact R'|].
    rewrite <- (app_nil_r l) in Q at 1. apply app_inv_head in Q. subst nw. apply merged_none in Mg as [-> _]. rewrite P. apply app_nil_r.
  Qed.
  Lemma flat_nil_past p p' : flat [] p p' -> same_past p p'.
  Proof. intros F R. destruct (fl_past _ _ _ _ _ F R) as [A B]. cbn in B. rewrite app_nil_r in B. auto. Qed.

  Definition plan_kind (c : call) : Prop := match c with CSetState _ | CSync | CLook _ | CAlt _ | CLabel _ | CSetStop | CExitEvent | CNext _ _ => True | _ => False end.
  Lemma plan_exact : forall cs, Forall plan_kind cs -> forall rec h0 pr st0 x g p f g' p' f',
    Forall (generated rec) cs -> inv rec h0 true pr st0 f x p -> run_calls cs g p f = Val (g', p', f', None) -> mode g = false -> p_notices p' = p_notices p ->
    inv rec h0 true pr st0 f' (planned (f_rule f) cs x) p' /\ same_frame f f' /\ same_past p p'.
  Proof.
    induction 1 as [|c cs Hc Hk IH]; intros rec h0 pr st0 x g p f g' p' f' HG A H M N; cbn [ParserModel.run_calls] in H.
    - inversion H; subst. split; [exact A|]. split; [apply same_frame_refl | apply same_past_refl].
    - inversion HG as [|? ? G1 G2]; subst.
      destruct (ParserModel.run_call base a names fuel c g p f) as [[[[g1 p1] f1] r1]| |] eqn:E1; cbn [obindo] in H; try discriminate.
      destruct r1 as [x1|]; [discriminate|].
      assert (N1 : noted (mode g) p (mode g1) p1).
      { apply (rec_plan_clean src ch sfuel e He Hf a names fuel [c]) with (f := f) (f' := f1) (r := None); [constructor; [exact Hc | constructor]|].
        cbn [ParserModel.run_calls]. rewrite E1. reflexivity. }
      assert (N2 : noted (mode g1) p1 (mode g') p') by (apply (rec_plan_clean src ch sfuel e He Hf a names fuel cs Hk) with (1 := H)).
      destruct (grows_mid p p1 p' (noted_more _ _ _ _ N1) (noted_more _ _ _ _ N2) N) as (Q1 & Q2).
      assert (M1 : mode g1 = false) by (eapply noted_mode; eauto).
      assert (X : inv rec h0 true pr st0 f1 (after (f_rule f) x c) p1 /\ same_frame f f1 /\ same_past p p1).
      { destruct (match c with CSync => true | _ => false end) eqn:Ec.
        - destruct c; try discriminate. cbn [ParserModel.run_call] in E1. unfold no_result in E1. step E1. destruct a0 as [[g2 p2] r2]. injection E1 as <- <- <- ->.
          pose proof (sync_exact _ _ _ _ E M Q1) as F. split; [|split; [apply same_frame_refl | now apply flat_nil_past]].
          pose proof (inv_flat reading past _ _ _ _ _ _ _ _ _ _ A F) as A1. cbn in A1. rewrite app_nil_r in A1. destruct x; exact A1.
        - destruct (all_ok base a names fuel _ _ Hist c _ _ _ _ _ _ _ _ _ _ _ _ _ G1 A E1 Logic.I) as (x' & A1 & SF & _ & Gr & Cs).
          specialize (Gr eq_refl). specialize (Cs eq_refl).
          assert (Ex : x' = after (f_rule f) x c /\ all_leaves x = all_leaves x').
          { destruct c; try contradiction; try discriminate; inversion Gr; subst; cbn [may_add_leaves adds_nothing] in *; try contradiction; repeat match goal with X : match ?o with Some _ => False | None => True end |- _ => destruct o; [contradiction|] end; cbn; auto.
            split; [reflexivity|]. unfold all_leaves. cbn. now rewrite app_nil_r. }
          destruct Ex as [-> El]. split; [exact A1|]. split; [exact SF|]. eapply consumed_same; eauto. }
      destruct X as (A1 & SF1 & SP1). destruct (IH _ _ _ _ _ _ _ _ _ _ _ G2 A1 H M1 Q2) as (A2 & SF2 & SP2).
      destruct SF1 as (S1 & S2 & S3 & S4). rewrite S4 in A2. split; [exact A2|]. split; [eapply same_frame_trans; [|exact SF2]; repeat split; auto|].
      eapply same_past_trans; eauto.
  Qed.
End Build.
