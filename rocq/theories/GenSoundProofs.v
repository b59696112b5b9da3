(** A generated parser that reports no error has matched its start rule. *)
From Coq Require Import ZArith List Bool Lia Permutation Relations.
From Verif Require Import CharStreamModel TokenStreamModel TokenStreamSpec TokenStreamProofs CommonTokenStreamProofs.
From Verif Require Import Outcome IntervalSetModel IntervalSetSpec IntervalSetProofs PredContextModel PredContextSpec SemContextModel ConfigSetModel DfaModel AtnModel AtnSpec Ll1Model Ll1Spec ParserModel ParserEventProofs PredictModel PredictSpec PredictLLSpec PredictTotalSpec.
From Verif Require Import PredictTotalBaseProofs PredictTotalStreamProofs.
From Verif Require Import GenModel GenSpec GenBaseProofs GenStepProofs.
Import ListNotations.
Local Open Scope Z_scope.
Local Open Scope outcome_scope.

(** ** Matching *)
Lemma run_app a p u q : run a p u q -> forall v r, run a q v r -> run a p (u ++ v) r.
Proof.
  induction 1 as [p|p q w r M R IH|p x q w r T R IH]; intros v r' R'; cbn [app]; [exact R' | eapply run_move; eauto | eapply run_take; eauto].
Qed.
Definition eats (a : atn) (p : position) (w : list Z) (q : position) (w' : list Z) : Prop :=
  exists u k, w = u ++ w' /\ (k <> O -> w' = []) /\ run a p (u ++ repeat TOKEN_EOF k) q.
Lemma eats_here a p w : eats a p w p w.
Proof. exists [], O. split; [reflexivity|]. split; [congruence|]. constructor. Qed.
Lemma eats_trans a p w q w1 r w2 : eats a p w q w1 -> eats a q w1 r w2 -> eats a p w r w2.
Proof.
  intros (u & k & -> & Hk & R) (u' & k' & -> & Hk' & R'). destruct k as [|k].
  - exists (u ++ u'), k'. split; [apply app_assoc|]. split; [exact Hk'|]. rewrite <- app_assoc. eapply run_app; [|exact R']. rewrite app_nil_r in R. exact R.
  - specialize (Hk ltac:(discriminate)). apply app_eq_nil in Hk as [-> ->]. exists u, (Datatypes.S k + k')%nat. split; [reflexivity|]. split; [auto|].
    rewrite repeat_app, app_assoc. eapply run_app; [exact R | exact R'].
Qed.
Lemma eats_move a p q w : move a p q -> eats a p w q w.
Proof. intros M. exists [], O. split; [reflexivity|]. split; [congruence|]. eapply run_move; [exact M | constructor]. Qed.
Lemma eats_take a p q w : take a (hd TOKEN_EOF w) p q -> eats a p w q (tl w).
Proof.
  destruct w as [|x w]; cbn; intros T.
  - exists [], 1%nat. split; [reflexivity|]. split; [reflexivity|]. eapply run_take; [exact T | constructor].
  - exists [x], O. split; [reflexivity|]. split; [congruence|]. eapply run_take; [exact T | constructor].
Qed.

Section Sound.
  Variable src : nat -> tok.
  Variable ch : Z.
  Variable sfuel : nat.
  Variable e : nat.
  Hypothesis He : eof_number src e.
  Hypothesis Hf : (e <= sfuel)%nat.
  Notation ts := (common_seek src ch sfuel).
  Notation base := (common_stream src ch sfuel).
  Notation ahead := (ahead src ch sfuel).
  Notation parser := (parser uts).
  Implicit Types p : parser.
  Notation mode := in_error_recovery_mode.
  Variable a : atn.
  Variable names : naming.

  Ltac step H := match type of H with obindo ?x _ = Val _ => let E := fresh "E" in destruct x eqn:E; cbn [obindo] in H; [|discriminate|discriminate] end.
  Ltac step3 H g p r E := match type of H with obindo ?x _ = Val _ => destruct x as [[[g p] r]| |] eqn:E; cbn [obindo] in H; [|discriminate|discriminate] end.

  (** [p'] tells the listeners what [p] told them, and perhaps more *)
  Definition grows (p p' : parser) : Prop := exists more, p_notices p' = p_notices p ++ more.
  Lemma grows_refl p : grows p p.
  Proof. exists []. symmetry. apply app_nil_r. Qed.
  Lemma grows_trans p p' p'' : grows p p' -> grows p' p'' -> grows p p''.
  Proof. intros (m & E) (m' & E'). exists (m ++ m'). rewrite E', E. symmetry. apply app_assoc. Qed.
  Lemma grows_mid p p' p'' : grows p p' -> grows p' p'' -> p_notices p'' = p_notices p -> p_notices p' = p_notices p /\ p_notices p'' = p_notices p'.
  Proof.
    intros (m & E) (m' & E') Q. rewrite E, <- app_assoc in E'. rewrite E' in Q. rewrite <- (app_nil_r (p_notices p)) in Q at 2. apply app_inv_head in Q.
    apply app_eq_nil in Q as [-> ->]. rewrite !app_nil_r in *. split; congruence.
  Qed.
  Lemma grows_same p p' : p_notices p' = p_notices p -> grows p p'.
  Proof. intros E. exists []. rewrite app_nil_r. exact E. Qed.

  (** ** The stream *)
  Lemma s_lt_ahead s k s' t w : s_lt base s k = Val (s', t) -> ahead s w -> ahead s' w.
  Proof.
    intros E A. destruct (ahead_rep src ch sfuel s w A) as (n & c & C & Hc & R). destruct A as (Hh & _). cbn [s_lt common_stream] in E.
    destruct (clt src ch sfuel s k) as [[s2 t2]| |] eqn:E2; cbn [of_out] in E; try discriminate. injection E as -> ->.
    destruct (clt_rep src ch sfuel n s k s' t C E2) as (n2 & C2 & _ & Hc2 & _).
    split; [apply (history_step src ch sfuel s (CLt k)); [exact Hh|]; cbn [cstep]; rewrite E2; reflexivity|]. exists c. split; [congruence | exact R].
  Qed.
  Lemma lt_ahead p k p' t w : ParserModel.lt base p k = Val (p', t) -> ahead (p_input p) w -> ahead (p_input p') w /\ p_notices p' = p_notices p.
  Proof.
    intros H A. unfold ParserModel.lt in H. destruct (s_lt base (p_input p) k) as [[s' t']| |] eqn:E; cbn [obindo] in H; try discriminate. injection H as <- <-.
    split; [eapply s_lt_ahead; eauto | reflexivity].
  Qed.
  Lemma la_ahead p k p' t w : ParserModel.la base p k = Val (p', t) -> ahead (p_input p) w -> ahead (p_input p') w /\ p_notices p' = p_notices p /\ (k = 1 -> t = hd TOKEN_EOF w).
  Proof.
    intros H A. unfold ParserModel.la in H. destruct (ParserModel.lt base p k) as [[q t']| |] eqn:E; cbn [obindo] in H; try discriminate. injection H as <- <-.
    destruct (lt_ahead p k q t' w E A) as (A' & N). split; [exact A'|]. split; [exact N|]. intros ->.
    destruct (p_lt src ch sfuel e He Hf p w 1 A ltac:(lia)) as (s & t2 & E2 & _ & T). rewrite E2 in E. injection E as <- <-. apply T. reflexivity.
  Qed.
  Lemma consume_ahead rec p p' w : ParserModel.consume base rec p = Val p' -> ahead (p_input p) w -> ahead (p_input p') (tl w) /\ p_notices p' = p_notices p.
  Proof.
    intros H A. split; [|exact (consume_notices base rec p p' H)]. destruct (p_current src ch sfuel e Hf p w A) as (t & E & T). unfold ParserModel.consume in H. rewrite E in H. cbn [obindo] in H.
    step H. rename E0 into Ei, a0 into q.
    assert (Aq : ahead (p_input q) (tl w)).
    { rewrite T in Ei. destruct w as [|x w]; cbn [hd tl] in *.
      - rewrite Z.eqb_refl in Ei. injection Ei as <-. exact A.
      - destruct (Z.eqb_spec x TOKEN_EOF) as [-> |_]; [exfalso; eapply ahead_no_eof; [exact A | left; reflexivity]|].
        destruct (ahead_consume src ch sfuel e He Hf _ x w A) as (s' & Es & A'). cbn [k_base common_seek] in *. rewrite Es in Ei. cbn [obindo] in Ei. injection Ei as <-. exact A'. }
    destruct (_ || _); [|injection H as <-; exact Aq]. step H. destruct rec; injection H as <-; exact Aq.
  Qed.

  (** ** Errors are reported *)
  Section Fuel.
  Variable n : nat.
  Lemma report_token_grows msg d p d' p' : report_token base a n msg d p = Val (d', p') -> recovering d = false -> p_notices p' <> p_notices p /\ grows p p'.
  Proof.
    intros H R. split; [|exact (noted_more _ _ _ _ (report_token_noted base a n _ _ _ _ _ H))].
    unfold report_token in H. rewrite R in H. step H. step H. step H. inversion H; subst. unfold notify_error_listeners in E1. step E1. inversion E1; subst.
    cbn. intros Q. apply (f_equal (@length notice)) in Q. rewrite app_length in Q. cbn in Q. lia.
  Qed.
  Lemma deletion_clean d p d' p' t : single_token_deletion base a names n d p = Val (d', p', t) -> recovering d = false -> p_notices p' = p_notices p -> t = None /\ d' = d /\ exists s, p' = with_input p s /\ forall w, ahead (p_input p) w -> ahead s w.
  Proof.
    intros H R N. unfold single_token_deletion in H.
    destruct (ParserModel.la base p 2) as [[q cur]| |] eqn:E1; cbn [obindo] in H; try discriminate. step H.
    pose proof (la_notices base _ _ _ _ E1) as Nq. unfold same_notices in Nq.
    destruct (contains _ _).
    - exfalso. unfold report_unwanted_token in H. destruct (report_token base a n _ d q) as [[d1 q1]| |] eqn:E7; cbn [obindo] in H; try discriminate.
      step H. step H. inversion H; subst. destruct (report_token_grows _ _ _ _ _ E7 R) as (Ne & G). apply Ne.
      pose proof (consume_notices base _ _ _ E0) as Nc. unfold same_notices in Nc. congruence.
    - inversion H; subst. split; [reflexivity|]. split; [reflexivity|]. unfold ParserModel.la in E1. destruct (ParserModel.lt base p 2) as [[q t']| |] eqn:E2; cbn [obindo] in E1; try discriminate. injection E1 as <- <-.
      unfold ParserModel.lt in E2. destruct (s_lt base (p_input p) 2) as [[s' t2]| |] eqn:E3; cbn [obindo] in E2; try discriminate. injection E2 as <- <-.
      exists s'. split; [reflexivity|]. intros w A. eapply s_lt_ahead; eauto.
  Qed.
  Lemma inline_clean g p g' p' r : recover_inline base a names n g p = Val (g', p', inl r) -> mode g = false -> p_notices p' <> p_notices p.
  Proof.
    intros H M N. destruct g as [d|d]; cbn [recover_inline] in H.
    - unfold d_recover_inline in H. destruct (single_token_deletion base a names n d p) as [[[d1 p1] t1]| |] eqn:E1; cbn [obindo] in H; try discriminate.
      pose proof (deletion_noted base a names n _ _ _ _ _ E1) as N1. destruct t1 as [t1|].
      + destruct (ParserModel.consume base (recovering d1) p1) as [p2| |] eqn:E2; cbn [obindo] in H; try discriminate. injection H as <- <- <-.
        pose proof (consume_notices base _ _ _ E2) as N2. unfold same_notices in N2. destruct (deletion_clean _ _ _ _ _ E1 M) as (Q & _); [congruence | discriminate].
      + destruct (single_token_insertion base a names n d1 p1) as [[[d2 p2] b]| |] eqn:E2; cbn [obindo] in H; try discriminate.
        pose proof (insertion_noted base a names n _ _ _ _ _ E2) as N2. destruct b; [|destruct (nt_ctx d2); [destruct (mismatch_with_state _ _ _ _) | destruct (base_error_new _ _)]; discriminate].
        destruct (get_missing_symbol base a names n p2) as [t0| |]; cbn [obindo] in H; try discriminate. injection H as <- <- <-.
        destruct (grows_mid p p1 p2 (noted_more _ _ _ _ N1) (noted_more _ _ _ _ N2) N) as (Q1 & Q2).
        destruct (deletion_clean _ _ _ _ _ E1 M Q1) as (_ & -> & _).
        unfold single_token_insertion in E2. destruct (ParserModel.la base p1 1) as [[q cur]| |] eqn:E3; cbn [obindo] in E2; try discriminate.
        pose proof (la_notices base _ _ _ _ E3) as N3. unfold same_notices in N3.
        do 6 step E2. destruct (contains _ _); [|injection E2; congruence]. unfold report_missing_token in E2.
        destruct (report_token base a n _ d q) as [[d3 q3]| |] eqn:E9; cbn [obindo] in E2; try discriminate. injection E2 as <- <-.
        destruct (report_token_grows _ _ _ _ _ E9 M) as (Ne & _). apply Ne. congruence.
    - step H. step H. discriminate.
  Qed.
  Lemma sync_clean g p g' p' w : sync base a names n g p = Val (g', p', None) -> mode g = false -> p_notices p' = p_notices p -> ahead (p_input p) w -> ahead (p_input p') w.
  Proof.
    intros H M N A. destruct g as [d|d]; cbn [sync] in H; [|injection H as <- <-; exact A].
    destruct (d_sync base a names n d p) as [[[d1 p1] r1]| |] eqn:E; cbn [obindo] in H; try discriminate. injection H as <- <- ->.
    unfold d_sync in E. cbn [mode] in M. rewrite M in E. destruct (ParserModel.la base p 1) as [[q x]| |] eqn:E1; cbn [obindo] in E; try discriminate.
    destruct (la_ahead p 1 q x w E1 A) as (Aq & Nq & _). step E. step E.
    destruct (contains a1 x); [injection E as <- <-; exact Aq|].
    destruct (contains a1 TOKEN_EPSILON); [destruct (nt_ctx d); [injection E as <- <-; exact Aq|]; step E; injection E as <- <-; exact Aq|].
    destruct (sync_case _).
    - destruct (single_token_deletion base a names n d q) as [[[d2 p2] t2]| |] eqn:E4; cbn [obindo] in E; try discriminate.
      destruct t2 as [t2|]; [|step E; discriminate]. injection E as <- <-. destruct (deletion_clean _ _ _ _ _ E4 M) as (Q & _); [congruence | discriminate].
    - exfalso. unfold report_unwanted_token in E. destruct (report_token base a n _ d q) as [[d2 q2]| |] eqn:E4; cbn [obindo] in E; try discriminate.
      step E. step E. step E. injection E as <- <-. destruct (report_token_grows _ _ _ _ _ E4 M) as (Ne & _). apply Ne.
      pose proof (consume_until_notices base n _ _ _ _ E6) as N5. unfold same_notices in N5. congruence.
    - discriminate.
  Qed.

  (** a label is matched by the next token *)
  Lemma label_noted t g p g' p' r : match_label ts a names n t g p = Val (g', p', r) -> noted (mode g) p (mode g') p'.
  Proof.
    intros H. destruct t; cbn [match_label k_base common_seek] in H; try discriminate; try (eapply match_set_noted; eauto; fail).
    - destruct (match_token _ _ _ _ _ _ _) as [[[g1 p1] r1]| |] eqn:E; cbn [obindo] in H; try discriminate. injection H as <- <- _. eapply match_token_noted; eauto.
    - destruct (match_wildcard _ _ _ _ _ _) as [[[g1 p1] r1]| |] eqn:E; cbn [obindo] in H; try discriminate. injection H as <- <- _. eapply match_wildcard_noted; eauto.
  Qed.
  Lemma token_clean g p ty g' p' t w : match_token base a names n g p ty = Val (g', p', inl t) -> mode g = false -> p_notices p' = p_notices p -> ahead (p_input p) w ->
    hd TOKEN_EOF w = ty /\ ahead (p_input p') (tl w).
  Proof.
    intros H M N A. unfold match_token in H. destruct (p_current src ch sfuel e Hf p w A) as (tk & Ec & T). rewrite Ec in H. cbn [obindo] in H.
    destruct (Z.eqb_spec (t_type tk) ty) as [Q|Q].
    - step H. injection H as <- <- <-. split; [congruence|]. eapply consume_ahead; [exact E|]. destruct (_ =? _); exact A.
    - exfalso. destruct (recover_inline base a names n g p) as [[[g1 q] [r1|r1]]| |] eqn:E1; cbn [obindo] in H; try discriminate.
      step H. injection H as <- <- <-. apply (inline_clean _ _ _ _ _ E1 M). pose proof (add_missing_notices _ _ _ E) as N2. unfold same_notices in N2. congruence.
  Qed.
  Lemma wildcard_clean g p g' p' t w : match_wildcard base a names n g p = Val (g', p', inl t) -> mode g = false -> p_notices p' = p_notices p -> ahead (p_input p) w ->
    0 < hd TOKEN_EOF w /\ ahead (p_input p') (tl w).
  Proof.
    intros H M N A. unfold match_wildcard in H. destruct (p_current src ch sfuel e Hf p w A) as (tk & Ec & T). rewrite Ec in H. cbn [obindo] in H.
    destruct (t_type tk >? 0) eqn:Q.
    - step H. injection H as <- <- <-. split; [lia|]. eapply consume_ahead; [exact E | exact A].
    - exfalso. destruct (recover_inline base a names n g p) as [[[g1 q] [r1|r1]]| |] eqn:E1; cbn [obindo] in H; try discriminate.
      step H. injection H as <- <- <-. apply (inline_clean _ _ _ _ _ E1 M). pose proof (add_missing_notices _ _ _ E) as N2. unfold same_notices in N2. congruence.
  Qed.
  Lemma set_clean i g p g' p' w : match_set base a names n i g p = Val (g', p', None) -> mode g = false -> p_notices p' = p_notices p -> ahead (p_input p) w ->
    i (hd TOKEN_EOF w) = true /\ ahead (p_input p') (tl w).
  Proof.
    intros H M N A. unfold match_set in H. destruct (ParserModel.la base p 1) as [[q x]| |] eqn:E; cbn [obindo] in H; try discriminate.
    destruct (la_ahead p 1 q x w E A) as (Aq & Nq & Tq). rewrite (Tq eq_refl) in *. destruct (i (hd TOKEN_EOF w)).
    - destruct (ParserModel.la base q 1) as [[q1 x1]| |] eqn:E1; cbn [obindo] in H; try discriminate. step H. injection H as <- <-.
      destruct (la_ahead q 1 q1 x1 w E1 Aq) as (Aq1 & _). split; [reflexivity|]. eapply consume_ahead; [exact E0|]. destruct (_ =? _); exact Aq1.
    - exfalso. destruct (recover_inline base a names n g q) as [[[g1 q1] [r1|r1]]| |] eqn:E1; cbn [obindo] in H; try discriminate.
      injection H as <- <-. apply (inline_clean _ _ _ _ _ E1 M). congruence.
  Qed.
  Lemma label_clean t g p g' p' w : match_label ts a names n t g p = Val (g', p', None) -> mode g = false -> p_notices p' = p_notices p -> ahead (p_input p) w -> known_types a w ->
    symbols t 1 (max_token_type a) (hd TOKEN_EOF w) /\ ahead (p_input p') (tl w).
  Proof.
    intros H M N A K. assert (Le : 0 < hd TOKEN_EOF w -> 1 <= hd TOKEN_EOF w <= max_token_type a).
    { destruct w as [|x w]; cbn; [unfold TOKEN_EOF; lia|]. inversion K; subst. lia. }
    destruct t as [g0 x0|? ? ? ?|? ?|g0 lo hi|? ? ? ? ?|g0 ss|g0 ss|g0|? ? ? ?|? ?]; cbn [match_label k_base common_seek symbols] in *; try discriminate.
    - destruct (match_token _ _ _ _ _ _ _) as [[[g1 p1] [r1|r1]]| |] eqn:E; cbn [obindo] in H; try discriminate. injection H as <- <-. eapply token_clean; eauto.
    - destruct (set_clean _ _ _ _ _ _ H M N A) as (Q & A'). cbn in Q. split; [lia | exact A'].
    - destruct (set_clean _ _ _ _ _ _ H M N A) as (Q & A'). cbn in Q. split; [apply (in_set_spec sfuel e Hf), Q | exact A'].
    - destruct (set_clean _ _ _ _ _ _ H M N A) as (Q & A'). cbn in Q. apply andb_prop in Q as (Q1 & Q2). split; [split; [apply Le; lia|] | exact A'].
      intros Mm. apply (in_set_spec sfuel e Hf) in Mm. rewrite Mm in Q2. discriminate.
    - destruct (match_wildcard _ _ _ _ _ _) as [[[g1 p1] [r1|r1]]| |] eqn:E; cbn [obindo] in H; try discriminate. injection H as <- <-.
      destruct (wildcard_clean _ _ _ _ _ _ E M N A) as (Q & A'). split; [apply Le, Q | exact A'].
  Qed.
  End Fuel.

  (** ** What does not match tokens *)
  Definition still (p p' : parser) : Prop := p_notices p' = p_notices p /\ forall w, ahead (p_input p) w -> ahead (p_input p') w.
  Lemma still_refl p : still p p.
  Proof. split; auto. Qed.
  Lemma still_trans p p' p'' : still p p' -> still p' p'' -> still p p''.
  Proof. intros (N & A) (N' & A'). split; [congruence | auto]. Qed.
  Lemma still_same p p' : p_notices p' = p_notices p -> p_input p' = p_input p -> still p p'.
  Proof. intros N I. split; [exact N|]. rewrite I. auto. Qed.
  Lemma still_lt p k p' t : ParserModel.lt base p k = Val (p', t) -> still p p'.
  Proof. intros H. split; [exact (lt_notices base _ _ _ _ H)|]. intros w A. eapply lt_ahead; eauto. Qed.
  Lemma still_la p k p' t : ParserModel.la base p k = Val (p', t) -> still p p'.
  Proof. intros H. split; [exact (la_notices base _ _ _ _ H)|]. intros w A. eapply la_ahead; eauto. Qed.
  Lemma still_enter_event p p' : trigger_enter_rule_event p = Val p' -> still p p'.
  Proof. intros H. unfold trigger_enter_rule_event in H. step H. step H. destruct (x_plain _); injection H as <-; apply still_same; reflexivity. Qed.
  Lemma still_exit_event p p' : trigger_exit_rule_event p = Val p' -> still p p'.
  Proof. intros H. unfold trigger_exit_rule_event in H. step H. step H. destruct (x_plain _); injection H as <-; apply still_same; reflexivity. Qed.
  Lemma still_enter p c st p' : enter_rule base p c st = Val p' -> still p p'.
  Proof.
    intros H. unfold enter_rule in H. destruct (ParserModel.lt base (set_state p st) 1) as [[q t]| |] eqn:E; cbn [obindo] in H; try discriminate.
    eapply still_trans; [apply (still_same p (set_state p st)); reflexivity|]. eapply still_trans; [eapply still_lt; exact E|].
    destruct (p_build _); [|injection H as <-; apply still_same; reflexivity]. unfold add_context_to_parse_tree in H. step H. step H. injection H as <-.
    destruct (x_parent _); apply still_same; reflexivity.
  Qed.
  Lemma still_exit p p' : exit_rule base p = Val p' -> still p p'.
  Proof.
    intros H. unfold exit_rule in H. step H. destruct (ParserModel.lt base p _) as [[q t]| |] eqn:E1; cbn [obindo] in H; try discriminate.
    step H. step H. injection H as <-. eapply still_trans; [eapply still_lt; exact E1|]. eapply still_trans; [|eapply still_trans; [eapply still_exit_event; exact E0|]]; apply still_same; reflexivity.
  Qed.
  Lemma still_alt p o p' : enter_outer_alt p o = Val p' -> still p p'.
  Proof.
    intros H. unfold enter_outer_alt in H. step H. eapply still_trans; [|eapply still_enter_event; exact H]. destruct o as [k|]; [|injection E as <-; apply still_refl].
    step E. step E. injection E as <-. destruct (_ && _); [destruct (x_parent _)|]; apply still_same; reflexivity.
  Qed.

  Variable sempred : uts -> option nat -> Z -> Z -> bool.
  Variable order : list nat -> list sem -> list sem.
  Variable alt_order : list (list Z) -> list (list Z).
  Variable hash : pctx -> Z.
  Variable dhash : list pconfig -> Z.
  Variable share : pctx -> pctx.
  Variable clock : uts -> nat.
  Variable pred_mode : pmode.
  Variable plan : Z -> Z -> list ParserModel.call.
  Hypothesis Hplan : plan_kinds plan.
  Variable switch : Z -> option (Z -> option Z).
  Variable plain : Z -> bool.
  Notation choose := (choose ts a sempred order alt_order hash dhash share clock pred_mode switch).
  Notation rule_function := (rule_function ts a names plain).
  Notation walk := (walk ts a names sempred order alt_order hash dhash share clock pred_mode plan switch plain).

  (** a step that is clean unless it reports an error *)
  Definition clean (g : strategy) (p : parser) (g' : strategy) (p' : parser) (ok : bool) : Prop :=
    noted (mode g) p (mode g') p' /\ (mode g = false -> p_notices p' = p_notices p -> ok = true -> forall w, ahead (p_input p) w -> ahead (p_input p') w).
  Lemma noted_mode g p g' p' : noted (mode g) p (mode g') p' -> mode g = false -> p_notices p' = p_notices p -> mode g' = false.
  Proof. intros (m & E & H) M N. apply H; [|exact M]. rewrite E in N. rewrite <- (app_nil_r (p_notices p)) in N at 2. apply app_inv_head in N. exact N. Qed.
  Lemma still_clean g p p' ok : still p p' -> clean g p g p' ok.
  Proof. intros (N & A). split; [apply same_noted; exact N | auto]. Qed.
  Lemma plan_clean n cs : Forall (fun c => match c with CSetState _ | CSync | CLook _ | CAlt _ => True | _ => False end) cs ->
    forall g p f g' p' f' r, run_calls base a names n cs g p f = Val (g', p', f', r) -> clean g p g' p' (match r with None => true | _ => false end).
  Proof.
    induction 1 as [|c cs Hc _ IH]; intros g p f g' p' f' r H; cbn [run_calls] in H; [injection H as <- <- <- <-; apply still_clean, still_refl|].
    destruct (run_call base a names n c g p f) as [[[[g1 p1] f1] r1]| |] eqn:E; cbn [obindo] in H; try discriminate.
    assert (C1 : clean g p g1 p1 (match r1 with None => true | _ => false end)).
    { destruct c; try contradiction; cbn [run_call] in E.
      - injection E as <- <- <- <-. apply still_clean, still_same; reflexivity.
      - destruct (ParserModel.la base p k) as [[q x]| |] eqn:E1; cbn [obindo] in E; try discriminate. injection E as <- <- <- <-. apply still_clean. eapply still_la; eauto.
      - unfold no_result in E. destruct (sync base a names n g p) as [[[g2 p2] r2]| |] eqn:E1; cbn [obindo] in E; try discriminate. injection E as <- <- <- <-.
        split; [eapply sync_noted; exact E1|]. intros M N Ok w A. destruct r2; [discriminate|]. eapply sync_clean; eauto.
      - destruct label as [k|].
        + step E. cbn [alloc] in E. step E. injection E as <- <- <- <-. apply still_clean. eapply still_trans; [|eapply still_alt; eassumption]. apply still_same; reflexivity.
        + step E. injection E as <- <- <- <-. apply still_clean. eapply still_alt; eauto. }
    destruct r1 as [e1|]; [injection H as <- <- <- <-; exact C1|]. destruct (IH _ _ _ _ _ _ _ H) as (N2 & A2). destruct C1 as (N1 & A1).
    split; [eapply noted_trans; eauto|]. intros M N Ok w A.
    destruct (grows_mid p p1 p' (noted_more _ _ _ _ N1) (noted_more _ _ _ _ N2) N) as (Q1 & Q2). apply A2; auto. eapply noted_mode; eauto.
  Qed.
  Lemma alternative_in s j t : alternative s j = Val t -> In t (st_trans s).
  Proof. unfold alternative. destruct (j <? 1); [discriminate|]. destruct (nth_error _ _) eqn:E; cbn; [|discriminate]. intros Q. injection Q as <-. eapply nth_error_In; eauto. Qed.
  Lemma choose_still n i s p ds p' ds' c : choose n i s p ds = Val (p', ds', c) -> still p p' /\ forall t, c = Go t -> In t (st_trans s).
  Proof.
    intros H. assert (B : (exists t, st_trans s = [t] /\ p' = p /\ ds' = ds /\ c = Go t) \/
      match switch i with
        | Some f =>
            let! (p, x) := ParserModel.la base p 1 in
            match f x with
            | Some j => let! t := alternative s j in Val (p, ds, Go t)
            | None => let! e := no_alt_here ts p in Val (p, ds, Stuck e)
            end
        | None =>
            match st_type s with
            | DecisionState k _ _ =>
                let! d := unwrap (vget ds k) in
                let! c := get_ctx p in
                let! stack := ancestors (Datatypes.S (length (p_heap p))) (p_heap p) c in
                let! (m, r) := adaptive_predict ts a nat sempred order alt_order hash dhash share n pred_mode (get_precedence p) c stack
                                 k i d (p_input p) (clock (p_input p)) in
                let p := with_input p (m_input m) in
                let! ds := unwrap (vset ds k (m_dfa m)) in
                if ERROR_DFA_STATE_REF <=? Z.of_nat (length (dfa_states (m_dfa m))) then Val (p, ds, DfaFull)
                else
                  match r with
                  | Predicted j => let! t := alternative s j in Val (p, ds, Go t)
                  | NoViableAlt t0 t1 => let! e := no_alt_full p t0 t1 in Val (p, ds, Stuck e)
                  end
            | _ => Panics
            end
        end = Val (p', ds', c)).
    { unfold choose in H. destruct (st_trans s) as [|t0 [|t1 l]]; [right; exact H | left; injection H as <- <- <-; eauto | right; exact H]. }
    destruct B as [(t & Q & -> & -> & ->)|B].
    - split; [apply still_refl|]. intros t0 Q0. injection Q0 as <-. rewrite Q. left. reflexivity.
    - clear H. destruct (switch i) as [ff|].
      + destruct (ParserModel.la base p 1) as [[q x]| |] eqn:E; cbn [obindo] in B; try discriminate. destruct (ff x) as [j|].
        * destruct (alternative s j) as [t| |] eqn:Ea; cbn [obindo] in B; try discriminate. injection B as <- <- <-. split; [eapply still_la; eauto|]. intros t0 Q. injection Q as <-. eapply alternative_in; eauto.
        * step B. injection B as <- <- <-. split; [eapply still_la; eauto | discriminate].
      + destruct (st_type s); try discriminate. step B. step B. step B.
        destruct (adaptive_predict _ _ _ _ _ _ _ _ _ _ _ _ _ _ _ _ _ _ _) as [[m r]| |] eqn:E2; cbn [obindo] in B; try discriminate. step B.
        assert (St : still p (with_input p (m_input m))) by (split; [reflexivity|]; intros w A; eapply ahead_predict; eauto).
        destruct (_ <=? _); [injection B as <- <- <-; split; [exact St | discriminate]|]. destruct r as [j|t0 t1].
        * destruct (alternative s j) as [t| |] eqn:Ea; cbn [obindo] in B; try discriminate. injection B as <- <- <-. split; [exact St|]. intros t0 Q. injection Q as <-. eapply alternative_in; eauto.
        * step B. injection B as <- <- <-. split; [exact St | discriminate].
  Qed.

  Definition sound_end (i : Z) (g : strategy) (p : parser) (g' : strategy) (p' : parser) (r : ending) : Prop :=
    noted (mode g) p (mode g') p' /\
    (mode g = false -> p_notices p' = p_notices p -> r = Ended -> forall w, ahead (p_input p) w -> known_types a w -> forall conts,
      exists stop s w', state_at a stop = Some s /\ Ll1Spec.is_stop s /\ ahead (p_input p') w' /\ eats a (i, conts) w (stop, conts) w').
  Lemma known_eats x w q w' : eats a x w q w' -> known_types a w -> known_types a w'.
  Proof. intros (u & k & -> & _) K. apply Forall_app in K. apply K. Qed.

  Lemma rule_sound n body rule start g p ds g' p' ds' r :
    (forall g p ds f g' p' ds' f' r, body g p ds f = Val (g', p', ds', f', r) -> sound_end start g p g' p' r) ->
    rule_function n body rule start g p ds = Val (g', p', ds', r) -> sound_end start g p g' p' r.
  Proof.
    intros Body H. unfold rule_function in H. cbn [alloc k_base common_seek] in H.
    match type of H with obindo (enter_rule _ ?q _ _) _ = _ => assert (S0 : still p q) by (apply still_same; reflexivity); set (q0 := q) in * end. clearbody q0.
    step H. pose proof (still_enter _ _ _ _ E) as S1. clear E. rename a0 into p1.
    match type of H with obindo ?x _ = _ => destruct x as [[[[[g2 p2] ds2] f2] r2]| |] eqn:E2; cbn [obindo] in H; try discriminate end.
    destruct (Body _ _ _ _ _ _ _ _ _ E2) as (N2 & A2). clear E2. pose proof (still_trans _ _ _ S0 S1) as S01. clear S0 S1. destruct S01 as (N1 & A1).
    assert (N12 : noted (mode g) p (mode g2) p2) by (eapply noted_trans; [apply same_noted; exact N1 | exact N2]).
    assert (B : (r2 = Full /\ g' = g2 /\ p' = p2 /\ r = Full) \/ r2 <> Full /\
      (let! (g, p, r) := catch base a names n g2 p2 (match r2 with Raised e => Some e | _ => None end) in
        match r with
        | Some e => Val (g, p, ds2, Raised e)
        | None => let! p := exit_rule base p in Val (g, p, ds2, Ended)
        end) = Val (g', p', ds', r)).
    { destruct r2; [right; split; [discriminate | exact H] | right; split; [discriminate | exact H] | left]. injection H as <- <- <- <-. auto. }
    destruct B as [(-> & -> & -> & ->)|(Nf & B)]; [split; [exact N12 | discriminate]|]. clear H.
    destruct (catch _ _ _ _ _ _ _) as [[[g3 p3] r3]| |] eqn:E3; cbn [obindo] in B; try discriminate.
    destruct (catch_noted base a names n _ _ _ _ _ _ E3) as (N3 & C3).
    assert (N13 : noted (mode g) p (mode g3) p3) by (eapply noted_trans; eauto).
    destruct r3 as [e3|]; [injection B as <- <- <- <-; split; [exact N13 | discriminate]|].
    destruct (exit_rule base p3) as [p4| |] eqn:E4; cbn [obindo] in B; try discriminate. injection B as <- <- <- <-. destruct (still_exit _ _ E4) as (N4 & A4).
    split; [eapply noted_trans; [exact N13 | apply same_noted; exact N4]|].
    intros M N _ w A K conts. rewrite N4 in N.
    destruct (grows_mid p p2 p3 (noted_more _ _ _ _ N12) (noted_more _ _ _ _ N3) N) as (Q1 & Q2).
    pose proof (noted_mode _ _ _ _ N12 M Q1) as M2. specialize (C3 M2 Q2). destruct r2 as [|e2|]; [|destruct e2; try contradiction|].
    - cbn in E3. injection E3 as <- <-. destruct (A2 M ltac:(congruence) eq_refl w (A1 w A) K conts) as (stop & s & w' & Es & St & A' & Ea). exists stop, s, w'. auto.
    - cbn in E3. discriminate.
    - congruence.
  Qed.

  Theorem walk_sound : forall n from i g p ds f g' p' ds' f' r, walk n from i g p ds f = Val (g', p', ds', f', r) -> sound_end i g p g' p' r.
  Proof.
    induction n as [|n IH]; intros from i g p ds f g' p' ds' f' r H; [discriminate|]. cbn [GenModel.walk k_base common_seek] in H.
    destruct (run_calls base a names n (plan from i) g p f) as [[[[g1 p1] f1] r1]| |] eqn:E1; cbn [obindo] in H; try discriminate.
    destruct (plan_clean n _ (Hplan from i) _ _ _ _ _ _ _ E1) as (N1 & A1). clear E1.
    destruct r1 as [e1|]; [injection H as <- <- <- <- <-; split; [exact N1 | discriminate]|].
    destruct (get_state a i) as [s| |] eqn:Es; cbn [obindo] in H; try discriminate.
    assert (Ei : state_at a i = Some s).
    { unfold get_state in Es. change (vget (states a) i) with (state_at a i) in Es. destruct (state_at a i); cbn in Es; [injection Es as <-; reflexivity | discriminate]. }
    assert (B : (Ll1Spec.is_stop s /\ g' = g1 /\ p' = p1 /\ r = Ended) \/ ~ Ll1Spec.is_stop s /\
      (let! (p, ds, c) := choose n i s p1 ds in
                match c with
                | Stuck e => Val (g1, p, ds, f1, Raised e)
                | DfaFull => Val (g1, p, ds, f1, Full)
                | Go t =>
                    match t with
                    | RuleTr start follow rule _ =>
                        let! (g, p, ds, r) := rule_function n (walk n (-1) start) rule start g1 (set_state p i) ds in
                        match r with
                        | Ended => walk n i follow g p ds f1
                        | r => Val (g, p, ds, f1, r)
                        end
                    | Atom target _ | Wildcard target | Range target _ _ | SetTr target _ | NotSet target _ =>
                        let! (g, p, r) := match_label ts a names n t g1 (set_state p i) in
                        match r with
                        | None => walk n i target g p ds f1
                        | Some e => Val (g, p, ds, f1, Raised e)
                        end
                    | Epsilon target _ | Action target _ _ _ _ => walk n i target g1 p ds f1
                    | PredicateTr _ _ _ _ | PrecedenceTr _ _ => Panics
                    end
                end) = Val (g', p', ds', f', r)).
    { destruct (st_type s) eqn:Ty; first [right; split; [unfold Ll1Spec.is_stop; congruence | exact H] | left; split; [exact Ty|]; injection H as <- <- <- <- <-; auto]. }
    clear H. destruct B as [(St & -> & -> & ->)|(Ns & B)].
    { split; [exact N1|]. intros M N _ w A K conts. exists i, s, w. split; [exact Ei|]. split; [exact St|]. split; [apply A1; auto | apply eats_here]. }
    destruct (choose n i s p1 ds) as [[[p2 ds2] c]| |] eqn:E2; cbn [obindo] in B; try discriminate.
    destruct (choose_still _ _ _ _ _ _ _ _ E2) as ((N2 & A2) & In2). clear E2.
    assert (N12 : noted (mode g) p (mode g1) p2) by (eapply noted_trans; [exact N1 | apply same_noted; exact N2]).
    destruct c as [t|e2|]; [|injection B as <- <- <- <- <-; split; [exact N12 | discriminate]..].
    specialize (In2 t eq_refl).
    (* a step of the walk: what comes first, and the rest *)
    assert (Next : forall g3 p3 ds3 j, noted (mode g1) p2 (mode g3) p3 -> walk n i j g3 p3 ds3 f1 = Val (g', p', ds', f', r) ->
      (mode g1 = false -> p_notices p3 = p_notices p2 -> forall w, ahead (p_input p2) w -> known_types a w -> forall conts, exists w3, ahead (p_input p3) w3 /\ eats a (i, conts) w (j, conts) w3) ->
      sound_end i g p g' p' r).
    { intros g3 p3 ds3 j N3 W A3. destruct (IH _ _ _ _ _ _ _ _ _ _ _ W) as (N4 & A4).
      assert (N13 : noted (mode g) p (mode g3) p3) by (eapply noted_trans; eauto). split; [eapply noted_trans; eauto|].
      intros M N Hr w A K conts. destruct (grows_mid _ _ _ (noted_more _ _ _ _ N13) (noted_more _ _ _ _ N4) N) as (Q3 & Q4).
      destruct (grows_mid _ _ _ (noted_more _ _ _ _ N12) (noted_more _ _ _ _ N3) Q3) as (Q12 & Q23).
      assert (M1 : mode g1 = false) by (eapply noted_mode; eauto). assert (M3 : mode g3 = false) by (eapply noted_mode; eauto).
      assert (Aw : ahead (p_input p2) w) by (apply A2, A1; auto; congruence).
      destruct (A3 M1 Q23 w Aw K conts) as (w3 & Aw3 & Ew3).
      destruct (A4 M3 Q4 Hr w3 Aw3 (known_eats _ _ _ _ Ew3 K) conts) as (stop & ss & w' & Ess & Sts & Aw' & Ew'). exists stop, ss, w'.
      split; [exact Ess|]. split; [exact Sts|]. split; [exact Aw'|]. eapply eats_trans; eauto. }
    assert (Fail : forall g3 p3 r3, noted (mode g1) p2 (mode g3) p3 -> r3 <> Ended -> sound_end i g p g3 p3 r3).
    { intros g3 p3 r3 N3 Ne. split; [eapply noted_trans; eauto|]. intros; congruence. }
    assert (Label : forall j, (let! (g, p, r) := match_label ts a names n t g1 (set_state p2 i) in
                        match r with
                        | None => walk n i j g p ds2 f1
                        | Some e => Val (g, p, ds2, f1, Raised e)
                        end) = Val (g', p', ds', f', r) -> j = get_target t -> sound_end i g p g' p' r).
    { intros j L ->. destruct (match_label ts a names n t g1 (set_state p2 i)) as [[[g3 p3] r3]| |] eqn:E3; cbn [obindo] in L; try discriminate.
      pose proof (label_noted n _ _ _ _ _ _ E3) as N3. change (noted (mode g1) p2 (mode g3) p3) in N3.
      destruct r3 as [e3|]; [injection L as <- <- <- <- <-; apply Fail; [exact N3 | discriminate]|].
      eapply Next; [exact N3 | exact L|]. intros M Q w A K conts. destruct (label_clean n _ _ _ _ _ w E3 M Q A K) as (Sy & A').
      exists (tl w). split; [exact A'|]. apply eats_take. eapply take_token; eauto. }
    assert (Quiet : forall j, walk n i j g1 p2 ds2 f1 = Val (g', p', ds', f', r) -> j = get_target t -> ~ consuming t -> is_call t = false -> sound_end i g p g' p' r).
    { intros j W -> Nc Kc. eapply Next; [apply noted_refl | exact W|]. intros M Q w A K conts. exists w. split; [exact A|]. apply eats_move. eapply move_epsilon; eauto. }
    destruct t as [g0 x0|start follow rule pr|g0 x0|g0 lo hi|g0 x1 x2 x3 x4|g0 ss|g0 ss|g0|g0 x1 x2 x3|g0 x1]; try discriminate; try (eapply Label; [exact B | reflexivity]; fail).
    - destruct (rule_function n (walk n (-1) start) rule start g1 (set_state p2 i) ds2) as [[[[g3 p3] ds3] r3]| |] eqn:E3; cbn [obindo] in B; try discriminate.
      destruct (rule_sound n _ _ _ _ _ _ _ _ _ _ (fun g p ds f g' p' ds' f' r => IH (-1) start g p ds f g' p' ds' f' r) E3) as (N3 & A3). change (noted (mode g1) p2 (mode g3) p3) in N3.
      destruct r3 as [|e3|]; [|injection B as <- <- <- <- <-; apply Fail; [exact N3 | discriminate]..].
      eapply Next; [exact N3 | exact B|]. intros M Q w A K conts. destruct (A3 M Q eq_refl w A K (follow :: conts)) as (stop & sk & w3 & Ek & Sk & Aw3 & Ew3).
      exists w3. split; [exact Aw3|]. eapply eats_trans; [apply eats_move; eapply move_call; eauto|]. eapply eats_trans; [exact Ew3|]. apply eats_move. eapply move_return; eauto.
    - eapply Quiet; [exact B | reflexivity | intros [] | reflexivity].
    - eapply Quiet; [exact B | reflexivity | intros [] | reflexivity].
  Qed.

  Lemma parse_sound fuel rule start g p ds g' p' ds' w :
    parse ts a names sempred order alt_order hash dhash share clock pred_mode plan switch plain fuel rule start g p ds = Val (g', p', ds', Ended) ->
    mode g = false -> p_notices p' = p_notices p -> ahead (p_input p) w -> known_types a w ->
    exists u w' k, w = u ++ w' /\ ahead (p_input p') w' /\ (k <> O -> w' = []) /\ matches_rule a start u k.
  Proof.
    intros H M N A K. unfold parse in H. destruct (rule_sound fuel _ _ _ _ _ _ _ _ _ _ (fun g p ds f g' p' ds' f' r => walk_sound fuel (-1) start g p ds f g' p' ds' f' r) H) as (_ & S0).
    destruct (S0 M N eq_refl w A K []) as (stop & s & w' & Es & St & A' & u & k & Hw & Hk & R). exists u, w', k. split; [exact Hw|]. split; [exact A'|]. split; [exact Hk|]. exists stop, s. auto.
  Qed.
End Sound.
