(** Proofs about error messages. *)
From Coq Require Import ZArith List Bool Lia.
From Coq Require Import ZifyBool ZifyNat.
From Verif Require Import Outcome IntervalSetModel IntervalSetSpec AtnModel Ll1Model TokenStreamModel TokenStreamSpec TokenStreamProofs CommonTokenStreamProofs TreeModel TreeProofs.
From Verif Require Import ParserModel ParserSpec ParserTreeProofs ParserRunProofs ParserEventProofs RecoverSpec RecoverProofs MessageSpec.
Import ListNotations.
Local Open Scope Z_scope.

Lemma shown_escape : forall s, escape_whitespaces s false = shown s.
Proof.
  intros s. rewrite escape_concat. unfold shown. rewrite flat_map_concat_map. f_equal. apply map_ext. intros c.
  unfold escape_char. rewrite andb_false_r. reflexivity.
Qed.
Lemma display_quoted : forall t, get_token_error_display t = quoted t.
Proof. intros t. unfold get_token_error_display, quoted. now rewrite shown_escape. Qed.

Lemma val_inj : forall A (x y : A), Val x = Val y -> x = y.
Proof. congruence. Qed.

Section Messages.
  Context {S : Type} (ts : stream_ops S) (a : atn) (names : naming) (fuel : nat) (Inv : S -> Prop) (ahead : S -> list tok).
  Hypothesis Hin : input ts Inv ahead.
  Ltac step H := match type of H with obindo ?x _ = Val _ => let E := fresh "E" in destruct x eqn:E; cbn [obindo] in H; [|discriminate|discriminate] end.
  Ltac step_lt H := match type of H with context [lt ts ?p ?k] => let E := fresh "E" in destruct (lt ts p k) as [[? ?]| |] eqn:E; cbn [obindo] in H; [|discriminate|discriminate] end.
  Ltac step_la H := match type of H with context [la ts ?p ?k] => let E := fresh "E" in destruct (la ts p k) as [[? ?]| |] eqn:E; cbn [obindo] in H; [|discriminate|discriminate] end.
  Notation told := (told ts a names fuel ahead).
  Notation current := (current ahead).

  (** nothing is told *)
  Definition quiet (p q : parser S) : Prop :=
    p_notices q = p_notices p /\ p_errors q = p_errors p /\ (Inv (p_input p) -> Inv (p_input q)).
  (** what is told is counted and well worded *)
  Definition heard (p q : parser S) : Prop := Inv (p_input p) -> Inv (p_input q) /\
    exists new, p_notices q = p_notices p ++ new /\ p_errors q = p_errors p + Z.of_nat (length new) /\
      Forall (fun n => exists s, Inv (p_input s) /\ told s n) new.

  Lemma quiet_refl : forall p, quiet p p.
  Proof. repeat split; auto. Qed.
  Lemma quiet_trans : forall p q r, quiet p q -> quiet q r -> quiet p r.
  Proof. intros p q r (A1 & A2 & A3) (B1 & B2 & B3). repeat split; auto; congruence. Qed.
  Lemma quiet_same : forall p q, p_notices q = p_notices p -> p_errors q = p_errors p -> p_input q = p_input p -> quiet p q.
  Proof. intros p q A B C. repeat split; auto. congruence. Qed.
  Lemma quiet_heard : forall p q, quiet p q -> heard p q.
  Proof. intros p q (A & B & C) HI. split; auto. exists []. rewrite app_nil_r. cbn. split; auto. split; [lia|constructor]. Qed.
  Lemma heard_refl : forall p, heard p p.
  Proof. intros p. apply quiet_heard, quiet_refl. Qed.
  Lemma heard_trans : forall p q r, heard p q -> heard q r -> heard p r.
  Proof.
    intros p q r A B HI. destruct (A HI) as (I1 & n1 & A1 & A2 & A3). destruct (B I1) as (I2 & n2 & B1 & B2 & B3).
    split; auto. exists (n1 ++ n2). rewrite B1, A1, app_assoc, app_length. split; auto. split; [lia|]. apply Forall_app. auto.
  Qed.

  Lemma lt_quiet : forall p k q t, lt ts p k = Val (q, t) -> quiet p q.
  Proof.
    intros p k q t H. unfold lt in H. destruct (s_lt ts (p_input p) k) as [[s o]| |] eqn:E; cbn [obindo] in H; try discriminate.
    inversion H; subst. repeat split; auto. intros HI. apply (in_lt _ _ _ Hin _ _ _ _ HI E).
  Qed.
  Lemma la_quiet : forall p k q t, la ts p k = Val (q, t) -> quiet p q.
  Proof. intros p k q t H. unfold la in H. step_lt H. inversion H; subst. eapply lt_quiet; eauto. Qed.
  Lemma consume_quiet : forall rec p q, consume ts rec p = Val q -> quiet p q.
  Proof.
    intros rec p q H. destruct (consume_notices ts _ _ _ H). repeat split; auto. intros HI.
    apply (consume_forward ts Inv ahead Hin _ _ _ HI H).
  Qed.
  Lemma enter_event_quiet : forall p q : parser S, trigger_enter_rule_event p = Val q -> quiet p q.
  Proof. intros p q H. unfold trigger_enter_rule_event in H. step H. step H. inversion H; subst. destruct (x_plain _); apply quiet_same; reflexivity. Qed.
  Lemma exit_event_quiet : forall p q : parser S, trigger_exit_rule_event p = Val q -> quiet p q.
  Proof. intros p q H. unfold trigger_exit_rule_event in H. step H. step H. inversion H; subst. destruct (x_plain _); apply quiet_same; reflexivity. Qed.
  Lemma enter_rule_quiet : forall p n s q, enter_rule ts p n s = Val q -> quiet p q.
  Proof.
    intros p n s q H. unfold enter_rule in H. step_lt H. apply lt_quiet in E. eapply quiet_trans; [apply (quiet_same p (set_state p s)); reflexivity|].
    eapply quiet_trans; [exact E|]. destruct (p_build _); [|inversion H; subst; apply quiet_same; reflexivity].
    unfold add_context_to_parse_tree in H. step H. step H. inversion H; subst. destruct (x_parent _); apply quiet_same; reflexivity.
  Qed.
  Lemma exit_rule_quiet : forall p q, exit_rule ts p = Val q -> quiet p q.
  Proof.
    intros p q H. unfold exit_rule in H. step H. step_lt H. apply lt_quiet in E0. step H. step H. inversion H; subst. apply exit_event_quiet in E1.
    eapply quiet_trans; [exact E0|]. eapply quiet_trans; [|eapply quiet_trans; [exact E1|]]; apply quiet_same; reflexivity.
  Qed.
  Lemma outer_alt_quiet : forall (p : parser S) n q, enter_outer_alt p n = Val q -> quiet p q.
  Proof.
    intros p n q H. unfold enter_outer_alt in H. step H. apply enter_event_quiet in H. eapply quiet_trans; [|exact H].
    destruct n as [n|]; [|inversion E; subst; apply quiet_refl]. step E. step E. inversion E; subst.
    destruct (_ && _); [destruct (x_parent _)|]; apply quiet_same; reflexivity.
  Qed.
  Lemma enter_rec_quiet : forall p n s k q, enter_recursion_rule ts p n s k = Val q -> quiet p q.
  Proof.
    intros p n s k q H. unfold enter_recursion_rule in H. step_lt H. apply lt_quiet in E. inversion H; subst.
    eapply quiet_trans; [|eapply quiet_trans; [exact E|]]; apply quiet_same; reflexivity.
  Qed.
  Lemma push_quiet : forall p n s q, push_new_recursion_context ts p n s = Val q -> quiet p q.
  Proof.
    intros p n s q H. unfold push_new_recursion_context in H. step H. step_lt H. apply lt_quiet in E0. step H. apply enter_event_quiet in H.
    eapply quiet_trans; [|eapply quiet_trans; [exact E0|eapply quiet_trans; [|exact H]]]; [|destruct (p_build _)]; apply quiet_same; reflexivity.
  Qed.
  Lemma unroll_loop_quiet : forall n (p : parser S) parent q, unroll_loop n p parent = Val q -> quiet p q.
  Proof.
    induction n as [|n IH]; intros p parent q H; cbn [unroll_loop] in H; destruct (same_ctx _ _); try discriminate; try (inversion H; subst; apply quiet_refl).
    step H. step H. step H. apply IH in H. apply exit_event_quiet in E. eapply quiet_trans; [exact E|]. eapply quiet_trans; [|exact H]. apply quiet_same; reflexivity.
  Qed.
  Lemma unroll_quiet : forall p parent q, unroll_recursion_context ts p parent = Val q -> quiet p q.
  Proof.
    intros p parent q H. unfold unroll_recursion_context in H. step H. step_lt H. apply lt_quiet in E0. step H. inversion H; subst. clear H.
    assert (Q : quiet p a1).
    { eapply quiet_trans; [|eapply quiet_trans; [exact E0|]]; [apply quiet_same; reflexivity|].
      destruct (p_listeners _); [inversion E1; subst; apply quiet_same; reflexivity|]. apply unroll_loop_quiet in E1.
      eapply quiet_trans; [|exact E1]. apply quiet_same; reflexivity. }
    eapply quiet_trans; [exact Q|]. destruct (p_ctx _); [destruct (p_build _)|]; apply quiet_same; reflexivity.
  Qed.
  Lemma consume_loop_quiet : forall n rec set p ty q, consume_loop ts n rec set p ty = Val q -> quiet p q.
  Proof.
    induction n as [|n IH]; intros rec set p ty q H; cbn [consume_loop] in H; destruct (_ && _); try discriminate; try (inversion H; subst; apply quiet_refl).
    step H. step_la H. eapply quiet_trans; [eapply consume_quiet; eauto|]. eapply quiet_trans; [eapply la_quiet; eauto|]. eapply IH; eauto.
  Qed.
  Lemma consume_until_quiet : forall d p set q, consume_until ts fuel d p set = Val q -> quiet p q.
  Proof. intros d p set q H. unfold consume_until in H. step_la H. eapply quiet_trans; [eapply la_quiet; eauto|eapply consume_loop_quiet; eauto]. Qed.
  Lemma d_recover_quiet : forall d p d1 q, d_recover ts a fuel d p = Val (d1, q) -> quiet p q.
  Proof.
    intros d p d1 q H. unfold d_recover in H. step H. step H. step H. inversion H; subst. apply consume_until_quiet in E1.
    eapply quiet_trans; [|exact E1]. destruct (_ && _); [eapply consume_quiet; eauto|inversion E; subst; apply quiet_refl].
  Qed.
  Lemma recover_quiet : forall g p e g1 q r, recover ts a fuel g p e = Val (g1, q, r) -> quiet p q.
  Proof.
    intros g p e g1 q r H. destruct g as [d|d]; cbn [recover] in H.
    - destruct (d_recover ts a fuel d p) as [[d1 q1]| |] eqn:E; cbn [obindo] in H; try discriminate. inversion H; subst. eapply d_recover_quiet; eauto.
    - step H. inversion H; subst. apply quiet_refl.
  Qed.
  Lemma add_missing_quiet : forall (p : parser S) t q, add_missing p t = Val q -> quiet p q.
  Proof. intros p t q H. unfold add_missing in H. destruct (_ && _); [step H|]; inversion H; subst; apply quiet_same; reflexivity. Qed.

  (** ** What is told *)
  Lemma current_get : forall p t, Inv (p_input p) -> current p t -> get_current_token ts p = Val t /\ s_get ts (p_input p) (t_index t) = Val t.
  Proof. intros p t HI [l HA]. apply (in_get _ _ _ Hin _ _ _ HI HA). Qed.
  Lemma current_exists : forall p, Inv (p_input p) -> exists t, current p t.
  Proof. intros p HI. destruct (ahead_cons ts Inv ahead Hin _ HI) as (t & l & H). exists t, l. exact H. Qed.
  Lemma get_current : forall p t, Inv (p_input p) -> get_current_token ts p = Val t -> current p t.
  Proof. intros p t HI H. destruct (current_exists p HI) as [t' C]. destruct (current_get p t' HI C) as [G _]. congruence. Qed.

  Lemma heard_notice : forall p t m e, (Inv (p_input p) -> told p (Notice t m e)) -> heard p (with_notice p (Notice t m e)).
  Proof. intros p t m e H HI. split; auto. exists [Notice t m e]. cbn [p_notices p_errors with_notice length]. split; auto. split; [lia|]. constructor; eauto. Qed.

  Lemma report_token_heard : forall msg d p d1 q,
    (forall t E, current p t -> get_expected_tokens a fuel p = Val E -> told p (Notice t (msg E t) None)) ->
    report_token ts a fuel msg d p = Val (d1, q) -> heard p q.
  Proof.
    intros msg d p d1 q HT H. unfold report_token in H. destruct (recovering d); [inversion H; subst; apply heard_refl|].
    step H. step H. step H. inversion H; subst. clear H. unfold notify_error_listeners in E1. step E1. inversion E1; subst.
    intros HI. pose proof (get_current _ _ HI E0) as C. destruct (current_get _ _ HI C) as [_ G]. assert (a2 = a1) by congruence. subst a2.
    apply heard_notice; auto.
  Qed.
  Lemma unwanted_heard : forall d p d1 q, report_unwanted_token ts a names fuel d p = Val (d1, q) -> heard p q.
  Proof. intros d p d1 q H. eapply report_token_heard; [|exact H]. intros t E C HE. unfold unwanted_message. rewrite display_quoted. constructor; auto. Qed.
  Lemma missing_heard : forall d p d1 q, report_missing_token ts a names fuel d p = Val (d1, q) -> heard p q.
  Proof. intros d p d1 q H. eapply report_token_heard; [|exact H]. intros t E C HE. unfold missing_message. rewrite display_quoted. now constructor. Qed.

  (** the error is about the current token *)
  Definition here (p : parser S) (e : perr) : Prop := match e with InputMismatchError b => Inv (p_input p) -> current p (e_token b) | _ => True end.
  Lemma report_error_heard : forall d p e d1 q, here p e -> (match e with FallThrough _ => False | _ => True end) ->
    d_report_error ts a names fuel d p e = Val (d1, q) -> heard p q.
  Proof.
    intros d p e d1 q HE _ H. unfold d_report_error in H. destruct (recovering d); [inversion H; subst; apply heard_refl|].
    step H. step H. inversion H; subst. clear H. unfold notify_error_listeners in E0. step E0. inversion E0; subst.
    intros HI. apply heard_notice; auto. intros _. clear E0.
    destruct e as [b start|b|b r i m pr| | |c]; cbn [message_of get_offending_token option_map] in *.
    - step E. apply val_inj in E. subst a0. apply told_no_alternative; auto. change (t_type start =? -1) with (t_type start =? EOF_TYPE). destruct (t_type start =? EOF_TYPE); auto. apply val_inj in E0. auto.
    - step E. apply val_inj in E. subst a0. rewrite display_quoted. destruct (current_get _ _ HI (HE HI)) as [_ G].
      assert (a1 = e_token b) by congruence. subst a1. apply told_mismatch; auto.
    - step E. step E. step E. apply val_inj in E. subst a0. rename a2 into j0, a3 into x0, a4 into rn0. destruct (x_rule x0 <? 0) eqn:L; try discriminate.
      unfold get_ctx, deref in *. destruct (p_ctx p) as [j|] eqn:EC; cbn [unwrap] in E0; inversion E0; subst.
      destruct (nth_error (p_heap p) j0) as [x|] eqn:EX; cbn [unwrap] in E2; inversion E2; subst.
      destruct (nth_error (rule_names names) _) as [rn|] eqn:ER; cbn [unwrap] in E3; inversion E3; subst.
      eapply told_predicate; eauto. lia.
    - inversion E; subst. apply told_other; auto. apply get_current; auto.
    - inversion E; subst. apply told_other; auto. apply get_current; auto.
    - inversion E; subst. apply told_other; auto. apply get_current; auto.
  Qed.
  Lemma catch_heard : forall g p r g1 q r1, (forall e, r = Some e -> here p e) -> catch ts a names fuel g p r = Val (g1, q, r1) ->
    heard p q /\ forall e, r1 = Some e -> here q e.
  Proof.
    intros g p r g1 q r1 HR H. destruct r as [e|]; [|inversion H; subst; split; [apply heard_refl|discriminate]].
    specialize (HR e eq_refl).
    assert (K : (exists c, e = FallThrough c) \/ ((match e with FallThrough _ => False | _ => True end) /\
      exists g2 p2, report_error ts a names fuel g p e = Val (g2, p2) /\ recover ts a fuel g2 p2 e = Val (g1, q, r1))).
    { destruct e; eauto; right; split; auto; cbn [catch] in H;
        (match type of H with obindo ?x _ = _ => destruct x as [[g2 p2]| |] eqn:E; cbn [obindo] in H; try discriminate end); eauto. }
    destruct K as [[c ->]|(NF & g2 & p2 & H1 & H2)].
    - cbn [catch] in H. inversion H; subst. split; [apply heard_refl|]. intros e He. inversion He; subst. exact Logic.I.
    - assert (A : heard p p2).
      { destruct g as [d|d]; cbn [report_error] in H1; destruct (d_report_error ts a names fuel d p e) as [[d1 p1]| |] eqn:E; cbn [obindo] in H1; try discriminate;
          inversion H1; subst; eapply report_error_heard; eauto. }
      pose proof (recover_quiet _ _ _ _ _ _ H2) as Q. split; [eapply heard_trans; [exact A|now apply quiet_heard]|].
      intros e0 ->. destruct g2 as [d|d]; cbn [recover] in H2.
      + destruct (d_recover ts a fuel d p2) as [[d1 q1]| |]; cbn [obindo] in H2; discriminate.
      + unfold process_error in H2. step H2. step E. inversion E; subst. inversion H2; subst. exact Logic.I.
  Qed.

  Lemma base_current : forall p b, Inv (p_input p) -> base_error_new ts p = Val b -> current p (e_token b).
  Proof. intros p b HI H. unfold base_error_new in H. step H. step H. inversion H; subst. cbn [e_token]. now apply get_current. Qed.

  Lemma deletion_heard : forall d p d1 q t, single_token_deletion ts a names fuel d p = Val (d1, q, t) -> heard p q.
  Proof.
    intros d p d1 q t H. unfold single_token_deletion in H. step_la H. step H. apply la_quiet in E. destruct (contains _ _); [|inversion H; subst; now apply quiet_heard].
    match type of H with obindo ?x _ = _ => destruct x as [[d2 q2]| |] eqn:ER; cbn [obindo] in H; try discriminate end.
    step H. step H. inversion H; subst. eapply heard_trans; [apply quiet_heard; exact E|]. eapply heard_trans; [eapply unwanted_heard; exact ER|].
    apply quiet_heard. eapply consume_quiet; eauto.
  Qed.
  Lemma insertion_heard : forall d p d1 q b, single_token_insertion ts a names fuel d p = Val (d1, q, b) -> heard p q.
  Proof.
    intros d p d1 q b H. unfold single_token_insertion in H. step_la H. apply la_quiet in E. repeat step H. destruct (contains _ _); [|inversion H; subst; now apply quiet_heard].
    match type of H with obindo ?x _ = _ => destruct x as [[d2 q2]| |] eqn:ER; cbn [obindo] in H; try discriminate end.
    inversion H; subst. eapply heard_trans; [apply quiet_heard; exact E|]. eapply missing_heard; exact ER.
  Qed.
  Lemma inline_heard : forall g p g1 q r, recover_inline ts a names fuel g p = Val (g1, q, r) -> heard p q /\ forall e, r = inr e -> here q e.
  Proof.
    intros g p g1 q r H. destruct g as [d|d]; cbn [recover_inline] in H.
    - destruct (d_recover_inline ts a names fuel d p) as [[[d1 q1] r1]| |] eqn:E; cbn [obindo] in H; try discriminate. inversion H; subst. clear H.
      unfold d_recover_inline in E.
      destruct (single_token_deletion ts a names fuel d p) as [[[d2 p2] t]| |] eqn:E1; cbn [obindo] in E; try discriminate. apply deletion_heard in E1.
      destruct t as [t|].
      + step E. inversion E; subst. split; [|discriminate]. eapply heard_trans; [exact E1|]. apply quiet_heard. eapply consume_quiet; eauto.
      + destruct (single_token_insertion ts a names fuel d2 p2) as [[[d3 p3] b]| |] eqn:E2; cbn [obindo] in E; try discriminate. apply insertion_heard in E2.
        pose proof (heard_trans _ _ _ E1 E2) as HH.
        destruct b; step E; inversion E; subst; (split; [exact HH|]); intros e He; inversion He; subst.
        destruct (nt_ctx d1) as [c|].
        * unfold mismatch_with_state in E0. step E0. step E0. inversion E0; subst. intros HI. cbn [e_token]. now apply base_current.
        * step E0. inversion E0; subst. intros HI. now apply base_current.
    - step H. unfold process_error in H. step H. step E0. inversion E0; subst. inversion H; subst. split; [apply heard_refl|].
      intros e He. inversion He; subst. exact Logic.I.
  Qed.
  Lemma sync_heard : forall g p g1 q r, sync ts a names fuel g p = Val (g1, q, r) -> heard p q /\ forall e, r = Some e -> here q e.
  Proof.
    intros g p g1 q r H. destruct g as [d|d]; cbn [sync] in H; [|inversion H; subst; split; [apply heard_refl|discriminate]].
    destruct (d_sync ts a names fuel d p) as [[[d1 q1] r1]| |] eqn:E; cbn [obindo] in H; try discriminate. inversion H; subst. clear H.
    unfold d_sync in E. destruct (recovering d); [inversion E; subst; split; [apply heard_refl|discriminate]|].
    step_la E. apply la_quiet in E0. step E. step E. destruct (contains _ _); [inversion E; subst; split; [now apply quiet_heard|discriminate]|].
    destruct (contains _ _).
    - destruct (nt_ctx d); [|step E]; inversion E; subst; (split; [now apply quiet_heard|discriminate]).
    - destruct (sync_case _); try discriminate.
      + match type of E with obindo ?x _ = _ => destruct x as [[[d2 p2] t]| |] eqn:E3; cbn [obindo] in E; try discriminate end. apply deletion_heard in E3.
        assert (HH : heard p p2) by (eapply heard_trans; [apply quiet_heard; exact E0|exact E3]).
        destruct t; [|step E]; inversion E; subst; (split; [exact HH|]); [discriminate|]. intros e He. inversion He; subst. intros HI. now apply base_current.
      + match type of E with obindo ?x _ = _ => destruct x as [[d2 p2]| |] eqn:E3; cbn [obindo] in E; try discriminate end. apply unwanted_heard in E3.
        step E. step E. step E. inversion E; subst. split; [|discriminate]. eapply heard_trans; [apply quiet_heard; exact E0|]. eapply heard_trans; [exact E3|].
        apply quiet_heard. eapply consume_until_quiet; eauto.
  Qed.

  Definition well (c : call) : Prop := forall g p f g' p' f' r, no_mismatch c -> run_call ts a names fuel c g p f = Val (g', p', f', r) ->
    heard p p' /\ forall e, r = Some e -> here p' e.
  Lemma no_mismatch_fix : forall cs,
    (fix all (l : list call) : Prop := match l with [] => True | c :: l => no_mismatch c /\ all l end) cs -> Forall no_mismatch cs.
  Proof. induction cs as [|c cs IH]; intros H; [constructor|]. destruct H. constructor; auto. Qed.
  Lemma well_calls : forall cs, Forall well cs -> Forall no_mismatch cs -> forall g p f g' p' f' r,
    run_calls ts a names fuel cs g p f = Val (g', p', f', r) -> heard p p' /\ forall e, r = Some e -> here p' e.
  Proof.
    induction 1 as [|c cs Hc _ IH]; intros HM g p f g' p' f' r H; cbn [run_calls] in H; [inversion H; subst; split; [apply heard_refl|discriminate]|].
    inversion HM; subst.
    destruct (run_call ts a names fuel c g p f) as [[[[g1 p1] f1] r1]| |] eqn:E; cbn [obindo] in H; try discriminate. destruct (Hc _ _ _ _ _ _ _ H2 E) as [K1 K2].
    destruct r1; [inversion H; subst; auto|]. destruct (IH H3 _ _ _ _ _ _ _ H) as [K3 K4]. split; auto. eapply heard_trans; eauto.
  Qed.
  Lemma report_match_quiet : forall ty (g : strategy) rec p q, consume ts rec (if (ty : Z) =? TOKEN_EOF then with_eof p else p) = Val q -> quiet p q.
  Proof.
    intros ty g rec p q H. apply consume_quiet in H. eapply quiet_trans; [|exact H]. destruct (_ =? _); apply quiet_same; reflexivity.
  Qed.
  Lemma all_well : forall c, well c.
  Proof.
    induction c as [c N1 N2|rule s pl body IH|rule s n pl body IH] using call_ind'; intros g p f g' p' f' r HM H.
    - destruct c as [s|k| |ty| |inset|n|e|[k|]|k| | |k pl|r0 s pl b|r0 s n pl b];
        try solve [exfalso; eapply N1; eauto|exfalso; eapply N2; eauto]; cbn [ParserModel.run_call alloc] in H.
      + inversion H; subst. split; [apply quiet_heard, quiet_same; reflexivity|discriminate].
      + step_la H. inversion H; subst. split; [apply quiet_heard; eapply la_quiet; eauto|discriminate].
      + unfold no_result in H. destruct (sync ts a names fuel g p) as [[[g1 p1] r1]| |] eqn:E; cbn [obindo] in H; try discriminate. inversion H; subst.
        eapply sync_heard; eauto.
      + unfold no_tok in H. destruct (match_token ts a names fuel g p ty) as [[[g1 p1] r1]| |] eqn:E; cbn [obindo] in H; try discriminate. inversion H; subst.
        unfold match_token in E. step E. destruct (_ =? ty); [step E; inversion E; subst; split; [apply quiet_heard; eapply report_match_quiet; eauto|discriminate]|].
        destruct (recover_inline ts a names fuel g p) as [[[g2 q] r2]| |] eqn:E1; cbn [obindo] in E; try discriminate. apply inline_heard in E1 as [K1 K2].
        destruct r2; [step E|]; inversion E; subst; auto.
        * split; [eapply heard_trans; [exact K1|apply quiet_heard; eapply add_missing_quiet; eauto]|discriminate].
        * split; auto. intros e He. inversion He; subst. auto.
      + unfold no_tok in H. destruct (match_wildcard ts a names fuel g p) as [[[g1 p1] r1]| |] eqn:E; cbn [obindo] in H; try discriminate. inversion H; subst.
        unfold match_wildcard in E. step E. destruct (_ >? 0); [step E; inversion E; subst; split; [apply quiet_heard; eapply consume_quiet; eauto|discriminate]|].
        destruct (recover_inline ts a names fuel g p) as [[[g2 q] r2]| |] eqn:E1; cbn [obindo] in E; try discriminate. apply inline_heard in E1 as [K1 K2].
        destruct r2; [step E|]; inversion E; subst; auto.
        * split; [eapply heard_trans; [exact K1|apply quiet_heard; eapply add_missing_quiet; eauto]|discriminate].
        * split; auto. intros e He. inversion He; subst. auto.
      + unfold no_result in H. destruct (match_set ts a names fuel inset g p) as [[[g1 p1] r1]| |] eqn:E; cbn [obindo] in H; try discriminate. inversion H; subst.
        unfold match_set in E. step_la E. apply la_quiet in E0.
        destruct (inset _).
        * step_la E. apply la_quiet in E1. step E. inversion E; subst. apply report_match_quiet in E2; [|exact g]. split; [|discriminate]. apply quiet_heard.
          eapply quiet_trans; [exact E0|]. eapply quiet_trans; eauto.
        * match type of E with context [recover_inline ts a names fuel g ?q] => destruct (recover_inline ts a names fuel g q) as [[[g2 q2] r2]| |] eqn:E1; cbn [obindo] in E; try discriminate end.
          apply inline_heard in E1 as [K1 K2]. inversion E; subst. split; [eapply heard_trans; [apply quiet_heard; exact E0|exact K1]|].
          intros e He. destruct r2; inversion He; subst. auto.
      + destruct (precpred p n); [inversion H; subst; split; [apply heard_refl|discriminate]|]. step H. inversion H; subst.
        split; [apply heard_refl|]. intros e He. inversion He; subst. unfold failed_predicate in E. step E. step E.
        destruct (match _ with PredicateTr _ _ _ _ => _ | _ => _ end). step E. inversion E; subst. exact Logic.I.
      + inversion H; subst. split; [apply heard_refl|]. intros e0 He. inversion He; subst. destruct e0; try exact Logic.I. contradiction.
      + step H. step H. inversion H; subst. apply outer_alt_quiet in E0. split; [|discriminate]. apply quiet_heard. eapply quiet_trans; [|exact E0]. apply quiet_same; reflexivity.
      + step H. inversion H; subst. apply outer_alt_quiet in E. split; [|discriminate]. now apply quiet_heard.
      + step H. inversion H; subst. split; [|discriminate]. apply quiet_heard, quiet_same; reflexivity.
      + step_lt H. apply lt_quiet in E. step H. inversion H; subst. split; [|discriminate]. apply quiet_heard. eapply quiet_trans; [exact E|]. apply quiet_same; reflexivity.
      + step H. inversion H; subst. apply exit_event_quiet in E. split; [|discriminate]. now apply quiet_heard.
      + step H. inversion H; subst. apply push_quiet in E. split; [|discriminate]. apply quiet_heard. eapply quiet_trans; [|exact E]. apply quiet_same; reflexivity.
    - cbn [ParserModel.run_call alloc] in H. step H. rename a0 into p1. apply enter_rule_quiet in E.
      match type of H with obindo (?rc body g p1 ?fr) _ = _ => change (rc body g p1 fr) with (run_calls ts a names fuel body g p1 fr) in H;
        destruct (run_calls ts a names fuel body g p1 fr) as [[[[g2 p2] f2] r2]| |] eqn:E1; cbn [obindo] in H; try discriminate end.
      destruct (catch ts a names fuel g2 p2 r2) as [[[g3 p3] r3]| |] eqn:E2; cbn [obindo] in H; try discriminate.
      destruct (well_calls _ IH (no_mismatch_fix _ HM) _ _ _ _ _ _ _ E1) as [K1 K2]. destruct (catch_heard _ _ _ _ _ _ K2 E2) as [K3 K4].
      assert (K : heard p p3).
      { eapply heard_trans; [apply quiet_heard, quiet_same; [| |reflexivity]|]; [..|eapply heard_trans; [apply quiet_heard; exact E|eapply heard_trans; eauto]]; reflexivity. }
      destruct r3; [inversion H; subst; auto|]. step H. inversion H; subst. apply exit_rule_quiet in E0. split; [|discriminate]. eapply heard_trans; [exact K|now apply quiet_heard].
    - cbn [ParserModel.run_call alloc] in H. step H. rename a0 into p1. apply enter_rec_quiet in E.
      match type of H with obindo (?rc body g p1 ?fr) _ = _ => change (rc body g p1 fr) with (run_calls ts a names fuel body g p1 fr) in H;
        destruct (run_calls ts a names fuel body g p1 fr) as [[[[g2 p2] f2] r2]| |] eqn:E1; cbn [obindo] in H; try discriminate end.
      destruct (catch ts a names fuel g2 p2 r2) as [[[g3 p3] r3]| |] eqn:E2; cbn [obindo] in H; try discriminate.
      destruct (well_calls _ IH (no_mismatch_fix _ HM) _ _ _ _ _ _ _ E1) as [K1 K2]. destruct (catch_heard _ _ _ _ _ _ K2 E2) as [K3 K4].
      assert (K : heard p p3).
      { eapply heard_trans; [apply quiet_heard, quiet_same; [| |reflexivity]|]; [..|eapply heard_trans; [apply quiet_heard; exact E|eapply heard_trans; eauto]]; reflexivity. }
      destruct r3; [inversion H; subst; auto|]. step H. inversion H; subst. apply unroll_quiet in E0. split; [|discriminate]. eapply heard_trans; [exact K|now apply quiet_heard].
  Qed.
End Messages.

(** The text of a range of tokens of a common stream: all their texts, the end of input excepted. *)
Lemma common_text : forall src n s i j, crep src n s -> (i <= j)%nat -> (j < n)%nat ->
  get_text_from_interval s (Z.of_nat i) (Z.of_nat j) =
    Done (concat (map (fun k => TokenStreamModel.t_text (src k)) (seq i (if t_type (src j) =? EOF_TYPE then j - i else Datatypes.S (j - i))))).
Proof.
  intros src n s i j R Hij Hj.
  destruct R as [R _]. unfold get_text_from_interval, get_buffer_start_index. cbv zeta. 
    rewrite (r_base _ _ _ _ R), (r_toks _ _ _ _ R), zlen_map_seq.
    destruct (_ || _) eqn:Q; [lia|]. rewrite sub_list_map_seq by lia. f_equal.
    replace (0 + Z.to_nat (Z.of_nat i - Z.of_nat 0))%nat with i by lia.
    replace (Z.to_nat (Z.of_nat j - Z.of_nat 0 + 1 - (Z.of_nat i - Z.of_nat 0))) with (Datatypes.S (j - i)) by lia.
    assert (Hno : no_eof_before src j) by (apply (rep_noeof_lt src n _ j R); lia).
    clear - Hno Hij. remember (j - i)%nat as k eqn:Hk. revert i Hij Hk. induction k as [|k IH]; intros i Hij Hk.
    - assert (i = j) by lia. subst i. cbn. change (TokenStreamModel.TOKEN_EOF) with EOF_TYPE. destruct (t_type (src j) =? EOF_TYPE); cbn; auto.
    - assert (Ha : ~ is_eof src i) by (apply Hno; lia). unfold is_eof in Ha.
      change (seq i (Datatypes.S (Datatypes.S k))) with (i :: seq (Datatypes.S i) (Datatypes.S k)). cbn [map text_until_eof tok_at set_index TokenStreamModel.t_type TokenStreamModel.t_text].
      destruct (t_type (src i) =? TokenStreamModel.TOKEN_EOF) eqn:E; [lia|].
      rewrite (IH (Datatypes.S i)) by lia.
      destruct (t_type (src j) =? EOF_TYPE); reflexivity.
Qed.
