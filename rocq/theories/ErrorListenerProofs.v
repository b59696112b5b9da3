(** Proofs about error listeners. *)
From Coq Require Import ZArith List Bool Lia.
From Verif Require Import Outcome Text AtnModel Ll1Model TokenStreamModel ParserModel PredictModel ErrorListenerModel ErrorListenerSpec TreeSpec TreeProofs MessageProofs.
Import ListNotations.
Local Open Scope Z_scope.

Lemma console_about : forall line column m, line_about line column m (console_line line column m).
Proof. intros line column m. exists (isize_to_string line), (isize_to_string column). split; [apply isize_to_string_ok|]. split; [apply isize_to_string_ok|reflexivity]. Qed.

Lemma times_snoc : forall A n (l : list A), times n l ++ l = times (S n) l.
Proof. intros A n l. cbn. induction n; cbn; [now rewrite app_nil_r|]. now rewrite <- app_assoc, IHn. Qed.

Lemma tell_fold : forall e ls w,
  let w' := fold_left (on_syntax_error e) ls w in
  w_listeners w' = w_listeners w /\ w_heard w' = w_heard w ++ each (own_ids ls) (ToldError e) /\
  w_stderr w' = w_stderr w ++ times (consoles ls) (console_line (se_line e) (se_column e) (se_message e)).
Proof.
  intros e ls. induction ls as [|l ls IH]; intros w; [cbn; now rewrite !app_nil_r|]. cbn zeta. cbn [fold_left].
  destruct (IH (on_syntax_error e w l)) as (A & B & C). rewrite A, B, C. destruct l; cbn; rewrite <- ?app_assoc; auto.
Qed.

Lemma tell_all_ok : forall w e,
  w_listeners (tell_all w e) = w_listeners w /\ w_heard (tell_all w e) = w_heard w ++ each (own_ids (w_listeners w)) (ToldError e) /\
  w_stderr (tell_all w e) = w_stderr w ++ times (consoles (w_listeners w)) (console_line (se_line e) (se_column e) (se_message e)).
Proof. intros w e. apply tell_fold. Qed.

Lemma reports_in_each : forall ids r, filter is_report (each ids (ToldReport r)) = each ids (ToldReport r).
Proof. intros ids r. induction ids as [|i l IH]; [reflexivity|]. exact (f_equal (cons _) IH). Qed.
Lemma errors_in_each : forall ids r, filter is_error (each ids (ToldReport r)) = [].
Proof. intros ids r. induction ids as [|i l IH]; [reflexivity|]. exact IH. Qed.
Lemma reports_in_errors : forall ids e, filter is_report (each ids (ToldError e)) = [].
Proof. intros ids r. induction ids as [|i l IH]; [reflexivity|]. exact IH. Qed.
Lemma errors_in_errors : forall ids e, filter is_error (each ids (ToldError e)) = each ids (ToldError e).
Proof. intros ids r. induction ids as [|i l IH]; [reflexivity|]. exact (f_equal (cons _) IH). Qed.

Section Parser.
  Context {S : Type} (ts : stream_ops S) (a : atn) (names : naming).

  Lemma notify_ok : forall p w msg off e p' w', notify ts p w msg off e = Val (p', w') ->
    exists t, match off with None => get_current_token ts p = Val t | Some x => s_get ts (p_input p) x = Val t end /\
      p' = with_notice p (Notice t msg e) /\ w' = tell_all w (SyntaxError (Some t) (t_line t) (t_column t) msg e).
  Proof.
    intros p w msg off e p' w' H. unfold notify in H. destruct off as [x|].
    - destruct (s_get ts (p_input p) x) as [t| |]; cbn [obindo] in H; try discriminate. inversion H. eauto.
    - destruct (get_current_token ts p) as [t| |]; cbn [obindo] in H; try discriminate. inversion H. eauto.
  Qed.

  Lemma ignores_interested : forall x r, ignores x r = negb (interested r (DiagnosticErrorListener x)).
  Proof. intros [|] [| |? ? [|] ?]; reflexivity. Qed.

  Lemma diagnosis_same : forall p q d s r, p_input p = p_input q -> diagnosis ts a names p d s r = diagnosis ts a names q d s r.
  Proof. intros p q d s r E. unfold diagnosis. now rewrite E. Qed.

  Lemma dispatch_ok : forall d s r ls p w p' w', dispatch_to ts a names ls d s r p w = Val (p', w') ->
    w_listeners w' = w_listeners w /\ p_input p' = p_input p /\
    p_errors p' = p_errors p + Z.of_nat (diagnosticians r ls) /\
    exists t msg, (diagnosticians r ls <> O -> get_current_token ts p = Val t /\ diagnosis ts a names p d s r = Val msg) /\
      let e := SyntaxError (Some t) (t_line t) (t_column t) msg None in
      p_notices p' = p_notices p ++ repeat (Notice t msg None) (diagnosticians r ls) /\
      exists new, w_heard w' = w_heard w ++ new /\ filter is_report new = each (own_ids ls) (ToldReport r) /\
        filter is_error new = times (diagnosticians r ls) (each (own_ids (w_listeners w)) (ToldError e)) /\
        w_stderr w' = w_stderr w ++ times (diagnosticians r ls) (times (consoles (w_listeners w)) (console_line (t_line t) (t_column t) msg)).
  Proof.
    intros d s r ls. induction ls as [|l ls IH]; intros p w p' w' H.
    { inversion H; subst. cbn. rewrite Z.add_0_r. repeat (split; [reflexivity|]). exists (Tok 0 0 [] 0 0 0), []. split; [congruence|].
      rewrite !app_nil_r. split; [reflexivity|]. exists []. rewrite !app_nil_r. auto. }
    cbn [dispatch_to] in H. destruct (on_report ts a names d s r p w l) as [[p1 w1]| |] eqn:E; cbn [obindo] in H; try discriminate.
    destruct (IH _ _ _ _ H) as (A & B & C & t & m & D & F & new & G & K & L & M). clear IH H.
    assert (Q : (interested r l = false /\ p1 = p /\ w_listeners w1 = w_listeners w /\ w_stderr w1 = w_stderr w /\
                 w_heard w1 = w_heard w ++ each (own_ids [l]) (ToldReport r)) \/
                (interested r l = true /\ own_ids [l] = [] /\ exists t m, get_current_token ts p = Val t /\ diagnosis ts a names p d s r = Val m /\
                  p1 = with_notice p (Notice t m None) /\ w1 = tell_all w (SyntaxError (Some t) (t_line t) (t_column t) m None))).
    { destruct l as [|x|id]; cbn [on_report] in E.
      - left. inversion E; subst. cbn. rewrite app_nil_r. auto.
      - rewrite ignores_interested in E. destruct (interested r (DiagnosticErrorListener x)); cbn [negb] in E.
        + right. split; [reflexivity|]. split; [reflexivity|]. destruct (diagnosis ts a names p d s r) as [m0| |]; cbn [obindo] in E; try discriminate.
          apply notify_ok in E as (t0 & X & Y & Z). eauto 8.
        + left. inversion E; subst. cbn. rewrite app_nil_r. auto.
      - left. inversion E; subst. cbn. auto. }
    assert (OI : own_ids (l :: ls) = own_ids [l] ++ own_ids ls) by (unfold own_ids; cbn; now rewrite app_nil_r).
    unfold diagnosticians in *. cbn [filter]. rewrite OI. destruct Q as [(I & -> & WL & WS & WH)|(I & O & t0 & m0 & T0 & M0 & -> & ->)]; rewrite I.
    - repeat (split; [congruence|]). exists t, m. split; [exact D|]. cbn zeta. split; [exact F|].
      exists (each (own_ids [l]) (ToldReport r) ++ new). rewrite !filter_app, K, L, reports_in_each, errors_in_each, WL.
      split; [rewrite G, WH; now rewrite <- app_assoc|]. unfold each. rewrite map_app. split; [reflexivity|]. split; [reflexivity|]. rewrite M, WS, WL. reflexivity.
    - destruct (tell_all_ok w (SyntaxError (Some t0) (t_line t0) (t_column t0) m0 None)) as (X & Y & Z). cbn [se_line se_column se_message] in Z.
      cbn [length]. split; [congruence|]. split; [rewrite B; reflexivity|]. split; [rewrite C; cbn [with_notice p_errors]; lia|].
      exists t0, m0. split; [auto|]. cbn zeta.
      assert (SM : length (filter (interested r) ls) <> 0%nat -> t = t0 /\ m = m0).
      { intros N. destruct (D N) as [D1 D2]. rewrite (diagnosis_same _ p) in D2 by reflexivity. unfold get_current_token in *. cbn [with_notice p_input] in D1. split; congruence. }
      remember (length (filter (interested r) ls)) as k eqn:Ek.
      assert (SK : forall T (g : tok -> text -> list T), times k (g t m) = times k (g t0 m0)).
      { intros T g. destruct k; [reflexivity|]. destruct SM as [-> ->]; [discriminate|reflexivity]. }
      rewrite O. cbn [app]. split.
      { rewrite F. cbn [with_notice p_notices repeat]. rewrite <- app_assoc. f_equal. cbn [app]. f_equal. destruct k; [reflexivity|]. destruct SM as [-> ->]; [discriminate|reflexivity]. }
      exists (each (own_ids (w_listeners w)) (ToldError (SyntaxError (Some t0) (t_line t0) (t_column t0) m0 None)) ++ new).
      rewrite !filter_app, K, L, reports_in_errors, errors_in_errors, X. split; [rewrite G, Y; now rewrite <- app_assoc|]. split; [reflexivity|].
      split.
      { cbn [times]. f_equal. exact (SK _ (fun t m => each (own_ids (w_listeners w)) (ToldError (SyntaxError (Some t) (t_line t) (t_column t) m None)))). }
      rewrite M, X, Z. cbn [times]. rewrite <- app_assoc. do 2 f_equal. exact (SK _ (fun t m => times (consoles (w_listeners w)) (console_line (t_line t) (t_column t) m))).
  Qed.
End Parser.

Lemma ops_registered : forall h ls w, registered h ls -> w_listeners w = [ConsoleErrorListener] -> w_listeners (fold_left do_op h w) = ls.
Proof.
  intros h ls w R. revert w. induction R; intros w E; rewrite ?fold_left_app; cbn; auto. now rewrite IHR.
Qed.
Lemma registered_exists : forall h, exists ls, registered h ls.
Proof.
  induction h as [|o h [ls IH]] using rev_ind; [exists [ConsoleErrorListener]; constructor|]. destruct o; eexists; econstructor; eauto.
Qed.

Lemma lexer_told : forall display errors w,
  let w' := told_of_lexer display errors w in
  w_listeners w' = w_listeners w /\
  w_heard w' = w_heard w ++ concat (map (fun e => let '(line, column, raw) := e in
    each (own_ids (w_listeners w)) (ToldError (SyntaxError None line column (lexer_message (display raw)) None))) errors) /\
  w_stderr w' = w_stderr w ++ concat (map (fun e => let '(line, column, raw) := e in
    times (consoles (w_listeners w)) (console_line line column (lexer_message (display raw)))) errors).
Proof.
  intros display errors. induction errors as [|[[line column] raw] es IH]; intros w; [cbn; now rewrite !app_nil_r|]. cbn zeta.
  unfold told_of_lexer. cbn [fold_left]. fold (told_of_lexer display es (notify_listeners w line column (display raw))).
  destruct (IH (notify_listeners w line column (display raw))) as (A & B & C). unfold notify_listeners in *.
  destruct (tell_all_ok w (SyntaxError None line column (lexer_message (display raw)) None)) as (X & Y & Z). cbn [se_line se_column se_message] in Z.
  rewrite A, B, C, X, Y, Z. cbn [map concat]. now rewrite <- !app_assoc.
Qed.
