(** More fuel changes no result of a prediction. *)
From Coq Require Import ZArith List Bool Lia.
From Verif Require Import Outcome IntervalSetModel PredContextModel SemContextModel ConfigSetModel DfaModel AtnModel Ll1Model ParserModel PredictModel PredictTotalBaseProofs.
Import ListNotations.
Local Open Scope Z_scope.
Local Open Scope outcome_scope.

Ltac mono1 := first
  [ assumption
  | apply le_refl
  | apply le_bind; [|intros ? _]
  | match goal with
    | |- le_out (match ?x with _ => _ end) (match ?x with _ => _ end) => destruct x
    end ].
Ltac mono := repeat mono1.

Section Fuel.
  Context {S : Type}.
  Variable ts : seek_ops S.
  Variable a : atn.
  Variable ctx : Type.
  Variable sempred : S -> option ctx -> Z -> Z -> bool.
  Variable order : list nat -> list sem -> list sem.
  Variable alt_order : list (list Z) -> list (list Z).
  Variable hash : pctx -> Z.
  Variable dhash : list pconfig -> Z.
  Variable share : pctx -> pctx.
  Variable mode : pmode.
  Variable start_index precedence : Z.
  Variable outer : ctx.
  Variable outer_stack : list Z.
  Variable decision start : Z.
  Notation sim := (sim S).

  Section Rec.
    Variables rec rec' : rec_closure (S := S).
    Hypothesis H : forall c b d w, le_out (rec c b d w) (rec' c b d w).
    Lemma edge_le config p collect full depth eof first t w :
      le_out (closure_edge ts a ctx sempred order start_index precedence outer start rec config p collect full depth eof first t w)
             (closure_edge ts a ctx sempred order start_index precedence outer start rec' config p collect full depth eof first t w).
    Proof. unfold closure_edge. mono; apply H. Qed.
    Lemma edges_le config p collect full depth eof : forall l first w,
      le_out (closure_edges ts a ctx sempred order start_index precedence outer start rec config p collect full depth eof first l w)
             (closure_edges ts a ctx sempred order start_index precedence outer start rec' config p collect full depth eof first l w).
    Proof. induction l as [|t l IH]; intros first w; cbn [closure_edges]; [apply le_refl|]. apply le_bind; [apply edge_le | intros; apply IH]. Qed.
    Lemma work_le config collect full depth eof w :
      le_out (closure_work ts a ctx sempred order hash start_index precedence outer start rec config collect full depth eof w)
             (closure_work ts a ctx sempred order hash start_index precedence outer start rec' config collect full depth eof w).
    Proof. unfold closure_work. mono. apply edges_le. Qed.
    Lemma return_le config x collect depth : forall l w, le_out (return_to rec config x collect depth l w) (return_to rec' config x collect depth l w).
    Proof. induction l as [|i l IH]; intros w; cbn [return_to]; [apply le_refl|]. mono; [apply IH | apply H | apply IH]. Qed.
  End Rec.

  Notation ccss := (closure_checking_stop_state ts a ctx sempred order hash start_index precedence outer start).
  Definition body (rec : rec_closure (S := S)) (full treat_eof : bool) (config : pconfig) (collect : bool) (depth : Z) (w : cwork) : outcome cwork :=
    let work w := closure_work ts a ctx sempred order hash start_index precedence outer start rec config collect full depth treat_eof w in
    let! s := get_state a (c_state config) in
    if is_stop s then
      let! x := unwrap (c_ctx config) in
      let! e := pc_is_empty x in
      if negb e then
        let! last := match pc_length x with O => Panics | Datatypes.S i => get_return_state x i end in
        let! w := if last =? EMPTY_RETURN_STATE then
                    if full then
                      let '(m, cs, busy) := w in
                      let! (m, cs) := add_to hash m cs (pcloned_with_new_ctx config s (Some EMPTY)) in
                      Val (m, cs, busy)
                    else work w
                  else Val w in
        return_to rec config x collect depth (seq 0 (pc_length x)) w
      else if full then
        let '(m, cs, busy) := w in
        let! (m, cs) := add_to hash m cs config in
        Val (m, cs, busy)
      else work w
    else work w.
  Lemma ccss_eq n full eof c b d w : ccss (Datatypes.S n) full eof c b d w = body (ccss n full eof) full eof c b d w.
  Proof. reflexivity. Qed.
  Lemma ccss_le full eof : forall n c b d w, le_out (ccss n full eof c b d w) (ccss (Datatypes.S n) full eof c b d w).
  Proof.
    induction n as [|n IH]; intros c b d w; [left; reflexivity|]. rewrite (ccss_eq n), (ccss_eq (Datatypes.S n)).
    generalize (ccss (Datatypes.S n) full eof) IH. generalize (ccss n full eof). intros rec rec' H. unfold body. cbv zeta.
    mono; try (apply edges_le, H); try (apply return_le, H).
  Qed.
  Notation closure n := (closure ts a ctx sempred order hash n start_index precedence outer start).
  Lemma closure_le n c b full eof w : le_out (closure n c b full eof w) (closure (Datatypes.S n) c b full eof w).
  Proof. unfold PredictModel.closure. apply le_bind; [apply ccss_le | intros; apply le_refl]. Qed.
  Notation start_loop n := (start_loop ts a ctx sempred order hash n start_index precedence outer start).
  Lemma start_loop_le n x full : forall l i m cs, le_out (start_loop n x full i l m cs) (start_loop (Datatypes.S n) x full i l m cs).
  Proof.
    induction l as [|t l IH]; intros i m cs; cbn [PredictModel.start_loop]; [apply le_refl|]. apply le_bind; [apply le_refl|]. intros target _.
    apply le_bind; [apply closure_le|]. intros [[m1 cs1] b] _. apply IH.
  Qed.
  Notation compute_start_state n := (compute_start_state ts a ctx sempred order hash n start_index precedence outer start).
  Lemma start_le n s x full m : le_out (compute_start_state n s x full m) (compute_start_state (Datatypes.S n) s x full m).
  Proof. unfold PredictModel.compute_start_state. apply le_bind; [apply le_refl | intros; apply start_loop_le]. Qed.
  Notation close_all n := (close_all ts a ctx sempred order hash n start_index precedence outer start).
  Lemma close_all_le n full eof : forall l w, le_out (close_all n full eof l w) (close_all (Datatypes.S n) full eof l w).
  Proof.
    induction l as [|c l IH]; intros w; cbn [PredictModel.close_all]; [apply le_refl|]. apply le_bind; [apply closure_le | intros; apply IH].
  Qed.
  (** the tokens that may follow are not looked up when the input has ended *)
  Lemma remove_loop_same n n' : forall l (m : sim) cs, remove_loop a hash n false l m cs = remove_loop a hash n' false l m cs.
  Proof.
    induction l as [|c l IH]; intros m cs; cbn [remove_loop]; [reflexivity|]. destruct (get_state a (c_state c)) as [s| |]; cbn [obindo]; auto.
    destruct (is_stop s); cbn [andb].
    - destruct (add_to hash m cs c) as [[m1 cs1]| |]; cbn [obindo]; auto.
    - cbn [obindo]. auto.
  Qed.
  Notation compute_reach_set n := (compute_reach_set ts a ctx sempred order hash n start_index precedence outer start).
  Lemma reach_le n from t full m : le_out (compute_reach_set n from t full m) (compute_reach_set (Datatypes.S n) from t full m).
  Proof.
    unfold PredictModel.compute_reach_set. apply le_bind; [apply le_refl|]. intros [[m1 im] sk] _. cbv zeta.
    apply le_bind; [mono; apply close_all_le|]. intros [m2 r] _. apply le_bind; [|intros; apply le_refl].
    destruct (t =? TOKEN_EOF); [|apply le_refl]. cbn [negb]. rewrite andb_false_r. cbn [andb]. unfold remove_all_configs_not_in_rule_stop_state.
    apply le_bind; [apply le_refl|]. intros [|] _; [apply le_refl|]. right. apply remove_loop_same.
  Qed.
  Notation full_loop n k := (full_loop ts a ctx sempred order alt_order hash n mode start_index precedence outer start k).
  Lemma full_loop_le n : forall k prev t m, le_out (full_loop n k prev t m) (full_loop (Datatypes.S n) (Datatypes.S k) prev t m).
  Proof.
    induction k as [|k IH]; intros prev t m; [left; reflexivity|].
    remember (Datatypes.S k) as k1. rewrite Heqk1 at 1. cbn [PredictModel.full_loop]. apply le_bind; [apply reach_le|].
    intros [m1 o] _. mono. subst k1. apply IH.
  Qed.
  Notation exec_full n := (exec_atn_with_full_context ts a ctx sempred order alt_order hash n mode start_index precedence outer start).
  Lemma exec_full_le n s m : le_out (exec_full n s m) (exec_full (Datatypes.S n) s m).
  Proof. unfold PredictModel.exec_atn_with_full_context. mono. apply full_loop_le. Qed.
  Notation on_conflict n := (on_conflict ts a ctx sempred order alt_order hash n mode start_index precedence outer outer_stack start).
  Lemma on_conflict_le n st m : le_out (on_conflict n st m) (on_conflict (Datatypes.S n) st m).
  Proof.
    unfold PredictModel.on_conflict. apply le_bind; [apply le_refl|]. intros [m1 [x|alts]] _; [apply le_refl|]. cbv zeta. apply le_bind; [apply le_refl|]. intros x _.
    apply le_bind; [apply start_le|]. intros [m2 s] _. apply exec_full_le.
  Qed.
  Notation compute_target_state n := (compute_target_state ts a ctx sempred order alt_order hash dhash share n mode start_index precedence outer decision start).
  Lemma target_le n previous t m : le_out (compute_target_state n previous t m) (compute_target_state (Datatypes.S n) previous t m).
  Proof.
    unfold PredictModel.compute_target_state. apply le_bind; [apply le_refl|]. intros prev _. apply le_bind; [apply reach_le|]. intros [m1 o] _. apply le_refl.
  Qed.
  Notation exec_loop n k := (exec_loop ts a ctx sempred order alt_order hash dhash share n mode start_index precedence outer outer_stack decision start k).
  Lemma exec_loop_le n : forall k previous t m, le_out (exec_loop n k previous t m) (exec_loop (Datatypes.S n) (Datatypes.S k) previous t m).
  Proof.
    induction k as [|k IH]; intros previous t m; [left; reflexivity|]. remember (Datatypes.S k) as k1. rewrite Heqk1 at 1. cbn [PredictModel.exec_loop].
    apply le_bind; [apply le_refl|]. intros known _. apply le_bind; [destruct known; [apply le_refl | apply target_le]|].
    intros [m1 d] _. subst k1. repeat first [apply on_conflict_le | apply IH | progress mono1].
  Qed.
  Notation exec_atn n := (exec_atn ts a ctx sempred order alt_order hash dhash share n mode start_index precedence outer outer_stack decision start).
  Lemma exec_le n s m : le_out (exec_atn n s m) (exec_atn (Datatypes.S n) s m).
  Proof. unfold PredictModel.exec_atn. mono. apply exec_loop_le. Qed.
  Notation start_state n := (start_state ts a ctx sempred order hash dhash share n start_index precedence outer start).
  Lemma start_state_le n m : le_out (start_state n m) (start_state (Datatypes.S n) m).
  Proof.
    unfold PredictModel.start_state. apply le_bind; [apply le_refl|]. intros [r|] _; [apply le_refl|]. unfold make_start.
    apply le_bind; [apply start_le|]. intros [m1 cs] _. apply le_refl.
  Qed.
End Fuel.

Lemma predict_le {S} ts a ctx sempred order alt_order hash dhash share mode precedence outer outer_stack decision start d (input : S) clock n :
  le_out (adaptive_predict ts a ctx sempred order alt_order hash dhash share n mode precedence outer outer_stack decision start d input clock)
         (adaptive_predict ts a ctx sempred order alt_order hash dhash share (Datatypes.S n) mode precedence outer outer_stack decision start d input clock).
Proof.
  unfold adaptive_predict. destruct (k_mark ts input) as [input1 mk]. apply le_bind; [apply start_state_le|]. intros [m1 s] _.
  apply le_bind; [apply exec_le|]. intros; apply le_refl.
Qed.
