(** Properties of threads that share DFAs (C90, C91). *)
From Coq Require Import ZArith List Bool Lia Permutation.
From Verif Require Import Outcome CharStreamModel TokenStreamModel TokenStreamSpec IntervalSetModel PredContextModel PredContextSpec SemContextModel ConfigSetModel DfaModel AtnModel AtnSpec Ll1Model ParserModel PredictModel PredictLLSpec PredictTotalSpec.
From Verif Require Import ParserDemo PredictDemo PredictLLDemo PredictLLProps PredictTotalDemo PredictTotalProps.
From Verif Require Import ConcModel ConcSpec ConcProofs ConcLiveProofs ConcReentryProofs ConcPredictModel ConcPredictSpec ConcPredictProofs ConcDemo.
Import ListNotations.
Local Open Scope Z_scope.

(** ** C90  Parsers in several threads can share their DFAs *)

(** Any threads, any number of predictions, any DFAs to begin with, any schedule.

    What has happened to the DFA of a decision is a sequence of whole predictions, each
    by one thread and as it would have gone if the thread had been alone ([alone]), on
    the DFA left by the one before; and perhaps one more in progress. *)
Theorem C90_one_by_one : forall (D R V : Type) (d0 : nat -> D) (ts : list (thread D R V)) s, steps (start d0 ts) s ->
  forall k, exists es d last, on k (trace s) = es ++ last /\ one_by_one k (d0 k) es d /\
    (last = [] /\ dfas s k = d \/ exists i j, last = [Began i k j]).
Proof. intros D R V d0 ts s H k. exact (on_at d0 s k (steps_ok d0 _ _ H (ok_start d0 ts))). Qed.
Print Assumptions C90_one_by_one.
Theorem C90_one_by_one_at_the_end : forall (D R V : Type) (d0 : nat -> D) (ts : list (thread D R V)) s, steps (start d0 ts) s -> finished s ->
  forall k, one_by_one k (d0 k) (on k (trace s)) (dfas s k).
Proof. intros D R V d0 ts s H F. exact (finished_serial d0 ts s H F). Qed.
Print Assumptions C90_one_by_one_at_the_end.

(** While a thread may change a DFA, no other one looks at it. *)
Theorem C90_nobody_looks_at_a_change : forall (D R V : Type) (d0 : nat -> D) (ts : list (thread D R V)) s, steps (start d0 ts) s ->
  forall k i c x y, nth_error (threads s) i = Some c -> may_change k c -> nth_error (threads s) x = Some y -> may_look k y -> x = i.
Proof. intros D R V d0 ts s H. exact (exclusive d0 ts s H). Qed.
Print Assumptions C90_nobody_looks_at_a_change.

(** No deadlock, as long as user code called by a prediction only makes predictions of
    decisions of higher rank, for some ranking (those of other grammars, say). *)
Theorem C90_no_deadlock : forall (D R V : Type) (rank : nat -> nat) (d0 : nat -> D) (ts : list (thread D R V)) s, Forall (ranked rank) ts ->
  steps (start d0 ts) s -> finished s \/ exists s', step s s'.
Proof.
  intros D R V rank d0 ts s F H. pose proof (steps_ok d0 _ _ H (ok_start d0 ts)) as O. destruct s as [L d l tr].
  apply (never_stuck rank d0); [exact O|]. apply (steps_ranked rank _ _ H). cbn. apply Forall_map. eapply Forall_impl; [|exact F]. cbn. auto.
Qed.
Print Assumptions C90_no_deadlock.
(** And no schedule goes on for ever. *)
Theorem C90_no_endless_schedule : forall (D R V : Type) (run : nat -> sys D R V), ~ forall n, step (run n) (run (S n)).
Proof.
  intros D R V run H. assert (X : forall s, Acc (fun s' s => step s s') s -> forall n, run n <> s).
  { intros s A. induction A as [s _ IH]. intros n E. apply (IH (run (S n))) with (n := S n); auto. rewrite <- E. apply H. }
  apply (X (run O) (runs_end _) O eq_refl).
Qed.
Print Assumptions C90_no_endless_schedule.

(** For parsers: whatever the schedule, a prediction gives what [adaptive_predict] gives
    with the DFA that the predictions before it have left. *)
Theorem C90_as_if_alone : forall a start rule H (d0 : nat -> pdfa) ts s, Forall (parsing a start rule H) ts -> steps (ConcModel.start d0 ts) s ->
  forall k i r, In (Ended i k r) (trace s) ->
  exists es1 q es2 d, on k (trace s) = es1 ++ Began i k (predict_job a (Z.of_nat k) (start k) q) :: Ended i k r :: es2 /\ H q /\
    one_by_one k (d0 k) es1 d /\ r = predict_at_once a (Z.of_nat k) (start k) q d.
Proof.
  intros a start rule H d0 ts s F St k i r I. pose proof (steps_ok d0 _ _ St (ok_start d0 ts)) as O.
  destruct (ended_began d0 s k i r O I) as (es1 & j & es2 & E). destruct (ended_alone d0 s k es1 i j i r es2 O E) as (d1 & d2 & W & A & _).
  pose proof (start_uses d0 _ ts s F St) as B. rewrite Forall_forall in B.
  assert (J : In (Began i k j) (trace s)). { apply (proj1 (filter_In (about k) (Began i k j) (trace s))). fold (on k (trace s)). rewrite E. apply in_or_app. right. now left. }
  destruct (B _ J) as (q & main & conts & P & Hq & ->). exists es1, q, es2, d1. split; [exact E|]. split; [exact Hq|]. split; [exact W|].
  exact (proj1 (proj1 (predict_gives a (Z.of_nat k) (start k) q d1) d2 r A)).
Qed.
Print Assumptions C90_as_if_alone.

(** For grammars as in C85, in which nothing can be repeated without matching a token,
    with DFAs that are new to begin with: no prediction ever panics, in any schedule.
    (The fuel of the model must not run out.) *)
Theorem C90_predictions_return : forall a, sound_grammar a -> no_stall a ->
  forall start rule (prec : nat -> bool) ts s, Forall (parsing a start rule hashing_ok) ts -> steps (ConcModel.start (fun k => dfa_new unit unit (prec k)) ts) s ->
  forall k, decision_ok a (Z.of_nat k) (start k) (rule k) -> (forall i, ~ In (Ended i k NoFuel) (trace s)) ->
  forall i r, In (Ended i k r) (trace s) -> exists m p, r = Val (m, p).
Proof.
  intros a G NS start rule prec ts s F St k Dk NF i r I. set (d0 := fun k => dfa_new unit unit (prec k)) in *.
  pose proof (steps_ok d0 _ _ St (ok_start d0 ts)) as O.
  destruct (ended_began d0 s k i r O I) as (es1 & j & es2 & E). destruct (ended_alone d0 s k es1 i j i r es2 O E) as (d1 & d2 & W & A & _).
  pose proof (start_uses d0 _ ts s F St) as B. rewrite Forall_forall in B.
  assert (Sub : forall e, In e (on k (trace s)) -> In e (trace s)) by (intros e Ie; exact (proj1 (proj1 (filter_In _ _ _) Ie))).
  assert (J : In (Began i k j) (trace s)). { apply Sub. rewrite E. apply in_or_app. right. now left. }
  destruct (B _ J) as (q & main & conts & P & Hq & ->).
  destruct (proper_returns a start rule k main conts q d1) as (m & p & R & _); auto.
  - apply (serial_past a start rule hashing_ok k es1 (d0 k)); auto.
    + apply Forall_forall. intros e Ie. apply B, Sub. rewrite E. apply in_or_app. auto.
    + intros x Ix. apply (NF x), Sub. rewrite E. apply in_or_app. auto.
    + apply past_new.
  - rewrite <- (proj1 (proj1 (predict_gives a (Z.of_nat k) (start k) q d1) d2 r A)). intros ->. now apply (NF i).
  - exists m, p. rewrite (proj1 (proj1 (predict_gives a (Z.of_nat k) (start k) q d1) d2 r A)). exact R.
Qed.
Print Assumptions C90_predictions_return.

(** And for simple grammars (C80), in LL mode, with hashing the same in all threads: every
    prediction is right, whatever the other threads do.  What is missing is what is
    missing in C80. *)
Theorem C90_predictions_right_partial : forall a main, simple_grammar a main -> one_stop a -> no_stall a ->
  forall start rule q0, hashing_ok q0 ->
  forall ts s, Forall (parsing a start rule (fun q => same_hashing q q0)) ts -> steps (ConcModel.start (fun _ => dfa_new unit unit false) ts) s ->
  forall k, decision_ok a (Z.of_nat k) (start k) (rule k) -> (forall i, ~ In (Ended i k NoFuel) (trace s)) ->
  forall es1 i q r es2 conts w, on k (trace s) = es1 ++ Began i k (predict_job a (Z.of_nat k) (start k) q) :: Ended i k r :: es2 ->
  proper_ahead a main (rule k) conts w q -> same_hashing q q0 -> q_mode q <> SLL -> token_types a w -> (exists j n, viable a (start k) conts w n j) ->
  exists m p, r = Val (m, p) /\ (Z.of_nat (length (dfa_states (m_dfa m))) < ERROR_DFA_STATE_REF ->
    exists x, p = Predicted x /\ right_prediction a (start k) conts w x).
Proof.
  intros a main SG One NS start rule q0 H0 ts s F St k Dk NF es1 i q r es2 conts w E Pa Sh Md Tt Vi.
  assert (G : sound_grammar a).
  { destruct SG as (W & Pf & Mk & Lk & Om). split; [exact W|]. split; [exact Mk|]. split; [intros i1 s1 E1 S1 t I; exact (proj1 (Lk i1 s1 E1 S1) t I)|]. split; [exact One|].
    intros i1 s1 n g l E1 T. pose proof (proj2 (Pf i1 s1 E1)) as X. rewrite T in X. destruct X. }
  assert (Hh : forall p, same_hashing p q0 -> hashing_ok p).
  { intros p (A & B & C & D & X). unfold hashing_ok. rewrite A, B, C, X. exact H0. }
  assert (P : proper a main (rule k) conts q) by (destruct Pa; [eapply proper_common|eapply proper_unbuffered]; eauto).
  set (d0 := fun _ : nat => dfa_new unit unit false) in *. pose proof (steps_ok d0 _ _ St (ok_start d0 ts)) as O.
  destruct (ended_alone d0 s k es1 i _ i r es2 O E) as (d1 & d2 & W & A & _).
  pose proof (start_uses d0 _ ts s F St) as B. rewrite Forall_forall in B.
  assert (Sub : forall e, In e (on k (trace s)) -> In e (trace s)) by (intros e Ie; exact (proj1 (proj1 (filter_In _ _ _) Ie))).
  assert (In1 : forall e, In e es1 -> In e (trace s)). { intros e Ie. apply Sub. rewrite E. apply in_or_app. auto. }
  assert (Be : Forall (began_ok (prediction_job a start rule (fun q => same_hashing q q0))) es1) by (apply Forall_forall; intros e Ie; apply B, In1, Ie).
  assert (Past : dfa_past a (Z.of_nat k) (start k) (rule k) d1).
  { apply (serial_past a start rule (fun q => same_hashing q q0) k es1 (d0 k)); auto. { intros x Ix. apply (NF x), In1, Ix. } apply past_new. }
  pose proof (proj1 (proj1 (predict_gives a (Z.of_nat k) (start k) q d1) d2 r A)) as Er.
  destruct (proper_returns a start rule k main conts q d1 G NS Dk P (Hh q Sh) Past) as (m & p & R & _).
  { rewrite <- Er. intros ->. apply (NF i), Sub. rewrite E. apply in_or_app. right. cbn. auto. }
  exists m, p. split; [now rewrite Er|]. intros Small.
  assert (Hist : dfa_history a (q_order q0) (q_alt_order q0) (q_hash q0) (q_dhash q0) (q_share q0) (Z.of_nat k) (start k) d1).
  { apply (serial_history a start rule (fun q => same_hashing q q0) k es1); auto. intros x y Ix.
    destruct (one_by_one_on _ _ _ _ _ _ W Ix) as (e1 & j & e2 & E1).
    destruct (one_by_one_split _ _ _ _ W _ _ _ _ _ _ E1) as (d3 & d4 & W3 & A3 & _).
    assert (J : In (Began x k j) es1) by (rewrite E1; apply in_or_app; right; now left).
    destruct (B _ (In1 _ J)) as (q' & main' & conts' & P' & Hq' & ->).
    destruct (proper_returns a start rule k main' conts' q' d3 G NS Dk P' (Hh q' Hq')) as (m' & p' & R' & _).
    - apply (serial_past a start rule (fun q => same_hashing q q0) k e1 (d0 k)); auto.
      + rewrite E1 in Be. apply Forall_app in Be as [Be _]. exact Be.
      + intros z Iz. apply (NF z), In1. rewrite E1. apply in_or_app. auto.
      + apply past_new.
    - rewrite <- (proj1 (proj1 (predict_gives a (Z.of_nat k) (start k) q' d3) d4 y A3)). intros ->. apply (NF x), In1, Ix.
    - exists m', p'. rewrite (proj1 (proj1 (predict_gives a (Z.of_nat k) (start k) q' d3) d4 y A3)). exact R'. }
  destruct (Hh q Sh) as [Ho Hc]. destruct Sh as (S1 & S2 & S3 & S4 & S5). rewrite <- S1, <- S2, <- S3, <- S4, <- S5 in Hist. unfold predict_at_once in R.
  destruct Pa as [src ch sfuel e ops c X He Hf Hr Hp Hcu Hw|src e ops c X He Hr Hp Hcu Hw]; rewrite X in R.
  - exact (C80_common_stream_partial a main SG _ _ _ (proj2 Dk) _ _ _ _ _ (proj2 Ho) (proj2 Hc) src ch sfuel e He Hf _ _ _ _ _ _ _ _ _ _ _ _ _ _ _ _ Md Hp Hist Hr Hcu Hw Tt R Small Vi).
  - exact (C80_unbuffered_stream_partial a main SG _ _ _ (proj2 Dk) _ _ _ _ _ (proj2 Ho) (proj2 Hc) src _ _ _ _ _ _ _ _ _ _ _ _ _ _ _ _ Md Hp Hist Hr Hcu Hw Tt R Small Vi).
Qed.
Print Assumptions C90_predictions_right_partial.

(** Two parsers of one grammar, "C A B" and "D A B", and a thread that prints the DFAs,
    taking turns: all of them end, with the right predictions. *)
Definition r_start (k : nat) : Z := 12.
Definition r_rule (k : nat) : Z := 1.
Lemma three_parsing : Forall (parsing caller_atn r_start r_rule (fun q => same_hashing q (call cab [] deaf))) three.
Proof.
  constructor; [|constructor; [|constructor; [exact I|constructor]]].
  - split; [|split; [apply predict_job_uses; intros; exact I|intros; exact I]]. exists (call cab [4; -1] deaf), 0, [5]. split; [apply proper_cab|]. now split.
  - split; [|split; [apply predict_job_uses; intros; exact I|intros; exact I]]. exists (call dab [8; -1] deaf), 0, [15]. split; [apply proper_dab|]. now split.
Qed.
Lemma three_ranked : Forall (ranked (fun k => k)) three.
Proof.
  constructor; [|constructor; [|constructor; [exact I|constructor]]].
  - split; [lia|]. split; [apply predict_job_ranked; intros; exact I|intros; exact I].
  - split; [lia|]. split; [apply predict_job_ranked; intros; exact I|intros; exact I].
Qed.
Example C90_nonvacuous :
  sound_grammar caller_atn /\ no_stall caller_atn /\ Forall (ranked (fun k => k)) three /\
  Forall (parsing caller_atn r_start r_rule hashing_ok) three /\
  Forall (parsing caller_atn r_start r_rule (fun q => same_hashing q (call cab [] deaf))) three /\
  steps (start new_dfas three) three_end /\ finished three_end /\ (forall i k, ~ In (Ended i k NoFuel) (trace three_end)) /\
  answers three_end = [(0%nat, Some (Predicted 1)); (1%nat, Some (Predicted 2))].
Proof.
  split; [exact caller_sound|]. split; [exact caller_no_stall|]. split; [exact three_ranked|].
  split. { constructor; [|constructor; [|constructor; [exact I|constructor]]].
    - split; [|split; [apply predict_job_uses; intros; exact I|intros; exact I]]. exists (call cab [4; -1] deaf), 0, [5]. split; [apply proper_cab|]. split; [apply call_hashing|reflexivity].
    - split; [|split; [apply predict_job_uses; intros; exact I|intros; exact I]]. exists (call dab [8; -1] deaf), 0, [15]. split; [apply proper_dab|]. split; [apply call_hashing|reflexivity]. }
  split; [exact three_parsing|]. split; [apply scheduled|]. split; [exact three_finished|]. split; [exact three_fuel|exact three_answers].
Qed.

(** ** C91  Parsing inside a parse: user code called by a prediction (an error listener,
    say) can use another parser of the same grammar *)

(** Refuted.  The thread waits for itself: in any schedule, when the prediction comes to
    call user code that makes a prediction with the same DFA, it does not come back, and
    in the end nothing moves.  [X] is what the other threads keep true of the DFA. *)
Theorem C91_reentry_deadlocks : forall (D R V : Type) (d0 : nat -> D) (ts : list (thread D R V)) i k j c, nth_error ts i = Some (Predict k j c) ->
  forall (P : nat -> job D R V -> Prop), (forall x t, nth_error ts x = Some t -> x <> i -> uses P t) ->
  forall X : D -> Prop, X (d0 k) -> (forall j' d d' r, P k j' -> alone j' d d' r -> X d -> X d') ->
  (forall d, X d -> exists j' c', first_call j d = Some (Predict k j' c')) ->
  forall s, steps (start d0 ts) s -> (forall v, nth_error (threads s) i <> Some (Run (Stop v) [])) /\ exists s', steps s s' /\ deadlock s'.
Proof.
  intros D R V d0 ts i k j c E P Us X X0 Kp Re s H. split.
  - exact (never_returns d0 ts i k j c E P Us X X0 Kp Re s H).
  - exact (always_deadlocks d0 ts i k j c E P Us X X0 Kp Re s H).
Qed.
Print Assumptions C91_reentry_deadlocks.

(** For parsers: a prediction that, alone, would return with a report, to a listener that
    makes a prediction for the same decision. *)
Theorem C91_listener_deadlocks : forall a start d0 ts i k q c m p rep l j' c',
  nth_error ts i = Some (Predict k (predict_job a (Z.of_nat k) (start k) q) c) ->
  (forall x t, nth_error ts x = Some t -> x <> i -> uses (fun k' _ => k' <> k) t) ->
  predict_at_once a (Z.of_nat k) (start k) q (d0 k) = Val (m, p) -> m_reports m = rep :: l -> q_listen q rep = Predict k j' c' ->
  forall s, steps (ConcModel.start d0 ts) s -> (forall v, nth_error (threads s) i <> Some (Run (Stop v) [])) /\ exists s', steps s s' /\ deadlock s'.
Proof.
  intros a start d0 ts i k q c m p rep l j' c' E Us R Rp Li. apply (C91_reentry_deadlocks _ _ _ d0 ts i k _ c E (fun k' _ => k' <> k) Us (eq (d0 k))).
  - reflexivity.
  - intros j d d' r N. now destruct N.
  - intros d <-. exists j', c'. rewrite <- Li. exact (proj2 (predict_gives a (Z.of_nat k) (start k) q (d0 k)) m p rep l R Rp).
Qed.
Print Assumptions C91_listener_deadlocks.

(** "D A B" leads to a report. *)
Lemma nested_reports : exists m p rep l, predict_at_once caller_atn 1 12 nested_call (new_dfas 1) = Val (m, p) /\ m_reports m = rep :: l.
Proof.
  assert (H : match predict_at_once caller_atn 1 12 nested_call (new_dfas 1) with Val (m, _) => match m_reports m with [] => false | _ => true end | _ => false end = true) by (vm_compute; reflexivity).
  destruct (predict_at_once caller_atn 1 12 nested_call (new_dfas 1)) as [[m p]| |]; try discriminate. destruct (m_reports m) as [|rep l] eqn:E; try discriminate. eauto 6.
Qed.
Lemma nested_deadlock : forall s, steps (start new_dfas [in_rule_r nested_call done]) s -> (forall v, nth_error (threads s) 0 <> Some (Run (Stop v) [])) /\ exists s', steps s s' /\ deadlock s'.
Proof.
  destruct nested_reports as (m & p & rep & l & R & Rp).
  refine (C91_listener_deadlocks caller_atn r_start new_dfas [in_rule_r nested_call done] 0 1 nested_call done m p rep l _ _ eq_refl _ R Rp eq_refl).
  intros [|x] t E N; [now destruct N|]. destruct x; discriminate.
Qed.
Definition caller_starts (k : nat) : Z := match k with O => 2 | _ => 12 end.
Definition caller_rules (k : nat) : Z := match k with O => 0 | _ => 1 end.
Lemma caller_decisions k : (k < length (decision_to_state caller_atn))%nat -> decision_ok caller_atn (Z.of_nat k) (caller_starts k) (caller_rules k).
Proof.
  cbn. intros H. destruct k as [|[|k]]; [| |lia]; (split; [reflexivity|]); [|exact r_decision].
  eexists. split; [reflexivity|]. split; [discriminate|]. split; [reflexivity|]. intros t [<-|[<-|[]]]; reflexivity.
Qed.
Lemma deaf_uses (P : nat -> pjob -> Prop) x : uses P (deaf x).
Proof. exact I. Qed.
Lemma nested_parsing : parsing caller_atn caller_starts caller_rules hashing_ok (in_rule_r nested_call done).
Proof.
  assert (N : forall x, uses (prediction_job caller_atn caller_starts caller_rules hashing_ok) (nested x)).
  { intros x. split; [|split; [apply predict_job_uses; apply deaf_uses|intros; exact I]].
    exists (call cab [4; -1] deaf), 0, [5]. split; [apply proper_cab|]. split; [apply call_hashing|reflexivity]. }
  split; [|split; [apply predict_job_uses; exact N|intros; exact I]].
  exists nested_call, 0, [15]. split; [apply proper_dab|]. split; [apply call_hashing|reflexivity].
Qed.
Theorem C91_nested_parser_refuted :
  ~ (forall a start rule ts, sound_grammar a -> no_stall a -> (forall k, (k < length (decision_to_state a))%nat -> decision_ok a (Z.of_nat k) (start k) (rule k)) ->
     Forall (parsing a start rule hashing_ok) ts ->
     forall s, steps (ConcModel.start (fun _ => dfa_new unit unit false) ts) s -> ~ deadlock s).
Proof.
  intros H. destruct (nested_deadlock _ (steps_none _ _ _ _)) as (_ & s & St & Dl).
  refine (H caller_atn caller_starts caller_rules [in_rule_r nested_call done] caller_sound caller_no_stall caller_decisions _ s St Dl).
  constructor; [exact nested_parsing|constructor].
Qed.
Print Assumptions C91_nested_parser_refuted.

(** What holds: with the DFAs of another grammar (decisions of higher rank), it works, in
    any schedule; and so it does if no user code called by predictions parses at all.
    What is missing: the same grammar. *)
Theorem C91_other_grammar_partial : forall (a : nat -> atn) (start : nat -> Z) (rank : nat -> nat) d0 ts s,
  Forall (uses (fun k j => exists q, j = predict_job (a k) (Z.of_nat k) (start k) q /\ forall x, ranked_thread rank (S (rank k)) (q_listen q x))) ts ->
  steps (ConcModel.start d0 ts) s -> finished s \/ exists s', step s s'.
Proof.
  intros a start rank d0 ts s F. apply (C90_no_deadlock _ _ _ rank). apply Forall_forall. intros t It. rewrite Forall_forall in F. specialize (F t It). clear It. unfold ranked.
  induction t as [v|k j c IH|k t IH]; cbn [ranked_thread]; auto. destruct F as ((q & -> & L) & _ & C). split; [lia|]. split; [now apply predict_job_ranked|].
  intros r. apply IH, C.
Qed.
Print Assumptions C91_other_grammar_partial.

Example C91_nonvacuous :
  (* the parser alone would return *)
  (exists m p, predict_at_once caller_atn 1 12 nested_call (new_dfas 1) = Val (m, p)) /\
  (* there is a state it comes to in which it is stuck *)
  (exists s, steps (start new_dfas [in_rule_r nested_call done]) s /\ deadlock s) /\
  (* and a listener that does not parse is fine *)
  Forall (ranked (fun k => k)) three.
Proof.
  split; [destruct nested_reports as (m & p & _ & _ & R & _); eauto|]. split; [|exact three_ranked].
  exact (proj2 (nested_deadlock _ (steps_none _ _ _ _))).
Qed.
