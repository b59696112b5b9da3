(** Properties of prediction: it comes back (C85). *)
From Coq Require Import ZArith List Bool Lia Permutation Relations.
From Verif Require Import Outcome IntervalSetModel AtnModel AtnSpec.
From Verif Require Import PredContextModel PredContextSpec SemContextModel ConfigSetModel DfaModel Ll1Model Ll1Spec ParserModel PredictModel PredictSpec.
From Verif Require Import CharStreamModel TokenStreamModel TokenStreamSpec.
From Verif Require Import PredictLLSpec PredictTotalSpec PredictTotalBaseProofs PredictTotalDfaProofs PredictTotalFuelProofs PredictTotalStreamProofs ParserDemo PredictDemo PredictLLDemo PredictLLProps PredictTotalDemo.
Import ListNotations.
Local Open Scope Z_scope.

(** ** C85  Prediction always comes back, with an answer *)

(** For every grammar in which nothing can be repeated without matching a token
    ([no_stall]; the ANTLR tool rejects the others), with predicates and left-recursive
    rules, every decision of it, any rules in progress, any mode, any DFA left behind by
    earlier predictions of the decision on any streams, any history of the token stream,
    any user predicates, any iteration orders of hash sets: [adaptive_predict] neither
    panics nor runs on for ever; it returns an alternative or a syntax error.  [fuel]
    bounds the recursion of the model; with enough of it, it plays no part. *)
Theorem C85_common_stream_returns : forall a, sound_grammar a -> no_stall a ->
  forall decision start rule, decision_ok a decision start rule ->
  forall order alt_order hash dhash share, orders_ok order alt_order -> contexts_ok hash share ->
  forall src ch sfuel e, eof_number src e -> (e <= sfuel)%nat ->
  forall ctx sempred mode precedence (outer : ctx) main stack conts d input ops clock,
  in_progress a main rule stack conts -> dfa_past a decision start rule d ->
  crun src ch sfuel (with_channel src) ops = Done input ->
  returns (fun fuel => adaptive_predict (common_seek src ch sfuel) a ctx sempred order alt_order hash dhash share fuel mode precedence outer stack
    decision start d input clock).
Proof.
  intros a G NS decision start rule (Hd & sd & Hs & Hn & Hr & Hc) order alt_order hash dhash share Ho Hx src ch sfuel e He Hf ctx sempred mode precedence outer main stack conts d input ops clock Hp Hpast Hrun.
  eapply tot_returns, common_total; eauto. eapply past_dok; eauto.
Qed.
Print Assumptions C85_common_stream_returns.

Theorem C85_unbuffered_stream_returns : forall a, sound_grammar a -> no_stall a ->
  forall decision start rule, decision_ok a decision start rule ->
  forall order alt_order hash dhash share, orders_ok order alt_order -> contexts_ok hash share ->
  forall src e, eof_number src e ->
  forall ctx sempred mode precedence (outer : ctx) main stack conts d input ops clock,
  in_progress a main rule stack conts -> dfa_past a decision start rule d ->
  trun src new_unbuffered ops = Done input ->
  returns (fun fuel => adaptive_predict (unbuffered_seek src) a ctx sempred order alt_order hash dhash share fuel mode precedence outer stack
    decision start d input clock).
Proof.
  intros a G NS decision start rule (Hd & sd & Hs & Hn & Hr & Hc) order alt_order hash dhash share Ho Hx src e He ctx sempred mode precedence outer main stack conts d input ops clock Hp Hpast Hrun.
  eapply tot_returns, unbuffered_total; eauto. eapply past_dok; eauto.
Qed.
Print Assumptions C85_unbuffered_stream_returns.

(** The fuel only ends a run early, it never changes an answer: for any grammar, stream
    and DFA, what one fuel gives, every larger one gives too. *)
Theorem C85_fuel_plays_no_part : forall (S : Type) (ts : seek_ops S) a ctx sempred order alt_order hash dhash share mode precedence (outer : ctx) stack
    decision start d (input : S) clock fuel more,
  adaptive_predict ts a ctx sempred order alt_order hash dhash share fuel mode precedence outer stack decision start d input clock <> NoFuel ->
  (fuel <= more)%nat ->
  adaptive_predict ts a ctx sempred order alt_order hash dhash share more mode precedence outer stack decision start d input clock =
  adaptive_predict ts a ctx sempred order alt_order hash dhash share fuel mode precedence outer stack decision start d input clock.
Proof.
  intros S ts a ctx sempred order alt_order hash dhash share mode precedence outer stack decision start d input clock fuel more N L.
  induction L as [|k L IH]; [reflexivity|].
  destruct (predict_le ts a ctx sempred order alt_order hash dhash share mode precedence outer stack decision start d input clock k) as [Q|Q]; [congruence | rewrite Q; exact IH].
Qed.
Print Assumptions C85_fuel_plays_no_part.

(** Together with C80: for simple grammars, a prediction comes back, and with a right
    alternative whenever there is one (the last premise of C80, fewer than 2^64 - 1 DFA
    states, is about the DFA that is left). *)
Theorem C85_returns_right_partial : forall a main, simple_grammar a main -> one_stop a -> no_stall a ->
  forall decision start rule, decision_ok a decision start rule ->
  forall order alt_order hash dhash share, orders_ok order alt_order -> contexts_ok hash share ->
  forall src ch sfuel e, eof_number src e -> (e <= sfuel)%nat ->
  forall ctx sempred mode precedence (outer : ctx) stack conts d input ops clock c w,
  mode <> SLL ->
  in_progress a main rule stack conts ->
  dfa_past a decision start rule d -> dfa_history a order alt_order hash dhash share decision start d ->
  crun src ch sfuel (with_channel src) ops = Done input -> cur input = Z.of_nat c ->
  read_types src (fun k => k = ch) c w -> token_types a w ->
  (exists j n, viable a start conts w n j) ->
  exists n m r, (forall fuel, (n <= fuel)%nat -> adaptive_predict (common_seek src ch sfuel) a ctx sempred order alt_order hash dhash share fuel mode precedence outer stack
    decision start d input clock = Val (m, r)) /\
  (Z.of_nat (length (dfa_states (m_dfa m))) < ERROR_DFA_STATE_REF -> exists p, r = Predicted p /\ right_prediction a start conts w p).
Proof.
  intros a main (W & Pf & Mk & Lk & Om) One NS decision start rule Hd order alt_order hash dhash share Ho Hx src ch sfuel e He Hf ctx sempred mode precedence outer stack conts d input ops clock c w
    Hm Hp Hpast Hh Hrun Hc Hw Ht Hv.
  assert (G : sound_grammar a).
  { split; [exact W|]. split; [exact Mk|]. split; [intros i s E St t I; exact (proj1 (Lk i s E St) t I)|]. split; [exact One|].
    intros i s n g l E T. pose proof (proj2 (Pf i s E)) as X. rewrite T in X. destruct X. }
  destruct (C85_common_stream_returns a G NS decision start rule Hd order alt_order hash dhash share Ho Hx src ch sfuel e He Hf ctx sempred mode precedence outer main stack conts d input ops clock
    Hp Hpast Hrun) as (n & (m, r) & H). exists n, m, r. split; [exact H|]. intros L.
  exact (C80_common_stream_partial a main (conj W (conj Pf (conj Mk (conj Lk Om)))) decision start rule (proj2 Hd) order alt_order hash dhash share (proj2 Ho) (proj2 Hx) src ch sfuel e He Hf
    ctx sempred n mode precedence outer stack conts d input ops clock m r c w Hm Hp Hh Hrun Hc Hw Ht (H n (Nat.le_refl n)) L Hv).
Qed.
Print Assumptions C85_returns_right_partial.

(** Without [no_stall] it is false: for [( | A)*] no prediction ever comes back, on any
    stream, in any mode. *)
Section Stall.
  Context {S : Type}.
  Variable ts : seek_ops S.
  Variable ctx : Type.
  Variable sempred : S -> option ctx -> Z -> Z -> bool.
  Variable order : list nat -> list sem -> list sem.
  Variable hash : pctx -> Z.
  Variable start_index precedence : Z.
  Variable outer : ctx.
  Notation go n i := (closure_checking_stop_state ts stall_atn ctx sempred order hash start_index precedence outer 2 n false false (new_config i 1 (Some EMPTY)) true 0).
  Lemma stall_step i j w (rec : rec_closure (S := S)) : In (i, j) [(2, 3); (3, 5); (5, 6); (6, 2)] -> rec (new_config j 1 (Some EMPTY)) true 0 w = NoFuel ->
    closure_work ts stall_atn ctx sempred order hash start_index precedence outer 2 rec (new_config i 1 (Some EMPTY)) true false 0 false w = NoFuel.
  Proof.
    intros I H. destruct w as [[m cs] busy].
    destruct I as [I|[I|[I|[I|[]]]]]; injection I as <- <-; lazy in H |- *; rewrite H; reflexivity.
  Qed.
  Lemma stall_loop n : forall w, go n 2 w = NoFuel /\ go n 3 w = NoFuel /\ go n 5 w = NoFuel /\ go n 6 w = NoFuel.
  Proof.
    induction n as [|n IH]; intros w; [repeat split; reflexivity|]. destruct (IH w) as (H2 & H3 & H5 & H6).
    split; [|split; [|split]].
    - exact (stall_step 2 3 w (fun c => closure_checking_stop_state ts stall_atn ctx sempred order hash start_index precedence outer 2 n false false c) ltac:(cbn; auto) H3).
    - exact (stall_step 3 5 w (fun c => closure_checking_stop_state ts stall_atn ctx sempred order hash start_index precedence outer 2 n false false c) ltac:(cbn; auto) H5).
    - exact (stall_step 5 6 w (fun c => closure_checking_stop_state ts stall_atn ctx sempred order hash start_index precedence outer 2 n false false c) ltac:(cbn; auto) H6).
    - exact (stall_step 6 2 w (fun c => closure_checking_stop_state ts stall_atn ctx sempred order hash start_index precedence outer 2 n false false c) ltac:(cbn; auto) H2).
  Qed.
End Stall.
Theorem C85_stalling_grammar_never_returns : forall (S : Type) (ts : seek_ops S) ctx sempred order alt_order hash dhash share fuel mode precedence (outer : ctx) stack (input : S) clock,
  adaptive_predict ts stall_atn ctx sempred order alt_order hash dhash share fuel mode precedence outer stack 0 2 (dfa_new unit unit false) input clock = NoFuel.
Proof.
  intros. unfold adaptive_predict. destruct (k_mark ts input) as [i mk]. unfold start_state. cbn [m_dfa is_precedence_dfa dfa_new s0 obindo]. unfold make_start, compute_start_state.
  change (get_state stall_atn 2) with (Val (sst 0 2 10 (DecisionState 0 false (StarLoopEntry 6 false)) [Epsilon 3 (-1); Epsilon 7 (-1)])). cbn [obindo st_trans sst start_loop get_target].
  change (get_state stall_atn 3) with (Val (sst 0 3 5 (DecisionState 1 false (BlockStartState 5 StarBlockStart)) [Epsilon 5 (-1); Epsilon 4 (-1)])). cbn [obindo st_number sst]. unfold closure.
  rewrite (proj1 (proj2 (stall_loop ts ctx sempred order hash _ precedence outer fuel _))). reflexivity.
Qed.
Print Assumptions C85_stalling_grammar_never_returns.
Lemma stall_decision : decision_ok stall_atn 0 2 0.
Proof. split; [reflexivity|]. eexists. split; [reflexivity|]. split; [discriminate|]. split; [reflexivity|]. intros t [<-|[<-|[]]]; reflexivity. Qed.
Lemma plain_orders : orders_ok plain_order plain_alts.
Proof. split; [intros at_ l | intros l]; apply Permutation_refl. Qed.
Lemma plain_contexts : contexts_ok one_hash no_share.
Proof. split; [intros x _; discriminate | intros x _; reflexivity]. Qed.

Theorem C85_any_grammar_refuted : ~ (forall a, sound_grammar a ->
  forall decision start rule, decision_ok a decision start rule ->
  forall order alt_order hash dhash share, orders_ok order alt_order -> contexts_ok hash share ->
  forall src ch sfuel e, eof_number src e -> (e <= sfuel)%nat ->
  forall ctx sempred mode precedence (outer : ctx) main stack conts d input ops clock,
  in_progress a main rule stack conts -> dfa_past a decision start rule d ->
  crun src ch sfuel (with_channel src) ops = Done input ->
  returns (fun fuel => adaptive_predict (common_seek src ch sfuel) a ctx sempred order alt_order hash dhash share fuel mode precedence outer stack
    decision start d input clock)).
Proof.
  intros H. destruct (H stall_atn stall_sound 0 2 0 stall_decision plain_order plain_alts one_hash no_dhash no_share plain_orders plain_contexts
    ab 0 50%nat 2%nat ab_eof ltac:(lia) unit (fun _ _ _ _ => true) LL 0 tt 0 [-1] [] (dfa_new unit unit false) (with_channel ab) [] 0%nat
    (progress_main _ _) (past_new _ _ _ _ _) eq_refl) as (n & r & E).
  specialize (E n (Nat.le_refl n)). rewrite C85_stalling_grammar_never_returns in E. discriminate.
Qed.
Print Assumptions C85_any_grammar_refuted.

(** ** Concrete cases: in "NUM + NUM * NUM", the precedence decision after the second
    NUM, with the DFA left behind by the decision after the first; and "D A B" of C80. *)
Definition sum : nat -> tok := source (map tk [1; 2; 1; 3; 1]).
Lemma sum_eof : eof_number sum 5.
Proof. split; [reflexivity|]. intros [|[|[|[|[|i]]]]] Hi; cbn; [discriminate..|lia]. Qed.
Lemma operators : decision_ok expr_atn 2 13 1.
Proof. split; [reflexivity|]. eexists. split; [reflexivity|]. split; [discriminate|]. split; [reflexivity|]. intros t [<-|[<-|[]]]; reflexivity. Qed.
Lemma in_e : in_progress expr_atn 0 1 [2; -1] [3].
Proof.
  apply (progress_call expr_atn 0 2 (sst 0 2 1 BasicState [RuleTr 5 3 1 0]) 5 3 1 0 [] [-1] []); try reflexivity; [discriminate | apply progress_main].
Qed.
Lemma in_e_e : in_progress expr_atn 0 1 [25; 2; -1] [20; 3].
Proof.
  apply (progress_call expr_atn 0 25 (sst 1 25 1 BasicState [RuleTr 5 20 1 4]) 5 20 1 4 [] [2; -1] [3]); try reflexivity; [discriminate | apply in_e].
Qed.
Notation epredict precedence stack d input :=
  (adaptive_predict (common_seek sum 0 50) expr_atn unit (fun _ _ _ p => p =? precedence) plain_order plain_alts one_hash no_dhash no_share 100 LL precedence tt stack 2 13 d input 0%nat).
Definition sum_dfa : pdfa := match epredict 0 [2; -1] (dfa_new unit unit true) (stream_at sum [CConsume]) with
  Val (m, _) => m_dfa m | _ => dfa_new unit unit true end.
Lemma sum_fits : (5 <= 50)%nat.
Proof. lia. Qed.
Lemma sum_at_1 : crun sum 0 50 (with_channel sum) [CConsume] = Done (stream_at sum [CConsume]).
Proof. vm_compute. reflexivity. Qed.
Lemma sum_at_3 : crun sum 0 50 (with_channel sum) [CConsume; CConsume; CConsume] = Done (stream_at sum [CConsume; CConsume; CConsume]).
Proof. vm_compute. reflexivity. Qed.
Lemma settled {A} (f : nat -> outcome A) n r k : (forall i, (n <= i)%nat -> f i = Val r) -> (forall fuel more, f fuel <> NoFuel -> (fuel <= more)%nat -> f more = f fuel) ->
  f k <> NoFuel -> f k = Val r.
Proof. intros H M N. rewrite <- (M k (k + n)%nat N) by lia. apply H. lia. Qed.
Lemma sum_past : dfa_past expr_atn 2 13 1 sum_dfa.
Proof.
  remember (epredict 0 [2; -1] (dfa_new unit unit true) (stream_at sum [CConsume])) as o eqn:Eo.
  destruct o as [[m r]| |]; [|vm_compute in Eo; discriminate..]. unfold sum_dfa. rewrite <- Eo. symmetry in Eo.
  exact (past_common expr_atn 2 13 1 (dfa_new unit unit true) plain_order plain_alts one_hash no_dhash no_share sum 0 50%nat 5%nat unit (fun _ _ _ p => p =? 0) 100%nat LL 0 tt 0 [2; -1] [3]
    (stream_at sum [CConsume]) [CConsume] 0%nat m r (past_new _ _ _ _ _) plain_orders plain_contexts sum_eof sum_fits sum_at_1 in_e Eo).
Qed.
Example C85_nonvacuous : (1 < length (dfa_states sum_dfa))%nat /\ exists n m, forall fuel, (n <= fuel)%nat ->
  adaptive_predict (common_seek sum 0 50) expr_atn unit (fun _ _ _ p => p =? 4) plain_order plain_alts one_hash no_dhash no_share fuel LL 4 tt [25; 2; -1]
    2 13 sum_dfa (stream_at sum [CConsume; CConsume; CConsume]) 0%nat = Val (m, Predicted 1).
Proof.
  split; [vm_compute; lia|].
  destruct (C85_common_stream_returns expr_atn expr_sound expr_no_stall 2 13 1 operators plain_order plain_alts one_hash no_dhash no_share plain_orders plain_contexts
    sum 0 50%nat 5%nat sum_eof ltac:(lia) unit (fun _ _ _ p => p =? 4) LL 4 tt 0 [25; 2; -1] [20; 3] sum_dfa (stream_at sum [CConsume; CConsume; CConsume]) [CConsume; CConsume; CConsume] 0%nat
    in_e_e sum_past sum_at_3) as (n & (m, r) & H).
  assert (Er : result (epredict 4 [25; 2; -1] sum_dfa (stream_at sum [CConsume; CConsume; CConsume])) = Some (Predicted 1)) by (vm_compute; reflexivity).
  assert (Ef := settled _ n (m, r) 100 H (fun fuel more => C85_fuel_plays_no_part _ _ _ _ _ _ _ _ _ _ _ _ _ _ _ _ _ _ _ fuel more)).
  cbv beta in Ef. remember (epredict 4 [25; 2; -1] sum_dfa (stream_at sum [CConsume; CConsume; CConsume])) as o eqn:Eo. clear Eo.
  rewrite Ef in Er; [|intros Q; rewrite Q in Er; discriminate]. injection Er as ->. exists n, m. exact H.
Qed.
Example C85_right_nonvacuous : exists n m, (forall fuel, (n <= fuel)%nat ->
  adaptive_predict (common_seek dab 0 50) caller_atn unit (fun _ _ _ _ => true) plain_order plain_alts one_hash no_dhash no_share fuel LL 0 tt [8; -1]
    1 12 (dfa_new unit unit false) (stream_at dab [CConsume]) 0%nat = Val (m, Predicted 2)) /\ right_prediction caller_atn 12 [15] [1; 2] 2.
Proof.
  destruct (C85_returns_right_partial caller_atn 0 caller_simple (proj1 (proj2 (proj2 (proj2 caller_sound)))) caller_no_stall 1 12 1 (conj eq_refl r_decision)
    plain_order plain_alts one_hash no_dhash no_share plain_orders plain_contexts dab 0 50%nat 3%nat dab_eof ltac:(lia) unit (fun _ _ _ _ => true) LL 0 tt [8; -1] [15]
    (dfa_new unit unit false) (stream_at dab [CConsume]) [CConsume] 0%nat 1%nat [1; 2]) as (n & m & r & H & R).
  - discriminate.
  - exact in_r.
  - apply past_new.
  - apply history_new.
  - vm_compute. reflexivity.
  - vm_compute. reflexivity.
  - exact dab_read.
  - exact dab_tokens.
  - exists 2, 1%nat. exact ab_viable.
  - assert (Er : match llpredict caller_atn (common_seek dab 0 50) LL [8; -1] 1 12 (dfa_new unit unit false) (stream_at dab [CConsume]) with
      Val (m, r) => Some (r, Z.of_nat (length (dfa_states (m_dfa m))) <? ERROR_DFA_STATE_REF) | _ => None end = Some (Predicted 2, true)) by (vm_compute; reflexivity).
    assert (Ef := settled _ n (m, r) 100 H (fun fuel more => C85_fuel_plays_no_part _ _ _ _ _ _ _ _ _ _ _ _ _ _ _ _ _ _ _ fuel more)).
    cbv beta in Ef. remember (llpredict caller_atn (common_seek dab 0 50) LL [8; -1] 1 12 (dfa_new unit unit false) (stream_at dab [CConsume])) as o eqn:Eo. clear Eo.
    rewrite Ef in Er; [|intros Q; rewrite Q in Er; discriminate]. injection Er as -> El. apply Z.ltb_lt in El. exists n, m. split; [exact H|].
    destruct (R El) as (p & E & Rp). injection E as <-. exact Rp.
Qed.
