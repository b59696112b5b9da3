(** Properties of prediction: operators and their levels (C100). *)
From Coq Require Import ZArith List Bool Lia Permutation.
From Verif Require Import CharStreamModel TokenStreamModel TokenStreamSpec TokenStreamProofs CommonTokenStreamProofs PredictStreamProofs.
From Verif Require Import Outcome IntervalSetModel AtnModel AtnSpec Ll1Model Ll1Spec PredContextModel SemContextModel ConfigSetModel DfaModel ParserModel PredictModel.
From Verif Require Import PredictFrameProofs PredictLLSpec PredictLLStreamProofs RecSpec OperatorSpec OperatorReachProofs OperatorDfaProofs OperatorExecProofs.
From Verif Require Import ParserDemo PredictDemo PredictLLDemo PredictTotalDemo.
Import ListNotations.
Local Open Scope Z_scope.

(** ** C100  A loop of operators goes on exactly while the next token is an operator that
    binds tightly enough *)

(** For every grammar and every rule of it that is a loop of operators in the sense of
    [OperatorSpec]: whatever the level [precedence] the rule was called with, the rules in
    progress, the prediction mode, the predicates, the hash functions and iteration orders,
    and whatever DFA earlier predictions of the decision left behind, with whatever
    parameters of their own: a prediction that returns chooses the first alternative (one
    more operator) if and only if the next token is an operator whose level is at least
    [precedence].  Otherwise it chooses the second (the end of the expression), or
    reports that neither is possible. *)
Definition binds_tightly (level : Z -> option Z) (precedence x : Z) : Prop := exists k, level x = Some k /\ precedence <= k.
Definition loop_answer (level : Z -> option Z) (precedence x : Z) (r : presult) : Prop :=
  (r = Predicted 1 <-> binds_tightly level precedence x) /\
  (~ binds_tightly level precedence x -> r = Predicted 2 \/ exists t t', r = NoViableAlt t t').
Lemma answered level precedence x r : (forall u, choice level precedence x u -> answer u r) -> loop_answer level precedence x r.
Proof.
  intros A. destruct (goes_dec level precedence x) as [G|G].
  - destruct (A 1 (or_introl (conj G eq_refl))) as [(_ & ->)|(F & _)]; [|discriminate]. split; [split; [intros _; exact G | reflexivity] | intros N; destruct (N G)].
  - destruct (A 2 (or_intror (conj G eq_refl))) as [(F & _)|(_ & N)]; [discriminate|]. destruct r as [y|t t']; cbn in N.
    + subst y. split; [split; [discriminate | intros B; destruct (G B)] | auto].
    + split; [split; [discriminate | intros B; destruct (G B)] | intros _; right; eauto].
Qed.

(** over any implementation of token streams: the next token is what [lt] gives *)
Theorem C100_operators : forall a entry ops out level where_,
  well_formed a -> operator_loop a entry ops out level where_ -> token_levels a level ->
  forall decision d, dfa_use a decision entry d -> is_precedence_dfa d = true ->
  forall (S : Type) (ts : seek_ops S) ctx sempred order alt_order hash dhash share fuel mode precedence (outer : ctx) stack input clock m r,
  adaptive_predict ts a ctx sempred order alt_order hash dhash share fuel mode precedence outer stack decision entry d input clock = Val (m, r) ->
  Z.of_nat (length (dfa_states (m_dfa m))) < ERROR_DFA_STATE_REF ->
  exists marked i' o, fst (k_mark ts input) = marked /\ s_lt (k_base ts) marked 1 = Val (i', o) /\
    loop_answer level precedence (match o with Some t => t_type t | None => TOKEN_INVALID_TYPE end) r.
Proof.
  intros a entry ops out level where_ WF OL TL decision d U P S ts ctx sempred order alt_order hash dhash share fuel mode precedence outer stack input clock m r H Len.
  assert (Ok : odfa a ops level where_ d).
  { eapply use_ok; eauto. destruct (predict_longer _ _ _ _ _ _ _ _ _ _ _ _ _ _ _ _ _ _ _ _ _ H) as (G & _). lia. }
  destruct (predict_ok a decision entry ops out level where_ WF OL TL ts ctx sempred order alt_order hash dhash share fuel mode precedence outer stack d input clock m r Ok H Len) as (_ & i1 & mk & i2 & o & Em & El & A).
  exists i1, i2, o. rewrite Em. split; [reflexivity|]. split; [exact El|]. apply answered, A.
Qed.
Print Assumptions C100_operators.

(** over CommonTokenStream, after any history of calls: the next token is the one at the cursor *)
Theorem C100_common_stream : forall a entry ops out level where_,
  well_formed a -> operator_loop a entry ops out level where_ -> token_levels a level ->
  forall decision d, dfa_use a decision entry d -> is_precedence_dfa d = true ->
  forall src ch sfuel e, eof_number src e -> (e <= sfuel)%nat ->
  forall ctx sempred order alt_order hash dhash share fuel mode precedence (outer : ctx) stack input calls clock m r c,
  crun src ch sfuel (with_channel src) calls = Done input -> cur input = Z.of_nat c ->
  adaptive_predict (common_seek src ch sfuel) a ctx sempred order alt_order hash dhash share fuel mode precedence outer stack decision entry d input clock = Val (m, r) ->
  Z.of_nat (length (dfa_states (m_dfa m))) < ERROR_DFA_STATE_REF ->
  loop_answer level precedence (TokenStreamModel.t_type (src c)) r.
Proof.
  intros a entry ops out level where_ WF OL TL decision d U P src ch sfuel e He Hf ctx sempred order alt_order hash dhash share fuel mode precedence outer stack input calls clock m r c Hr Hc H Len.
  destruct (C100_operators a entry ops out level where_ WF OL TL decision d U P _ _ _ _ _ _ _ _ _ _ _ _ _ _ _ _ _ _ H Len) as (i1 & i2 & o & <- & El & A).
  destruct (crun_reach src ch sfuel _ _ Hr) as (n & C & _).
  cbn [common_seek unbuffered_seek k_base k_seek k_mark fst s_lt s_consume s_index common_stream unbuffered_stream] in El. apply of_out_val in El.
  destruct (clt_spec src ch sfuel n input c 1 e C Hc ltac:(lia) (proj1 He) ltac:(lia)) as (s2 & n2 & j & E2 & C2 & _ & Hc2 & _ & _ & K).
  rewrite E2 in El. injection El as <- <-. inversion K; subst; [|match goal with K0 : kth_visible _ _ _ 0 _ |- _ => apply kth_visible_pos in K0; lia end..]. exact A.
Qed.
Print Assumptions C100_common_stream.

(** over UnbufferedTokenStream *)
Theorem C100_unbuffered_stream : forall a entry ops out level where_,
  well_formed a -> operator_loop a entry ops out level where_ -> token_levels a level ->
  forall decision d, dfa_use a decision entry d -> is_precedence_dfa d = true ->
  forall src ctx sempred order alt_order hash dhash share fuel mode precedence (outer : ctx) stack input calls clock m r c,
  trun src new_unbuffered calls = Done input -> cur input = Z.of_nat c ->
  adaptive_predict (unbuffered_seek src) a ctx sempred order alt_order hash dhash share fuel mode precedence outer stack decision entry d input clock = Val (m, r) ->
  Z.of_nat (length (dfa_states (m_dfa m))) < ERROR_DFA_STATE_REF ->
  loop_answer level precedence (TokenStreamModel.t_type (src c)) r.
Proof.
  intros a entry ops out level where_ WF OL TL decision d U P src ctx sempred order alt_order hash dhash share fuel mode precedence outer stack input calls clock m r c Hr Hc H Len.
  destruct (C100_operators a entry ops out level where_ WF OL TL decision d U P _ _ _ _ _ _ _ _ _ _ _ _ _ _ _ _ _ _ H Len) as (i1 & i2 & o & E1 & El & A).
  destruct (reach_rep src _ _ Hr) as (b & n & R).
  cbn [common_seek unbuffered_seek k_base k_seek k_mark fst s_lt s_consume s_index common_stream unbuffered_stream] in El, E1. subst i1. apply of_out_val in El.
  destruct (lt_spec src _ n _ 1 c (mark_spec _ _ _ _ R) ltac:(lia) Hc) as (s2 & n2 & o2 & E2 & R2 & _ & Hc2 & _ & _ & So & _).
  rewrite E2 in El. injection El as <- <-. replace (c + Z.to_nat (1 - 1))%nat with c in So by lia. rewrite (So (rep_noeof_cur _ _ _ _ _ (mark_spec _ _ _ _ R) Hc)) in A. exact A.
Qed.
Print Assumptions C100_unbuffered_stream.

(** ** A concrete case: e : e '*' e | e '+' e | {p}? NUM | NUM with s : e EOF *)
Definition expr_level (x : Z) : option Z := if x =? 3 then Some 4 else if x =? 2 then Some 3 else None.
Definition expr_place (i : Z) : place :=
  if (i =? 14) || (i =? 15) || (i =? 17) then Enter
  else if i =? 16 then Operator 4 else if i =? 18 then Operator 3
  else if (i =? 23) || (i =? 6) then Leave
  else if (i =? 13) || (i =? 19) || (i =? 20) || (i =? 21) || (i =? 22) then Return
  else if i =? 3 then Outside else Elsewhere.
Lemma expr_states (P : Z -> atn_state -> Prop) : (forall k x, nth_error (states expr_atn) k = Some x -> P (Z.of_nat k) x) -> forall i s, state_at expr_atn i = Some s -> P i s.
Proof. intros A i s H. unfold state_at in H. destruct (Z.ltb_spec i 0); [discriminate|]. rewrite <- (Z2Nat.id i) by lia. apply A, H. Qed.
Ltac each_of k E := first [solve [destruct k; discriminate E] | destruct k as [|k]; [injection E as <-; cbn | each_of k E]].
Ltac each_state := match goal with |- forall i s, state_at _ _ = Some _ -> @?P i s => apply (expr_states P) end;
  let k := fresh "k" in let E := fresh "E" in intros k x E; each_of k E.
Ltac each_transition := repeat match goal with H : _ = _ \/ _ |- _ => destruct H as [<-|H] | H : False |- _ => destruct H end.
Lemma expr_loop : operator_loop expr_atn 13 14 23 expr_level expr_place.
Proof.
  constructor.
  - exists (sst 1 13 10 (DecisionState 2 false (StarLoopEntry 22 true)) [Epsilon 14 (-1); Epsilon 23 (-1)]), 2, false, 22, (-1), (-1). repeat split.
  - repeat split.
  - enough (X : forall i s, state_at expr_atn i = Some s -> expr_place i = Enter -> forall t, In t (st_trans s) ->
      (exists g o, t = Epsilon g o /\ expr_place g = Enter) \/ (exists g k, t = PrecedenceTr g k /\ expr_place g = Operator k)) by (intros; eapply X; eauto).
    each_state; try discriminate; intros _ t I; each_transition; (left; do 2 eexists; split; reflexivity) || (right; do 2 eexists; split; reflexivity).
  - enough (X : forall i s, state_at expr_atn i = Some s -> expr_place i = Enter -> ~ Ll1Spec.is_stop s /\ st_eps_only s = true) by (intros; eapply X; eauto).
    each_state; try discriminate; intros _; (split; [discriminate | reflexivity]).
  - enough (X : forall i s, state_at expr_atn i = Some s -> forall k, expr_place i = Operator k -> forall t, In t (st_trans s) ->
      plain_label t /\ forall x, symbols t 1 (max_token_type expr_atn) x -> expr_level x = Some k) by (intros; eapply X; eauto).
    each_state; try discriminate; intros q Q t I; injection Q as <-; each_transition; (split; [exact Logic.I | intros y ->; reflexivity]).
  - enough (X : forall i s, state_at expr_atn i = Some s -> forall k, expr_place i = Operator k -> ~ Ll1Spec.is_stop s /\ st_eps_only s = false) by (intros; eapply X; eauto).
    each_state; try discriminate; intros q _; (split; [discriminate | reflexivity]).
  - intros x k E. unfold expr_level in E. destruct (Z.eqb_spec x 3) as [->|]; [|destruct (Z.eqb_spec x 2) as [->|]; [|discriminate]]; injection E as <-.
    + exists 16, (Atom 24 3). split; [reflexivity|]. split; [|split; [eexists; split; [reflexivity|]; split; [discriminate | left; reflexivity] | reflexivity]].
      eapply of_epsilon; [eexists; split; [reflexivity|]; split; [discriminate | left; reflexivity]|]. eapply of_test; [eexists; split; [reflexivity|]; split; [discriminate | left; reflexivity]|]. eapply of_here. reflexivity.
    + exists 18, (Atom 25 2). split; [reflexivity|]. split; [|split; [eexists; split; [reflexivity|]; split; [discriminate | left; reflexivity] | reflexivity]].
      eapply of_epsilon; [eexists; split; [reflexivity|]; split; [discriminate | right; left; reflexivity]|]. eapply of_test; [eexists; split; [reflexivity|]; split; [discriminate | left; reflexivity]|]. eapply of_here. reflexivity.
  - enough (X : forall i s, state_at expr_atn i = Some s -> expr_place i = Leave -> ~ Ll1Spec.is_stop s -> forall t, In t (st_trans s) -> silent t /\ expr_place (get_target t) = Leave) by (intros; eapply X; eauto).
    each_state; try discriminate; intros _ N t I; try (destruct N; reflexivity); each_transition; (split; [exact Logic.I | reflexivity]).
  - enough (X : forall i s, state_at expr_atn i = Some s -> expr_place i = Leave -> Ll1Spec.is_stop s -> forall t, In t (st_trans s) -> exists f o, t = Epsilon f o /\
      (expr_place f = Outside \/ (expr_place f = Return /\ o <> rule_of expr_atn 13))) by (intros; eapply X; eauto).
    each_state; try discriminate; intros _ N t I; try discriminate N; each_transition; do 2 eexists; (split; [reflexivity|]); (left; reflexivity) || (right; split; [reflexivity | discriminate]).
  - enough (X : forall i s, state_at expr_atn i = Some s -> expr_place i = Return -> i <> 13 -> forall t, In t (st_trans s) -> silent t /\ expr_place (get_target t) = Return) by (intros; eapply X; eauto).
    each_state; try discriminate; intros _ N t I; try (destruct N; reflexivity); each_transition; (split; [exact Logic.I | reflexivity]).
  - enough (X : forall i s, state_at expr_atn i = Some s -> expr_place i = Return -> ~ Ll1Spec.is_stop s) by (intros; eapply X; eauto).
    each_state; try discriminate; intros _; discriminate.
  - enough (X : forall i s, state_at expr_atn i = Some s -> expr_place i = Outside -> forall t, In t (st_trans s) -> 
      match t with
      | Epsilon g _ | Action g _ _ _ _ | PrecedenceTr g _ => expr_place g = Outside
      | RuleTr g f _ _ => expr_place g = Outside /\ expr_place f = Outside
      | PredicateTr _ _ _ _ => False
      | t => forall x, symbols t 1 (max_token_type expr_atn) x -> expr_level x = None
      end) by (intros; eapply X; eauto).
    each_state; try discriminate; intros _ t I; each_transition. intros y ->. reflexivity.
Qed.
Lemma expr_levels : token_levels expr_atn expr_level.
Proof. intros x k E. unfold expr_level in E. destruct (Z.eqb_spec x 3) as [->|]; [cbn; lia|]. destruct (Z.eqb_spec x 2) as [->|]; [cbn; lia | discriminate]. Qed.
Definition sums : nat -> tok := source (map tk [1; 2; 1; 3; 1; 2; 1]).
Lemma sums_eof : eof_number sums 7.
Proof. split; [reflexivity|]. intros [|[|[|[|[|[|[|i]]]]]]] Hi; cbn; [discriminate..|lia]. Qed.
Notation epredict precedence stack d input :=
  (adaptive_predict (common_seek sums 0 50) expr_atn unit (fun _ _ _ _ => true) plain_order plain_alts one_hash no_dhash no_share 100 LL precedence tt stack 2 13 d input 0%nat).
Notation behind n := (stream_at sums (repeat CConsume n)).
Notation left_by o := (match o with Val (m, _) => m_dfa m | _ => dfa_new unit unit true end).
Definition dfa1 : pdfa := left_by (epredict 0 [2; -1] (dfa_new unit unit true) (behind 1)).
Definition dfa2 : pdfa := left_by (epredict 4 [25; 2; -1] dfa1 (behind 3)).
Lemma used d precedence stack n : dfa_use expr_atn 2 13 d -> result (epredict precedence stack d (behind n)) <> None -> dfa_use expr_atn 2 13 (left_by (epredict precedence stack d (behind n))).
Proof.
  intros U N. destruct (epredict precedence stack d (behind n)) as [[m r]| |] eqn:E; [|destruct N; reflexivity..].
  eapply use_predict; [exact U | intros l; apply Permutation_refl | exact E].
Qed.
Lemma dfa1_used : dfa_use expr_atn 2 13 dfa1.
Proof. apply used; [apply use_new | vm_compute; discriminate]. Qed.
Lemma dfa2_used : dfa_use expr_atn 2 13 dfa2.
Proof. apply used; [apply dfa1_used | vm_compute; discriminate]. Qed.
(** In NUM + NUM * NUM + NUM, after two predictions of this decision: behind the third
    number, in the right operand of the product, the plus sign is not taken; behind it in
    the sum as a whole, it is. *)
Example C100_nonvacuous : (3 < length (dfa_states dfa2))%nat /\
  (exists m r, epredict 5 [24; 25; 2; -1] dfa2 (behind 5) = Val (m, r) /\ loop_answer expr_level 5 2 r /\ r = Predicted 2) /\
  (exists m r, epredict 0 [2; -1] dfa2 (behind 5) = Val (m, r) /\ loop_answer expr_level 0 2 r /\ r = Predicted 1).
Proof.
  split; [vm_compute; lia|]. split.
  - destruct (epredict 5 [24; 25; 2; -1] dfa2 (behind 5)) as [[m r]| |] eqn:E; [|vm_compute in E; discriminate..]. exists m, r. split; [reflexivity|].
    assert (Er : result (epredict 5 [24; 25; 2; -1] dfa2 (behind 5)) = Some (Predicted 2)) by (vm_compute; reflexivity). rewrite E in Er. injection Er as Er.
    assert (L : match epredict 5 [24; 25; 2; -1] dfa2 (behind 5) with Val (m, _) => Z.of_nat (length (dfa_states (m_dfa m))) | _ => 0 end < ERROR_DFA_STATE_REF) by (vm_compute; reflexivity). rewrite E in L.
    split; [|exact Er].
    exact (C100_common_stream expr_atn 13 14 23 expr_level expr_place (proj1 expr_sound) expr_loop expr_levels 2 dfa2 dfa2_used eq_refl sums 0 50%nat 7%nat sums_eof ltac:(lia) unit _ _ _ _ _ _ _ _ _ _ _ _
      (repeat CConsume 5) _ _ _ 5%nat ltac:(vm_compute; reflexivity) ltac:(vm_compute; reflexivity) E L).
  - destruct (epredict 0 [2; -1] dfa2 (behind 5)) as [[m r]| |] eqn:E; [|vm_compute in E; discriminate..]. exists m, r. split; [reflexivity|].
    assert (Er : result (epredict 0 [2; -1] dfa2 (behind 5)) = Some (Predicted 1)) by (vm_compute; reflexivity). rewrite E in Er. injection Er as Er.
    assert (L : match epredict 0 [2; -1] dfa2 (behind 5) with Val (m, _) => Z.of_nat (length (dfa_states (m_dfa m))) | _ => 0 end < ERROR_DFA_STATE_REF) by (vm_compute; reflexivity). rewrite E in L.
    split; [|exact Er].
    exact (C100_common_stream expr_atn 13 14 23 expr_level expr_place (proj1 expr_sound) expr_loop expr_levels 2 dfa2 dfa2_used eq_refl sums 0 50%nat 7%nat sums_eof ltac:(lia) unit _ _ _ _ _ _ _ _ _ _ _ _
      (repeat CConsume 5) _ _ _ 5%nat ltac:(vm_compute; reflexivity) ltac:(vm_compute; reflexivity) E L).
Qed.
