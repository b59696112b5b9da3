(** A grammar with prefix, suffix, binary and ternary operators, and a parse of an expression
    with all of them (C101). *)
From Coq Require Import ZArith List Bool Lia Permutation.
From Verif Require Import CharStreamModel TokenStreamModel TokenStreamSpec TokenStreamProofs CommonTokenStreamProofs.
From Verif Require Import Outcome IntervalSetModel IntervalSetSpec PredContextModel SemContextModel ConfigSetModel DfaModel AtnModel AtnSpec Ll1Model Ll1Spec ParserModel ParserSpec ParserTreeProofs ParserRunProofs ParserEventProofs ParserStreamProofs ParserProps.
From Verif Require Import PredictModel GenModel GenSpec GenBaseProofs GenStepProofs GenSoundProofs RecModel RecSpec RecCallsProofs RecSoundProofs RecTreeProofs RecBuildSpec RecBuildProofs RecDerivProofs.
From Verif Require Import ParserDemo PredictDemo PredictLLDemo PredictTotalDemo GenDemo RecDemo RecProps RecBuildProps.
From Verif Require Import PredictLLSpec PredictTotalSpec OperatorSpec OperatorProps OrderSpec OrderProps.
Import ListNotations.
Local Open Scope Z_scope.
Local Open Scope outcome_scope.

(** Tokens NUM = 1, '-' = 2, '!' = 3, '*' = 4, '?' = 5, ':' = 6.
      rule 0   s : e EOF ;
      rule 1   e : '-' e | e '!' | e '*' e | <assoc=right> e '?' e ':' e | NUM ;
    as ANTLR rewrites it: the alternatives have the levels 5, 4, 3 and 2. *)
Definition ops_atn : atn := Atn [7; 14; 13] PARSER [] 6 [] [0; 5] [1; 6] [] [
  sst 0 0 2 (RuleStartState 1 false) [Epsilon 2 (-1)];
  sst 0 1 7 RuleStopState [];
  sst 0 2 1 BasicState [RuleTr 5 3 1 0];
  sst 0 3 1 BasicState [Atom 4 (-1)];
  sst 0 4 1 BasicState [Epsilon 1 (-1)];
  sst 1 5 2 (RuleStartState 6 true) [Epsilon 7 (-1)];
  sst 1 6 7 RuleStopState [Epsilon 3 1; Epsilon 11 (-1); Epsilon 21 (-1); Epsilon 25 1; Epsilon 27 (-1)];
  sst 1 7 3 (DecisionState 0 false (BlockStartState 12 BasicBlockStart)) [Epsilon 8 (-1); Epsilon 9 (-1)];
  sst 1 8 1 BasicState [Atom 10 2];
  sst 1 9 1 BasicState [Atom 12 1];
  sst 1 10 1 BasicState [RuleTr 5 11 1 5];
  sst 1 11 1 BasicState [Epsilon 12 (-1)];
  sst 1 12 8 (BlockEndState 7) [Epsilon 13 (-1)];
  sst 1 13 10 (DecisionState 2 false (StarLoopEntry 29 true)) [Epsilon 14 (-1); Epsilon 30 (-1)];
  sst 1 14 5 (DecisionState 1 false (BlockStartState 28 StarBlockStart)) [Epsilon 15 (-1); Epsilon 18 (-1); Epsilon 22 (-1)];
  sst 1 15 1 BasicState [PrecedenceTr 16 4];
  sst 1 16 1 BasicState [Atom 17 3];
  sst 1 17 1 BasicState [Epsilon 28 (-1)];
  sst 1 18 1 BasicState [PrecedenceTr 19 3];
  sst 1 19 1 BasicState [Atom 20 4];
  sst 1 20 1 BasicState [RuleTr 5 21 1 4];
  sst 1 21 1 BasicState [Epsilon 28 (-1)];
  sst 1 22 1 BasicState [PrecedenceTr 23 2];
  sst 1 23 1 BasicState [Atom 24 5];
  sst 1 24 1 BasicState [RuleTr 5 25 1 0];
  sst 1 25 1 BasicState [Atom 26 6];
  sst 1 26 1 BasicState [RuleTr 5 27 1 2];
  sst 1 27 1 BasicState [Epsilon 28 (-1)];
  sst 1 28 8 (BlockEndState 14) [Epsilon 29 (-1)];
  sst 1 29 9 StarLoopbackState [Epsilon 13 (-1)];
  sst 1 30 12 (LoopEndState 29) [Epsilon 6 (-1)]].
Definition ops_plan (from i : Z) : list call :=
  if i =? 2 then [CAlt None]
  else if i =? 7 then [CAlt None; CSetState 7; CSync]
  else if i =? 13 then (if from =? 12 then [CSetStop; CSetState 13; CSync] else [CSetState 29; CSync])
  else if i =? 14 then [CExitEvent; CSetState 14; CSync]
  else if (i =? 15) || (i =? 18) || (i =? 22) then [CNext 0 false]
  else [].
Definition ops_level (x : Z) : option Z := if x =? 3 then Some 4 else if x =? 4 then Some 3 else if x =? 5 then Some 2 else None.
Definition ops_operand (x : Z) : Z := if x =? 4 then 4 else 2.
Definition ops_prefix (x : Z) : Z := if x =? 2 then 5 else 0.
Definition ops_place (i : Z) : place :=
  if (i =? 14) || (i =? 15) || (i =? 18) || (i =? 22) then Enter
  else if i =? 16 then Operator 4 else if i =? 19 then Operator 3 else if i =? 23 then Operator 2
  else if (i =? 30) || (i =? 6) then Leave
  else if (i =? 13) || (i =? 11) || (i =? 12) || (i =? 17) || (i =? 21) || (i =? 27) || (i =? 28) || (i =? 29) then Return
  else if (i =? 3) || (i =? 25) then Outside else Elsewhere.
Definition ops_stage (i : Z) : stage :=
  if (i =? 5) || (i =? 7) || (i =? 8) || (i =? 9) then First
  else if i =? 24 then Part (Some 2) true else if i =? 25 then Part (Some 2) false
  else if i =? 10 then Call 5 else if i =? 20 then Call 4 else if i =? 26 then Call 2 else Other.
Definition ops_tests (i : Z) : bool := (i =? 15) || (i =? 18) || (i =? 22).

Lemma ops_sound : sound_grammar ops_atn.
Proof. apply sound_dec. vm_compute. reflexivity. Qed.
Lemma ops_named : named_rules ops_atn.
Proof.
  intros i g follow rule prec (s & E & _ & HI).
  assert (X : Forall (fun s => Forall (fun t => match t with RuleTr g _ r _ => Ll1Spec.rule_of ops_atn g = r | _ => True end) (st_trans s)) (states ops_atn)).
  { repeat constructor. }
  rewrite Forall_forall in X. specialize (X s (state_in _ _ _ E)). rewrite Forall_forall in X. exact (X _ HI).
Qed.
Lemma ops_fits : plan_fits ops_atn ops_plan (Z.eqb 1).
Proof.
  intros from i. unfold ops_plan.
  destruct (Z.eqb_spec i 2) as [->|]; [repeat constructor|]. destruct (Z.eqb_spec i 7) as [->|]; [repeat constructor|].
  destruct (Z.eqb_spec i 13) as [->|]; [destruct (from =? 12); repeat constructor|]. destruct (Z.eqb_spec i 14) as [->|]; [repeat constructor|].
  destruct (Z.eqb_spec i 15) as [->|]; [cbn; repeat constructor|]. destruct (Z.eqb_spec i 18) as [->|]; [cbn; repeat constructor|]. destruct (Z.eqb_spec i 22) as [->|]; [cbn; repeat constructor|]. constructor.
Qed.
Lemma ops_kinds : rec_plan_kinds ops_plan.
Proof. intros from i. unfold ops_plan. repeat match goal with |- Forall _ (if ?b then _ else _) => destruct b end; repeat constructor. Qed.
Lemma ops_states (P : Z -> atn_state -> Prop) : (forall k x, nth_error (states ops_atn) k = Some x -> P (Z.of_nat k) x) -> forall i s, state_at ops_atn i = Some s -> P i s.
Proof. intros A i s H. unfold state_at in H. destruct (Z.ltb_spec i 0); [discriminate|]. rewrite <- (Z2Nat.id i) by lia. apply A, H. Qed.
Ltac each_one := match goal with |- forall i s, state_at _ _ = Some _ -> @?P i s => apply (ops_states P) end;
  let k := fresh "k" in let E := fresh "E" in intros k x E; each_of k E.
Ltac leads_by := eexists; split; [reflexivity|]; split; [discriminate | cbn; auto].
Lemma ops_loop : operator_loop ops_atn 13 14 30 ops_level ops_place.
Proof.
  constructor.
  - exists (sst 1 13 10 (DecisionState 2 false (StarLoopEntry 29 true)) [Epsilon 14 (-1); Epsilon 30 (-1)]), 2, false, 29, (-1), (-1). repeat split.
  - repeat split.
  - enough (X : forall i s, state_at ops_atn i = Some s -> ops_place i = Enter -> forall t, In t (st_trans s) ->
      (exists g o, t = Epsilon g o /\ ops_place g = Enter) \/ (exists g k, t = PrecedenceTr g k /\ ops_place g = Operator k)) by (intros; eapply X; eauto).
    each_one; try discriminate; intros _ t I; each_transition; (left; do 2 eexists; split; reflexivity) || (right; do 2 eexists; split; reflexivity).
  - enough (X : forall i s, state_at ops_atn i = Some s -> ops_place i = Enter -> ~ Ll1Spec.is_stop s /\ st_eps_only s = true) by (intros; eapply X; eauto).
    each_one; try discriminate; intros _; (split; [discriminate | reflexivity]).
  - enough (X : forall i s, state_at ops_atn i = Some s -> forall k, ops_place i = Operator k -> forall t, In t (st_trans s) ->
      plain_label t /\ forall x, symbols t 1 (max_token_type ops_atn) x -> ops_level x = Some k) by (intros; eapply X; eauto).
    each_one; try discriminate; intros q Q t I; injection Q as <-; each_transition; (split; [exact Logic.I | intros y ->; reflexivity]).
  - enough (X : forall i s, state_at ops_atn i = Some s -> forall k, ops_place i = Operator k -> ~ Ll1Spec.is_stop s /\ st_eps_only s = false) by (intros; eapply X; eauto).
    each_one; try discriminate; intros q _; (split; [discriminate | reflexivity]).
  - intros x k E. unfold ops_level in E.
    destruct (Z.eqb_spec x 3) as [->|]; [|destruct (Z.eqb_spec x 4) as [->|]; [|destruct (Z.eqb_spec x 5) as [->|]; [|discriminate]]]; injection E as <-.
    + exists 16, (Atom 17 3). split; [reflexivity|]. split; [|split; [leads_by | reflexivity]].
      eapply (of_epsilon _ _ _ 15); [leads_by|]. eapply (of_test _ _ _ 16); [leads_by|]. eapply of_here. reflexivity.
    + exists 19, (Atom 20 4). split; [reflexivity|]. split; [|split; [leads_by | reflexivity]].
      eapply (of_epsilon _ _ _ 18); [leads_by|]. eapply (of_test _ _ _ 19); [leads_by|]. eapply of_here. reflexivity.
    + exists 23, (Atom 24 5). split; [reflexivity|]. split; [|split; [leads_by | reflexivity]].
      eapply (of_epsilon _ _ _ 22); [leads_by|]. eapply (of_test _ _ _ 23); [leads_by|]. eapply of_here. reflexivity.
  - enough (X : forall i s, state_at ops_atn i = Some s -> ops_place i = Leave -> ~ Ll1Spec.is_stop s -> forall t, In t (st_trans s) -> silent t /\ ops_place (get_target t) = Leave) by (intros; eapply X; eauto).
    each_one; try discriminate; intros _ N t I; try (destruct N; reflexivity); each_transition; (split; [exact Logic.I | reflexivity]).
  - enough (X : forall i s, state_at ops_atn i = Some s -> ops_place i = Leave -> Ll1Spec.is_stop s -> forall t, In t (st_trans s) -> exists f o, t = Epsilon f o /\
      (ops_place f = Outside \/ (ops_place f = Return /\ o <> Ll1Spec.rule_of ops_atn 13))) by (intros; eapply X; eauto).
    each_one; try discriminate; intros _ N t I; try discriminate N; each_transition; do 2 eexists; (split; [reflexivity|]); (left; reflexivity) || (right; split; [reflexivity | discriminate]).
  - enough (X : forall i s, state_at ops_atn i = Some s -> ops_place i = Return -> i <> 13 -> forall t, In t (st_trans s) -> silent t /\ ops_place (get_target t) = Return) by (intros; eapply X; eauto).
    each_one; try discriminate; intros _ N t I; try (destruct N; reflexivity); each_transition; (split; [exact Logic.I | reflexivity]).
  - enough (X : forall i s, state_at ops_atn i = Some s -> ops_place i = Return -> ~ Ll1Spec.is_stop s) by (intros; eapply X; eauto).
    each_one; try discriminate; intros _; discriminate.
  - enough (X : forall i s, state_at ops_atn i = Some s -> ops_place i = Outside -> forall t, In t (st_trans s) ->
      match t with
      | Epsilon g _ | Action g _ _ _ _ | PrecedenceTr g _ => ops_place g = Outside
      | RuleTr g f _ _ => ops_place g = Outside /\ ops_place f = Outside
      | PredicateTr _ _ _ _ => False
      | t => forall x, symbols t 1 (max_token_type ops_atn) x -> ops_level x = None
      end) by (intros; eapply X; eauto).
    each_one; try discriminate; intros _ t I; each_transition; intros y ->; reflexivity.
Qed.
Lemma ops_levels : token_levels ops_atn ops_level.
Proof.
  intros x k E. unfold ops_level in E.
  destruct (Z.eqb_spec x 3) as [->|]; [cbn; lia|]. destruct (Z.eqb_spec x 4) as [->|]; [cbn; lia|]. destruct (Z.eqb_spec x 5) as [->|]; [cbn; lia | discriminate].
Qed.
Lemma ops_own : own_decision ops_atn 13 2.
Proof.
  split; [do 3 eexists; split; reflexivity|].
  enough (X : forall i s, state_at ops_atn i = Some s -> forall g x, st_type s = DecisionState 2 g x -> i = 13) by (intros; eapply X; eauto).
  each_one; intros g y Y; try discriminate; reflexivity.
Qed.
Lemma ops_rule : operator_rule ops_atn ops_plan (Z.eqb 1) 1 5 ops_operand ops_prefix ops_place ops_stage ops_tests.
Proof.
  constructor.
  - reflexivity.
  - split; reflexivity.
  - intros i g f p (s & E & _ & HI).
    assert (X : forall i s, state_at ops_atn i = Some s -> forall t, In t (st_trans s) -> match t with RuleTr g _ r _ => r = 1 -> g = 5 | _ => True end).
    { each_one; intros t I; each_transition; try exact Logic.I; reflexivity. }
    apply (X i s E _ HI). reflexivity.
  - enough (X : forall i s, state_at ops_atn i = Some s -> ops_stage i = First -> ~ Ll1Spec.is_stop s /\ forall t, In t (st_trans s) ->
      match t with
      | Epsilon g _ | Action g _ _ _ _ | PredicateTr g _ _ _ | PrecedenceTr g _ => ops_stage g = First
      | RuleTr _ f r _ => r <> 1 /\ onward ops_place ops_stage None true f
      | t => forall x, symbols t 1 (max_token_type ops_atn) x -> onward ops_place ops_stage (Some (ops_prefix x)) true (get_target t)
      end) by exact X.
    each_one; try discriminate; intros _; (split; [discriminate|]); intros t I; each_transition; try reflexivity; intros z ->; forward.
  - enough (X : forall i s, state_at ops_atn i = Some s -> forall op c, ops_stage i = Part op c -> ~ Ll1Spec.is_stop s /\ forall t, In t (st_trans s) ->
      match t with
      | Epsilon g _ | Action g _ _ _ _ | PredicateTr g _ _ _ | PrecedenceTr g _ => onward ops_place ops_stage op c g
      | RuleTr _ f r _ => if r =? 1 then onward ops_place ops_stage op false f else onward ops_place ops_stage op true f
      | t => onward ops_place ops_stage op true (get_target t)
      end) by (intros; eapply X; eauto).
    each_one; try discriminate; intros op c Q; injection Q as <- <-; (split; [discriminate|]); intros t I; each_transition; forward.
  - intros i t k x W (s & E & _ & HI).
    enough (X : forall i s, state_at ops_atn i = Some s -> forall k, ops_place i = Operator k -> forall t, In t (st_trans s) -> forall x, symbols t 1 (max_token_type ops_atn) x -> onward ops_place ops_stage (Some (ops_operand x)) true (get_target t)) by (eapply X; eauto).
    clear. each_one; try discriminate; intros q Q t I; each_transition; intros y ->; forward.
  - enough (X : forall i s, state_at ops_atn i = Some s -> forall p, ops_stage i = Call p -> ~ Ll1Spec.is_stop s /\ forall t, In t (st_trans s) -> exists f, t = RuleTr 5 f 1 p /\ ops_place f = Return) by (intros; eapply X; eauto).
    each_one; try discriminate; intros q Q; injection Q as <-; (split; [discriminate|]); intros t I; each_transition; eexists; split; reflexivity.
  - enough (X : forall i s, state_at ops_atn i = Some s -> ops_place i = Enter -> forall t, In t (st_trans s) -> if ops_tests i then exists g k, t = PrecedenceTr g k else exists g o, t = Epsilon g o) by (intros; eapply X; eauto).
    each_one; try discriminate; intros _ t I; each_transition; do 2 eexists; reflexivity.
  - intros i T. unfold ops_tests in T. apply orb_true_iff in T as [T|T]; [apply orb_true_iff in T as [T|T]|]; apply Z.eqb_eq in T; subst i; split; reflexivity.
  - intros from i _. unfold ops_plan, ops_tests.
    destruct (Z.eqb_spec i 2) as [->|]; [reflexivity|]. destruct (Z.eqb_spec i 7) as [->|]; [reflexivity|].
    destruct (Z.eqb_spec i 13) as [->|]; [destruct (from =? 12); reflexivity|]. destruct (Z.eqb_spec i 14) as [->|]; [reflexivity|].
    destruct ((i =? 15) || (i =? 18) || (i =? 22)); reflexivity.
Qed.

(** NUM is negated, then comes the factorial of that, times NUM, and two conditional
    expressions, the second of which is the last operand of the first *)
Notation mixed_types := [2; 1; 3; 4; 1; 5; 1; 6; 1; 5; 1; 6; 1].
Definition mixed : list tok := map tk mixed_types.
Notation ops_parse l := (RecModel.parse (common_seek (source l) 0 50) ops_atn demo_names (fun _ _ _ _ => false) plain_order plain_alts one_hash no_dhash no_share
  (fun _ => 0%nat) LL ops_plan no_switch (fun _ => false) (Z.eqb 1) (fun _ _ _ _ => false) (fun _ _ => lit "p") (fun _ _ => None) 200 200 0 0 (Default new_dstrategy) (fresh l) expr_dfas).
Notation mixed_tree := (Node 1 0 [Node 1 0 [Node 1 0 [Node 1 0 [Leaf (sym 2 0); num 1]; Leaf (sym 3 2)]; Leaf (sym 4 3); num 4]; Leaf (sym 5 5); num 6; Leaf (sym 6 7);
  Node 1 0 [num 8; Leaf (sym 5 9); num 10; Leaf (sym 6 11); num 12]]).
Lemma mixed_final : final_tree (ops_parse mixed) = Some (Node 0 0 [mixed_tree; Leaf (sym (-1) 13)]).
Proof. vm_compute. reflexivity. Qed.
Lemma mixed_roots : roots (ops_parse mixed) = true :: repeat false 11.
Proof. vm_compute. reflexivity. Qed.
Definition ended_well (o : outcome (strategy * parser uts * list pdfa * ending)) : bool := match o with Val (_, p, _, Ended) => Nat.eqb (length (p_notices p)) 0 | _ => false end.
Lemma ended_runs o : ended_well o = true -> exists g p ds, o = Val (g, p, ds, Ended) /\ p_notices p = [].
Proof. destruct o as [[[[g p] ds] r]| |]; try discriminate. destruct r; try discriminate. intros H. exists g, p, ds. split; [reflexivity|]. apply Nat.eqb_eq in H. destruct (p_notices p); [reflexivity | discriminate]. Qed.
Lemma mixed_runs : ended_well (ops_parse mixed) = true.
Proof. vm_compute. reflexivity. Qed.
Lemma mixed_eof : eof_number (source mixed) 13.
Proof. split; [reflexivity|]. intros i Hi. do 13 (destruct i as [|i]; [discriminate|]). lia. Qed.
Lemma mixed_ahead : ahead (source mixed) 0 50 (p_input (fresh mixed)) mixed_types.
Proof.
  split; [exists []; reflexivity|]. exists O. split; [reflexivity|].
  apply (read_token (source mixed) _ 0); [discriminate|]. do 12 (apply vis_token; [discriminate | reflexivity|]). apply vis_eof. reflexivity.
Qed.
(** the expression as it is written, and a tree that reads it wrongly: there the negation
    takes the factorial for its operand *)
Notation mixed_items := [Prefix 0 (sym 2 0) []; Operand (num 1); Suffix 0 (sym 3 2) []; Infix 0 (sym 4 3) []; Operand (num 4); Infix 0 (sym 5 5) [num 6; Leaf (sym 6 7)];
  Operand (num 8); Infix 0 (sym 5 9) [num 10; Leaf (sym 6 11)]; Operand (num 12)].
Notation mixed_wrong := (Node 1 0 [Node 1 0 [Node 1 0 [Leaf (sym 2 0); Node 1 0 [num 1; Leaf (sym 3 2)]]; Leaf (sym 4 3); num 4]; Leaf (sym 5 5); num 6; Leaf (sym 6 7);
  Node 1 0 [num 8; Leaf (sym 5 9); num 10; Leaf (sym 6 11); num 12]]).
Lemma last_spelled : spelled 1 (Node 1 0 [num 8; Leaf (sym 5 9); num 10; Leaf (sym 6 11); num 12]) [Operand (num 8); Infix 0 (sym 5 9) [num 10; Leaf (sym 6 11)]; Operand (num 12)].
Proof. apply (sp_infix 1 0 _ _ _ [num 10; Leaf (sym 6 11)] _ _ [Operand (num 8)] [Operand (num 12)]); apply sp_operand, num_operand. Qed.
Lemma mixed_spelled : spelled 1 mixed_tree mixed_items.
Proof.
  apply (sp_infix 1 0 _ _ _ [num 6; Leaf (sym 6 7)] _ _ [Prefix 0 (sym 2 0) []; Operand (num 1); Suffix 0 (sym 3 2) []; Infix 0 (sym 4 3) []; Operand (num 4)] _); [|apply last_spelled].
  apply (sp_infix 1 0 _ _ _ [] _ _ [Prefix 0 (sym 2 0) []; Operand (num 1); Suffix 0 (sym 3 2) []] [Operand (num 4)]); [|apply sp_operand, num_operand].
  apply (sp_suffix 1 0 _ _ _ [] [Prefix 0 (sym 2 0) []; Operand (num 1)]); [|reflexivity].
  apply (sp_prefix 1 0 _ [] _ _ [Operand (num 1)]). apply sp_operand, num_operand.
Qed.
Lemma mixed_misread : spelled 1 mixed_wrong mixed_items.
Proof.
  apply (sp_infix 1 0 _ _ _ [num 6; Leaf (sym 6 7)] _ _ [Prefix 0 (sym 2 0) []; Operand (num 1); Suffix 0 (sym 3 2) []; Infix 0 (sym 4 3) []; Operand (num 4)] _); [|apply last_spelled].
  apply (sp_infix 1 0 _ _ _ [] _ _ [Prefix 0 (sym 2 0) []; Operand (num 1); Suffix 0 (sym 3 2) []] [Operand (num 4)]); [|apply sp_operand, num_operand].
  apply (sp_prefix 1 0 _ [] _ _ [Operand (num 1); Suffix 0 (sym 3 2) []]).
  apply (sp_suffix 1 0 _ _ _ [] [Operand (num 1)]); [apply sp_operand, num_operand | reflexivity].
Qed.
Example C101_operators_nonvacuous :
  (exists g p ds, ops_parse mixed = Val (g, p, ds, Ended) /\ p_notices p = p_notices (fresh mixed)) /\
  nested 1 ops_level ops_operand ops_prefix mixed_tree /\ spelled 1 mixed_tree mixed_items /\ written 1 ops_level ops_operand ops_prefix mixed_items /\
  spelled 1 mixed_wrong mixed_items /\ ~ nested 1 ops_level ops_operand ops_prefix mixed_wrong.
Proof.
  assert (D : forall d, vget expr_dfas 2 = Some d -> dfa_use ops_atn 2 13 d /\ is_precedence_dfa d = true) by (intros d E; injection E as <-; split; [exact (use_new ops_atn 2 13 true) | reflexivity]).
  destruct (ended_runs _ mixed_runs) as (g & p & ds & E & N).
  assert (KT : known_types ops_atn mixed_types) by (repeat constructor; cbn; lia).
  assert (AT : at_token (source mixed) 0 50 (p_input (fresh mixed))) by (split; [exists []; reflexivity|]; exists O; split; [reflexivity | left; reflexivity]).
  split; [exists g, p, ds; split; [exact E | exact N]|].
  destruct (C101_order (source mixed) 0 50 13 mixed_eof ltac:(lia) ops_atn ops_plan (Z.eqb 1) (proj1 ops_sound) ops_named ops_fits ops_kinds 13 14 30 ops_level ops_place 2 ops_loop ops_levels ops_own 1 5 ops_operand ops_prefix ops_stage ops_tests ops_rule
    demo_names (fun _ _ _ _ => false) plain_order plain_alts one_hash no_dhash no_share (fun _ => 0%nat) LL no_switch (fun _ => false) (fun _ _ _ _ => false) (fun _ _ => lit "p") (fun _ _ => None)
    200 200 0 0 (Default new_dstrategy) (fresh mixed) expr_dfas g p ds mixed_types eq_refl (fun l => Permutation_refl l) D eq_refl ltac:(discriminate) AT ltac:(discriminate) eq_refl E eq_refl N mixed_ahead KT)
    as (m & T & tk & eo & w' & (_ & (c & Hc & Pc & _) & _) & Sh & Ne & _).
  assert (m = O) as -> by exact (one_root _ _ _ _ E 11 mixed_roots _ _ Hc Pc).
  pose proof (tree_at_shows _ _ _ _ (final_tree_at _ _ _ _ _ E mixed_final) _ Sh) as ->.
  assert (Ng : nested 1 ops_level ops_operand ops_prefix mixed_tree) by (intros t l o r W Op; eapply Ne; [eapply within_child; [left; reflexivity | exact W] | exact Op]).
  split; [exact Ng|]. split; [apply mixed_spelled|].
  split; [apply C101_unique; do 2 eexists; split; [apply mixed_spelled | exact Ng]|]. split; [apply mixed_misread|]. intros Nw.
  pose proof (proj2 (proj2 (C101_unique 1 ops_level ops_operand ops_prefix)) _ _ _ mixed_spelled mixed_misread Ng Nw). discriminate.
Qed.
