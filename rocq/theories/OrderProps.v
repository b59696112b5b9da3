(** Properties of generated parsers: precedence and associativity of operators (C101). *)
From Coq Require Import ZArith List Bool Lia Permutation.
From Verif Require Import CharStreamModel TokenStreamModel TokenStreamSpec TokenStreamProofs CommonTokenStreamProofs.
From Verif Require Import Outcome IntervalSetModel IntervalSetSpec PredContextModel SemContextModel ConfigSetModel DfaModel AtnModel AtnSpec Ll1Model Ll1Spec ParserModel ParserSpec ParserTreeProofs ParserRunProofs ParserEventProofs ParserStreamProofs ParserProps.
From Verif Require Import PredictModel GenModel GenSpec GenBaseProofs GenStepProofs GenSoundProofs RecModel RecSpec RecCallsProofs RecSoundProofs RecTreeProofs RecBuildSpec RecBuildProofs RecDerivProofs.
From Verif Require Import ParserDemo PredictDemo PredictLLDemo PredictTotalDemo GenDemo RecDemo RecProps RecBuildProps.
From Verif Require Import PredictLLSpec OperatorSpec OperatorProps OrderSpec OrderTreeProofs OrderWalkProofs OrderUniqueProofs.
Import ListNotations.
Local Open Scope Z_scope.
Local Open Scope outcome_scope.

(** ** C101  Operators have the operands that precedence and associativity give them *)

(** Any grammar with a rule of prefix, suffix, binary and ternary operators as the ANTLR
    tool rewrites it ([OrderSpec.operator_rule], [OperatorSpec.operator_loop]), other rules beside it, any
    generated code that fits it, whatever the other decisions do, whatever earlier parses
    left in the DFA of the loop: if the function of some rule of the grammar ends and told
    the error listeners nothing, then in the tree it gave its caller every operation has
    the operands it should have ([OrderSpec.nested]), on both sides of its operator. *)
Theorem C101_order : forall src ch sfuel e, eof_number src e -> (e <= sfuel)%nat ->
  forall a plan recursive, well_formed a -> named_rules a -> plan_fits a plan recursive -> rec_plan_kinds plan ->
  forall entry ops out level where_ decision, operator_loop a entry ops out level where_ -> token_levels a level -> own_decision a entry decision ->
  forall expr expr_start operand prefix stage_ tests, operator_rule a plan recursive expr expr_start operand prefix where_ stage_ tests ->
  forall names sempred order alt_order hash dhash share clock mode switch plain pred pred_text pred_message fuel n rule start g p ds g' p' ds' w,
  switch entry = None -> (forall l, Permutation (alt_order l) l) ->
  (forall d, vget ds decision = Some d -> dfa_use a decision entry d /\ is_precedence_dfa d = true) ->
  Ll1Spec.rule_of a start = rule -> (rule = expr -> start = expr_start) -> at_token src ch sfuel (p_input p) -> ctx_exists p -> p_build p = true ->
  RecModel.parse (common_seek src ch sfuel) a names sempred order alt_order hash dhash share clock mode plan switch plain recursive pred pred_text pred_message fuel n rule start g p ds = Val (g', p', ds', Ended) ->
  in_error_recovery_mode g = false -> p_notices p' = p_notices p ->
  ahead src ch sfuel (p_input p) w -> known_types a w ->
  exists m T taken eofs w', attached rule m p p' /\ shows (p_heap p') (KRule m) T /\ nested expr level operand prefix T /\
    derivation a plan recursive (fun r i => exists q f, pred q f r i = true) (if recursive rule then 0 else get_precedence p) rule start (taken ++ eofs) T /\
    leaves T = taken ++ eofs /\ Forall (fun k => t_type k = TOKEN_EOF) eofs /\ w = map t_type taken ++ w' /\ (eofs <> [] -> w' = []) /\
    (forall d, vget ds' decision = Some d -> dfa_use a decision entry d /\ is_precedence_dfa d = true).
Proof.
  intros src ch sfuel e He Hf a plan recursive WF NR PF PK entry ops out level where_ decision OL TL OD expr expr_start operand prefix stage_ tests BR
    names sempred order alt_order hash dhash share clock mode switch plain pred pred_text pred_message fuel n rule start g p ds g' p' ds' w SW AO D RS ES AT W Hb H M N A K.
  destruct (invoke_directed src ch sfuel e He Hf a names recursive pred plan plain fuel WF NR PF entry ops level decision
    (RecModel.walk (common_seek src ch sfuel) a names sempred order alt_order hash dhash share clock mode plan switch plain recursive pred pred_text pred_message fuel n (-1) start)
    rule start 0 g p ds g' p' ds' w) as (cs & m & u & y & w' & D' & Rt & Bu & (_ & A' & tk & eo & -> & Fe & P & Ew & Z)); auto.
  - apply walk_runs with (e := e); auto.
  - intros until 1. eapply rec_walk_sound; eauto.
  - eapply walk_directed; eauto.
  - apply at_token_reading in AT. exact AT.
  - exists m, (Node rule (fst y) (snd y)), tk, eo, w'. pose proof (returned_attached _ _ _ _ _ _ _ _ _ Rt) as At. split; [exact At|].
    split; [eapply denotes_shows; apply (r_tree _ _ _ _ _ _ _ _ Rt Hb)|].
    assert (Dv : derivation a plan recursive (can_hold pred) (if recursive rule then 0 else get_precedence p) rule start (tk ++ eo) (Node rule (fst y) (snd y))) by (exists y; split; [eapply directed_builds; eauto | reflexivity]).
    split; [eapply directed_nested; eauto|].
    split; [exact Dv|]. split; [apply (derivation_yields _ _ _ _ _ _ _ _ _ Dv)|]. auto.
Qed.
Print Assumptions C101_order.

(** There is one such tree, and only one: every tree is written in some way as a sequence of
    operands and operators; exactly the sequences of [OrderSpec.written] have a tree of the
    rule in which every operation has the operands it should have; and no sequence has two. *)
Theorem C101_unique : forall rule level operand prefix,
  (forall t, exists items, spelled rule t items) /\
  (forall items, written rule level operand prefix items <-> exists k l, spelled rule (Node rule k l) items /\ nested rule level operand prefix (Node rule k l)) /\
  forall items t t', spelled rule t items -> spelled rule t' items -> nested rule level operand prefix t -> nested rule level operand prefix t' -> t' = t.
Proof.
  intros rule level operand prefix. split; [apply all_spelled|]. split; [|intros items t t' S S' N N'; eapply one_tree; eauto].
  intros items. split; [apply some_tree | intros (k & l & S & N); eapply nested_written; eauto].
Qed.
Print Assumptions C101_unique.

(** *** The grammar of [RecDemo]: NUM = 1, '+' = 2, '*' = 3, both associative to the left *)
Definition expr_operand (x : Z) : Z := if x =? 3 then 5 else 4.
Definition expr_stage (i : Z) : stage :=
  if (i =? 5) || (i =? 7) || (i =? 8) || (i =? 9) || (i =? 10) then First
  else if (i =? 11) || (i =? 12) then Part (Some 0) true else if i =? 24 then Call 5 else if i =? 25 then Call 4 else Other.
Definition expr_tests (i : Z) : bool := (i =? 15) || (i =? 17).
Ltac forward := first [left; eexists; split; [reflexivity | intros; (reflexivity || assumption)] | right; left; eexists; split; reflexivity | right; right; split; reflexivity].
Lemma expr_own : own_decision expr_atn 13 2.
Proof.
  split; [do 3 eexists; split; reflexivity|].
  enough (X : forall i s, state_at expr_atn i = Some s -> forall g x, st_type s = DecisionState 2 g x -> i = 13) by (intros; eapply X; eauto).
  each_state; intros g y Y; try discriminate; reflexivity.
Qed.
(** no operator stands first; what a token at the start would ask for is never used *)
Definition expr_prefix (x : Z) : Z := 0.
Lemma expr_operators : operator_rule expr_atn expr_plan (Z.eqb 1) 1 5 expr_operand expr_prefix expr_place expr_stage expr_tests.
Proof.
  constructor.
  - reflexivity.
  - split; reflexivity.
  - intros i g f p (s & E & _ & HI).
    assert (X : forall i s, state_at expr_atn i = Some s -> forall t, In t (st_trans s) -> match t with RuleTr g _ r _ => r = 1 -> g = 5 | _ => True end).
    { each_state; intros t I; each_transition; try exact Logic.I; reflexivity. }
    apply (X i s E _ HI). reflexivity.
  - enough (X : forall i s, state_at expr_atn i = Some s -> expr_stage i = First -> ~ Ll1Spec.is_stop s /\ forall t, In t (st_trans s) ->
      match t with
      | Epsilon g _ | Action g _ _ _ _ | PredicateTr g _ _ _ | PrecedenceTr g _ => expr_stage g = First
      | RuleTr _ f r _ => r <> 1 /\ onward expr_place expr_stage None true f
      | t => forall x, symbols t 1 (max_token_type expr_atn) x -> onward expr_place expr_stage (Some (expr_prefix x)) true (get_target t)
      end) by exact X.
    each_state; try discriminate; intros _; (split; [discriminate|]); intros t I; each_transition; try reflexivity; intros z _; forward.
  - enough (X : forall i s, state_at expr_atn i = Some s -> forall op c, expr_stage i = Part op c -> ~ Ll1Spec.is_stop s /\ forall t, In t (st_trans s) ->
      match t with
      | Epsilon g _ | Action g _ _ _ _ | PredicateTr g _ _ _ | PrecedenceTr g _ => onward expr_place expr_stage op c g
      | RuleTr _ f r _ => if r =? 1 then onward expr_place expr_stage op false f else onward expr_place expr_stage op true f
      | t => onward expr_place expr_stage op true (get_target t)
      end) by (intros; eapply X; eauto).
    each_state; try discriminate; intros op c Q; injection Q as <- <-; (split; [discriminate|]); intros t I; each_transition; forward.
  - intros i t k x W (s & E & _ & HI).
    enough (X : forall i s, state_at expr_atn i = Some s -> forall k, expr_place i = Operator k -> forall t, In t (st_trans s) -> forall x, symbols t 1 (max_token_type expr_atn) x -> onward expr_place expr_stage (Some (expr_operand x)) true (get_target t)) by (eapply X; eauto).
    clear. each_state; try discriminate; intros q Q t I; each_transition; intros y ->; forward.
  - enough (X : forall i s, state_at expr_atn i = Some s -> forall p, expr_stage i = Call p -> ~ Ll1Spec.is_stop s /\ forall t, In t (st_trans s) -> exists f, t = RuleTr 5 f 1 p /\ expr_place f = Return) by (intros; eapply X; eauto).
    each_state; try discriminate; intros q Q; injection Q as <-; (split; [discriminate|]); intros t I; each_transition; eexists; split; reflexivity.
  - enough (X : forall i s, state_at expr_atn i = Some s -> expr_place i = Enter -> forall t, In t (st_trans s) -> if expr_tests i then exists g k, t = PrecedenceTr g k else exists g o, t = Epsilon g o) by (intros; eapply X; eauto).
    each_state; try discriminate; intros _ t I; each_transition; do 2 eexists; reflexivity.
  - intros i T. unfold expr_tests in T. apply orb_true_iff in T as [T|T]; apply Z.eqb_eq in T; subst i; split; reflexivity.
  - intros from i _. unfold expr_plan, expr_tests.
    destruct (Z.eqb_spec i 2) as [->|]; [reflexivity|]. destruct (Z.eqb_spec i 7) as [->|]; [reflexivity|].
    destruct (Z.eqb_spec i 13) as [->|]; [destruct (from =? 12); reflexivity|]. destruct (Z.eqb_spec i 14) as [->|]; [reflexivity|].
    destruct ((i =? 15) || (i =? 17)); reflexivity.
Qed.
(** NUM + NUM * NUM is parsed as the sum of a number and a product; the other tree with the
    same operands and operators is not one in which operations have the right operands. *)
Notation num i := (Node 1 0 [Leaf (sym 1 i)]).
Notation good_tree := (Node 1 0 [num 0; Leaf (sym 2 1); Node 1 0 [num 2; Leaf (sym 3 3); num 4]]).
Notation wrong_tree := (Node 1 0 [Node 1 0 [num 0; Leaf (sym 2 1); num 2]; Leaf (sym 3 3); num 4]).
Notation sum_items := [Operand (num 0); Infix 0 (sym 2 1) []; Operand (num 2); Infix 0 (sym 3 3) []; Operand (num 4)].
Lemma num_operand i l o r : ~ parts 1 (num i) l o r.
Proof. intros H. inversion H. discriminate. Qed.
Lemma good_spelled : spelled 1 good_tree sum_items.
Proof.
  apply (sp_infix 1 0 _ _ _ [] _ _ [Operand (num 0)] [Operand (num 2); Infix 0 (sym 3 3) []; Operand (num 4)]); [apply sp_operand, num_operand|].
  apply (sp_infix 1 0 _ _ _ [] _ _ [Operand (num 2)] [Operand (num 4)]); apply sp_operand, num_operand.
Qed.
Lemma wrong_spelled : spelled 1 wrong_tree sum_items.
Proof.
  apply (sp_infix 1 0 _ _ _ [] _ _ [Operand (num 0); Infix 0 (sym 2 1) []; Operand (num 2)] [Operand (num 4)]); [|apply sp_operand, num_operand].
  apply (sp_infix 1 0 _ _ _ [] _ _ [Operand (num 0)] [Operand (num 2)]); apply sp_operand, num_operand.
Qed.
Example C101_nonvacuous :
  (exists g p ds, expr_parse false sum = Val (g, p, ds, Ended) /\ p_notices p = p_notices (fresh sum)) /\
  (forall d, vget expr_dfas 2 = Some d -> dfa_use expr_atn 2 13 d /\ is_precedence_dfa d = true) /\
  nested 1 expr_level expr_operand expr_prefix sum_tree /\ within good_tree sum_tree /\ spelled 1 good_tree sum_items /\
  spelled 1 wrong_tree sum_items /\ ~ nested 1 expr_level expr_operand expr_prefix wrong_tree.
Proof.
  assert (D : forall d, vget expr_dfas 2 = Some d -> dfa_use expr_atn 2 13 d /\ is_precedence_dfa d = true) by (intros d E; injection E as <-; split; [exact (use_new expr_atn 2 13 true) | reflexivity]).
  split; [apply (expr_runs false)|]. split; [exact D|].
  assert (PK : rec_plan_kinds expr_plan).
  { intros from i. unfold expr_plan. repeat match goal with |- Forall _ (if ?b then _ else _) => destruct b end; repeat constructor. }
  assert (KT : known_types expr_atn [1; 2; 1; 3; 1]) by (repeat constructor; cbn; lia).
  destruct (summary_ended _ _ _ _ _ (expr_trees false)) as (g & p & ds & E & N & C).
  assert (N' : p_notices p = p_notices (fresh sum)) by (destruct (p_notices p); [reflexivity | discriminate]).
  destruct (C101_order (source sum) 0 50 5 sum_eof ltac:(lia) expr_atn expr_plan (Z.eqb 1) (proj1 expr_sound) expr_named expr_fits PK 13 14 23 expr_level expr_place 2 expr_loop expr_levels expr_own 1 5 expr_operand expr_prefix expr_stage expr_tests expr_operators
    demo_names (fun _ _ _ _ => false) plain_order plain_alts one_hash no_dhash no_share (fun _ => 0%nat) LL no_switch (fun _ => false) (fun _ _ _ _ => false) (fun _ _ => lit "p") (fun _ _ => None)
    100 100 0 0 (Default new_dstrategy) (fresh sum) expr_dfas g p ds [1; 2; 1; 3; 1] eq_refl (fun l => Permutation_refl l) D eq_refl ltac:(discriminate) sum_fresh fresh_ctx eq_refl E eq_refl N' sum_ahead KT)
    as (m & T & tk & eo & w' & (_ & (c & Hc & Pc & _) & _) & Sh & Ne & _).
  assert (m = O) as -> by exact (one_root _ _ _ _ E 5 expr_roots _ _ Hc Pc).
  pose proof (tree_at_shows _ _ _ _ (final_tree_at _ _ _ _ _ E expr_final) _ Sh) as ->.
  split; [exact Ne|]. assert (Wi : within good_tree sum_tree) by (eapply within_child; [left; reflexivity | apply within_here]). split; [exact Wi|].
  split; [apply good_spelled|]. split; [apply wrong_spelled|]. intros Nw.
  assert (Ng : nested 1 expr_level expr_operand expr_prefix good_tree) by (intros t l o r W Op; eapply Ne; [eapply within_child; [left; reflexivity | exact W] | exact Op]).
  pose proof (proj2 (proj2 (C101_unique 1 expr_level expr_operand expr_prefix)) _ _ _ good_spelled wrong_spelled Ng Nw). discriminate.
Qed.
