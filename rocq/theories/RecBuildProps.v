(** Property of the trees generated parsers build: on valid input, derivation trees of the
    grammar that respect the precedence of operators (C95). *)
From Coq Require Import ZArith List Bool Lia.
From Verif Require Import CharStreamModel TokenStreamModel TokenStreamSpec TokenStreamProofs CommonTokenStreamProofs.
From Verif Require Import Outcome IntervalSetModel PredContextModel SemContextModel ConfigSetModel DfaModel AtnModel AtnSpec Ll1Model Ll1Spec ParserModel ParserSpec ParserTreeProofs ParserRunProofs ParserStreamProofs ParserDemo ParserProps.
From Verif Require Import PredictModel PredictSpec PredictDemo PredictLLSpec PredictLLDemo PredictTotalSpec PredictTotalDemo GenModel GenSpec GenBaseProofs GenDemo.
From Verif Require Import RecModel RecSpec RecCallsProofs RecSoundProofs RecTreeProofs RecDemo RecProps RecBuildSpec RecBuildProofs RecDerivProofs.
Import ListNotations.
Local Open Scope Z_scope.

(** ** What the specification means *)
Lemma after_leaves rule c x : all_leaves (after rule x c) = all_leaves x.
Proof. destruct c as [| | | | | | | |[k|]| | | | | |]; try reflexivity. unfold all_leaves. cbn. apply app_nil_r. Qed.
Lemma planned_leaves rule cs : forall x, all_leaves (planned rule cs x) = all_leaves x.
Proof. induction cs as [|c cs IH]; intros x; [reflexivity|]. unfold planned in *. cbn. rewrite IH. apply after_leaves. Qed.
Lemma kid_leaves x t : all_leaves (with_kid x t) = all_leaves x ++ leaves t.
Proof. unfold all_leaves. cbn. rewrite flat_map_app. cbn. now rewrite app_nil_r. Qed.
Lemma builds_leaves a plan recursive holds q rule from i x u y : builds a plan recursive holds q rule from i x u y -> all_leaves y = all_leaves x ++ u.
Proof.
  induction 1 as [q rule from i s x|q rule from i t x k u y L Sy B IH|q rule from i t x u y L T B IH|q rule from i g k x u y L Q B IH|q rule from i g d r k x u y L Q B IH|q rule from i g f r prec x v z u y L B1 IH1 B2 IH2];
    rewrite ?planned_leaves, ?app_nil_r in *; auto.
  - rewrite kid_leaves, planned_leaves in IH. rewrite IH, <- app_assoc. reflexivity.
  - rewrite kid_leaves, planned_leaves in IH2. cbn in IH1. rewrite IH2, <- app_assoc. f_equal. f_equal. cbn. exact IH1.
Qed.
Lemma builds_derives a plan recursive holds q rule from i x u y : builds a plan recursive holds q rule from i x u y ->
  exists stop s, state_at a stop = Some s /\ Ll1Spec.is_stop s /\ derives a recursive holds q i (map t_type u) stop.
Proof.
  induction 1 as [q rule from i s x E St|q rule from i t x k u y L Sy B IH|q rule from i t x u y L T B IH|q rule from i g k x u y L Q B IH|q rule from i g d r k x u y L Q B IH|q rule from i g f r prec x v z u y L B1 IH1 B2 IH2].
  - exists i, s. split; [exact E|]. split; [exact St | constructor].
  - destruct IH as (stop & s & E & St & D). exists stop, s. split; [exact E|]. split; [exact St|]. cbn. eapply de_token; eauto.
  - destruct IH as (stop & s & E & St & D). exists stop, s. split; [exact E|]. split; [exact St|]. eapply de_epsilon; eauto.
  - destruct IH as (stop & s & E & St & D). exists stop, s. split; [exact E|]. split; [exact St|]. eapply de_precedence; eauto.
  - destruct IH as (stop & s & E & St & D). exists stop, s. split; [exact E|]. split; [exact St|]. eapply de_predicate; eauto.
  - destruct IH1 as (st1 & s1 & E1 & St1 & D1). destruct IH2 as (stop & s & E & St & D). exists stop, s. split; [exact E|]. split; [exact St|]. rewrite map_app. eapply de_rule; eauto.
Qed.
(** The leaves of a derivation tree are its tokens, and their types are a sentence of the
    rule as C94 has it. *)
Lemma derivation_yields a plan recursive holds q rule start u t : derivation a plan recursive holds q rule start u t ->
  leaves t = u /\ exists stop s, state_at a stop = Some s /\ Ll1Spec.is_stop s /\ derives a recursive holds q start (map t_type u) stop.
Proof.
  intros (y & B & ->). split; [|eapply builds_derives; eauto]. apply builds_leaves in B. exact B.
Qed.

(** ** C95  On valid input the tree is a derivation tree *)

(** Any ATN (left recursion and predicates included), any generated code that fits it, any
    decisions and DFAs, either error strategy: if the rule function ends and told the error
    listeners nothing, the child it gave its caller shows a derivation tree of the rule
    ([RecBuildSpec.derivation]) whose leaves are the tokens consumed, in their order, and
    after them only EOF: nothing is missing, repeated, conjured or misplaced, and operators
    have the operands their precedences give them. *)
Theorem C95_derivation : forall src ch sfuel e, eof_number src e -> (e <= sfuel)%nat ->
  forall a plan recursive, well_formed a -> named_rules a -> plan_fits a plan recursive -> rec_plan_kinds plan ->
  forall names sempred order alt_order hash dhash share clock mode switch plain pred pred_text pred_message fuel n rule start g p ds g' p' ds' w,
  Ll1Spec.rule_of a start = rule -> at_token src ch sfuel (p_input p) -> ctx_exists p -> p_build p = true ->
  RecModel.parse (common_seek src ch sfuel) a names sempred order alt_order hash dhash share clock mode plan switch plain recursive pred pred_text pred_message fuel n rule start g p ds = Val (g', p', ds', Ended) ->
  in_error_recovery_mode g = false -> p_notices p' = p_notices p ->
  ahead src ch sfuel (p_input p) w -> known_types a w ->
  exists m T taken eofs w', attached rule m p p' /\ shows (p_heap p') (KRule m) T /\
    derivation a plan recursive (fun r i => exists q f, pred q f r i = true) (if recursive rule then 0 else get_precedence p) rule start (taken ++ eofs) T /\
    leaves T = taken ++ eofs /\ Forall (fun k => t_type k = TOKEN_EOF) eofs /\
    tokens_before src ch (Z.to_nat (cur (p_input p'))) = tokens_before src ch (Z.to_nat (cur (p_input p))) ++ taken /\
    w = map t_type taken ++ w' /\ ahead src ch sfuel (p_input p') w' /\ (eofs <> [] -> w' = []).
Proof.
  intros src ch sfuel e He Hf a plan recursive WF NR PF PK names sempred order alt_order hash dhash share clock mode switch plain pred pred_text pred_message fuel n rule start g p ds g' p' ds' w RS AT W Hb H M N A K.
  destruct (invoke_built src ch sfuel e He Hf a names recursive pred plan plain fuel WF NR PF
    (RecModel.walk (common_seek src ch sfuel) a names sempred order alt_order hash dhash share clock mode plan switch plain recursive pred pred_text pred_message fuel n (-1) start)
    rule start 0 g p ds g' p' ds' w) as (cs & m & u & y & w' & Rt & Bu & (_ & A' & tk & eo & -> & Fe & P & Ew & Z)); auto.
  - apply walk_runs with (e := e); auto.
  - intros until 1. eapply rec_walk_sound; eauto.
  - eapply walk_builds; eauto.
  - apply at_token_reading in AT. exact AT.
  - exists m, (Node rule (fst y) (snd y)), tk, eo, w'. pose proof (returned_attached _ _ _ _ _ _ _ _ _ Rt) as At. split; [exact At|].
    split; [eapply denotes_shows; apply (r_tree _ _ _ _ _ _ _ _ Rt Hb)|].
    assert (D : derivation a plan recursive (can_hold pred) (if recursive rule then 0 else get_precedence p) rule start (tk ++ eo) (Node rule (fst y) (snd y))) by (exists y; auto).
    split; [exact D|]. split; [apply (derivation_yields _ _ _ _ _ _ _ _ _ D)|]. auto.
Qed.
Print Assumptions C95_derivation.

(** the tree below a child, as far as [n] levels reach *)
Fixpoint tree_at (n : nat) (h : heap) (k : kid) : option tree :=
  match n with
  | O => None
  | S n =>
      match k with
      | KTerm t => Some (Leaf t)
      | KErr t => Some (ErrLeaf t)
      | KRule i =>
          match nth_error h i with
          | None => None
          | Some c =>
              match fold_right (fun k l => match tree_at n h k, l with Some t, Some l => Some (t :: l) | _, _ => None end) (Some []) (x_children c) with
              | Some l => Some (Node (x_rule c) (x_kind c) l)
              | None => None
              end
          end
      end
  end.
Lemma tree_at_shows h : forall n k t, tree_at n h k = Some t -> forall t', shows h k t' -> t' = t.
Proof.
  induction n as [|n IH]; intros k t H t' Sh; [discriminate|]. cbn [tree_at] in H. inversion Sh; subst; try congruence.
  rewrite H0 in H. destruct (fold_right _ _ _) as [l|] eqn:E; [|discriminate]. injection H as <-. f_equal. clear Sh H0.
  revert l E. induction H1 as [|k' t0 kl tl Hk _ IHl]; intros l E; cbn in E; [congruence|].
  destruct (tree_at n h k') as [t1|] eqn:Et; [|discriminate]. destruct (fold_right _ _ kl) as [l1|]; [|discriminate]. injection E as <-. f_equal; [eapply IH; eauto | now apply IHl].
Qed.
Definition final_tree (o : outcome (strategy * parser uts * list pdfa * ending)) := match o with Val (_, p, _, Ended) => tree_at 10 (p_heap p) (KRule 0) | _ => None end.
Definition roots (o : outcome (strategy * parser uts * list pdfa * ending)) := match o with Val (_, p, _, Ended) => map (fun c => match x_parent c with None => true | _ => false end) (p_heap p) | _ => [] end.
Lemma one_root o g p ds : o = Val (g, p, ds, Ended) -> forall k, roots o = true :: repeat false k -> forall m c, nth_error (p_heap p) m = Some c -> x_parent c = None -> m = O.
Proof.
  intros -> k R m c Hm Hc. cbn in R. apply (map_nth_error (fun c => match x_parent c with None => true | _ => false end)) in Hm. rewrite R, Hc in Hm.
  destruct m as [|m]; [reflexivity|]. cbn in Hm. apply nth_error_In, repeat_spec in Hm. discriminate.
Qed.
Lemma final_tree_at o g p ds t : o = Val (g, p, ds, Ended) -> final_tree o = Some t -> tree_at 10 (p_heap p) (KRule 0) = Some t.
Proof. intros -> H. exact H. Qed.
(** 1 + 1 * 1: the token of type [x] at the place [i] *)
Notation sym x i := (Tok x 0 [] i 1 0).
Definition sum_tree : tree :=
  Node 0 0 [Node 1 0 [Node 1 0 [Leaf (sym 1 0)]; Leaf (sym 2 1); Node 1 0 [Node 1 0 [Leaf (sym 1 2)]; Leaf (sym 3 3); Node 1 0 [Leaf (sym 1 4)]]]; Leaf (sym (-1) 5)].
Lemma expr_final : final_tree (expr_parse false sum) = Some sum_tree.
Proof. vm_compute. reflexivity. Qed.
Lemma expr_roots : roots (expr_parse false sum) = true :: repeat false 5.
Proof. vm_compute. reflexivity. Qed.
(** The product is the right operand of the sum: that tree is a derivation tree. *)
Example C95_nonvacuous :
  (exists g p ds, expr_parse false sum = Val (g, p, ds, Ended) /\ p_notices p = p_notices (fresh sum)) /\
  derivation expr_atn expr_plan (Z.eqb 1) (fun _ _ => False) 0 0 0 [sym 1 0; sym 2 1; sym 1 2; sym 3 3; sym 1 4; sym (-1) 5] sum_tree.
Proof.
  split; [apply (expr_runs false)|].
  assert (PK : rec_plan_kinds expr_plan).
  { intros from i. unfold expr_plan. repeat match goal with |- Forall _ (if ?b then _ else _) => destruct b end; repeat constructor. }
  assert (KT : known_types expr_atn [1; 2; 1; 3; 1]) by (repeat constructor; cbn; lia).
  destruct (summary_ended _ _ _ _ _ (expr_trees false)) as (g & p & ds & E & N & C).
  assert (N' : p_notices p = p_notices (fresh sum)) by (destruct (p_notices p); [reflexivity | discriminate]).
  destruct (C95_derivation (source sum) 0 50 5 sum_eof ltac:(lia) expr_atn expr_plan (Z.eqb 1) (proj1 expr_sound) expr_named expr_fits PK demo_names (fun _ _ _ _ => false) plain_order plain_alts one_hash no_dhash no_share (fun _ => 0%nat) LL no_switch (fun _ => false) (fun _ _ _ _ => false) (fun _ _ => lit "p") (fun _ _ => None)
    100 100 0 0 (Default new_dstrategy) (fresh sum) expr_dfas g p ds [1; 2; 1; 3; 1] eq_refl sum_fresh fresh_ctx eq_refl E eq_refl N' sum_ahead KT)
    as (m & T & tk & eo & w' & (_ & (c & Hc & Pc & _) & _) & Sh & D & L & _).
  assert (m = O) as -> by exact (one_root _ _ _ _ E 5 expr_roots _ _ Hc Pc).
  pose proof (tree_at_shows _ _ _ _ (final_tree_at _ _ _ _ _ E expr_final) _ Sh) as ->. rewrite <- L in D.
  assert (Mono : forall P Q : Z -> Z -> Prop, (forall r i, P r i -> Q r i) -> forall q rule from i x u y, builds expr_atn expr_plan (Z.eqb 1) P q rule from i x u y -> builds expr_atn expr_plan (Z.eqb 1) Q q rule from i x u y).
  { intros P Q PQ. induction 1; [eapply bu_end; eauto | eapply bu_token; eauto | eapply bu_epsilon; eauto | eapply bu_precedence; eauto | eapply bu_predicate; eauto | eapply bu_rule; eauto]. }
  destruct D as (y & B & Ey). exists y. split; [|exact Ey]. eapply Mono; [|exact B]. intros r i (q & f & Q). discriminate.
Qed.
