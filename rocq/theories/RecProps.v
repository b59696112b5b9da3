(** Properties of generated parsers whose grammars have left-recursive rules and
    predicates: what they do is a run of the calls the ATN describes, with the
    consequences of C53 to C55 (C93); what they accept is in the language (C94). *)
From Coq Require Import ZArith List Bool Lia.
From Verif Require Import CharStreamModel TokenStreamModel TokenStreamSpec TokenStreamProofs CommonTokenStreamProofs.
From Verif Require Import Outcome IntervalSetModel PredContextModel SemContextModel ConfigSetModel DfaModel AtnModel AtnSpec Ll1Model Ll1Spec ParserModel ParserSpec ParserStreamProofs ParserDemo ParserProps.
From Verif Require Import PredictModel PredictSpec PredictDemo PredictLLSpec PredictLLDemo PredictTotalSpec PredictTotalDemo GenModel GenSpec GenBaseProofs GenDemo.
From Verif Require Import RecModel RecSpec RecCallsProofs RecSoundProofs RecTreeProofs RecDemo.
Import ListNotations.
Local Open Scope Z_scope.

Lemma at_token_reading src ch sfuel s : at_token src ch sfuel s -> reading src ch s.
Proof.
  intros ((ops & H) & c & Hc & Hv). destruct (crun_reach src ch sfuel _ _ H) as (n & C & _). exists n, c. auto.
Qed.

(** ** C93  Generated parsers do nothing but follow their ATN *)

(** For any ATN, any generated code, any predicates and decisions, any DFAs, either error
    strategy, any input: a run of a rule function that comes back is a run of the calls of
    some path through the ATN ([RecSpec.along]), in which deciding does nothing but look
    ahead.  So everything C53 to C56 say of calls of rule functions holds of generated
    parsers. *)
Theorem C93_history : forall src ch sfuel e, eof_number src e -> (e <= sfuel)%nat ->
  forall a names sempred order alt_order hash dhash share clock mode plan switch plain recursive pred pred_text pred_message fuel n rule start g p ds g' p' ds' r,
  at_token src ch sfuel (p_input p) ->
  RecModel.parse (common_seek src ch sfuel) a names sempred order alt_order hash dhash share clock mode plan switch plain recursive pred pred_text pred_message fuel n rule start g p ds = Val (g', p', ds', r) ->
  r <> Full ->
  exists b body, along a plan plain recursive (-1) start b body /\
    forall f, run_call (common_stream src ch sfuel) a names fuel (calls_rule plain recursive rule start 0 body) g p f =
      Val (g', p', f, match r with Raised x => Some x | _ => None end).
Proof.
  intros src ch sfuel e He Hf a names sempred order alt_order hash dhash share clock mode plan switch plain recursive pred pred_text pred_message fuel n rule start g p ds g' p' ds' r A H NF.
  destruct (parse_runs src ch sfuel e He Hf a names sempred order alt_order hash dhash share clock mode plan switch plain recursive pred pred_text pred_message fuel
    n rule start g p ds g' p' ds' r (at_token_reading _ _ _ _ A) H NF) as (b & cs & AL & RC). exists b, cs. split; [exact AL|]. exact RC.
Qed.
Print Assumptions C93_history.

(** Unless the bail-out strategy cancels the parse, the rule function ends normally; the
    caller's context and the precedence stack are what they were, and the tree built is
    the caller's new child. *)
Theorem C93_restores : forall src ch sfuel e, eof_number src e -> (e <= sfuel)%nat ->
  forall a plan recursive, well_formed a -> named_rules a -> plan_fits a plan recursive ->
  forall names sempred order alt_order hash dhash share clock mode switch plain pred pred_text pred_message fuel n rule start g p ds g' p' ds' r,
  Ll1Spec.rule_of a start = rule -> at_token src ch sfuel (p_input p) -> ctx_exists p ->
  RecModel.parse (common_seek src ch sfuel) a names sempred order alt_order hash dhash share clock mode plan switch plain recursive pred pred_text pred_message fuel n rule start g p ds = Val (g', p', ds', r) ->
  r <> Full -> (forall c, r <> Raised (FallThrough c)) ->
  r = Ended /\ p_ctx p' = p_ctx p /\ p_prec p' = p_prec p /\
  exists m, attached rule m p p' /\
    (p_build p = true -> exists T b body, shows (p_heap p') (KRule m) T /\ along a plan plain recursive (-1) start b body /\ makes rule body T).
Proof.
  intros src ch sfuel e He Hf a plan recursive WF NR PF names sempred order alt_order hash dhash share clock mode switch plain pred pred_text pred_message fuel n rule start g p ds g' p' ds' r RS A W H NF NC.
  destruct (C93_history src ch sfuel e He Hf a names sempred order alt_order hash dhash share clock mode plan switch plain recursive pred pred_text pred_message fuel n rule start g p ds g' p' ds' r A H NF)
    as (b & body & AL & RC).
  pose proof (along_rule_call a plan plain recursive WF PF NR rule start 0 b body AL RS) as GB.
  assert (NC' : ~ cancelled (match r with Raised x => Some x | _ => None end)).
  { intros (c & E). destruct r; try discriminate. injection E as ->. exact (NC c eq_refl). }
  specialize (RC (Frame 0 None (-1) 0 0)). unfold calls_rule in RC, GB.
  assert (X : (match r with Raised x => Some x | _ => None end) = None /\ p_ctx p' = p_ctx p /\ p_prec p' = p_prec p /\
    exists m, attached rule m p p' /\ (p_build p = true -> exists T, shows (p_heap p') (KRule m) T /\ makes rule body T)).
  { destruct (recursive rule).
    - destruct (C55_restores _ _ _ _ _ _ _ _ _ _ _ _ _ _ _ _ _ GB W RC NC') as (Q1 & _ & Q2 & Q3 & m & Q4 & Q5).
      split; [exact Q1|]. split; [exact Q2|]. split; [exact Q3|]. exists m. auto.
    - destruct (C53_rule_balanced _ _ _ _ _ _ _ _ _ _ _ _ _ _ _ _ GB W RC NC') as (Q1 & _ & Q2 & _ & Q3 & m & Q4 & Q5).
      split; [exact Q1|]. split; [exact Q2|]. split; [exact Q3|]. exists m. auto. }
  destruct X as (Q1 & Q2 & Q3 & m & Q4 & Q5). split; [destruct r; congruence|]. split; [exact Q2|]. split; [exact Q3|].
  exists m. split; [exact Q4|]. intros Hb. destruct (Q5 Hb) as (T & S1 & S2). exists T, b, body. auto.
Qed.
Print Assumptions C93_restores.

(** On a new stream: the leaves of the tree are the tokens consumed from the input, in
    their order, and besides them only EOF tokens and tokens conjured by error recovery. *)
Theorem C93_leaves : forall src ch sfuel e, eof_number src e -> (e <= sfuel)%nat ->
  forall a plan recursive, well_formed a -> named_rules a -> plan_fits a plan recursive ->
  forall names sempred order alt_order hash dhash share clock mode switch plain pred pred_text pred_message fuel n rule start g p ds g' p' ds' r,
  Ll1Spec.rule_of a start = rule -> p_input p = with_channel src -> ctx_exists p -> p_build p = true ->
  RecModel.parse (common_seek src ch sfuel) a names sempred order alt_order hash dhash share clock mode plan switch plain recursive pred pred_text pred_message fuel n rule start g p ds = Val (g', p', ds', r) ->
  r <> Full -> (forall c, r <> Raised (FallThrough c)) ->
  exists m T extra, attached rule m p p' /\ shows (p_heap p') (KRule m) T /\
    merged (tokens_before src ch (Z.to_nat (cur (p_input p')))) extra (leaves T) /\ Forall not_consumed extra.
Proof.
  intros src ch sfuel e He Hf a plan recursive WF NR PF names sempred order alt_order hash dhash share clock mode switch plain pred pred_text pred_message fuel n rule start g p ds g' p' ds' r RS I0 W Hb H NF NC.
  assert (A : at_token src ch sfuel (p_input p)).
  { rewrite I0. split; [exists []; reflexivity|]. exists O. split; [reflexivity | left; reflexivity]. }
  destruct (C93_history src ch sfuel e He Hf a names sempred order alt_order hash dhash share clock mode plan switch plain recursive pred pred_text pred_message fuel n rule start g p ds g' p' ds' r A H NF)
    as (b & body & AL & RC).
  pose proof (along_rule_call a plan plain recursive WF PF NR rule start 0 b body AL RS) as GB.
  assert (NC' : ~ cancelled (match r with Raised x => Some x | _ => None end)).
  { intros (c & E). destruct r; try discriminate. injection E as ->. exact (NC c eq_refl). }
  destruct (C54_common src ch sfuel e a names fuel _ g p _ g' p' _ _ He Hf GB W Hb I0 (RC (Frame 0 None (-1) 0 0)) NC') as (m & T & extra & Q1 & Q2 & Q3 & Q4).
  exists m, T, extra. split; [|auto]. replace rule with (ParserSpec.rule_of (calls_rule plain recursive rule start 0 body)) by (unfold calls_rule; destruct (recursive rule); reflexivity). exact Q1.
Qed.
Print Assumptions C93_leaves.

(** The demonstration grammar and the input 1 + 1 * 1: the parse ends without errors and
    [expr_trees] shows the tree, in which the product is the right operand of the sum. *)
Lemma expr_named : named_rules expr_atn.
Proof.
  intros i g follow rule prec (s & E & _ & HI).
  assert (X : Forall (fun s => Forall (fun t => match t with RuleTr g _ r _ => Ll1Spec.rule_of expr_atn g = r | _ => True end) (st_trans s)) (states expr_atn)).
  { repeat constructor. }
  rewrite Forall_forall in X. specialize (X s (state_in _ _ _ E)). rewrite Forall_forall in X. exact (X _ HI).
Qed.
Lemma expr_fits : plan_fits expr_atn expr_plan (Z.eqb 1).
Proof.
  intros from i. unfold expr_plan.
  destruct (Z.eqb_spec i 2) as [->|]; [repeat constructor|]. destruct (Z.eqb_spec i 7) as [->|]; [repeat constructor|].
  destruct (Z.eqb_spec i 13) as [->|]; [destruct (from =? 12); repeat constructor|]. destruct (Z.eqb_spec i 14) as [->|]; [repeat constructor|].
  destruct (Z.eqb_spec i 15) as [->|]; [cbn; repeat constructor|]. destruct (Z.eqb_spec i 17) as [->|]; [cbn; repeat constructor|]. constructor.
Qed.
Lemma sum_eof : eof_number (source sum) 5.
Proof. split; [reflexivity|]. intros i Hi. do 5 (destruct i as [|i]; [discriminate|]). lia. Qed.
Lemma sum_fresh : at_token (source sum) 0 50 (p_input (fresh sum)).
Proof. split; [exists []; reflexivity|]. exists O. split; [reflexivity | left; reflexivity]. Qed.
Lemma fresh_ctx : ctx_exists (fresh sum).
Proof. discriminate. Qed.
Lemma no_notices (o : outcome (strategy * parser uts * list pdfa * ending)) c : (exists g p ds, o = Val (g, p, ds, Ended) /\ length (p_notices p) = O /\ cur (p_input p) = c) ->
  exists g p ds, o = Val (g, p, ds, Ended) /\ p_notices p = [].
Proof. intros (g & p & ds & E & L & _). exists g, p, ds. split; [exact E|]. destruct (p_notices p); [reflexivity | discriminate]. Qed.
Lemma expr_runs ok : exists g p ds, expr_parse ok sum = Val (g, p, ds, Ended) /\ p_notices p = [].
Proof. exact (no_notices _ _ (summary_ended _ _ _ _ _ (expr_trees ok))). Qed.
Example C93_nonvacuous : eof_number (source sum) 5 /\ well_formed expr_atn /\ named_rules expr_atn /\ plan_fits expr_atn expr_plan (Z.eqb 1) /\
  Ll1Spec.rule_of expr_atn 0 = 0 /\ at_token (source sum) 0 50 (p_input (fresh sum)) /\ ctx_exists (fresh sum) /\ p_build (fresh sum) = true /\
  (forall ok, exists g p ds, expr_parse ok sum = Val (g, p, ds, Ended) /\ p_notices p = []) /\
  (forall ok, exists m T, forall h g p ds, expr_parse ok sum = Val (g, p, ds, Ended) -> h = p_heap p -> shows h (KRule m) T).
Proof.
  split; [apply sum_eof|]. split; [apply expr_sound|]. split; [apply expr_named|]. split; [apply expr_fits|]. split; [reflexivity|]. split; [apply sum_fresh|].
  split; [apply fresh_ctx|]. split; [reflexivity|]. split; [apply expr_runs|].
  intros ok. destruct (expr_runs ok) as (g & p & ds & E & _).
  destruct (C93_restores (source sum) 0 50 5 sum_eof ltac:(lia) expr_atn expr_plan (Z.eqb 1) (proj1 expr_sound) expr_named expr_fits demo_names (fun _ _ _ _ => ok) plain_order plain_alts one_hash no_dhash no_share (fun _ => 0%nat) LL no_switch (fun _ => false) (fun _ _ _ _ => ok) (fun _ _ => lit "p") (fun _ _ => None)
    100 100 0 0 (Default new_dstrategy) (fresh sum) expr_dfas g p ds Ended eq_refl sum_fresh fresh_ctx E ltac:(discriminate) ltac:(discriminate))
    as (_ & _ & _ & m & _ & X). destruct (X eq_refl) as (T & _ & _ & Sh & _). exists m, T. intros h g1 p1 ds1 E1 ->. rewrite E in E1. injection E1 as <- <- <-. exact Sh.
Qed.

(** ** C94  What a generated parser accepts is in the language of its grammar *)

(** Any ATN (left recursion and predicates included), any decisions: if the rule function
    ends and told the error listeners nothing, then what it consumed is a sentence of the
    rule: it leads from the start of the rule to its end ([RecSpec.derives]), where operators
    are only used at the levels the precedences allow and predicates only where they can
    hold; EOF, which is matched without being consumed, may come at the end. *)
Theorem C94_sound : forall src ch sfuel e, eof_number src e -> (e <= sfuel)%nat ->
  forall a names sempred order alt_order hash dhash share clock mode plan switch plain recursive pred pred_text pred_message fuel n rule start g p ds g' p' ds' w,
  rec_plan_kinds plan ->
  RecModel.parse (common_seek src ch sfuel) a names sempred order alt_order hash dhash share clock mode plan switch plain recursive pred pred_text pred_message fuel n rule start g p ds = Val (g', p', ds', Ended) ->
  in_error_recovery_mode g = false -> p_notices p' = p_notices p ->
  ahead src ch sfuel (p_input p) w -> known_types a w ->
  exists u w' k stop s, w = u ++ w' /\ ahead src ch sfuel (p_input p') w' /\ (k <> O -> w' = []) /\
    state_at a stop = Some s /\ Ll1Spec.is_stop s /\
    derives a recursive (fun r i => exists q f, pred q f r i = true) (if recursive rule then 0 else get_precedence p) start (u ++ repeat TOKEN_EOF k) stop.
Proof.
  intros src ch sfuel e He Hf a names sempred order alt_order hash dhash share clock mode plan switch plain recursive pred pred_text pred_message fuel n rule start g p ds g' p' ds' w HP H M N A K.
  exact (rec_parse_sound src ch sfuel e He Hf a names recursive pred sempred order alt_order hash dhash share clock mode plan HP switch plain pred_text pred_message fuel n rule start g p ds g' p' ds' w H M N A K).
Qed.
Print Assumptions C94_sound.
Lemma sum_ahead : ahead (source sum) 0 50 (p_input (fresh sum)) [1; 2; 1; 3; 1].
Proof.
  split; [exists []; reflexivity|]. exists O. split; [reflexivity|].
  apply (read_token (source sum) _ 0); [discriminate|]. do 4 (apply vis_token; [discriminate | reflexivity|]). apply vis_eof. reflexivity.
Qed.
Lemma derives_only a recursive (P Q : Z -> Z -> Prop) : (forall r i, P r i -> Q r i) -> forall q i u j, derives a recursive P q i u j -> derives a recursive Q q i u j.
Proof.
  intros PQ. induction 1; [apply de_here | eapply de_token; eauto | eapply de_epsilon; eauto | eapply de_precedence; eauto | eapply de_predicate; eauto | eapply de_rule; eauto].
Qed.
Example C94_nonvacuous : rec_plan_kinds expr_plan /\ in_error_recovery_mode (Default new_dstrategy) = false /\
  ahead (source sum) 0 50 (p_input (fresh sum)) [1; 2; 1; 3; 1] /\ known_types expr_atn [1; 2; 1; 3; 1] /\
  (exists g p ds, expr_parse false sum = Val (g, p, ds, Ended) /\ p_notices p = p_notices (fresh sum)) /\
  exists k stop, derives expr_atn (Z.eqb 1) (fun _ _ => False) 0 0 ([1; 2; 1; 3; 1] ++ repeat TOKEN_EOF k) stop.
Proof.
  assert (PK : rec_plan_kinds expr_plan).
  { intros from i. unfold expr_plan. repeat match goal with |- Forall _ (if ?b then _ else _) => destruct b end; repeat constructor. }
  assert (KT : known_types expr_atn [1; 2; 1; 3; 1]) by (repeat constructor; cbn; lia).
  split; [exact PK|]. split; [reflexivity|]. split; [apply sum_ahead|]. split; [exact KT|]. split; [apply (expr_runs false)|].
  destruct (summary_ended _ _ _ _ _ (expr_trees false)) as (g & p & ds & E & N & C). 
  assert (N' : p_notices p = p_notices (fresh sum)) by (destruct (p_notices p); [reflexivity | discriminate]).
  destruct (C94_sound (source sum) 0 50 5 sum_eof ltac:(lia) expr_atn demo_names (fun _ _ _ _ => false) plain_order plain_alts one_hash no_dhash no_share (fun _ => 0%nat) LL expr_plan no_switch (fun _ => false) (Z.eqb 1) (fun _ _ _ _ => false) (fun _ _ => lit "p") (fun _ _ => None)
    100 100 0 0 (Default new_dstrategy) (fresh sum) expr_dfas g p ds [1; 2; 1; 3; 1] PK E eq_refl N' sum_ahead KT) as (u & w' & k & stop & s & W & A & _ & _ & _ & D).
  exists k, stop. destruct A as (_ & c & Hc & R). rewrite C in Hc. replace c with 5%nat in R by lia. inversion R; subst; [|exfalso; auto].
  rewrite app_nil_r in W. subst u. eapply derives_only; [|exact D]. intros r i (q & f & Q). discriminate.
Qed.
