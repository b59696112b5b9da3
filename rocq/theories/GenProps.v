(** Properties of generated parsers: they accept the sentences of the grammar (C86), and
    only those (C87). *)
From Coq Require Import ZArith List Bool Lia Permutation.
From Verif Require Import CharStreamModel TokenStreamModel TokenStreamSpec.
From Verif Require Import Outcome IntervalSetModel PredContextModel PredContextSpec SemContextModel ConfigSetModel DfaModel AtnModel AtnSpec Ll1Model Ll1Spec ParserModel PredictModel PredictSpec PredictLLSpec PredictTotalSpec.
From Verif Require Import GenModel GenSpec GenAcceptProofs GenSoundProofs GenFuelProofs ParserDemo PredictDemo PredictLLDemo PredictTotalDemo PredictTotalProps GenDemo.
Import ListNotations.
Local Open Scope Z_scope.

(** ** C86  A generated parser accepts every sentence of its grammar *)

(** For every simple grammar ([PredictLLSpec]) in which nothing can be repeated without
    matching a token, every parser generated from it ([GenSpec]), either error strategy,
    any DFAs left behind by earlier parses, any token stream that is about to deliver a
    sentence of the start rule: the rule function comes back, without an error, having
    read all of the sentence and having told the error listeners nothing; and then the
    parser can be used again.
    What is missing of the property: grammars with predicates or left recursion, a start
    rule that other rules invoke, wildcards over the largest token type, the default
    error strategy with wide labels, 2^64 - 1 or more DFA states ([Full]). *)
Theorem C86_sentences_accepted_partial : forall a main, simple_grammar a main -> one_stop a -> one_start a -> no_stall a ->
  forall plan switch, plan_ok a plan -> decisions_ok a switch -> switches_ok a main switch ->
  forall order alt_order hash dhash share, orders_ok order alt_order -> contexts_ok hash share ->
  forall src ch sfuel e, eof_number src e -> (e <= sfuel)%nat -> starts_visible src ch ->
  forall names sempred clock mode plain, mode <> SLL ->
  forall rule start g p ds w n, exists_state a start -> rule_of a start = main ->
  strategy_ok a g -> outside p -> dfas_ok a order alt_order hash dhash share ds ->
  ahead src ch sfuel (p_input p) w -> token_types a w ->
  completes a n (start, []) w ->
  exists enough g' p' ds' r,
    (forall fuel, (enough <= fuel)%nat ->
      parse (common_seek src ch sfuel) a names sempred order alt_order hash dhash share clock mode plan switch plain fuel rule start g p ds = Val (g', p', ds', r)) /\
    (r = Full \/
     r = Ended /\ p_notices p' = p_notices p /\ p_errors p' = p_errors p /\ ahead src ch sfuel (p_input p') [] /\
     strategy_ok a g' /\ outside p' /\ dfas_ok a order alt_order hash dhash share ds').
Proof.
  intros a main Hg H1 H2 NS plan switch Hp Hd Hs order alt_order hash dhash share Ho Hx src ch sfuel e He Hf H0 names sempred clock mode plain Hm rule start g p ds w n Es Rs G O D A T C.
  destruct (p_parse src ch sfuel e He Hf H0 a main Hg H1 H2 NS names sempred order alt_order hash dhash share Ho Hx clock mode Hm plan Hp switch Hd Hs plain rule start g p ds w n Es Rs G O A T D C)
    as (m & g' & p' & ds' & r & R & Q). exists m, g', p', ds', r. split; [exact R|]. tauto.
Qed.
Print Assumptions C86_sentences_accepted_partial.

(** The fuel only ends a run early, it never changes an answer: for any grammar, generated
    code, stream, strategy and DFAs, what one fuel gives, every larger one gives too. *)
Theorem C86_fuel_plays_no_part : forall (S : Type) (ts : seek_ops S) a names sempred order alt_order hash dhash share clock mode plan switch plain rule start g p ds fuel more,
  parse ts a names sempred order alt_order hash dhash share clock mode plan switch plain fuel rule start g p ds <> NoFuel -> (fuel <= more)%nat ->
  parse ts a names sempred order alt_order hash dhash share clock mode plan switch plain more rule start g p ds =
  parse ts a names sempred order alt_order hash dhash share clock mode plan switch plain fuel rule start g p ds.
Proof. intros. apply parse_more; assumption. Qed.
Print Assumptions C86_fuel_plays_no_part.

(** In particular a new parser, with a new stream over a source that produces the token
    types [w] and then EOF: *)
Theorem C86_new_parser_partial : forall a main, simple_grammar a main -> one_stop a -> one_start a -> no_stall a -> thin_labels a ->
  forall plan switch, plan_ok a plan -> decisions_ok a switch -> switches_ok a main switch ->
  forall order alt_order hash dhash share, orders_ok order alt_order -> contexts_ok hash share ->
  forall src ch sfuel e, eof_number src e -> (e <= sfuel)%nat -> starts_visible src ch ->
  forall names sempred clock mode plain, mode <> SLL ->
  forall rule start g w n, exists_state a start -> rule_of a start = main ->
  g = Default new_dstrategy \/ g = Bail new_dstrategy ->
  read_types src (fun k => k = ch) 0 w -> token_types a w ->
  completes a n (start, []) w ->
  forall fuel g' p' ds' r,
  parse (common_seek src ch sfuel) a names sempred order alt_order hash dhash share clock mode plan switch plain fuel rule start g
    (new_base_parser (with_channel src)) (new_dfas a) = Val (g', p', ds', r) -> r <> Full ->
  r = Ended /\ p_notices p' = [] /\ p_errors p' = 0 /\ ahead src ch sfuel (p_input p') [].
Proof.
  intros a main Hg H1 H2 NS Th plan switch Hp Hd Hs order alt_order hash dhash share Ho Hx src ch sfuel e He Hf H0 names sempred clock mode plain Hm rule start g w n Es Rs G A T C fuel g' p' ds' r R Nf.
  destruct (C86_sentences_accepted_partial a main Hg H1 H2 NS plan switch Hp Hd Hs order alt_order hash dhash share Ho Hx src ch sfuel e He Hf H0 names sempred clock mode plain Hm
    rule start g (new_base_parser (with_channel src)) (new_dfas a) w n Es Rs) as (m & g1 & p1 & ds1 & r1 & R1 & Q); auto.
  - destruct G as [-> | ->]; [split; [reflexivity | exact Th] | reflexivity].
  - split; reflexivity.
  - apply new_dfas_ok.
  - split; [exists []; reflexivity|]. exists O. split; [reflexivity | exact A].
  - pose proof (parse_more (common_seek src ch sfuel) a names sempred order alt_order hash dhash share clock mode plan switch plain fuel (Nat.max fuel m) rule start g
      (new_base_parser (with_channel src)) (new_dfas a) ltac:(lia)) as Mo. rewrite R in Mo. rewrite (R1 (Nat.max fuel m)) in Mo by lia.
    specialize (Mo ltac:(discriminate)). injection Mo as -> -> -> ->. destruct Q as [Q|(Q1 & Q2 & Q3 & Q4 & _)]; [contradiction|]. auto.
Qed.
Print Assumptions C86_new_parser_partial.

(** The restrictions cannot simply be dropped.  [s : 'a' | 'c' | 'e' | . ;] and the token
    7, which the wildcard matches: the default strategy reports an error, because the
    lookahead set it computes is wrong (C47). *)
Definition seven : nat -> tok := source [tk 7].
Lemma any_generated : simple_grammar any_atn 0 /\ one_stop any_atn /\ one_start any_atn /\ no_stall any_atn /\ decisions_ok any_atn no_switch /\ switches_ok any_atn 0 no_switch.
Proof. apply generated_dec. vm_compute. reflexivity. Qed.
Lemma any_planned : plan_ok any_atn any_plan.
Proof. intros from i. unfold any_plan. destruct (Z.eqb_spec i 2) as [-> |]; [|constructor]. apply plan_sync; [apply reaches_here | constructor]. Qed.
Lemma seven_eof : eof_number seven 1.
Proof. split; [reflexivity | intros [|i] Hi; [discriminate | lia]]. Qed.
Lemma seven_read : read_types seven (fun k => k = 0) 0 [7].
Proof. apply (read_token seven _ 0 []); [discriminate|]. apply vis_eof. reflexivity. Qed.
Lemma seven_types : token_types any_atn [7].
Proof. split; [repeat constructor; lia|]. intros _. repeat constructor. Qed.
Lemma seven_sentence : completes any_atn 0 (0, []) [7].
Proof.
  exists 1, (sst 0 1 7 RuleStopState []). split; [|split; reflexivity]. cbn [repeat app].
  eapply run_move; [eapply (move_epsilon any_atn 0 [] _ (Epsilon 2 (-1))); [reflexivity | discriminate | left; reflexivity | intros [] | reflexivity]|].
  eapply run_move; [eapply (move_epsilon any_atn 2 [] _ (Epsilon 6 (-1))); [reflexivity | discriminate | cbn; auto | intros [] | reflexivity]|].
  eapply run_take; [eapply (take_token any_atn 7 6 [] _ (Wildcard 7)); [reflexivity | discriminate | left; reflexivity | cbn; lia]|].
  eapply run_move; [eapply (move_epsilon any_atn 7 [] _ (Epsilon 1 (-1))); [reflexivity | discriminate | left; reflexivity | intros [] | reflexivity]|]. apply run_here.
Qed.
Notation any_run := (parse (common_seek seven 0 50) any_atn demo_names (fun _ _ _ _ => true) plain_order plain_alts one_hash no_dhash no_share (fun _ => 0%nat) LL any_plan no_switch (fun _ => false)
  100 0 0 (Default new_dstrategy) (new_base_parser (with_channel seven)) (new_dfas any_atn)).
Lemma ended_with {S} (o : outcome (strategy * parser S * list pdfa * ending)) k :
  match o with Val (_, p, _, r) => Some (r, length (p_notices p)) | _ => None end = Some (Ended, k) ->
  exists g p ds, o = Val (g, p, ds, Ended) /\ length (p_notices p) = k.
Proof. destruct o as [[[[g p] ds] r]| |]; intros H; try discriminate H. injection H as -> H. exists g, p, ds. auto. Qed.
Lemma any_reports : match any_run with Val (_, p, _, r) => Some (r, length (p_notices p)) | _ => None end = Some (Ended, 1%nat).
Proof. vm_compute. reflexivity. Qed.
Theorem C86_wide_labels_refuted : ~ (forall a main, simple_grammar a main -> one_stop a -> one_start a -> no_stall a ->
  forall plan switch, plan_ok a plan -> decisions_ok a switch -> switches_ok a main switch ->
  forall order alt_order hash dhash share, orders_ok order alt_order -> contexts_ok hash share ->
  forall src ch sfuel e, eof_number src e -> (e <= sfuel)%nat -> starts_visible src ch ->
  forall names sempred clock mode plain, mode <> SLL ->
  forall rule start w n, exists_state a start -> rule_of a start = main ->
  read_types src (fun k => k = ch) 0 w -> token_types a w ->
  completes a n (start, []) w ->
  forall fuel g' p' ds' r,
  parse (common_seek src ch sfuel) a names sempred order alt_order hash dhash share clock mode plan switch plain fuel rule start (Default new_dstrategy)
    (new_base_parser (with_channel src)) (new_dfas a) = Val (g', p', ds', r) -> r <> Full ->
  r = Ended /\ p_notices p' = []).
Proof.
  intros H. destruct any_generated as (G1 & G2 & G3 & G4 & G5 & G6).
  destruct (ended_with any_run 1%nat any_reports) as (g' & p' & ds' & Eo & P).
  destruct (H any_atn 0 G1 G2 G3 G4 any_plan no_switch any_planned G5 G6 plain_order plain_alts one_hash no_dhash no_share plain_orders plain_contexts seven 0 50%nat 1%nat
    seven_eof ltac:(lia) eq_refl demo_names (fun _ _ _ _ => true) (fun _ => 0%nat) LL (fun _ => false) ltac:(discriminate)
    0 0 [7] 0%nat ltac:(discriminate) eq_refl seven_read seven_types seven_sentence 100%nat g' p' ds' Ended Eo ltac:(discriminate)) as (_ & N).
  rewrite N in P. discriminate.
Qed.
Print Assumptions C86_wide_labels_refuted.

(** [s : A r EOF ; r : | B ;].  If the A is on a hidden channel the stream delivers it
    nevertheless (C19), and when [r] ends the parser looks behind it and panics. *)
Lemma opt_generated : simple_grammar opt_atn 0 /\ one_stop opt_atn /\ one_start opt_atn /\ no_stall opt_atn /\ decisions_ok opt_atn no_switch /\ switches_ok opt_atn 0 no_switch.
Proof. apply generated_dec. vm_compute. reflexivity. Qed.
Lemma opt_planned : plan_ok opt_atn opt_plan.
Proof. intros from i. unfold opt_plan. destruct (Z.eqb_spec i 8) as [-> |]; [|constructor]. apply plan_sync; [apply reaches_here | constructor]. Qed.
Lemma opt_thin : thin_labels opt_atn.
Proof. apply thin_dec. vm_compute. reflexivity. Qed.
Lemma opt_a : completes opt_atn 1 (0, []) [1].
Proof. eexists _, _. split; [apply (path_run opt_atn [0; 0; 0; 0; 0; 0; 0; 0; 0; 0]%nat); vm_compute; reflexivity | split; reflexivity]. Qed.
Lemma opt_types : token_types opt_atn [1].
Proof.
  split; [repeat constructor; lia|]. intros (i & s & g & E & I). pose proof (opt_thin i s _ E I) as []. Qed.
Lemma stays_panic (S : Type) (ts : seek_ops S) a names sempred order alt_order hash dhash share clock mode plan switch plain rule start g p ds n m :
  parse ts a names sempred order alt_order hash dhash share clock mode plan switch plain n rule start g p ds = Panics -> (n <= m)%nat ->
  parse ts a names sempred order alt_order hash dhash share clock mode plan switch plain m rule start g p ds = Panics.
Proof. intros E L. rewrite <- E. apply parse_more; [exact L | rewrite E; discriminate]. Qed.
Theorem C86_hidden_first_token_refuted : exists src, eof_number src 1 /\ read_types src (fun k => k = 0) 0 [1] /\ token_types opt_atn [1] /\ completes opt_atn 1 (0, []) [1] /\
  forall fuel, (100 <= fuel)%nat ->
  parse (common_seek src 0 50) opt_atn demo_names (fun _ _ _ _ => true) plain_order plain_alts one_hash no_dhash no_share (fun _ => 0%nat) LL opt_plan no_switch (fun _ => false)
    fuel 0 0 (Default new_dstrategy) (new_base_parser (with_channel src)) (new_dfas opt_atn) = Panics.
Proof.
  exists (source [hidden 1]). split; [split; [reflexivity | intros [|i] Hi; [discriminate | lia]]|].
  split; [apply (read_token (source [hidden 1]) _ 0 []); [discriminate|]; apply vis_eof; reflexivity|]. split; [apply opt_types|]. split; [apply opt_a|].
  intros fuel L. apply stays_panic with (n := 100%nat); [vm_compute; reflexivity | exact L].
Qed.
Print Assumptions C86_hidden_first_token_refuted.

(** Over an unbuffered token stream it panics on the sentence "A" even if that is not
    hidden: [adaptive_predict] releases its mark, and the stream forgets the A, behind
    which [r] starts and ends. *)
Theorem C86_unbuffered_stream_refuted : exists src, eof_number src 1 /\ read_types src (fun _ => True) 0 [1] /\ token_types opt_atn [1] /\ completes opt_atn 1 (0, []) [1] /\
  forall fuel, (100 <= fuel)%nat ->
  parse (unbuffered_seek src) opt_atn demo_names (fun _ _ _ _ => true) plain_order plain_alts one_hash no_dhash no_share (fun _ => 0%nat) LL opt_plan no_switch (fun _ => false)
    fuel 0 0 (Default new_dstrategy) (new_base_parser new_unbuffered) (new_dfas opt_atn) = Panics.
Proof.
  exists (source [tk 1]). split; [split; [reflexivity | intros [|i] Hi; [discriminate | lia]]|].
  split; [apply (read_token (source [tk 1]) _ 0 []); [discriminate|]; apply vis_eof; reflexivity|]. split; [apply opt_types|]. split; [apply opt_a|].
  intros fuel L. apply stays_panic with (n := 100%nat); [vm_compute; reflexivity | exact L].
Qed.
Print Assumptions C86_unbuffered_stream_refuted.

(** A concrete case: "C A B B  D A B  D A  C A B" of [items_atn], parsed twice with the
    same DFAs; the second parse is over a new stream and finds them grown. *)
Definition cabb : list tok := map tk [3; 1; 2; 2; 4; 1; 2; 4; 1; 3; 1; 2].
Definition cabb_types : list Z := [3; 1; 2; 2; 4; 1; 2; 4; 1; 3; 1; 2].
Lemma cabb_eof : eof_number (source cabb) 12.
Proof. split; [reflexivity|]. intros i Hi. do 12 (destruct i as [|i]; [discriminate|]). lia. Qed.
Lemma cabb_visible : starts_visible (source cabb) 0.
Proof. reflexivity. Qed.
Lemma cabb_read : read_types (source cabb) (fun k => k = 0) 0 cabb_types.
Proof.
  apply (read_token (source cabb) _ 0); [discriminate|]. do 11 (apply vis_token; [discriminate | reflexivity|]). apply vis_eof. reflexivity.
Qed.
Lemma cabb_tokens : token_types items_atn cabb_types.
Proof. split; [repeat constructor; lia|]. intros (i & s & g & E & I). pose proof (items_thin i s _ E I) as []. Qed.
Lemma cabb_known : known_types items_atn cabb_types.
Proof. repeat constructor; discriminate. Qed.
Lemma cabb_sentence : completes items_atn 1 (0, []) cabb_types.
Proof.
  eexists 1, _. split; [apply (path_run items_atn ([0] ++ [0; 0; 0; 0; 0; 1; 0; 0; 0; 0; 0; 0; 0; 0] ++ [0; 1; 0; 0; 0; 1; 0; 0; 0; 0; 0; 0; 0] ++ [0; 1; 0; 0; 0; 0; 0; 0; 0; 0; 0; 0] ++
    [0; 0; 0; 0; 0; 0; 0; 0; 0; 0; 0; 0; 0] ++ [1; 0; 0; 0])%nat); vm_compute; reflexivity | split; reflexivity].
Qed.
Notation cabb_parse n g ds := (items_parse cabb n 0 0 g (fresh cabb) ds).
Lemma cabb_ahead : ahead (source cabb) 0 50 (p_input (fresh cabb)) cabb_types.
Proof. split; [exists []; reflexivity|]. exists O. split; [reflexivity | apply cabb_read]. Qed.
Lemma cabb_accepted g ds : strategy_ok items_atn g -> dfas_ok items_atn plain_order plain_alts one_hash no_dhash no_share ds ->
  exists enough g' p' ds' r, (forall fuel, (enough <= fuel)%nat -> cabb_parse fuel g ds = Val (g', p', ds', r)) /\
    (r = Full \/ r = Ended /\ p_notices p' = [] /\ p_errors p' = 0 /\ ahead (source cabb) 0 50 (p_input p') [] /\
     strategy_ok items_atn g' /\ outside p' /\ dfas_ok items_atn plain_order plain_alts one_hash no_dhash no_share ds').
Proof.
  intros G D. exact (C86_sentences_accepted_partial items_atn 0 items_simple items_one_stop items_one_start items_no_stall items_plan items_switch items_planned items_decisions items_switches
    plain_order plain_alts one_hash no_dhash no_share plain_orders plain_contexts (source cabb) 0 50%nat 12%nat cabb_eof ltac:(lia) cabb_visible demo_names (fun _ _ _ _ => true) (fun _ => 0%nat) LL (fun _ => false) ltac:(discriminate)
    0 0 g (fresh cabb) ds cabb_types 1%nat ltac:(discriminate) eq_refl G (conj eq_refl eq_refl) D cabb_ahead cabb_tokens cabb_sentence).
Qed.
Lemma cabb_ends : match cabb_parse 100 (Default new_dstrategy) (new_dfas items_atn) with
  Val (_, p, ds, r) => Some (r, length (p_notices p), map (fun d => length (dfa_states d)) ds) | _ => None end = Some (Ended, 0%nat, [1; 1; 8]%nat).
Proof. vm_compute. reflexivity. Qed.
Lemma ended_dfas {S} (o : outcome (strategy * parser S * list pdfa * ending)) k l :
  match o with Val (_, p, ds, r) => Some (r, length (p_notices p), map (fun d => length (dfa_states d)) ds) | _ => None end = Some (Ended, k, l) ->
  exists g p ds, o = Val (g, p, ds, Ended) /\ length (p_notices p) = k /\ map (fun d => length (dfa_states d)) ds = l.
Proof. destruct o as [[[[g p] ds] r]| |]; intros H; try discriminate H. injection H as -> H K. exists g, p, ds. auto. Qed.
Example C86_nonvacuous : exists g p ds,
  (forall fuel, (100 <= fuel)%nat -> cabb_parse fuel (Default new_dstrategy) (new_dfas items_atn) = Val (g, p, ds, Ended)) /\
  p_notices p = [] /\ map (fun d => length (dfa_states d)) ds = [1; 1; 8]%nat /\
  exists enough g' p' ds' r, (forall fuel, (enough <= fuel)%nat -> cabb_parse fuel g ds = Val (g', p', ds', r)) /\ (r = Full \/ r = Ended /\ p_notices p' = []).
Proof.
  destruct (ended_dfas (cabb_parse 100 (Default new_dstrategy) (new_dfas items_atn)) 0%nat [1; 1; 8]%nat cabb_ends) as (g & p & ds & E & Np & Nd).
  destruct (cabb_accepted (Default new_dstrategy) (new_dfas items_atn)) as (n & g1 & p1 & ds1 & r1 & R1 & Q1); [split; [reflexivity | apply items_thin] | apply new_dfas_ok|].
  pose proof (C86_fuel_plays_no_part uts (common_seek (source cabb) 0 50) items_atn demo_names (fun _ _ _ _ => true) plain_order plain_alts one_hash no_dhash no_share (fun _ => 0%nat) LL items_plan items_switch (fun _ => false)
    0 0 (Default new_dstrategy) (fresh cabb) (new_dfas items_atn) 100%nat) as M. rewrite E in M. specialize (fun m => M m ltac:(discriminate)).
  pose proof (M (Nat.max 100 n) ltac:(lia)) as M1. rewrite R1 in M1 by lia. injection M1 as -> -> -> ->.
  destruct Q1 as [Q1|(_ & Q2 & _ & _ & Q5 & _ & Q7)]; [discriminate Q1|].
  exists g, p, ds. split; [exact M|]. split; [exact Q2|]. split; [exact Nd|]. destruct (cabb_accepted g ds Q5 Q7) as (n' & g' & p' & ds' & r' & R' & Q').
  exists n', g', p', ds', r'. split; [exact R'|]. destruct Q' as [Q'|(Q1' & Q2' & _)]; auto.
Qed.

(** ** C87  What a generated parser accepts is a sentence of its grammar *)

(** For every grammar without predicates, with any labels, whatever the lookahead tests
    and the predictions decide (right or wrong), wherever [sync] is called, in any mode,
    with either error strategy: if the rule function ends without an error and has told
    the error listeners nothing, then what it has read matches the rule. *)
Theorem C87_accepted_are_sentences : forall src ch sfuel e, eof_number src e -> (e <= sfuel)%nat ->
  forall a names sempred order alt_order hash dhash share clock mode plan switch plain, plan_kinds plan ->
  forall fuel rule start g p ds g' p' ds' w,
  parse (common_seek src ch sfuel) a names sempred order alt_order hash dhash share clock mode plan switch plain fuel rule start g p ds = Val (g', p', ds', Ended) ->
  in_error_recovery_mode g = false -> p_notices p' = p_notices p ->
  ahead src ch sfuel (p_input p) w -> known_types a w ->
  exists u w' n, w = u ++ w' /\ ahead src ch sfuel (p_input p') w' /\ (n <> O -> w' = []) /\ matches_rule a start u n.
Proof.
  intros src ch sfuel e He Hf a names sempred order alt_order hash dhash share clock mode plan switch plain Hp fuel rule start g p ds g' p' ds' w R M N A K.
  exact (parse_sound src ch sfuel e He Hf a names sempred order alt_order hash dhash share clock mode plan Hp switch plain fuel rule start g p ds g' p' ds' w R M N A K).
Qed.
Print Assumptions C87_accepted_are_sentences.

(** Together with C86: the inputs accepted are exactly the sentences. *)
Lemma read_once src ok : forall w i w', visible_types src ok i w -> visible_types src ok i w' -> w' = w.
Proof.
  intros w i w' V. revert w'. induction V as [i E|i w E N V IH|i w E C V IH]; intros w' V'; inversion V'; subst; try congruence; try contradiction; auto; try (exfalso; congruence).
  f_equal. auto.
Qed.
Lemma ahead_once src ch sfuel s w w' : ahead src ch sfuel s w -> ahead src ch sfuel s w' -> w' = w.
Proof.
  intros (_ & c & C & R) (_ & c' & C' & R'). replace c' with c in R' by lia. inversion R; inversion R'; subst; try congruence; try contradiction; auto.
  f_equal. eapply read_once; eauto.
Qed.
Theorem C87_exactly_the_sentences_partial : forall a main, simple_grammar a main -> one_stop a -> one_start a -> no_stall a ->
  forall plan switch, plan_ok a plan -> decisions_ok a switch -> switches_ok a main switch ->
  forall order alt_order hash dhash share, orders_ok order alt_order -> contexts_ok hash share ->
  forall src ch sfuel e, eof_number src e -> (e <= sfuel)%nat -> starts_visible src ch ->
  forall names sempred clock mode plain, mode <> SLL ->
  forall rule start g p ds w, exists_state a start -> rule_of a start = main ->
  strategy_ok a g -> outside p -> dfas_ok a order alt_order hash dhash share ds ->
  ahead src ch sfuel (p_input p) w -> token_types a w -> known_types a w ->
  forall fuel g' p' ds' r,
  parse (common_seek src ch sfuel) a names sempred order alt_order hash dhash share clock mode plan switch plain fuel rule start g p ds = Val (g', p', ds', r) -> r <> Full ->
  (r = Ended /\ p_notices p' = p_notices p /\ ahead src ch sfuel (p_input p') [] <-> exists n, completes a n (start, []) w).
Proof.
  intros a main Hg H1 H2 NS plan switch Hp Hd Hs order alt_order hash dhash share Ho Hx src ch sfuel e He Hf H0 names sempred clock mode plain Hm rule start g p ds w Es Rs G O D A T K fuel g' p' ds' r R Nf.
  split.
  - intros (-> & N & A').
    assert (Pk : plan_kinds plan) by (intros from i; induction (Hp from i); repeat constructor; assumption).
    destruct (C87_accepted_are_sentences src ch sfuel e He Hf a names sempred order alt_order hash dhash share clock mode plan switch plain Pk fuel rule start g p ds g' p' ds' w R)
      as (u & w' & n & Ew & Aw & _ & Mt); auto.
    { destruct g; cbn in G |- *; tauto. }
    rewrite (ahead_once _ _ _ _ _ _ A' Aw), app_nil_r in Ew. subst u. exists n. exact Mt.
  - intros (n & C).
    destruct (C86_sentences_accepted_partial a main Hg H1 H2 NS plan switch Hp Hd Hs order alt_order hash dhash share Ho Hx src ch sfuel e He Hf H0 names sempred clock mode plain Hm
      rule start g p ds w n Es Rs G O D A T C) as (m & g1 & p1 & ds1 & r1 & R1 & Q).
    pose proof (parse_more (common_seek src ch sfuel) a names sempred order alt_order hash dhash share clock mode plan switch plain fuel (Nat.max fuel m) rule start g p ds ltac:(lia)) as Mo.
    rewrite R in Mo. rewrite (R1 (Nat.max fuel m)) in Mo by lia. specialize (Mo ltac:(discriminate)). injection Mo as -> -> -> ->.
    destruct Q as [Q|(Q1 & Q2 & Q3 & Q4 & _)]; [contradiction|]. auto.
Qed.
Print Assumptions C87_exactly_the_sentences_partial.

(** If the error listeners have been told something, the input need not be a sentence:
    "D B" of [items_atn] is repaired. *)
Definition db : list tok := map tk [4; 2].
Lemma db_ended : match items_parse db 100 0 0 (Default new_dstrategy) (fresh db) (new_dfas items_atn) with
  Val (_, p, _, r) => Some (r, length (p_notices p)) | _ => None end = Some (Ended, 1%nat).
Proof. vm_compute. reflexivity. Qed.
Lemma db_no_sentence n : ~ completes items_atn n (0, []) [4; 2].
Proof. apply never_dec with (n := 30%nat). vm_compute. reflexivity. Qed.
Example C87_repaired : exists g p ds, items_parse db 100 0 0 (Default new_dstrategy) (fresh db) (new_dfas items_atn) = Val (g, p, ds, Ended) /\
  p_notices p <> [] /\ forall n, ~ completes items_atn n (0, []) [4; 2].
Proof.
  destruct (ended_with (items_parse db 100 0 0 (Default new_dstrategy) (fresh db) (new_dfas items_atn)) 1%nat db_ended) as (g & p & ds & E & N).
  exists g, p, ds. split; [exact E|]. split; [intros Q; rewrite Q in N; discriminate N | apply db_no_sentence].
Qed.
Example C87_nonvacuous : exists g p ds, cabb_parse 100 (Default new_dstrategy) (new_dfas items_atn) = Val (g, p, ds, Ended) /\ p_notices p = p_notices (fresh cabb) /\
  exists u w' n, cabb_types = u ++ w' /\ ahead (source cabb) 0 50 (p_input p) w' /\ (n <> O -> w' = []) /\ matches_rule items_atn 0 u n.
Proof.
  destruct (ended_dfas (cabb_parse 100 (Default new_dstrategy) (new_dfas items_atn)) 0%nat [1; 1; 8]%nat cabb_ends) as (g & p & ds & E & Np & Nd).
  assert (N : p_notices p = p_notices (fresh cabb)) by (destruct (p_notices p); [reflexivity | discriminate Np]).
  exists g, p, ds. split; [exact E|]. split; [exact N|].
  exact (C87_accepted_are_sentences (source cabb) 0 50%nat 12%nat cabb_eof ltac:(lia) items_atn demo_names (fun _ _ _ _ => true) plain_order plain_alts one_hash no_dhash no_share (fun _ => 0%nat) LL
    items_plan items_switch (fun _ => false) items_kinds 100%nat 0 0 (Default new_dstrategy) (fresh cabb) (new_dfas items_atn) g p ds cabb_types E eq_refl N cabb_ahead cabb_known).
Qed.
