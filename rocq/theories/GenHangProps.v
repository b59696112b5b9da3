(** Generated parsers with the default error strategy need not come back (C89). *)
From Coq Require Import ZArith List Bool Lia Permutation.
From Verif Require Import CharStreamModel TokenStreamModel TokenStreamSpec TokenStreamProofs CommonTokenStreamProofs.
From Verif Require Import Outcome IntervalSetModel PredContextModel PredContextSpec SemContextModel ConfigSetModel DfaModel AtnModel AtnSpec Ll1Model Ll1Spec ParserModel PredictModel PredictSpec PredictLLSpec PredictTotalSpec PredictTotalStreamProofs.
From Verif Require Import GenModel GenSpec GenBailSpec ParserDemo PredictDemo PredictLLDemo PredictTotalDemo PredictTotalProps GenDemo GenProps GenBailProps GenHangDemo.
Import ListNotations.
Local Open Scope Z_scope.

(** ** C89  Does a generated parser always come back? *)

(** what C88 says of the bail-out strategy, for the strategies [ok] *)
Definition always_comes_back (ok : atn -> strategy -> Prop) : Prop := forall a main, simple_grammar a main -> one_stop a -> one_start a -> no_stall a ->
  forall plan switch, plan_ok a plan -> decisions_ok a switch -> tests_in_range a switch -> switches_ok a main switch ->
  forall order alt_order hash dhash share, orders_ok order alt_order -> contexts_ok hash share ->
  forall src ch sfuel e, eof_number src e -> (e <= sfuel)%nat -> starts_visible src ch ->
  forall names sempred clock mode plain rule start g p ds, exists_state a start -> rule_of a start = main -> reads_eof a start ->
  ok a g -> outside p -> dfas_ok a order alt_order hash dhash share ds -> common_history src ch sfuel (p_input p) ->
  exists enough result, forall fuel, (enough <= fuel)%nat ->
    parse (common_seek src ch sfuel) a names sempred order alt_order hash dhash share clock mode plan switch plain fuel rule start g p ds = Val result.

(** ** The conditions are met by [hang_atn] and "A C" *)
Lemma hang_simple : simple_grammar hang_atn 0.
Proof. apply simple_dec. vm_compute. reflexivity. Qed.
Lemma hang_one_stop : one_stop hang_atn.
Proof. refine (proj1 (proj2 (proj2 (proj2 (sound_dec hang_atn _))))). vm_compute. reflexivity. Qed.
Lemma hang_one_start : one_start hang_atn.
Proof. apply one_start_dec. vm_compute. reflexivity. Qed.
Lemma hang_no_stall : no_stall hang_atn.
Proof. apply no_stall_dec. vm_compute. reflexivity. Qed.
Lemma hang_thin : thin_labels hang_atn.
Proof. apply thin_dec. vm_compute. reflexivity. Qed.
Lemma hang_decisions : decisions_ok hang_atn hang_switch.
Proof. apply decisions_dec. vm_compute. reflexivity. Qed.
Lemma hang_switches : switches_ok hang_atn 0 hang_switch.
Proof.
  intros i f E stack conts w n j P V. unfold hang_switch in E. destruct (Z.eqb_spec i 2) as [-> |N]; [|discriminate].
  injection E as <-. replace conts with (@nil Z) in V by (symmetry; eapply main_alone; [apply hang_simple | exact P]).
  apply (test_dec hang_atn 40 2 hang_test w n j); [vm_compute; reflexivity | exact V].
Qed.
Lemma hang_planned : plan_ok hang_atn hang_plan.
Proof.
  intros from i. unfold hang_plan. destruct (i =? 0); [repeat constructor|]. destruct (Z.eqb_spec i 2) as [-> |].
  - destruct (from =? 7); (apply plan_sync; [|repeat constructor]; [| lia]).
    + eapply reaches_move; [apply reaches_here|]. eapply (move_epsilon hang_atn 7 [] _ (Epsilon 2 (-1))); [reflexivity | discriminate | left; reflexivity | intros [] | reflexivity].
    + apply reaches_here.
  - destruct (Z.eqb_spec i 19) as [-> |]; [apply plan_sync; [apply reaches_here | constructor]|].
    destruct ((i =? 20) || (i =? 21)); repeat constructor.
Qed.
Lemma hang_tests : tests_in_range hang_atn hang_switch.
Proof.
  intros i s f x j Es E F. unfold hang_switch in E. destruct (Z.eqb_spec i 2) as [-> |N]; [|discriminate].
  injection E as <-; cbn in Es; injection Es as <-; cbn [st_trans sst length]; unfold hang_test in F; destruct (_ || _) in F; injection F as <-; lia.
Qed.
Lemma hang_eof : reads_eof hang_atn 0.
Proof. apply (reads_eof_dec hang_atn 40). vm_compute. reflexivity. Qed.
Lemma ac_eof : eof_number (source ac) 2.
Proof. split; [reflexivity|]. intros i Hi. do 2 (destruct i as [|i]; [discriminate|]). lia. Qed.
Lemma ac_visible : starts_visible (source ac) 0.
Proof. reflexivity. Qed.
Lemma ac_fresh : common_history (source ac) 0 50 (p_input (fresh ac)).
Proof. exists []. reflexivity. Qed.

(** No: with the default strategy some parsers never come back, in any prediction mode,
    although the grammar and everything else are as good as C86 asks for.  (NoFuel for
    every fuel: the loop of the rule function goes on for ever.) *)
Theorem C89_never_comes_back : exists a main plan switch src e p, simple_grammar a main /\ one_stop a /\ one_start a /\ no_stall a /\ thin_labels a /\
  plan_ok a plan /\ decisions_ok a switch /\ tests_in_range a switch /\ switches_ok a main switch /\ eof_number src e /\ (e = 2)%nat /\ starts_visible src 0 /\ outside p /\
  reads_eof a 0 /\ rule_of a 0 = main /\ common_history src 0 50 (p_input p) /\ p_notices p = [] /\
  forall mode fuel, parse (common_seek src 0 50) a demo_names (fun _ _ _ _ => true) plain_order plain_alts one_hash no_dhash no_share (fun _ => 0%nat) mode plan switch (fun _ => false)
    fuel 0 0 (Default new_dstrategy) p (new_dfas a) = NoFuel.
Proof.
  exists hang_atn, 0, hang_plan, hang_switch, (source ac), 2%nat, (fresh ac).
  repeat match goal with |- _ /\ _ => split end; try reflexivity;
    [apply hang_simple | apply hang_one_stop | apply hang_one_start | apply hang_no_stall | apply hang_thin | apply hang_planned | apply hang_decisions | apply hang_tests | apply hang_switches | apply ac_eof | split; reflexivity | apply hang_eof | apply ac_fresh | intros; apply hang_parses].
Qed.
Print Assumptions C89_never_comes_back.

Theorem C89_always_comes_back_refuted : ~ always_comes_back strategy_ok.
Proof.
  intros H.
  destruct (H hang_atn 0 hang_simple hang_one_stop hang_one_start hang_no_stall hang_plan hang_switch hang_planned hang_decisions hang_tests hang_switches
    plain_order plain_alts one_hash no_dhash no_share plain_orders plain_contexts (source ac) 0 50%nat 2%nat ac_eof ltac:(lia) ac_visible demo_names (fun _ _ _ _ => true) (fun _ => 0%nat) LL (fun _ => false)
    0 0 (Default new_dstrategy) (fresh ac) (new_dfas hang_atn) ltac:(discriminate) eq_refl hang_eof (conj eq_refl hang_thin) (conj eq_refl eq_refl) (new_dfas_ok _ _ _ _ _ _) ac_fresh) as (n & r & E).
  specialize (E n (PeanoNat.Nat.le_refl n)). rewrite hang_parses in E. discriminate E.
Qed.
Print Assumptions C89_always_comes_back_refuted.

(** What is left of the property: with the bail-out strategy it holds (C88). *)
Theorem C89_bail_partial : always_comes_back (fun _ g => exists d, g = Bail d /\ recovering d = false).
Proof.
  intros a main Hg H1 H2 NS plan switch Hp Hd Hs _ order alt_order hash dhash share Ho Hx src ch sfuel e He Hf H0 names sempred clock mode plain rule start g p ds Es Rs _ (d & -> & Rd) O D Hi.
  destruct (C88_always_comes_back a main Hg H1 NS plan switch Hp Hd Hs order alt_order hash dhash share Ho Hx src ch sfuel e He Hf H0 names sempred clock mode plain rule start d p ds Es Rs Rd O D Hi)
    as (n & g' & p' & ds' & r & R & _). exists n, (g', p', ds', r). exact R.
Qed.
Print Assumptions C89_bail_partial.

(** The same parser ends normally on "A B B B", and with the bail-out strategy it cancels
    "A C". *)
Definition abbb : list tok := map tk [1; 2; 2; 2].
Example C89_nonvacuous :
  match parse (common_seek (source abbb) 0 50) hang_atn demo_names (fun _ _ _ _ => true) plain_order plain_alts one_hash no_dhash no_share (fun _ => 0%nat) LL hang_plan hang_switch (fun _ => false)
    100 0 0 (Default new_dstrategy) (fresh abbb) (new_dfas hang_atn) with Val (_, p, _, Ended) => Some (length (p_notices p)) | _ => None end = Some 0%nat /\
  match hang_parse LL 100 0 0 (Bail new_dstrategy) (fresh ac) (new_dfas hang_atn) with Val (_, p, _, Raised (FallThrough (Some _))) => Some (length (p_notices p)) | _ => None end = Some 0%nat.
Proof. vm_compute. auto. Qed.
