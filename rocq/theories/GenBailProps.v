(** Properties of generated parsers with the bail-out error strategy: they always come
    back, and they tell sentences from other inputs (C88). *)
From Coq Require Import ZArith List Bool Lia Permutation.
From Verif Require Import CharStreamModel TokenStreamModel TokenStreamSpec TokenStreamProofs CommonTokenStreamProofs.
From Verif Require Import Outcome IntervalSetModel PredContextModel PredContextSpec SemContextModel ConfigSetModel DfaModel AtnModel AtnSpec Ll1Model Ll1Spec ParserModel PredictModel PredictSpec PredictLLSpec PredictTotalSpec PredictTotalStreamProofs.
From Verif Require Import GenModel GenSpec GenFuelProofs GenBailSpec GenBailProofs ParserDemo PredictDemo PredictLLDemo PredictTotalDemo PredictTotalProps GenDemo GenProps.
Import ListNotations.
Local Open Scope Z_scope.

(** ** C88  With the bail-out strategy a generated parser always comes back *)

(** For every simple grammar in which nothing can be repeated without matching a token,
    every parser generated from it, whatever its lookahead tests choose, in every
    prediction mode, with DFAs left behind by any earlier parses, on every token stream
    over a source that ends (and whose first token is not hidden): the rule function
    comes back.  It does not panic.  Either it ends normally, and then the error
    listeners have been told nothing and the parser can be used again; or it returns the
    cancellation error, and the listeners have been told of at most one error. *)
Theorem C88_always_comes_back : forall a main, simple_grammar a main -> one_stop a -> no_stall a ->
  forall plan switch, plan_ok a plan -> decisions_ok a switch -> tests_in_range a switch ->
  forall order alt_order hash dhash share, orders_ok order alt_order -> contexts_ok hash share ->
  forall src ch sfuel e, eof_number src e -> (e <= sfuel)%nat -> starts_visible src ch ->
  forall names sempred clock mode plain rule start d p ds, exists_state a start -> rule_of a start = main ->
  recovering d = false -> outside p -> dfas_ok a order alt_order hash dhash share ds -> common_history src ch sfuel (p_input p) ->
  exists enough g' p' ds' r,
    (forall fuel, (enough <= fuel)%nat ->
      parse (common_seek src ch sfuel) a names sempred order alt_order hash dhash share clock mode plan switch plain fuel rule start (Bail d) p ds = Val (g', p', ds', r)) /\
    dfas_ok a order alt_order hash dhash share ds' /\
    (r = Full \/
     r = Ended /\ p_notices p' = p_notices p /\ outside p' /\ (exists d', g' = Bail d' /\ recovering d' = false) /\ common_history src ch sfuel (p_input p') \/
     (exists c, r = Raised (FallThrough (Some c))) /\ (p_notices p' = p_notices p \/ exists x, p_notices p' = p_notices p ++ [x])).
Proof.
  intros a main Hg H1 NS plan switch Hp Hd Hs order alt_order hash dhash share Ho Hx src ch sfuel e He Hf H0 names sempred clock mode plain rule start d p ds Es Rs Rd O D Hi.
  assert (A : exists w, ahead src ch sfuel (p_input p) w).
  { pose proof Hi as (ops & Hr). destruct (crun_reach src ch sfuel _ _ Hr) as (n & C & _). pose proof (crep_cur _ _ _ C) as Q. pose proof C as (R & L). pose proof (r_p _ _ _ _ R) as Rp.
    assert (Le : (Z.to_nat (cur (p_input p)) <= e)%nat).
    { destruct (Compare_dec.le_lt_dec (Z.to_nat (cur (p_input p))) e) as [K|K]; [exact K|]. exfalso. apply (r_noeof _ _ _ _ R e); [lia | apply He]. }
    destruct (read_word src (fun k => k = ch) ltac:(intros; apply Z.eq_dec) e _ He Le) as (w & W). exists w. split; [exact Hi|]. eexists. split; [|exact W]. lia. }
  destruct A as (w & A).
  destruct (b_parse src ch sfuel e He Hf H0 a main Hg H1 NS names sempred order alt_order hash dhash share Ho Hx clock mode plan Hp switch Hd Hs plain rule start d p ds w Es Rs Rd O A D)
    as (n & g' & p' & ds' & r & R & D' & Q).
  exists n, g', p', ds', r. split; [exact R|]. split; [exact D'|]. destruct Q as [Q|[(-> & O' & N' & G' & w' & A')|(c & -> & N)]]; [left; exact Q | right; left | right; right].
  - split; [reflexivity|]. split; [exact N'|]. split; [exact O'|]. split; [exact G' | apply A'].
  - split; [eauto | exact N].
Qed.
Print Assumptions C88_always_comes_back.

Lemma prefix_no_eof src ch sfuel s u w : ahead src ch sfuel s (u ++ w) -> ~ In TOKEN_EOF u.
Proof. intros (_ & c & _ & R) I. apply (read_no_eof src (fun k => k = ch) c _ R). apply in_or_app. auto. Qed.
(** If the start rule ends with EOF, the parser decides the language: it ends normally on
    the sentences and cancels on everything else.
    What is missing: the restrictions on grammars and DFAs of C86. *)
Theorem C88_decides_partial : forall a main, simple_grammar a main -> one_stop a -> one_start a -> no_stall a ->
  forall plan switch, plan_ok a plan -> decisions_ok a switch -> tests_in_range a switch -> switches_ok a main switch ->
  forall order alt_order hash dhash share, orders_ok order alt_order -> contexts_ok hash share ->
  forall src ch sfuel e, eof_number src e -> (e <= sfuel)%nat -> starts_visible src ch ->
  forall names sempred clock mode plain, mode <> SLL ->
  forall rule start d p ds w, exists_state a start -> rule_of a start = main -> reads_eof a start ->
  recovering d = false -> outside p -> dfas_ok a order alt_order hash dhash share ds ->
  ahead src ch sfuel (p_input p) w -> token_types a w -> known_types a w ->
  exists enough g' p' ds' r,
    (forall fuel, (enough <= fuel)%nat ->
      parse (common_seek src ch sfuel) a names sempred order alt_order hash dhash share clock mode plan switch plain fuel rule start (Bail d) p ds = Val (g', p', ds', r)) /\
    (r = Full \/
     r = Ended /\ (exists n, completes a n (start, []) w) \/
     (exists c, r = Raised (FallThrough (Some c))) /\ ~ (exists n, completes a n (start, []) w)).
Proof.
  intros a main Hg H1 H2 NS plan switch Hp Hd Hs Hsw order alt_order hash dhash share Ho Hx src ch sfuel e He Hf H0 names sempred clock mode plain Hm rule start d p ds w Es Rs Er Rd O D A T K.
  destruct (C88_always_comes_back a main Hg H1 NS plan switch Hp Hd Hs order alt_order hash dhash share Ho Hx src ch sfuel e He Hf H0 names sempred clock mode plain rule start d p ds Es Rs Rd O D (proj1 A))
    as (n & g' & p' & ds' & r & R & D' & Q).
  exists n, g', p', ds', r. split; [exact R|]. destruct Q as [Q|[(-> & N & O' & G' & _)|((c & ->) & _)]]; [left; exact Q | right; left | right; right].
  - split; [reflexivity|]. pose proof (R n (PeanoNat.Nat.le_refl n)) as Rn.
    assert (Pk : plan_kinds plan) by (intros from i; induction (Hp from i); repeat constructor; assumption).
    destruct (C87_accepted_are_sentences src ch sfuel e He Hf a names sempred order alt_order hash dhash share clock mode plan switch plain Pk n rule start (Bail d) p ds g' p' ds' w Rn Rd N A K)
      as (u & w' & k & -> & _ & Wk & Mt). rewrite (Wk (Er _ _ (prefix_no_eof _ _ _ _ _ _ A) Mt)), app_nil_r. exists k. exact Mt.
  - split; [eauto|]. intros (k & C).
    destruct (C86_sentences_accepted_partial a main Hg H1 H2 NS plan switch Hp Hd Hsw order alt_order hash dhash share Ho Hx src ch sfuel e He Hf H0 names sempred clock mode plain Hm
      rule start (Bail d) p ds w k Es Rs Rd O D A T C) as (m & g1 & p1 & ds1 & r1 & R1 & Q1).
    pose proof (R (Nat.max n m) ltac:(lia)) as X. rewrite (R1 (Nat.max n m) ltac:(lia)) in X. injection X as -> -> -> ->.
    destruct Q1 as [Q1|(Q1 & _)]; discriminate Q1.
Qed.
Print Assumptions C88_decides_partial.

(** Two-stage parsing.  First SLL mode with the bail-out strategy: if that ends normally,
    the input is a sentence, and the second stage (another mode, any strategy, the DFAs
    the first one leaves behind or others) would have accepted it, too. *)
Theorem C88_first_stage_partial : forall a main, simple_grammar a main -> one_stop a -> one_start a -> no_stall a ->
  forall plan switch, plan_ok a plan -> decisions_ok a switch -> tests_in_range a switch -> switches_ok a main switch ->
  forall order alt_order hash dhash share, orders_ok order alt_order -> contexts_ok hash share ->
  forall src ch sfuel e, eof_number src e -> (e <= sfuel)%nat -> starts_visible src ch ->
  forall names sempred clock plain rule start d p ds w, exists_state a start -> rule_of a start = main -> reads_eof a start ->
  recovering d = false -> outside p -> dfas_ok a order alt_order hash dhash share ds ->
  ahead src ch sfuel (p_input p) w -> token_types a w -> known_types a w ->
  forall fuel g1 p1 ds1,
  parse (common_seek src ch sfuel) a names sempred order alt_order hash dhash share clock SLL plan switch plain fuel rule start (Bail d) p ds = Val (g1, p1, ds1, Ended) ->
  (exists n, completes a n (start, []) w) /\
  forall mode g ds2, mode <> SLL -> strategy_ok a g -> dfas_ok a order alt_order hash dhash share ds2 ->
  exists enough g' p' ds' r,
    (forall fuel, (enough <= fuel)%nat ->
      parse (common_seek src ch sfuel) a names sempred order alt_order hash dhash share clock mode plan switch plain fuel rule start g p ds2 = Val (g', p', ds', r)) /\
    (r = Full \/ r = Ended /\ p_notices p' = p_notices p /\ ahead src ch sfuel (p_input p') []).
Proof.
  intros a main Hg H1 H2 NS plan switch Hp Hd Hs Hsw order alt_order hash dhash share Ho Hx src ch sfuel e He Hf H0 names sempred clock plain rule start d p ds w Es Rs Er Rd O D1 A T K fuel g1 p1 ds1 R.
  assert (Pk : plan_kinds plan) by (intros from i; induction (Hp from i); repeat constructor; assumption).
  assert (N : p_notices p1 = p_notices p).
  { destruct (C88_always_comes_back a main Hg H1 NS plan switch Hp Hd Hs order alt_order hash dhash share Ho Hx src ch sfuel e He Hf H0 names sempred clock SLL plain rule start d p ds Es Rs Rd O D1 (proj1 A))
      as (n & g' & p' & ds' & r & R' & _ & Q).
    pose proof (parse_more (common_seek src ch sfuel) a names sempred order alt_order hash dhash share clock SLL plan switch plain fuel (Nat.max fuel n) rule start (Bail d) p ds ltac:(lia)) as Mo.
    rewrite R in Mo. rewrite (R' (Nat.max fuel n)) in Mo by lia. specialize (Mo ltac:(discriminate)). injection Mo as -> -> -> ->.
    destruct Q as [Q|[(_ & N & _)|((c & Q) & _)]]; [discriminate Q | exact N | discriminate Q]. }
  assert (C : exists n, completes a n (start, []) w).
  { destruct (C87_accepted_are_sentences src ch sfuel e He Hf a names sempred order alt_order hash dhash share clock SLL plan switch plain Pk fuel rule start (Bail d) p ds g1 p1 ds1 w R Rd N A K)
      as (u & w' & k & -> & _ & Wk & Mt). rewrite (Wk (Er _ _ (prefix_no_eof _ _ _ _ _ _ A) Mt)), app_nil_r. exists k. exact Mt. }
  split; [exact C|]. destruct C as (n & C). intros mode g ds2 Hm G D.
  destruct (C86_sentences_accepted_partial a main Hg H1 H2 NS plan switch Hp Hd Hsw order alt_order hash dhash share Ho Hx src ch sfuel e He Hf H0 names sempred clock mode plain Hm
      rule start g p ds2 w n Es Rs G O D A T C) as (m & g2 & p2 & ds3 & r & R2 & Q).
  exists m, g2, p2, ds3, r. split; [exact R2|]. tauto.
Qed.
Print Assumptions C88_first_stage_partial.

(** ** Decided: the sentences of a rule read EOF, for grammars without recursion *)
Definition takes_any (a : atn) (p : position) : list position :=
  match state_at a (fst p) with
  | None => []
  | Some s => if stop_b s then [] else flat_map (fun t => match t with Atom _ x => if x =? TOKEN_EOF then [] else [(get_target t, snd p)] | _ => if consuming_b t then [(get_target t, snd p)] else [] end) (st_trans s)
  end.
Lemma takes_any_in a x p q : take a x p q -> x <> TOKEN_EOF -> In q (takes_any a p).
Proof.
  intros [i st s t E N I K] Ne. unfold takes_any. cbn [fst snd]. rewrite E, stop_no by exact N. apply in_flat_map. exists t. split; [exact I|].
  destruct t; cbn [symbols consuming_b] in *; try contradiction; try (left; reflexivity). cbn in K. subst. destruct (Z.eqb_spec label TOKEN_EOF); [congruence | left; reflexivity].
Qed.
Fixpoint close_any (a : atn) (n : nat) (l : list position) : list position :=
  match n with O => l | Datatypes.S n => close_any a n (l ++ nodup pos_dec (filter (fun q => negb (in_b q l)) (flat_map (fun p => steps a p ++ takes_any a p) l))) end.
Definition reads_eof_b (a : atn) (n : nat) (start : Z) : bool :=
  let c := close_any a n [(start, [])] in
  in_b (start, []) c && forallb (fun p => forallb (fun q => in_b q c) (steps a p ++ takes_any a p)) c && negb (existsb (ends_b a) c).
Lemma in_b_in p l : in_b p l = true -> In p l.
Proof. unfold in_b. destruct (in_dec pos_dec p l); [auto | discriminate]. Qed.
Lemma reads_eof_dec a n start : reads_eof_b a n start = true -> reads_eof a start.
Proof.
  unfold reads_eof_b. set (c := close_any a n [(start, [])]). rewrite !andb_true_iff, negb_true_iff. intros ((I0 & Cl) & Ne) u k Nu (stop & s & R & Es & St) ->.
  cbn [repeat] in R. rewrite app_nil_r in R. rewrite forallb_forall in Cl. apply in_b_in in I0.
  assert (X : forall p u r, PredictLLSpec.run a p u r -> ~ In TOKEN_EOF u -> In p c -> In r c).
  { induction 1 as [p|p q v r M R' IH|p x q v r T R' IH]; intros Nv I; [exact I| |].
    - apply IH; [exact Nv|]. specialize (Cl _ I). rewrite forallb_forall in Cl. apply in_b_in, Cl, in_or_app. left. apply steps_in, M.
    - apply IH; [intros Q; apply Nv; right; exact Q|]. specialize (Cl _ I). rewrite forallb_forall in Cl. apply in_b_in, Cl, in_or_app. right. eapply takes_any_in; [exact T|]. intros ->. apply Nv. left. reflexivity. }
  specialize (X _ _ _ R Nu I0). assert (existsb (ends_b a) c = true); [|congruence].
  apply existsb_exists. exists (stop, []). split; [exact X|]. unfold ends_b. cbn [fst snd]. rewrite Es. apply stop_dec, St.
Qed.

(** A concrete case: "D B" of [items_atn] is cancelled in [r], "C A" when the loop body
    ends without its B; and "C A B B ..." is accepted, in SLL mode, too. *)
Lemma items_tests : tests_in_range items_atn items_switch.
Proof.
  intros i s f x j Es E F. unfold items_switch in E. destruct (Z.eqb_spec i 2) as [-> |N]; [|destruct (Z.eqb_spec i 3) as [-> |N']; [|discriminate]];
    injection E as <-; cbn in Es; injection Es as <-; cbn [st_trans sst length]; unfold loop_test, block_test in F; destruct (_ || _) in F || destruct (x =? 3) in F; try destruct (x =? 4) in F; try discriminate; injection F as <-; lia.
Qed.
Lemma items_eof : reads_eof items_atn 0.
Proof. apply (reads_eof_dec items_atn 40). vm_compute. reflexivity. Qed.
Definition ca : list tok := map tk [3; 1].
Notation bail_end l := (match items_parse l 100 0 0 (Bail new_dstrategy) (fresh l) (new_dfas items_atn) with
  Val (_, p, _, Ended) => Some (true, length (p_notices p)) | Val (_, p, _, Raised (FallThrough (Some _))) => Some (false, length (p_notices p)) | _ => None end).
Example C88_nonvacuous :
  (exists enough g' p' ds' r, (forall fuel, (enough <= fuel)%nat -> cabb_parse fuel (Bail new_dstrategy) (new_dfas items_atn) = Val (g', p', ds', r)) /\
    (r = Full \/ r = Ended /\ (exists n, completes items_atn n (0, []) cabb_types) \/ (exists c, r = Raised (FallThrough (Some c))) /\ ~ (exists n, completes items_atn n (0, []) cabb_types))) /\
  bail_end cabb = Some (true, 0%nat) /\ bail_end db = Some (false, 1%nat) /\ bail_end ca = Some (false, 0%nat).
Proof.
  split; [|vm_compute; auto].
  exact (C88_decides_partial items_atn 0 items_simple items_one_stop items_one_start items_no_stall items_plan items_switch items_planned items_decisions items_tests items_switches
    plain_order plain_alts one_hash no_dhash no_share plain_orders plain_contexts (source cabb) 0 50%nat 12%nat cabb_eof ltac:(lia) cabb_visible demo_names (fun _ _ _ _ => true) (fun _ => 0%nat) LL (fun _ => false) ltac:(discriminate)
    0 0 new_dstrategy (fresh cabb) (new_dfas items_atn) cabb_types ltac:(discriminate) eq_refl items_eof eq_refl (conj eq_refl eq_refl) (new_dfas_ok _ _ _ _ _ _) cabb_ahead cabb_tokens cabb_known).
Qed.
