(** C47, C48, C74: lookahead sets. *)
From Coq Require Import ZArith List Bool Lia.
From Verif Require Import Outcome IntervalSetModel IntervalSetSpec IntervalSetProofs PredContextModel AtnModel AtnSpec
  Ll1Model Ll1Spec Ll1Proofs.
Import ListNotations.
Local Open Scope Z_scope.

(** ** C47 *)

(** For every ATN and every state: the computation ends, and what it reports is right.
    No restriction on recursion or on labels. *)
Theorem C47_lookahead_sound : forall a i s, well_formed a -> state_at a i = Some s ->
  exists n r, (forall fuel, (n <= fuel)%nat -> next_tokens fuel a s = Val r) /\
    forall x, contains r x = true ->
      can_start_with a (i, []) x \/ (x = TOKEN_EPSILON /\ can_finish a (i, [])).
Proof.
  intros a i s wf E. destruct (next_tokens_hist a i s wf E) as (n & rs & H1 & _ & H3 & _).
  exists n, (IS (intervals (hist rs)) true). split; auto. intros x H. apply H3. apply hist_contains. exact H.
Qed.
Print Assumptions C47_lookahead_sound.

(** For every ATN without left recursion, exactly the right ranges are inserted into
    the result.  Missing: rules that call themselves before consuming anything, and
    the defect of the interval set (C01) when one label touches three or more ranges. *)
Theorem C47_first_set_partial : forall a i s, well_formed a -> (forall rule, ~ left_recursive a rule) -> state_at a i = Some s ->
  exists n ranges,
    (forall x, member x ranges <-> can_start_with a (i, []) x \/ (x = TOKEN_EPSILON /\ can_finish a (i, []))) /\
    (forall fuel, (n <= fuel)%nat ->
       next_tokens fuel a s = Val (IS (fold_left (fun l r => add_interval_l r l) ranges []) true)) /\
    (narrow_history [] ranges -> forall r fuel, (n <= fuel)%nat -> next_tokens fuel a s = Val r -> forall x,
       contains r x = true <-> can_start_with a (i, []) x \/ (x = TOKEN_EPSILON /\ can_finish a (i, []))).
Proof.
  intros a i s wf NL E. destruct (next_tokens_hist a i s wf E) as (n & rs & H1 & _ & H3 & H4).
  exists n, rs. assert (X : forall x, member x rs <-> lookahead_of a i x) by (intros x; split; auto).
  split; [exact X|]. split; [exact H1|]. intros N r fuel L R x. rewrite H1 in R by auto. injection R as <-.
  destruct (hist_exact rs N) as [_ Hx]. change (contains (hist rs) x = true <-> lookahead_of a i x). rewrite Hx. apply X.
Qed.
Print Assumptions C47_first_set_partial.

(** Exact, with hypotheses on the grammar only. *)
Theorem C47_exact_partial : forall a i s, well_formed a -> (forall rule, ~ left_recursive a rule) -> thin_labels a ->
  state_at a i = Some s ->
  exists n r, (forall fuel, (n <= fuel)%nat -> next_tokens fuel a s = Val r) /\ canonical (intervals r) /\
    forall x, contains r x = true <-> can_start_with a (i, []) x \/ (x = TOKEN_EPSILON /\ can_finish a (i, [])).
Proof.
  intros a i s wf NL T E. destruct (next_tokens_hist a i s wf E) as (n & rs & H1 & H2 & H3 & H4).
  destruct (hist_exact rs (thin_src a rs T H2)) as [C X].
  exists n, (IS (intervals (hist rs)) true). split; auto. split; auto. intros x. rewrite contains_ro, X. split; [apply H3|apply H4; exact NL].
Qed.
Print Assumptions C47_exact_partial.

(** *** helpers for concrete ATNs *)
Definition st (rule number : Z) (k : state_type) (ts : list transition) : atn_state := AState rule number 0 k ts false.
Lemma state_at_nth : forall a i s, state_at a i = Some s -> exists n, i = Z.of_nat n /\ nth_error (states a) n = Some s.
Proof.
  intros a i s H. unfold state_at in H. destruct (Z.ltb_spec i 0); [discriminate|]. exists (Z.to_nat i). split; auto. lia.
Qed.
Ltac each_nth n H :=
  lazymatch type of H with
  | nth_error [] _ = _ => destruct n; discriminate H
  | nth_error (_ :: _) _ = _ => destruct n as [|n]; cbn [nth_error] in H; [injection H as <-|each_nth n H]
  end.
Ltac each_state H :=
  let n := fresh "n" in
  apply state_at_nth in H; destruct H as (n & -> & H);
  lazymatch type of H with nth_error (states ?a) _ = _ => unfold a in H end; cbn [states] in H;
  each_nth n H.
Ltac each_in H := lazymatch type of H with _ \/ _ => destruct H as [<-|H]; [|each_in H] | False => destruct H end.
Ltac each_trans H := cbn [st_trans In st] in H; each_in H.
Ltac each_call H := lazymatch type of H with _ \/ _ => destruct H as [H|H]; [try discriminate H|each_call H] | False => destruct H end.

(** no recursion at all: callees rank below callers *)
Lemma rank_nlr : forall a (rank : Z -> Z), well_formed a ->
  (forall i s g f r p, state_at a i = Some s -> In (RuleTr g f r p) (st_trans s) -> rank (rule_of a g) < rank (st_rule s)) ->
  forall rule, ~ left_recursive a rule.
Proof.
  intros a rank wf H rule (g & i & st & s & g' & f & r & p & _ & Er & R & E & NS & Ht & Er').
  assert (X : Forall (fun j => rank (rule_of a j) <= rank rule) (i :: st)).
  { remember (g, []) as q eqn:Eq. remember (i, st) as q' eqn:Eq'. clear E Ht. revert i st Eq'.
    induction R as [|[j st1] q2 R IH M]; intros i st Eq'; subst.
    - injection Eq' as <- <-. constructor; [lia|constructor].
    - specialize (IH j st1 eq_refl). inversion IH as [|? ? X1 X2]; subst.
      destruct (state_at a j) as [sj|] eqn:Ej; [|inversion M; congruence].
      assert (Rj : rule_of a j = st_rule sj) by (unfold rule_of; rewrite Ej; auto).
      apply move_inv with (s := sj) in M; auto.
      destruct M as [(NSj & t & Ht & NC & IC & Ek)|[(NSj & g1 & f1 & r1 & p1 & Ht & Ek)|(ST & f1 & st2 & -> & Ek)]]; injection Ek as -> ->; auto.
      + constructor; auto. destruct (proj2 wf j sj Ej) as [_ W]. destruct (W NSj t Ht) as (_ & _ & W3). 
        assert (W4 : rule_of a (get_target t) = st_rule sj) by (destruct t; try discriminate; exact W3). rewrite W4, <- Rj. exact X1.
      + destruct (proj2 wf j sj Ej) as [_ W]. destruct (W NSj _ Ht) as (_ & _ & _ & W3). pose proof (H _ _ _ _ _ _ Ej Ht) as Hr. rewrite Rj in X1.
        constructor; [lia|]. constructor; auto. rewrite W3. lia. }
  inversion X as [|? ? X1 _]; subst. assert (Ri : rule_of a i = st_rule s) by (unfold rule_of; rewrite E; auto).
  pose proof (H _ _ _ _ _ _ E Ht) as Hr. rewrite Er', <- Ri in Hr. lia.
Qed.

(** [s : o 'b'? 'z' ; o : 'a' | ;] with 'a'=1, 'b'=2, 'z'=3 *)
Definition option_atn : atn := Atn [] PARSER [] 3 [] [] [] [] [
  st 0 0 (RuleStartState 1 false) [Epsilon 2 (-1)];
  st 0 1 RuleStopState [];
  st 0 2 BasicState [RuleTr 3 5 1 0];
  st 1 3 (RuleStartState 4 false) [Epsilon 6 (-1)];
  st 1 4 RuleStopState [Epsilon 5 (-1)];
  st 0 5 BasicState [Range 7 2 2; Epsilon 7 (-1)];
  st 1 6 BasicState [Atom 4 1; Epsilon 4 (-1)];
  st 0 7 BasicState [Atom 1 3]].

Lemma option_wf : well_formed option_atn.
Proof.
  split; [cbn; lia|]. intros i s H. each_state H; (split; [reflexivity|]); intros NS t Ht; each_trans Ht;
    try (exfalso; apply NS; reflexivity); (split; [discriminate|]); (split; [exact Logic.I|]); cbn; auto; (split; [discriminate|reflexivity]).
Qed.
Lemma option_nlr : forall rule, ~ left_recursive option_atn rule.
Proof.
  apply (rank_nlr _ (fun r => - r)); [apply option_wf|]. intros i s g f r p H Ht. each_state H; cbn [st_trans In st] in Ht;
    each_call Ht; injection Ht as <- <- <- <-; reflexivity.
Qed.
Lemma option_thin : thin_labels option_atn.
Proof. intros i s t H Ht. each_state H; each_trans Ht; auto; lia. Qed.
Lemma option_tokens : token_labels option_atn.
Proof. intros i s t x H Ht Hx. each_state H; each_trans Ht; cbn in Hx; try tauto; lia. Qed.

Example C47_nonvacuous :
  well_formed option_atn /\ (forall rule, ~ left_recursive option_atn rule) /\ thin_labels option_atn /\
  state_at option_atn 0 = Some (st 0 0 (RuleStartState 1 false) [Epsilon 2 (-1)]) /\
  next_tokens 20 option_atn (st 0 0 (RuleStartState 1 false) [Epsilon 2 (-1)]) = Val (IS [Iv 1 3] true) /\
  next_tokens 20 option_atn (st 1 3 (RuleStartState 4 false) [Epsilon 6 (-1)]) = Val (IS [Iv (-2) (-2); Iv 1 1] true).
Proof.
  split; [apply option_wf|]. split; [apply option_nlr|]. split; [apply option_thin|]. repeat split; reflexivity.
Qed.

(** The full statement is false because of C01: [s : 'a' | 'c' | 'e' | . ;] with nine
    token types; token 7 is possible and is not reported. *)
Definition wide_atn : atn := Atn [] PARSER [] 9 [] [] [] [] [
  st 0 0 BasicState [Atom 1 1; Atom 1 3; Atom 1 5; Wildcard 1];
  st 0 1 RuleStopState []].
Theorem C47_wide_label_refuted : exists a i s x, well_formed a /\ (forall rule, ~ left_recursive a rule) /\
  state_at a i = Some s /\ can_start_with a (i, []) x /\
  exists n r, (forall fuel, (n <= fuel)%nat -> next_tokens fuel a s = Val r) /\ contains r x = false.
Proof.
  assert (wf : well_formed wide_atn).
  { split; [cbn; lia|]. intros i s H. each_state H; (split; [reflexivity|]); intros NS t Ht; each_trans Ht;
    (split; [discriminate|]); (split; [exact Logic.I|]); cbn; auto. }
  exists wide_atn, 0, (st 0 0 BasicState [Atom 1 1; Atom 1 3; Atom 1 5; Wildcard 1]), 7. split; [exact wf|]. split.
  { apply (rank_nlr _ (fun r => r) wf). intros i s g f r p H Ht. each_state H; cbn [st_trans In st] in Ht; each_call Ht. }
  split; [reflexivity|]. split.
  { eexists _, _, _, (Wildcard 1). split; [constructor|]. split; [reflexivity|]. split; [discriminate|]. split; [cbn; auto|]. cbn. lia. }
  exists 3%nat, (IS [Iv 1 9; Iv 5 5] true). split; [|reflexivity].
  intros fuel L. unfold next_tokens, next_tokens_in_ctx, look.
  erewrite (look_mono_le wide_atn 3 fuel); [|exact L|vm_compute; reflexivity]. reflexivity.
Qed.
Print Assumptions C47_wide_label_refuted.

(** It is also false for hidden left recursion: [s : a 'y' ; a : b a 'x' | ; b : ;],
    'x'=1, 'y'=2.  The input "xy" starts with 'x', which is not reported. *)
Definition hidden_atn : atn := Atn [] PARSER [] 2 [] [] [] [] [
  st 0 0 BasicState [RuleTr 2 9 1 0];
  st 0 1 RuleStopState [];
  st 1 2 BasicState [RuleTr 5 4 2 0; Epsilon 3 (-1)];
  st 1 3 RuleStopState [];
  st 1 4 BasicState [RuleTr 2 7 1 0];
  st 2 5 BasicState [Epsilon 6 (-1)];
  st 2 6 RuleStopState [];
  st 1 7 BasicState [Atom 3 1];
  st 1 8 BasicState [];
  st 0 9 BasicState [Atom 1 2]].
Theorem C47_left_recursion_refuted : exists a i s x, well_formed a /\ thin_labels a /\
  state_at a i = Some s /\ can_start_with a (i, []) x /\
  exists n r, (forall fuel, (n <= fuel)%nat -> next_tokens fuel a s = Val r) /\ contains r x = false.
Proof.
  exists hidden_atn, 0, (st 0 0 BasicState [RuleTr 2 9 1 0]), 1. split.
  { split; [cbn; lia|]. intros i s H. each_state H; (split; [reflexivity|]); intros NS t Ht; each_trans Ht;
    (split; [discriminate|]); (split; [exact Logic.I|]); cbn; auto; (split; [discriminate|reflexivity]). }
  split; [intros i s t H Ht; each_state H; each_trans Ht; auto|]. split; [reflexivity|]. split.
  { eexists 7, [9], _, (Atom 3 1). split; [|split; [reflexivity|split; [discriminate|split; [left; reflexivity|reflexivity]]]].
    assert (C : forall i st0 k g f r p ts m q, state_at hidden_atn i = Some (st m q k ts) -> k = BasicState -> In (RuleTr g f r p) ts -> move hidden_atn (i, st0) (g, f :: st0)).
    { intros. subst k. eapply move_call; [eassumption|discriminate|eassumption]. }
    assert (Ep : forall i st0 k g o ts m q, state_at hidden_atn i = Some (st m q k ts) -> k = BasicState -> In (Epsilon g o) ts -> move hidden_atn (i, st0) (g, st0)).
    { intros. subst k. apply (move_epsilon hidden_atn i st0 (st m q BasicState ts) (Epsilon g o)); auto. discriminate. }
    assert (Rt : forall i f st0 m q ts, state_at hidden_atn i = Some (st m q RuleStopState ts) -> move hidden_atn (i, f :: st0) (f, st0)).
    { intros. eapply move_return; [eassumption|reflexivity]. }
    apply (reaches_move _ _ (3, [7; 9])); [|eapply Rt; reflexivity].
    apply (reaches_move _ _ (2, [7; 9])); [|eapply Ep; [reflexivity|reflexivity|cbn; auto]].
    apply (reaches_move _ _ (4, [9])); [|eapply C; [reflexivity|reflexivity|cbn; auto]].
    apply (reaches_move _ _ (6, [4; 9])); [|eapply Rt; reflexivity].
    apply (reaches_move _ _ (5, [4; 9])); [|eapply Ep; [reflexivity|reflexivity|cbn; auto]].
    apply (reaches_move _ _ (2, [9])); [|eapply C; [reflexivity|reflexivity|cbn; auto]].
    apply (reaches_move _ _ (0, [])); [constructor|eapply C; [reflexivity|reflexivity|cbn; auto]]. }
  exists 20%nat, (IS [Iv 2 2] true). split; [|reflexivity].
  intros fuel L. unfold next_tokens, next_tokens_in_ctx, look.
  erewrite (look_mono_le hidden_atn 20 fuel); [|exact L|vm_compute; reflexivity]. reflexivity.
Qed.
Print Assumptions C47_left_recursion_refuted.

(** ** C48 *)
(** For every ATN, state and invocation stack: no panic, the computation ends, and every
    token type reported can really come next (EOF: the whole stack can finish). *)
Theorem C48_expected_sound : forall a i s stack conts, well_formed a -> token_labels a ->
  state_at a i = Some s -> returns_to a stack conts ->
  exists n r, (forall fuel, (n <= fuel)%nat -> get_expected_tokens fuel a i stack = Val r) /\
    forall x, contains r x = true -> x <> TOKEN_EPSILON ->
      can_start_with a (i, conts) x \/ (x = TOKEN_EOF /\ can_finish a (i, conts)).
Proof. exact expected_sound. Qed.
Print Assumptions C48_expected_sound.

(** Exact, EPSILON included (it is never reported), when the lookahead sets of the frames
    are exact (C47) and merging them stays within what interval sets do correctly
    (C01).  Missing: merges that touch three or more ranges. *)
Theorem C48_expected_partial : forall a i s stack conts sets, well_formed a -> token_labels a ->
  state_at a i = Some s -> returns_to a stack conts ->
  Forall2 (fun j r =>
      (exists sj n, state_at a j = Some sj /\ forall fuel, (n <= fuel)%nat -> next_tokens fuel a sj = Val r) /\
      canonical (intervals r) /\
      forall x, contains r x = true <-> can_start_with a (j, []) x \/ (x = TOKEN_EPSILON /\ can_finish a (j, [])))
    (i :: conts) sets ->
  narrow_merges is_new sets ->
  exists n r, (forall fuel, (n <= fuel)%nat -> get_expected_tokens fuel a i stack = Val r) /\
    forall x, contains r x = true <-> can_start_with a (i, conts) x \/ (x = TOKEN_EOF /\ can_finish a (i, conts)).
Proof. intros a i s stack conts sets wf T E RT FS NM. destruct (expected_exact _ _ _ _ _ _ wf T E RT FS NM) as (n & r & A & _ & B). eauto. Qed.
Print Assumptions C48_expected_partial.

(** the sets along the stack exist for the grammars of [C47_exact_partial] *)
Lemma sets_exist : forall a l, well_formed a -> (forall rule, ~ left_recursive a rule) -> thin_labels a ->
  Forall (exists_state a) l -> exists sets, Forall2 (exact_lookahead a) l sets.
Proof.
  intros a l wf NL T F. induction F as [|j l Hj F [sets IH]]; [exists []; constructor|].
  destruct (state_at a j) as [sj|] eqn:Ej; [|unfold exists_state in Hj; congruence].
  destruct (C47_exact_partial a j sj wf NL T Ej) as (n & r & H1 & H2 & H3).
  exists (r :: sets). constructor; auto. split; [exists sj, n; auto|]. split; auto.
Qed.

(** inside [o], called from state 2 *)
Example C48_nonvacuous :
  returns_to option_atn [2] [5] /\ token_labels option_atn /\
  (exists sets, Forall2 (exact_lookahead option_atn) [3; 5] sets /\ narrow_merges is_new sets) /\
  get_expected_tokens 20 option_atn 3 [2] = Val (IS [Iv 1 3] false) /\
  get_expected_tokens 20 option_atn 3 [] = Val (IS [Iv (-1) (-1); Iv 1 1] false).
Proof.
  split. { constructor; [|constructor]. exists (st 0 2 BasicState [RuleTr 3 5 1 0]), 3, 1, 0, []. repeat split; discriminate. }
  split; [apply option_tokens|]. split; [|split; reflexivity].
  exists [IS [Iv (-2) (-2); Iv 1 1] true; IS [Iv 2 3] true]. split.
  - destruct (sets_exist option_atn [3; 5] option_wf option_nlr option_thin) as [sets F]; [repeat constructor; discriminate|].
    inversion F as [|? r1 ? l1 X1 F1]; subst. inversion F1 as [|? r2 ? l2 X2 F2]; subst. inversion F2; subst.
    assert (E1 : r1 = IS [Iv (-2) (-2); Iv 1 1] true).
    { destruct X1 as [(s1 & n1 & E1 & R1) _]. injection E1 as <-. specialize (R1 (Nat.max n1 20) ltac:(lia)).
      assert (Q : next_tokens (Nat.max n1 20) option_atn (st 1 3 (RuleStartState 4 false) [Epsilon 6 (-1)]) = Val (IS [Iv (-2) (-2); Iv 1 1] true)).
      { unfold next_tokens, next_tokens_in_ctx, look. erewrite (look_mono_le option_atn 20); [| |vm_compute; reflexivity]; [reflexivity|lia]. }
      rewrite Q in R1. injection R1 as <-. reflexivity. }
    assert (E2 : r2 = IS [Iv 2 3] true).
    { destruct X2 as [(s1 & n1 & E2 & R1) _]. injection E2 as <-. specialize (R1 (Nat.max n1 20) ltac:(lia)).
      assert (Q : next_tokens (Nat.max n1 20) option_atn (st 0 5 BasicState [Range 7 2 2; Epsilon 7 (-1)]) = Val (IS [Iv 2 3] true)).
      { unfold next_tokens, next_tokens_in_ctx, look. erewrite (look_mono_le option_atn 20); [| |vm_compute; reflexivity]; [reflexivity|lia]. }
      rewrite Q in R1. injection R1 as <-. reflexivity. }
    subst. exact F.
  - vm_compute. repeat split; repeat constructor.
Qed.

(** Full exactness is false even when every single lookahead set is exact: [s : o ('b'..'h') ;]
    with [o : 'c' | 'e' | 'g' | ;] and token types 2..8 for 'b'..'h'. *)
Definition merge_atn : atn := Atn [] PARSER [] 9 [] [] [] [] [
  st 0 0 BasicState [RuleTr 2 4 1 0];
  st 0 1 RuleStopState [];
  st 1 2 BasicState [Atom 3 3; Atom 3 5; Atom 3 7; Epsilon 3 (-1)];
  st 1 3 RuleStopState [];
  st 0 4 BasicState [Range 1 2 3; Range 1 4 5; Range 1 6 7; Atom 1 8]].
Theorem C48_merge_refuted : exists a i s stack conts x, well_formed a /\ token_labels a /\
  (forall rule, ~ left_recursive a rule) /\ thin_labels a /\
  state_at a i = Some s /\ returns_to a stack conts /\ can_start_with a (i, conts) x /\
  exists n r, (forall fuel, (n <= fuel)%nat -> get_expected_tokens fuel a i stack = Val r) /\ contains r x = false.
Proof.
  assert (wf : well_formed merge_atn).
  { split; [cbn; lia|]. intros i s H. each_state H; (split; [reflexivity|]); intros NS t Ht; each_trans Ht;
    (split; [discriminate|]); (split; [exact Logic.I|]); cbn; auto; (split; [discriminate|reflexivity]). }
  exists merge_atn, 2, (st 1 2 BasicState [Atom 3 3; Atom 3 5; Atom 3 7; Epsilon 3 (-1)]), [0], [4], 8.
  split; [exact wf|]. split.
  { intros i s t x H Ht Hx. each_state H; each_trans Ht; cbn in Hx; try tauto; lia. }
  split.
  { apply (rank_nlr _ (fun r => - r) wf). intros i s g f r p H Ht. each_state H; cbn [st_trans In st] in Ht;
    each_call Ht; injection Ht as <- <- <- <-; reflexivity. }
  split. { intros i s t H Ht. each_state H; each_trans Ht; auto; lia. }
  split; [reflexivity|]. split.
  { constructor; [|constructor]. exists (st 0 0 BasicState [RuleTr 2 4 1 0]), 2, 1, 0, []. repeat split; discriminate. }
  split.
  { apply start_split. right. split.
    - exists 3, (st 1 3 RuleStopState []). split; [|split; reflexivity]. eapply reaches_move; [constructor|].
      apply (move_epsilon merge_atn 2 [] (st 1 2 BasicState [Atom 3 3; Atom 3 5; Atom 3 7; Epsilon 3 (-1)]) (Epsilon 3 (-1))); auto; try discriminate. cbn; auto.
    - eexists 4, [], _, (Atom 1 8). split; [constructor|]. split; [reflexivity|]. split; [discriminate|]. split; [cbn; auto|]. reflexivity. }
  assert (X : forall f j sj, (f >= 5)%nat -> forall w w', look_work 5 merge_atn None sj j true true w = Val w' -> look_work f merge_atn None sj j true true w = Val w').
  { intros. eapply look_mono_le; [|eassumption]. lia. }
  set (r0 := match get_expected_tokens 5 merge_atn 2 [0] with Val r => r | _ => is_new end).
  exists 5%nat, r0. split; [|vm_compute; reflexivity].
  intros fuel L. unfold get_expected_tokens. cbn [obindo]. change (get_state merge_atn 2) with (Val (st 1 2 BasicState [Atom 3 3; Atom 3 5; Atom 3 7; Epsilon 3 (-1)])).
  cbn [obindo]. unfold next_tokens at 1, next_tokens_in_ctx, look. erewrite X; [|lia|vm_compute; reflexivity].
  cbn [obindo w_look intervals]. cbn -[next_tokens expected_loop contains]. 
  replace (contains _ TOKEN_EPSILON) with true by reflexivity. cbn [negb].
  cbn [expected_loop]. replace (contains _ TOKEN_EPSILON) with true by reflexivity. cbn [negb].
  change (get_state merge_atn 0) with (Val (st 0 0 BasicState [RuleTr 2 4 1 0])). cbn [obindo st st_trans nth_error unwrap].
  change (get_state merge_atn 4) with (Val (st 0 4 BasicState [Range 1 2 3; Range 1 4 5; Range 1 6 7; Atom 1 8])). cbn [obindo].
  unfold next_tokens, next_tokens_in_ctx, look. erewrite X; [|lia|vm_compute; reflexivity]. vm_compute. reflexivity.
Qed.
Print Assumptions C48_merge_refuted.

(** ** C74: lookahead in a full context *)
Theorem C74_context_lookahead_sound : forall a i s stack conts root, well_formed a -> state_at a i = Some s -> returns_to a stack conts ->
  exists n r, (forall fuel, (n <= fuel)%nat -> next_tokens_of_stack fuel a s (stack ++ [root]) = Val r) /\
    forall x, contains r x = true -> can_start_with a (i, conts) x \/ (x = TOKEN_EOF /\ can_finish a (i, conts)).
Proof.
  intros a i s stack conts root wf E R. destruct (returns_exist a stack conts wf R) as [F1 F2].
  destruct (stack_ctx a stack conts root F1 R) as (c & R1 & R2).
  destruct (look_exact true a i s conts wf E F2) as (n & rs & H1 & _ & H3 & _).
  exists n, (hist rs). split; [|intros x Hx; apply H3, hist_contains; auto].
  intros fuel L. unfold next_tokens_of_stack. rewrite R1. cbn [obindo]. unfold next_tokens_in_ctx. rewrite <- R2. auto.
Qed.
Print Assumptions C74_context_lookahead_sound.

(** Missing for the full statement: left recursion, and labels touching three or more ranges (C01). *)
Theorem C74_context_lookahead_partial : forall a i s stack conts root, well_formed a ->
  (forall rule, ~ left_recursive a rule) -> thin_labels a ->
  state_at a i = Some s -> returns_to a stack conts ->
  exists n r, (forall fuel, (n <= fuel)%nat -> next_tokens_of_stack fuel a s (stack ++ [root]) = Val r) /\
    canonical (intervals r) /\
    forall x, contains r x = true <-> can_start_with a (i, conts) x \/ (x = TOKEN_EOF /\ can_finish a (i, conts)).
Proof.
  intros a i s stack conts root wf NL T E R. destruct (returns_exist a stack conts wf R) as [F1 F2].
  destruct (stack_ctx a stack conts root F1 R) as (c & R1 & R2).
  destruct (look_exact true a i s conts wf E F2) as (n & rs & H1 & H2 & H3 & H4).
  destruct (hist_exact rs (thin_src a rs T H2)) as [C X].
  exists n, (hist rs). split; [|split; [exact C|]].
  - intros fuel L. unfold next_tokens_of_stack. rewrite R1. cbn [obindo]. unfold next_tokens_in_ctx. rewrite <- R2. auto.
  - intros x. rewrite X. split; [apply H3|apply H4; exact NL].
Qed.
Print Assumptions C74_context_lookahead_partial.

Example C74_nonvacuous :
  returns_to option_atn [2] [5] /\
  next_tokens_of_stack 20 option_atn (st 1 3 (RuleStartState 4 false) [Epsilon 6 (-1)]) [2; -1] = Val (IS [Iv 1 3] false) /\
  next_tokens_of_stack 20 option_atn (st 1 4 RuleStopState [Epsilon 5 (-1)]) [-1] = Val (IS [Iv (-1) (-1)] false).
Proof.
  split. { constructor; [|constructor]. exists (st 0 2 BasicState [RuleTr 3 5 1 0]), 3, 1, 0, []. repeat split; discriminate. }
  split; reflexivity.
Qed.
