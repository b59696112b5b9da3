(** C79: where error recovery resynchronises.  Vocabulary: RecoverSetSpec.v, RecoverSpec.v, Ll1Spec.v. *)
From Coq Require Import ZArith List Bool Lia.
From Verif Require Import Outcome IntervalSetModel IntervalSetSpec IntervalSetProofs IntervalSetProps AtnModel AtnSpec Ll1Model Ll1Spec Ll1Proofs Ll1Props.
From Verif Require Import TokenStreamModel TokenStreamSpec ParserModel ParserSpec ParserTreeProofs ParserRunProofs ParserStreamProofs ParserDemo RecoverSpec RecoverProofs RecoverProps RecoverSetSpec RecoverSetProofs.
Import ListNotations.
Local Open Scope Z_scope.

(** [recover] stops at the end of the input or at a token with which one of the rules under
    way can go on; before that it takes one token without looking at it only if it was called at
    the same position before. *)
Theorem C79_recover_stops : forall S (ts : stream_ops S) Inv ahead a fuel d p d' p' c x stack conts,
  input ts Inv ahead -> Inv (p_input p) -> (length (ahead (p_input p)) <= fuel)%nat ->
  (forall t, In t (ahead (p_input p)) -> -1 <= t_type t) ->
  well_formed a -> token_labels a ->
  p_ctx p = Some c -> nth_error (p_heap p) c = Some x -> invoked_from (p_heap p) c stack -> returns_to a stack conts ->
  d_recover ts a fuel d p = Val (d', p') ->
  exists forced skipped stop rest,
    ahead (p_input p) = forced ++ skipped ++ stop :: rest /\ ahead (p_input p') = stop :: rest /\
    (length forced <= 1)%nat /\ (last_index d <> s_index ts (p_input p) -> forced = []) /\
    (t_type stop = EOF_TYPE \/ can_resume a conts (t_type stop)).
Proof.
  intros S ts Inv ahead a fuel d p d' p' c x stack conts Hin HI HL HT wf TL EC EX IV RT H.
  destruct (recover_resync ts a fuel Inv ahead Hin d p d' p' c) as (q & set & fc & sk & stop & rest & A1 & A2 & A3 & A4 & A5 & A6 & A7 & A8 & A9); eauto.
  exists fc, sk, stop, rest. repeat (split; [solve [auto]|]). split.
  { intros N. apply A7. unfold repeated. destruct (Z.eqb_spec (last_index d) (s_index ts (p_input p))); [contradiction|auto]. }
  destruct A9 as [A9|A9]; auto. right. eapply (recovery_set_sound a wf TL fuel q c); eauto.
  specialize (HT stop). rewrite A4 in HT. intros E. rewrite E in HT. unfold TOKEN_EPSILON in HT.
  assert (-1 <= -2); [apply HT|lia]. apply in_or_app. right. apply in_or_app. right. left. auto.
Qed.
Print Assumptions C79_recover_stops.

(** It skips no token with which one of the rules under way can go on.  Missing: lookahead sets
    that are not exact (C47), and unions in which a range touches three or more (C01). *)
Theorem C79_recover_partial : forall S (ts : stream_ops S) Inv ahead a fuel d p d' p' c x stack conts sets,
  input ts Inv ahead -> Inv (p_input p) -> (length (ahead (p_input p)) <= fuel)%nat ->
  well_formed a -> token_labels a ->
  p_ctx p = Some c -> nth_error (p_heap p) c = Some x -> invoked_from (p_heap p) c stack -> returns_to a stack conts ->
  Forall2 (exact_lookahead_set a) conts sets -> narrow_unions is_new sets ->
  d_recover ts a fuel d p = Val (d', p') ->
  exists forced skipped stop rest,
    ahead (p_input p) = forced ++ skipped ++ stop :: rest /\ ahead (p_input p') = stop :: rest /\
    (length forced <= 1)%nat /\ (last_index d <> s_index ts (p_input p) -> forced = []) /\
    Forall (fun t => t_type t <> EOF_TYPE /\ ~ can_resume a conts (t_type t)) skipped /\
    (t_type stop = EOF_TYPE \/ can_resume a conts (t_type stop)).
Proof.
  intros S ts Inv ahead a fuel d p d' p' c x stack conts sets Hin HI HL wf TL EC EX IV RT FS NU H.
  destruct (recover_resync ts a fuel Inv ahead Hin d p d' p' c) as (q & set & fc & sk & stop & rest & A1 & A2 & A3 & A4 & A5 & A6 & A7 & A8 & A9); eauto.
  destruct (recovery_set_exact a wf TL fuel q c stack conts sets set) as (_ & M); auto.
  exists fc, sk, stop, rest. repeat (split; [solve [auto]|]). split.
  { intros N. apply A7. unfold repeated. destruct (Z.eqb_spec (last_index d) (s_index ts (p_input p))); [contradiction|auto]. }
  split; [|rewrite <- M; auto]. eapply Forall_impl; [|exact A8]. intros t [B1 B2]. split; auto. rewrite <- M, B2. discriminate.
Qed.
Print Assumptions C79_recover_partial.

(** The resynchronisation of a loop ([sync] at a loop entry or loop back, not in recovery mode, the next
    token being wrong): it skips up to a token that is expected next or with which one of the rules
    under way can go on.  Missing: as above. *)
Theorem C79_sync_loop_partial : forall S (ts : stream_ops S) Inv ahead a names fuel d p d' p' r c x stack conts sets s nt e,
  input ts Inv ahead -> Inv (p_input p) -> (length (ahead (p_input p)) <= fuel)%nat ->
  well_formed a -> token_labels a ->
  p_ctx p = Some c -> nth_error (p_heap p) c = Some x -> invoked_from (p_heap p) c stack -> returns_to a stack conts ->
  Forall2 (exact_lookahead_set a) conts sets -> narrow_unions is_new sets ->
  recovering d = false -> state_at a (p_state p) = Some s -> st_type_id s = 9 \/ st_type_id s = 11 ->
  next_tokens fuel a s = Val nt -> contains nt TOKEN_EPSILON = false ->
  (forall t l, ahead (p_input p) = t :: l -> contains nt (t_type t) = false) ->
  get_expected_tokens a fuel p = Val e -> canonical (intervals e) ->
  (forall m, get_error_recovery_set a fuel p = Val m -> narrow_history (intervals e) (intervals m)) ->
  d_sync ts a names fuel d p = Val (d', p', r) ->
  r = None /\ exists skipped stop rest,
    ahead (p_input p) = skipped ++ stop :: rest /\ ahead (p_input p') = stop :: rest /\
    Forall (fun t => t_type t <> EOF_TYPE /\ contains e (t_type t) = false /\ ~ can_resume a conts (t_type t)) skipped /\
    (t_type stop = EOF_TYPE \/ contains e (t_type stop) = true \/ can_resume a conts (t_type stop)).
Proof.
  intros S ts Inv ahead a names fuel d p d' p' r c x stack conts sets s nt e Hin HI HL wf TL EC EX IV RT FS NU HR ES ID EN NE HT EE CE NM H.
  assert (EM : exists m, get_error_recovery_set a fuel p = Val m).
  { pose proof H as H0. unfold d_sync in H0. rewrite HR in H0.
    destruct (ahead_cons ts Inv ahead Hin _ HI) as (t & l & HA). destruct (la1 ts Inv ahead Hin p t l HI HA) as (q & EL & (L1 & L2 & L3 & L4)). rewrite EL in H0. cbn [obindo] in H0.
    assert (p_state q = p_state p) as LS by (rewrite L1; reflexivity). rewrite LS, (get_state_at _ _ _ ES) in H0. cbn [obindo] in H0.
    rewrite EN in H0. cbn [obindo] in H0. rewrite (HT _ _ HA), NE in H0. replace (sync_case (st_type_id s)) with SyncLoop in H0 by (destruct ID as [-> | ->]; reflexivity).
    unfold report_unwanted_token, report_token in H0. rewrite HR in H0. cbv zeta in H0.
    destruct (get_expected_tokens a fuel q) as [e1| |] eqn:F1; try discriminate. cbn [obindo] in H0.
    destruct (get_current_token ts q) as [t1| |] eqn:F2; try discriminate. cbn [obindo] in H0.
    unfold notify_error_listeners in H0. destruct (s_get ts (p_input q) (t_index t1)) as [t2| |]; try discriminate. cbn [obindo] in H0.
    match type of H0 with context [get_expected_tokens a fuel ?z] => set (z0 := z) in H0 end.
    destruct (get_expected_tokens a fuel z0) as [e2| |]; try discriminate. cbn [obindo] in H0.
    destruct (get_error_recovery_set a fuel z0) as [m| |] eqn:F3; try discriminate. exists m. rewrite <- F3. symmetry. apply expected_same; subst z0; rewrite L1; reflexivity. }
  destruct EM as [m EM].
  destruct (sync_loop_resync ts a names fuel Inv ahead Hin d p d' p' r s nt e m c) as (A & sk & stop & rest & A1 & A2 & A3 & A4); eauto.
  { apply get_state_at; auto. } { destruct ID as [-> | ->]; reflexivity. }
  destruct (recovery_set_exact a wf TL fuel p c stack conts sets m) as (CM & M); auto.
  assert (X : forall y, contains (add_set e m) y = true <-> contains e y = true \/ can_resume a conts y).
  { intros y. rewrite add_set_fold. destruct (narrow_history_spec _ _ CE (NM _ EM)) as [C1 M1]. rewrite contains_spec by exact C1. cbn [intervals]. rewrite M1.
    rewrite <- M, !contains_spec by auto. tauto. }
  split; auto. exists sk, stop, rest. repeat (split; [solve [auto]|]). split; [|rewrite X in A4; auto].
  eapply Forall_impl; [|exact A3]. intros t [B1 B2]. split; auto. rewrite <- not_true_iff_false, X in B2. split; [|tauto].
  destruct (contains e (t_type t)); auto. exfalso. apply B2. auto.
Qed.
Print Assumptions C79_sync_loop_partial.

(** *** The hypotheses are met: s : x B ; x : A* C ; the loop of x, called from s, is in trouble
    at "9 8 B" (A = 1, B = 2, C = 3) *)
Definition loop_atn : atn := Atn [3] PARSER [] 3 [] [0; 2] [5; 7] [] [
  AState 0 0 1 BasicState [RuleTr 2 1 1 0] false;
  AState 0 1 1 BasicState [Atom 5 2] false;
  AState 1 2 2 (RuleStartState 7 false) [Epsilon 3 (-1)] true;
  AState 1 3 9 BasicState [Epsilon 4 (-1); Epsilon 6 (-1)] true;
  AState 1 4 1 BasicState [Atom 3 1] false;
  AState 0 5 7 RuleStopState [] true;
  AState 1 6 1 BasicState [Atom 7 3] false;
  AState 1 7 7 RuleStopState [Epsilon 1 (-1)] true].
Ltac loop_trans H := cbn [st_trans In] in H; each_in H.
Lemma loop_well_formed : well_formed loop_atn.
Proof.
  split; [cbn; lia|]. intros i s H. each_state H; (split; [reflexivity|]); intros NS t Ht; loop_trans Ht; try (exfalso; apply NS; reflexivity);
    (split; [discriminate|]); (split; [exact Logic.I|]); cbn; auto; (split; [discriminate|reflexivity]).
Qed.
Lemma loop_tokens : token_labels loop_atn.
Proof. intros i s t x H Ht Hx. each_state H; loop_trans Ht; cbn in Hx; try tauto; lia. Qed.
Lemma loop_thin : thin_labels loop_atn.
Proof. intros i s t H Ht. each_state H; loop_trans Ht; exact Logic.I. Qed.
Lemma loop_nlr : forall rule, ~ left_recursive loop_atn rule.
Proof.
  apply (rank_nlr _ (fun r => - r)); [apply loop_well_formed|]. intros i s g f r p H Ht. each_state H; cbn [st_trans In] in Ht;
    each_call Ht; injection Ht as <- <- <- <-; reflexivity.
Qed.
Lemma loop_exact_set : exact_lookahead_set loop_atn 1 (IS [Iv 2 2] true).
Proof.
  destruct (C47_exact_partial loop_atn 1 _ loop_well_formed loop_nlr loop_thin eq_refl) as (n & r & A & B & C).
  assert (E : next_tokens 10 loop_atn (AState 0 1 1 BasicState [Atom 5 2] false) = Val (IS [Iv 2 2] true)) by (vm_compute; reflexivity).
  pose proof (next_tokens_same _ _ _ _ _ _ A E) as Er. subst r. split; [eexists; exists n; split; [reflexivity|exact A]|]. split; auto.
Qed.
Notation in_loop l := (set_state (with_ctx (fst (alloc (fst (alloc (fresh l) (new_parser_ctx None (-1) 0 0 false)))
  (new_parser_ctx (Some 0%nat) 0 1 0 false))) (Some 1%nat)) 3).
Example C79_nonvacuous : let l := [tk 9; tk 8; tk 2] in let ts := stream l in let p := in_loop l in
  well_formed loop_atn /\ token_labels loop_atn /\ eof_number (source l) 3 /\ reading (source l) 0 (p_input p) /\
  map t_type (tokens_from (source l) 0 3 (Z.to_nat (cur (p_input p)))) = [9; 8; 2; -1] /\
  invoked_from (p_heap p) 1 [0] /\ returns_to loop_atn [0] [1] /\
  Forall2 (exact_lookahead_set loop_atn) [1] [IS [Iv 2 2] true] /\ narrow_unions is_new [IS [Iv 2 2] true] /\
  (exists d' p', d_recover ts loop_atn 50 (begin_error_condition new_dstrategy) p = Val (d', p') /\ s_index ts (p_input p') = 2) /\
  (exists d' p', d_sync ts loop_atn demo_names 50 new_dstrategy p = Val (d', p', None) /\ s_index ts (p_input p') = 2) /\
  get_expected_tokens loop_atn 50 p = Val (IS [Iv 1 1; Iv 3 3] true) /\ canonical [Iv 1 1; Iv 3 3] /\
  get_error_recovery_set loop_atn 50 p = Val (IS [Iv 2 2] false) /\ narrow_history [Iv 1 1; Iv 3 3] [Iv 2 2].
Proof.
  cbv zeta. split; [apply loop_well_formed|]. split; [apply loop_tokens|].
  split. { split; [reflexivity|]. intros i Hi. destruct i as [|[|[|]]]; try lia; discriminate. }
  split; [apply start_reading|]. split; [reflexivity|]. split.
  { eapply (invoked_by_rule _ 1 (new_parser_ctx (Some 0%nat) 0 1 0 false) 0); [reflexivity|cbn; lia|reflexivity|]. eapply invoked_by_user; [reflexivity|cbn; lia]. }
  split. { constructor; [|constructor]. exists (AState 0 0 1 BasicState [RuleTr 2 1 1 0] false), 2, 1, 0, []. repeat split; discriminate. }
  split; [constructor; [apply loop_exact_set|constructor]|]. split; [cbn; lia|].
  split; [do 2 eexists; split; [vm_compute; reflexivity|reflexivity]|].
  split; [do 2 eexists; split; [vm_compute; reflexivity|reflexivity]|].
  split; [vm_compute; reflexivity|]. split; [apply canonical_cons; cbn; split; [lia|split; [constructor; [unfold gap; cbn; lia|constructor]|apply canonical_cons; cbn; split; [lia|split; [constructor|apply canonical_nil]]]]|].
  split; [vm_compute; reflexivity|]. cbn. lia.
Qed.
