(** Error recovery: C57-C61.  Vocabulary: RecoverSpec.v, ParserSpec.v. *)
From Coq Require Import ZArith List Bool Lia.
From Verif Require Import Outcome IntervalSetModel IntervalSetSpec IntervalSetProps AtnModel Ll1Model TokenStreamModel TokenStreamSpec.
From Verif Require Import ParserModel ParserSpec ParserTreeProofs ParserRunProofs ParserEventProofs ParserStreamProofs ParserDemo RecoverSpec RecoverProofs.
Import ListNotations.
Local Open Scope Z_scope.

(** CommonTokenStream is such an input: ahead are the tokens on its channel from the current
    one to the end of input. *)
Theorem C57_common_input : forall src channel fuel e, eof_number src e -> (e <= fuel)%nat ->
  input (common_stream src channel fuel) (reading src channel) (fun s => tokens_from src channel e (Z.to_nat (cur s))) /\
  reading src channel (with_channel src).
Proof. intros src channel fuel e He Hf. split; [exact (common_input src channel fuel e He Hf)|apply start_reading]. Qed.
Print Assumptions C57_common_input.

(** ** C57 *)
(** The tokens skipped are the longest run of tokens outside the set before the end of input;
    each becomes a child of the current context, an error node in recovery mode. *)
Theorem C57_consume_until : forall S (ts : stream_ops S) Inv ahead fuel d p set,
  input ts Inv ahead -> Inv (p_input p) -> has_ctx p -> (length (ahead (p_input p)) <= fuel)%nat ->
  exists p' skipped stop rest, consume_until ts fuel d p set = Val p' /\
    ahead (p_input p) = skipped ++ stop :: rest /\ ahead (p_input p') = stop :: rest /\ Inv (p_input p') /\
    Forall (fun t => t_type t <> EOF_TYPE /\ contains set (t_type t) = false) skipped /\
    (t_type stop = EOF_TYPE \/ contains set (t_type stop) = true) /\
    grew (if_shown p (map (fun t => if recovering d then KErr t else KTerm t) skipped)) p p' /\
    p_notices p' = p_notices p.
Proof.
  intros S ts Inv ahead fuel d p set Hin HI HC HL.
  destruct (consume_until_skips ts fuel Inv ahead Hin d set p HL HC HI) as (p' & sk & rest & E & A & F & (t & r & R & W) & FL & I' & A' & N & _).
  subst rest. exists p', sk, t, r. repeat (split; [solve [auto]|]). split; auto.
  apply flat_grew in FL. rewrite map_map in FL. exact FL.
Qed.
Print Assumptions C57_consume_until.

(** a context of rule x (state 9: an A must follow) called from rule s *)
Notation in_inner l := (set_state (with_ctx (fst (alloc (fst (alloc (fresh l) (new_parser_ctx None (-1) 0 0 false)))
  (new_parser_ctx (Some 0%nat) 2 1 0 false))) (Some 1%nat)) 9).
Example C57_nonvacuous :
  has_ctx (in_inner [tk 9; hidden 1; tk 8; tk 2]) /\ eof_number (source [tk 9; hidden 1; tk 8; tk 2]) 4 /\
  exists p', consume_until (stream [tk 9; hidden 1; tk 8; tk 2]) 50 (begin_error_condition new_dstrategy) (in_inner [tk 9; hidden 1; tk 8; tk 2])
      (IS [Iv 1 2] false) = Val p' /\
    grew [KErr (Tok 9 0 [] 0 1 0); KErr (Tok 8 0 [] 2 1 0)] (in_inner [tk 9; hidden 1; tk 8; tk 2]) p' /\
    tokens_from (source [tk 9; hidden 1; tk 8; tk 2]) 0 4 (Z.to_nat (cur (p_input p'))) = [Tok 2 0 [] 3 1 0; Tok (-1) 0 [] 4 1 0].
Proof.
  split; [exists 1%nat; eexists; split; reflexivity|]. split.
  - split; [reflexivity|]. intros i Hi. destruct i as [|[|[|[|]]]]; try lia; discriminate.
  - eexists. split; [vm_compute; reflexivity|]. split; [|vm_compute; reflexivity].
    split; [reflexivity|]. split; [reflexivity|]. intros j c Hj. destruct j as [|[|j]]; cbn in Hj; [inversion Hj; reflexivity|inversion Hj; reflexivity|destruct j; discriminate].
Qed.

(** ** C58 *)
(** Two calls of [recover] at the same position and in the same state; between them the
    strategy was used but nothing was consumed ([stuck]).  The second one consumes. *)
Theorem C58_second_call_moves : forall S (ts : stream_ops S) a names fuel Inv ahead i d p d1 p1 l d2 q d3 q',
  input ts Inv ahead -> reachable_strategy d ->
  at_token ts Inv ahead i p -> d_recover ts a fuel d p = Val (d1, p1) -> s_index ts (p_input p1) = i ->
  stuck ts a names fuel Inv ahead i d1 l d2 ->
  at_token ts Inv ahead i q -> p_state q = p_state p -> d_recover ts a fuel d2 q = Val (d3, q') ->
  i < s_index ts (p_input q').
Proof.
  intros S ts a names fuel Inv ahead i d p d1 p1 l d2 q d3 q' Hin HR AP E1 X1 ST AQ EQ E2.
  destruct AQ as (IQ & XQ & HQ). destruct (recover_spec ts a fuel Inv ahead Hin _ _ _ _ IQ E2) as (L & _).
  destruct (Z.eq_dec (s_index ts (p_input q')) i) as [X2|X2]; [exfalso|lia].
  assert (ST2 : stuck ts a names fuel Inv ahead i d (p_state p :: l ++ [p_state q]) d3).
  { apply (k_recover ts a names fuel Inv ahead i d p d1 p1 _ _ AP X1 E1). eapply stuck_app; [exact ST|].
    apply (k_recover ts a names fuel Inv ahead i d2 q d3 q' [] d3); auto; [split; auto|apply k_done]. }
  apply (stuck_distinct ts a names fuel Inv ahead Hin) in ST2 as [_ ND]. specialize (ND HR). inversion ND as [|x y NI _]. apply NI.
  rewrite EQ. apply in_or_app. right. left. auto.
Qed.
Print Assumptions C58_second_call_moves.

(** So at one position [recover] is called at most once for each parser state without moving. *)
Theorem C58_no_state_twice : forall S (ts : stream_ops S) a names fuel Inv ahead i d l d',
  input ts Inv ahead -> reachable_strategy d -> stuck ts a names fuel Inv ahead i d l d' -> NoDup l.
Proof. intros S ts a names fuel Inv ahead i d l d' Hin HR ST. now apply (stuck_distinct ts a names fuel Inv ahead Hin) in ST as [_ ND]; auto. Qed.
Print Assumptions C58_no_state_twice.

(** The strategies that occur: the new one, and what a rule function makes of one that occurs. *)
Theorem C58_reachable : forall S (ts : stream_ops S) a names fuel c d p f d' p' f' r,
  reachable_strategy new_dstrategy /\
  (reachable_strategy d -> run_call ts a names fuel c (Default d) p f = Val (Default d', p', f', r) -> reachable_strategy d').
Proof.
  intros S ts a names fuel c d p f d' p' f' r. split; [apply none_reachable; reflexivity|].
  intros HR H. exact (fine_call ts a names fuel _ _ _ _ _ _ _ _ H HR).
Qed.
Print Assumptions C58_reachable.

Example C58_nonvacuous :
  let ts := stream [tk 2; tk 3] in
  exists d1 p1 d2 p2, d_recover ts demo_atn 50 new_dstrategy (in_inner [tk 2; tk 3]) = Val (d1, p1) /\ s_index ts (p_input p1) = 0 /\
    d_recover ts demo_atn 50 d1 p1 = Val (d2, p2) /\ p_state p1 = 9 /\ s_index ts (p_input p2) = 2.
Proof. do 4 eexists. split; [vm_compute; reflexivity|]. split; [vm_compute; reflexivity|]. split; [vm_compute; reflexivity|]. split; vm_compute; reflexivity. Qed.

(** ** C59 *)
(** While no token is matched, [report_error] tells the listeners at most once, and nothing
    at all is told in recovery mode, which is not left. *)
Theorem C59_at_most_once : forall S (ts : stream_ops S) a names fuel Inv ahead g p g' p',
  input ts Inv ahead -> unmatched ts a names fuel Inv ahead g p g' p' ->
  exists new, p_notices p' = p_notices p ++ new /\ (length (filter by_report_error new) <= 1)%nat /\
    (in_error_recovery_mode g = true -> new = [] /\ in_error_recovery_mode g' = true) /\
    ((exists n, In n new /\ by_report_error n = true) -> in_error_recovery_mode g' = true).
Proof.
  intros S ts a names fuel Inv ahead g p g' p' Hin H.
  destruct (unmatched_counted ts a names fuel Inv ahead Hin _ _ _ _ H) as (new & N & L & Q). exists new. split; auto. unfold level in L.
  split; [destruct (in_error_recovery_mode g); lia|]. split.
  - intros M. split; auto. rewrite M in L. destruct (in_error_recovery_mode g'); auto. lia.
  - intros (n & HI & HB). destruct (in_error_recovery_mode g'); auto. exfalso.
    assert (In n (filter by_report_error new)) as K by (apply filter_In; auto). destruct (filter by_report_error new); [contradiction|].
    cbn in L. destruct (in_error_recovery_mode g); lia.
Qed.
Print Assumptions C59_at_most_once.

(** Once a token has been matched, recovery mode is off, and the next report reaches the listeners. *)
Theorem C59_enabled_again : forall S (ts : stream_ops S) a names fuel Inv ahead d p ty g1 p1 t i,
  input ts Inv ahead -> at_token ts Inv ahead i p -> match_token ts a names fuel (Default d) p ty = Val (g1, p1, inl t) ->
  i < s_index ts (p_input p1) -> in_error_recovery_mode g1 = false.
Proof. intros S ts a names fuel Inv ahead d p ty g1 p1 t i Hin. apply (matched_mode ts a names fuel Inv ahead Hin). Qed.
Print Assumptions C59_enabled_again.
Theorem C59_reports : forall S (ts : stream_ops S) a names fuel g p e g' p',
  in_error_recovery_mode g = false -> report_error ts a names fuel g p e = Val (g', p') ->
  in_error_recovery_mode g' = true /\ exists n, p_notices p' = p_notices p ++ [n] /\ n_error n = Some e.
Proof.
  intros S ts a names fuel g p e g' p' M H.
  assert (K : exists d d', (g = Default d /\ g' = Default d' \/ g = Bail d /\ g' = Bail d') /\ d_report_error ts a names fuel d p e = Val (d', p')).
  { destruct g as [d|d]; cbn [report_error] in H; destruct (d_report_error ts a names fuel d p e) as [[d1 q]| |] eqn:E; cbn [obindo] in H; try discriminate;
      inversion H; subst; eauto 10. }
  destruct K as (d & d' & K & E). unfold d_report_error in E.
  assert (R : recovering d = false) by (destruct K as [[-> _]|[-> _]]; exact M). rewrite R in E.
  destruct (message_of ts a names fuel _ e) in E; cbn [obindo] in E; try discriminate.
  match type of E with obindo ?x _ = _ => destruct x eqn:EN; cbn [obindo] in E; try discriminate end.
  inversion E; subst. split; [destruct K as [[_ ->]|[_ ->]]; reflexivity|].
  unfold notify_error_listeners in EN. match type of EN with obindo ?x _ = _ => destruct x; cbn [obindo] in EN; try discriminate end.
  inversion EN; subst. eexists. split; [reflexivity|reflexivity].
Qed.
Print Assumptions C59_reports.

(** rule x on the input D A B with A missing, then a second error *)
Example C59_nonvacuous :
  let ts := stream [tk 2; tk 3] in
  let p := in_inner [tk 2; tk 3] in
  exists b g1 p1 g2 p2 m g3 p3, base_error_new ts p = Val b /\
    report_error ts demo_atn demo_names 50 (Default new_dstrategy) p (InputMismatchError b) = Val (g1, p1) /\ length (p_notices p1) = 1%nat /\
    match_token ts demo_atn demo_names 50 g1 p1 1 = Val (g2, p2, inl m) /\ s_index ts (p_input p2) = 0 /\
    report_error ts demo_atn demo_names 50 g2 p2 (InputMismatchError b) = Val (g3, p3) /\ length (p_notices p3) = 1%nat.
Proof.
  do 8 eexists. split; [vm_compute; reflexivity|]. split; [vm_compute; reflexivity|]. split; [vm_compute; reflexivity|].
  split; [vm_compute; reflexivity|]. split; [vm_compute; reflexivity|]. split; vm_compute; reflexivity.
Qed.

(** ** C60 *)
(** Deletion: the token after the current one is expected. *)
Theorem C60_deletion : forall S (ts : stream_ops S) a names fuel Inv ahead d p E t n l,
  input ts Inv ahead -> has_ctx p -> Inv (p_input p) -> ahead (p_input p) = t :: n :: l ->
  get_expected_tokens a fuel p = Val E -> contains E (t_type n) = true ->
  exists d' p', recover_inline ts a names fuel (Default d) p = Val (Default d', p', inl n) /\
    (* [t] and then [n] have been consumed (the end of input stays) *)
    ahead (p_input p') = (if t_type n =? EOF_TYPE then [n] else l) /\ Inv (p_input p') /\
    grew (if_shown p [KErr t; KTerm n]) p p' /\
    p_notices p' = p_notices p ++ (if recovering d then [] else [Notice t (unwanted_message names E t) None]) /\ recovering d' = false.
Proof.
  intros S ts a names fuel Inv ahead d p E t n l Hin HC HI HA HE HN.
  destruct (inline_delete ts a names fuel Inv ahead Hin d p E t n l HC HI HA HE HN) as (d' & p' & H & R & I' & A' & G & N).
  exists d', p'. cbn [recover_inline]. rewrite H. cbn [obindo]. split; auto. split; [|auto].
  rewrite A'. destruct (Z.eqb_spec (t_type n) EOF_TYPE) as [X|X]; auto. destruct l as [|u l]; auto. exfalso.
  destruct (in_ends _ _ _ Hin _ HI) as (b & e & B & _ & F). rewrite HA in B. destruct b as [|x b]; inversion B; subst.
  destruct b as [|x' b]; inversion H2; subst. inversion F as [|? ? _ F']; subst. inversion F'; subst. contradiction.
Qed.
Print Assumptions C60_deletion.

(** Insertion: it is not, but the current token can follow the missing one. *)
Theorem C60_insertion : forall S (ts : stream_ops S) a names fuel Inv ahead d p E F t l,
  input ts Inv ahead -> has_ctx p -> Inv (p_input p) -> ahead (p_input p) = t :: l ->
  get_expected_tokens a fuel p = Val E -> contains E (t_type (hd t l)) = false ->
  after_missing a fuel p = Val F -> contains F (t_type t) = true ->
  exists d' p' m, recover_inline ts a names fuel (Default d) p = Val (Default d', p', inl m) /\
    t_index m = -1 /\
    (t_text m = if t_type m =? EOF_TYPE then lit "<missing EOF>" else lit "<missing " ++ display_name names (t_type m) ++ lit ">") /\
    (t_type t <> EOF_TYPE -> t_line m = t_line t /\ t_column m = t_column t) /\
    (canonical (intervals E) -> intervals E <> [] -> contains E (t_type m) = true /\ forall x, contains E x = true -> t_type m <= x) /\
    ahead (p_input p') = t :: l /\ s_index ts (p_input p') = s_index ts (p_input p) /\ Inv (p_input p') /\ grew [] p p' /\
    p_notices p' = p_notices p ++ (if recovering d then [] else [Notice t (missing_message names E t) None]) /\ recovering d' = true.
Proof.
  intros S ts a names fuel Inv ahead d p E F t l Hin HC HI HA HE HN HF HT.
  destruct (inline_insert ts a names fuel Inv ahead Hin d p E F t l HC HI HA HE HN HF HT) as (d' & p' & m & H & R & I' & A' & X & G & M1 & M2 & M3 & M4 & N).
  exists d', p', m. cbn [recover_inline]. rewrite H. cbn [obindo]. split; auto. split; auto. split; [exact M3|]. split; [exact M4|]. split; [|auto 10].
  intros CE NE. pose proof (C02_get_min_is_minimum E CE) as K. rewrite M2. destruct (get_min E) eqn:G2; auto.
  exfalso. apply NE. unfold get_min in G2. destruct (intervals E); auto. discriminate.
Qed.
Print Assumptions C60_insertion.

(** Neither: an error at the current token, nothing is consumed, nobody is told. *)
Theorem C60_error : forall S (ts : stream_ops S) a names fuel Inv ahead d p E F t l,
  input ts Inv ahead -> has_ctx p -> Inv (p_input p) -> ahead (p_input p) = t :: l ->
  get_expected_tokens a fuel p = Val E -> contains E (t_type (hd t l)) = false ->
  after_missing a fuel p = Val F -> contains F (t_type t) = false ->
  (forall g' p' r, recover_inline ts a names fuel (Default d) p = Val (g', p', r) ->
    g' = Default d /\ p' = with_input p (p_input p') /\ ahead (p_input p') = t :: l /\ s_index ts (p_input p') = s_index ts (p_input p) /\ Inv (p_input p') /\
    exists b, r = inr (InputMismatchError b) /\ e_token b = t) /\
  (* there is a result if the states of the rules under way can be listed *)
  (forall st, stack_of p = Val st -> nt_ctx d = None -> exists x, recover_inline ts a names fuel (Default d) p = Val x).
Proof.
  intros S ts a names fuel Inv ahead d p E F t l Hin HC HI HA HE HN HF HT. split.
  - intros g' p' r H. cbn [recover_inline] in H. destruct (d_recover_inline ts a names fuel d p) as [[[d1 q] r1]| |] eqn:ED; cbn [obindo] in H; try discriminate.
    inversion H; subst. destruct (inline_fail ts a names fuel Inv ahead Hin d p E F t l _ _ _ HC HI HA HE HN HF HT ED) as (-> & (L1 & L2 & L3 & L4) & B).
    split; auto. split; [exact L1|]. split; [congruence|]. auto.
  - intros st HS HX. destruct (inline_fail_val ts a names fuel Inv ahead Hin d p E F t l st HC HI HA HE HN HF HT HS HX) as [[[d1 q] r] H].
    cbn [recover_inline]. rewrite H. cbn [obindo]. eauto.
Qed.
Print Assumptions C60_error.

(** extraneous B before A; A missing before B; neither *)
Example C60_nonvacuous :
  get_expected_tokens demo_atn 50 (in_inner [tk 2; tk 1]) = Val (IS [Iv 1 1] true) /\ canonical [Iv 1 1] /\
  after_missing demo_atn 50 (in_inner [tk 2; tk 1]) = Val (IS [Iv 2 2] false) /\
  (exists g' p', recover_inline (stream [tk 2; tk 1]) demo_atn demo_names 50 (Default new_dstrategy) (in_inner [tk 2; tk 1]) = Val (g', p', inl (Tok 1 0 [] 1 1 0))) /\
  (exists g' p' m, recover_inline (stream [tk 2; tk 3]) demo_atn demo_names 50 (Default new_dstrategy) (in_inner [tk 2; tk 3]) = Val (g', p', inl m) /\ t_type m = 1) /\
  (exists g' p' b, recover_inline (stream [tk 3; tk 3]) demo_atn demo_names 50 (Default new_dstrategy) (in_inner [tk 3; tk 3]) = Val (g', p', inr (InputMismatchError b))).
Proof.
  split; [vm_compute; reflexivity|]. split; [split; repeat constructor; cbn; lia|]. split; [vm_compute; reflexivity|].
  split; [do 2 eexists; vm_compute; reflexivity|]. split; [do 3 eexists; split; vm_compute; reflexivity|]. do 3 eexists; vm_compute; reflexivity.
Qed.

(** ** C61 *)
(** A mismatch: the error is wrapped, the parser (its input and its contexts) is as it was. *)
Theorem C61_mismatch : forall S (ts : stream_ops S) a names fuel d p ty t,
  get_current_token ts p = Val t -> t_type t <> ty ->
  (forall g' p' r, match_token ts a names fuel (Bail d) p ty = Val (g', p', r) ->
    g' = Bail d /\ p' = p /\ exists b, r = inr (FallThrough (Some (InputMismatchError b))) /\ e_token b = t) /\
  (forall st, stack_of p = Val st -> exists x, match_token ts a names fuel (Bail d) p ty = Val x).
Proof.
  intros S ts a names fuel d p ty t HT HN. assert (HZ : t_type t =? ty = false) by now apply Z.eqb_neq. split.
  - intros g' p' r H. unfold match_token in H. rewrite HT in H. cbn [obindo] in H. rewrite HZ in H.
    destruct (recover_inline ts a names fuel (Bail d) p) as [[[g2 q2] r1]| |] eqn:E1; cbn [obindo] in H; try discriminate.
    destruct (bail_inline _ _ _ _ _ _ _ _ _ E1) as (-> & -> & b & -> & Hb). inversion H; subst. split; auto. split; auto. exists b. split; auto.
    unfold base_error_new in Hb. rewrite HT in Hb. cbn [obindo] in Hb. destruct (stack_of p'); cbn [obindo] in Hb; try discriminate. inversion Hb; auto.
  - intros st HS. unfold match_token. rewrite HT. cbn [obindo]. rewrite HZ. cbn [recover_inline]. unfold base_error_new. rewrite HT. cbn [obindo].
    rewrite HS. cbn [obindo]. unfold process_error. unfold stack_of in HS. destruct (get_ctx p); try discriminate. cbn [obindo]. eauto.
Qed.
Print Assumptions C61_mismatch.
Theorem C61_mismatch_other : forall S (ts : stream_ops S) a names fuel d p inset g' p',
  (forall e, match_wildcard ts a names fuel (Bail d) p = Val (g', p', inr e) ->
     g' = Bail d /\ p' = p /\ exists b, e = FallThrough (Some (InputMismatchError b))) /\
  (forall e, match_set ts a names fuel inset (Bail d) p = Val (g', p', Some e) ->
     g' = Bail d /\ p' = with_input p (p_input p') /\ exists b, e = FallThrough (Some (InputMismatchError b))).
Proof.
  intros S ts a names fuel d p inset g' p'. split; intros e H.
  - destruct (bail_wildcard _ _ _ _ _ _ _ _ _ H) as (G & _ & K). auto.
  - destruct (bail_set _ _ _ _ _ _ _ _ _ _ H) as (G & _ & K). auto.
Qed.
Print Assumptions C61_mismatch_other.

(** [sync] never fails and never does anything; [recover] wraps the error it is given. *)
Theorem C61_sync : forall S (ts : stream_ops S) a names fuel d p, sync ts a names fuel (Bail d) p = Val (Bail d, p, None).
Proof. reflexivity. Qed.
Print Assumptions C61_sync.
Theorem C61_recover : forall S (ts : stream_ops S) a fuel d p e g' p' r, recover ts a fuel (Bail d) p e = Val (g', p', r) ->
  g' = Bail d /\ p' = p /\ r = Some (FallThrough (Some e)).
Proof.
  intros S ts a fuel d p e g' p' r H. cbn [recover] in H. unfold process_error in H. destruct (get_ctx p); cbn [obindo] in H; try discriminate.
  inversion H; auto.
Qed.
Print Assumptions C61_recover.

(** Whole rule functions: either there was no error, or a cancellation that wraps one comes out;
    at most one error is reported. *)
Theorem C61_run : forall S (ts : stream_ops S) a names fuel c d p f g' p' f' r,
  rule_call c -> no_fall_through c -> run_call ts a names fuel c (Bail d) p f = Val (g', p', f', r) ->
  (exists new, p_notices p' = p_notices p ++ new /\ (length new <= 1)%nat) /\
  match r with
  | None => g' = Bail d /\ p_notices p' = p_notices p
  | Some x => exists e, x = FallThrough (Some e) /\ is_fall_through e = false
  end.
Proof.
  intros S ts a names fuel c d p f g' p' f' r HC HF H. destruct (all_bailed ts a names fuel c _ _ _ _ _ _ _ H HF) as [N K]. split; auto.
  destruct r as [e|]; auto. destruct e; try tauto. destruct K as (d' & e0 & _ & -> & ?). eauto.
Qed.
Print Assumptions C61_run.

(** A cancellation inside a rule function ends it at once: no more of its calls are made, the
    parser is left as it was at that point. *)
Theorem C61_stops : forall S (ts : stream_ops S) a names fuel pre c rest g p f g1 p1 f1 g2 p2 f2 x,
  run_calls ts a names fuel pre g p f = Val (g1, p1, f1, None) ->
  run_call ts a names fuel c g1 p1 f1 = Val (g2, p2, f2, Some (FallThrough x)) ->
  run_calls ts a names fuel (pre ++ c :: rest) g p f = Val (g2, p2, f2, Some (FallThrough x)) /\
  catch ts a names fuel g2 p2 (Some (FallThrough x)) = Val (g2, p2, Some (FallThrough x)).
Proof.
  intros S ts a names fuel pre c rest g p f g1 p1 f1 g2 p2 f2 x H1 H2. split; [|reflexivity].
  revert g p f H1. induction pre as [|c0 pre IH]; intros g p f H1; cbn [app run_calls] in *.
  - inversion H1; subst. rewrite H2. reflexivity.
  - destruct (run_call ts a names fuel c0 g p f) as [[[[g3 p3] f3] r3]| |]; cbn [obindo] in *; try discriminate.
    destruct r3; [discriminate|]. apply IH. auto.
Qed.
Print Assumptions C61_stops.

(** rule s on the input C B: the mismatch in the nested rule x comes out of s, with one token consumed *)
Example C61_nonvacuous :
  no_fall_through s_rule /\
  exists d' p' f' b, run [tk 3; tk 2] s_rule (Bail new_dstrategy) (fresh [tk 3; tk 2]) = Val (Bail d', p', f', Some (FallThrough (Some (InputMismatchError b)))) /\
    t_type (e_token b) = 2 /\ cur (p_input p') = 1 /\ p_notices p' = [] /\
    map x_children (p_heap p') = [[KRule 1]; [KTerm (Tok 3 0 [] 0 1 0)]].
Proof.
  split; [cbn; tauto|]. do 4 eexists. split; [vm_compute; reflexivity|]. split; [vm_compute; reflexivity|]. split; [vm_compute; reflexivity|].
  split; vm_compute; reflexivity.
Qed.
