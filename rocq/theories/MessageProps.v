(** Property theorem C82 (src/error_strategy.rs, src/parser.rs 327-344, src/errors.rs). *)
From Coq Require Import ZArith List Bool Sorted Lia.
From Coq Require Import ZifyBool ZifyNat.
From Verif Require Import Outcome IntervalSetModel IntervalSetSpec IntervalSetProofs IntervalSetProps AtnModel TokenStreamModel TokenStreamSpec TokenStreamProofs CommonTokenStreamProofs.
From Verif Require Import Ll1Model Ll1Spec Ll1Proofs Ll1Props ParserModel ParserSpec ParserStreamProofs RecoverSpec RecoverProofs ParserDemo MessageSpec MessageProofs.
Import ListNotations.
Local Open Scope Z_scope.

(** ** C82 *)
(** Whatever a rule function does, everything that error listeners are told is counted, and said
    when the parser was in some state [q] in which it was the proper thing to say. *)
Theorem C82_messages : forall S (ts : stream_ops S) a names fuel Inv ahead c g p f g' p' f' r,
  input ts Inv ahead -> Inv (p_input p) -> no_mismatch c ->
  run_call ts a names fuel c g p f = Val (g', p', f', r) ->
  exists new, p_notices p' = p_notices p ++ new /\ p_errors p' = p_errors p + Z.of_nat (length new) /\
    Forall (fun n => exists q, Inv (p_input q) /\ told ts a names fuel ahead q n) new.
Proof.
  intros S ts a names fuel Inv ahead c g p f g' p' f' r Hin HI HM H.
  destruct (all_well ts a names fuel Inv ahead Hin c _ _ _ _ _ _ _ HM H) as [W _]. apply (W HI).
Qed.
Print Assumptions C82_messages.

(** An error that is reported (outside recovery mode) is told about in that very state. *)
Theorem C82_mismatch : forall S (ts : stream_ops S) a names fuel Inv ahead g p b g' p',
  input ts Inv ahead -> Inv (p_input p) -> in_error_recovery_mode g = false ->
  (exists l, ahead (p_input p) = e_token b :: l) ->
  report_error ts a names fuel g p (InputMismatchError b) = Val (g', p') ->
  exists E, Ll1Model.get_expected_tokens fuel a (e_state b) (e_stack b) = Val E /\
    p_notices p' = p_notices p ++ [Notice (e_token b)
      (lit "mismatched input " ++ quoted (e_token b) ++ lit " expecting " ++ to_token_string (display_name names) E)
      (Some (InputMismatchError b))].
Proof.
  intros S ts a names fuel Inv ahead g p b g' p' Hin HI HG HC H.
  assert (K : exists d d1, recovering d = false /\ d_report_error ts a names fuel d p (InputMismatchError b) = Val (d1, p')).
  { destruct g as [d|d]; cbn [report_error in_error_recovery_mode] in *; destruct (d_report_error ts a names fuel d p _) as [[d1 q]| |] eqn:E; cbn [obindo] in H; try discriminate;
      inversion H; subst; eauto. }
  destruct K as (d & d1 & R & E). unfold d_report_error in E. rewrite R in E. cbn [message_of get_offending_token option_map] in E.
  destruct (Ll1Model.get_expected_tokens _ _ _ _) as [X| |] eqn:EX; cbn [obindo] in E; try discriminate.
  unfold notify_error_listeners in E. destruct (current_get ts Inv ahead Hin _ _ HI HC) as [_ G]. rewrite G in E. cbn [obindo] in E.
  exists X. split; auto. assert (Ep : p' = snd (d1, p')) by reflexivity. apply val_inj in E. rewrite <- E in Ep. rewrite Ep, display_quoted. reflexivity.
Qed.
Print Assumptions C82_mismatch.

(** The two messages of C59 and C60. *)
Theorem C82_inline_texts : forall names E t,
  unwanted_message names E t = lit "extraneous input " ++ quoted t ++ lit " expecting " ++ to_token_string (display_name names) E /\
  missing_message names E t = lit "missing " ++ to_token_string (display_name names) E ++ lit " at " ++ quoted t.
Proof. intros names E t. unfold unwanted_message, missing_message. rewrite display_quoted. auto. Qed.
Print Assumptions C82_inline_texts.

(** The set in the message lists, in ascending order of token types and each one once, exactly the
    tokens that can come next (C48).  Missing: frames whose lookahead sets are not exact (C47), merges
    that touch three or more ranges (C01). *)
Theorem C82_expecting_partial : forall a names i s stack conts sets, well_formed a -> token_labels a ->
  state_at a i = Some s -> returns_to a stack conts ->
  Forall2 (fun j r =>
      (exists sj n, state_at a j = Some sj /\ forall fuel, (n <= fuel)%nat -> next_tokens fuel a sj = Val r) /\
      canonical (intervals r) /\
      forall x, contains r x = true <-> can_start_with a (j, []) x \/ (x = -2 /\ can_finish a (j, [])))
    (i :: conts) sets ->
  narrow_merges is_new sets ->
  exists n E elems, (forall fuel, (n <= fuel)%nat -> Ll1Model.get_expected_tokens fuel a i stack = Val E) /\
    StronglySorted Z.lt elems /\
    (forall x, In x elems <-> can_start_with a (i, conts) x \/ (x = -1 /\ can_finish a (i, conts))) /\
    to_token_string (display_name names) E = choice_of names elems.
Proof.
  intros a names i s stack conts sets wf T E RT FS NM. destruct (expected_exact a i s stack conts sets wf T E RT FS NM) as (n & r & A & B & C).
  destruct (C05_to_token_string (display_name names) r B) as (elems & SS & IN & EQ). exists n, r, elems. split; auto. split; auto. split.
  - intros x. rewrite IN. apply C.
  - rewrite EQ. destruct elems as [|x [|y l]]; auto.
Qed.
Print Assumptions C82_expecting_partial.

(** No alternative: the text of all tokens (hidden ones too) from the one at which the decision started
    to the one at which it failed; the position told is that of the latter. *)
Theorem C82_no_alternative : forall src ch fs a names fuel d p b start i j d' p',
  reading src ch (p_input p) -> recovering d = false ->
  t_type start <> EOF_TYPE -> t_index start = Z.of_nat i -> t_index (e_token b) = Z.of_nat j -> (i <= j)%nat -> Z.of_nat j < tsize (p_input p) ->
  d_report_error (common_stream src ch fs) a names fuel d p (NoAltError b start) = Val (d', p') ->
  p_notices p' = p_notices p ++ [Notice (tok_at src j)
    (lit "no viable alternative at input '" ++
     concat (map (fun k => TokenStreamModel.t_text (src k)) (seq i (if t_type (src j) =? EOF_TYPE then j - i else Datatypes.S (j - i)))) ++ lit "'")
    (Some (NoAltError b start))].
Proof.
  intros src ch fs a names fuel d p b start i j d' p' (n & c & R & _) HR HS Ei Ej Hij Hj H. unfold d_report_error in H. rewrite HR in H.
  cbn [message_of get_offending_token option_map] in H. destruct (Z.eqb_spec (t_type start) EOF_TYPE) as [Q|_]; [contradiction|]. rewrite Ei, Ej in H.
  assert (Hn : (j < n)%nat).
  { destruct R as [R _]. unfold tsize in Hj. rewrite (r_toks _ _ _ _ R), zlen_map_seq in Hj. lia. }
  unfold notify_error_listeners in H. cbn [s_text s_get common_stream] in H. rewrite (common_get src 0 0 (le_n 0) n _ j R Hn) in H.
  pose proof (common_text src n (p_input p) i j R Hij Hn) as X.
  rewrite X in H. cbn [of_out obindo] in H. assert (Ep : p' = snd (d', p')) by reflexivity. apply val_inj in H. rewrite <- H in Ep. rewrite Ep. reflexivity.
Qed.
Print Assumptions C82_no_alternative.

(** Messages are single lines, whatever the input looks like, if the names in the grammar are: all but
    those about missing alternatives (and the user's own texts). *)
Definition plain_names (names : naming) : Prop :=
  (forall ty, one_line (display_name names ty)) /\ Forall one_line (rule_names names).
Definition own_text_plain (e : option perr) : Prop :=
  match e with
  | Some (PredicateError _ _ _ m _) => one_line m
  | Some (InputMismatchError _) | None => True
  | _ => False
  end.
Lemma one_app : forall s t, one_line s -> one_line t -> one_line (s ++ t).
Proof. intros s t [A B] [C D]. split; intros H; apply in_app_iff in H; tauto. Qed.
Ltac one_lit := split; vm_compute; intuition discriminate.
Lemma one_shown : forall s, one_line (shown s).
Proof.
  induction s as [|c s IH]; [one_lit|]. cbn [shown flat_map]. apply one_app; auto.
  destruct (Z.eqb_spec c 9); [one_lit|]. destruct (Z.eqb_spec c 10); [one_lit|]. destruct (Z.eqb_spec c 13); [one_lit|]. split; cbn; intuition.
Qed.
Lemma one_quoted : forall t, one_line (quoted t).
Proof. intros t. unfold quoted. repeat apply one_app; try apply one_shown; one_lit. Qed.
Lemma one_element : forall names x, plain_names names -> one_line (element_name (display_name names) x).
Proof. intros names x [P _]. unfold element_name. destruct (x =? _); [one_lit|]. destruct (x =? _); [one_lit|]. apply P. Qed.
Lemma one_set : forall names E, plain_names names -> one_line (to_token_string (display_name names) E).
Proof.
  intros names E P. unfold to_token_string. destruct (intervals E) as [|r l]; [one_lit|].
  assert (K : forall l, one_line (intervals_string (display_name names) l)).
  { clear r l. induction l as [|r l IH]; [one_lit|]. cbn [intervals_string]. repeat apply one_app; auto.
    - destruct (iv_a r =? iv_b r); [now apply one_element|]. generalize (iv_a r) at 2 3 as first. generalize (Z.to_nat (iv_b r + 1 - iv_a r)) as n.
      intros n first. generalize first at 2 as x. induction n as [|n IHn]; intros x; [one_lit|]. cbn [elements_from]. repeat apply one_app; auto using one_element.
      destruct (x >? first); one_lit.
    - destruct l; one_lit. }
  apply one_app; [|apply one_app; [apply K|]]; destruct (is_length E >? 1); one_lit.
Qed.
Theorem C82_one_line_partial : forall S (ts : stream_ops S) a names fuel Inv ahead c g p f g' p' f' r,
  input ts Inv ahead -> Inv (p_input p) -> no_mismatch c -> plain_names names ->
  run_call ts a names fuel c g p f = Val (g', p', f', r) ->
  exists new, p_notices p' = p_notices p ++ new /\
    Forall (fun n => own_text_plain (n_error n) -> one_line (n_message n)) new.
Proof.
  intros S ts a names fuel Inv ahead c g p f g' p' f' r Hin HI HM PN H.
  destruct (C82_messages _ ts a names fuel Inv ahead c g p f g' p' f' r Hin HI HM H) as (new & A & _ & B). exists new. split; auto.
  eapply Forall_impl; [|exact B]. intros n (q & _ & T) OP. destruct T; cbn [n_error n_message own_text_plain] in *; try contradiction.
  - apply one_app; [one_lit|]. apply one_app; [apply one_quoted|]. apply one_app; [one_lit|]. now apply one_set.
  - apply one_app; [one_lit|]. apply one_app; [now apply one_set|]. apply one_app; [one_lit|]. apply one_quoted.
  - apply one_app; [one_lit|]. apply one_app; [apply one_quoted|]. apply one_app; [one_lit|]. now apply one_set.
  - repeat apply one_app; auto; try one_lit. destruct PN as [_ PN]. rewrite Forall_forall in PN. apply PN. eapply nth_error_In; eauto.
  - destruct e; cbn in *; try discriminate; contradiction.
Qed.
Print Assumptions C82_one_line_partial.

(** The message about a missing alternative quotes the input as it is: it can break the line. *)
Definition token (ty : Z) (s : text) : tok := Tok ty 0 s (-1) 1 0.
Definition broken_line : list tok := [token 1 (lit "a" ++ [10]); token 2 (lit "b")].
Definition stuck (l : list tok) : call :=
  CRule 2 10 false [CLook 2; CRaise (NoAltError (BaseErr (tok_at (source l) 1) 12 []) (tok_at (source l) 0))].
Lemma demo_plain : plain_names demo_names.
Proof.
  split.
  - intros ty. cbn [display_name demo_names]. generalize (Z.to_nat ty) as k. intros k. do 7 (destruct k as [|k]; [one_lit|]). destruct k; one_lit.
  - repeat (apply Forall_cons; [one_lit|]). constructor.
Qed.
Theorem C82_one_line_refuted : exists l g p f r n, plain_names demo_names /\
  run l (stuck l) (Default new_dstrategy) (fresh l) = Val (g, p, f, r) /\
  p_notices p = [n] /\ n_message n = lit "no viable alternative at input 'a" ++ [10] ++ lit "b'" /\ ~ one_line (n_message n).
Proof.
  exists broken_line.
  destruct (run broken_line (stuck broken_line) (Default new_dstrategy) (fresh broken_line)) as [[[[g p] f] r]| |] eqn:E; [|vm_compute in E; discriminate..].
  exists g, p, f, r, (hd (Notice (tk 0) [] None) (p_notices p)). split; [apply demo_plain|]. split; [reflexivity|].
  vm_compute in E. injection E. intros _ _ <- _. split; [reflexivity|]. split; [reflexivity|]. intros [H _]. apply H. vm_compute. tauto.
Qed.
Print Assumptions C82_one_line_refuted.

(** Three inputs of rule s, and the decision above: the hypotheses hold and messages of each kind are sent. *)
Definition told_by (l : list tok) (c : call) : option (list (Z * text) * Z) :=
  match run l c (Default new_dstrategy) (fresh l) with
  | Val (_, p, _, _) => Some (map (fun n => (t_index (n_token n), n_message n)) (p_notices p), p_errors p)
  | _ => None
  end.
Example C82_nonvacuous :
  (forall l e, eof_number (source l) e -> (e <= 50)%nat ->
    input (stream l) (reading (source l) 0) (fun s => tokens_from (source l) 0 e (Z.to_nat (cur s))) /\
    reading (source l) 0 (p_input (fresh l))) /\
  no_mismatch s_rule /\ (forall l, no_mismatch (stuck l)) /\ plain_names demo_names /\
  told_by [token 4 (lit "d"); token 9 (lit "q" ++ [10]); token 1 (lit "a"); token 2 (lit "b")] s_rule =
    Some ([(1, lit "extraneous input 'q\n' expecting A")], 1) /\
  told_by [token 4 (lit "d"); token 2 (lit "b")] s_rule = Some ([(1, lit "missing A at 'b'")], 1) /\
  told_by [token 9 (lit "q"); token 9 (lit "r"); token 2 (lit "b")] s_rule =
    Some ([(0, lit "mismatched input 'q' expecting {'c', D}")], 1) /\
  told_by broken_line (stuck broken_line) = Some ([(1, lit "no viable alternative at input 'a" ++ [10] ++ lit "b'")], 1).
Proof.
  split; [|split; [|split; [|split]]].
  - intros l e He Hf. split; [exact (common_input (source l) 0 50 e He Hf)|apply start_reading].
  - cbn. tauto.
  - intros l. cbn. tauto.
  - apply demo_plain.
  - vm_compute. auto.
Qed.
