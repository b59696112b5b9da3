(** Proofs for C79. *)
From Coq Require Import ZArith List Bool Lia.
From Coq Require Import ZifyBool ZifyNat.
From Verif Require Import Outcome IntervalSetModel IntervalSetSpec IntervalSetProofs IntervalSetProps AtnModel Ll1Model Ll1Spec Ll1Proofs.
From Verif Require Import TokenStreamModel ParserModel ParserSpec ParserTreeProofs ParserRunProofs ParserEventProofs RecoverSpec RecoverProofs RecoverSetSpec.
Import ListNotations.
Local Open Scope Z_scope.

Lemma next_tokens_same : forall a s r r' n fuel, (forall f, (n <= f)%nat -> next_tokens f a s = Val r) ->
  next_tokens fuel a s = Val r' -> r' = r.
Proof.
  intros a s r r' n fuel H H'. specialize (H (Nat.max n fuel) (Nat.le_max_l _ _)).
  unfold next_tokens, next_tokens_in_ctx, look in *.
  destruct (look_work fuel a None s None true true _) as [w| |] eqn:E; try discriminate.
  erewrite look_mono_le in H; [|apply Nat.le_max_r|exact E]. cbn [obindo] in *. congruence.
Qed.

(** ** The set *)
Section RecoverySet.
  Variable a : atn.
  Variable wf : well_formed a.
  Variable tl : token_labels a.
  Context {S : Type} (ts : stream_ops S) (fuel : nat).

  Definition low_set (P : Z -> Prop) (s : interval_set) : Prop := sound_set P s.

  Lemma loop_follow : forall inv f stack conts, returns_to a (inv :: stack) (f :: conts) ->
    exists s tr g r p ts0 fs, get_state a inv = Val s /\ st_trans s = tr :: ts0 /\ tr = RuleTr g f r p /\ state_at a f = Some fs /\ get_state a f = Val fs.
  Proof.
    intros inv f stack conts RT. inversion RT as [|i0 f0 st0 c0 (s & g & r & p & ts0 & E & NS & Et) RT']; subst.
    destruct (proj2 wf inv s E) as [_ W]. destruct (W NS (RuleTr g f r p)) as (_ & _ & Hf & _); [rewrite Et; left; auto|].
    destruct (state_at a f) as [fs|] eqn:Ef; [|unfold exists_state in Hf; congruence].
    exists s, (RuleTr g f r p), g, r, p, ts0, fs. repeat split; auto; apply get_state_at; auto.
  Qed.

  Lemma union_sound : forall (P Q : Z -> Prop) s o, sound_set P s -> all_valid (intervals o) ->
    Forall (fun r => TOKEN_EPSILON <= iv_a r) (intervals o) -> (forall x, member x (intervals o) -> x <> TOKEN_EPSILON -> Q x) ->
    sound_set (fun x => P x \/ Q x) (add_set s o).
  Proof.
    intros P Q s o [R V L M] Vo Lo Mo. rewrite add_set_fold, R.
    destruct (insertions_sound (intervals o) (intervals s) V) as [V' M'].
    constructor; cbn [intervals read_only]; auto.
    - apply valid_low; auto. intros x Hx. apply M' in Hx. rewrite Forall_forall in L, Lo.
      destruct Hx as [(r & Hr & Hx)|(r & Hr & Hx)]; [specialize (L r Hr)|specialize (Lo r Hr)]; unfold in_range in Hx; lia.
    - intros x Hx N. apply M' in Hx. destruct Hx; auto.
  Qed.

  Lemma recovery_sound : forall h n i stack, invoked_from h i stack -> forall conts, returns_to a stack conts ->
    forall P acc r, sound_set P acc -> recovery_loop a fuel n h (Some i) acc = Val r ->
    sound_set (fun x => P x \/ can_resume a conts x) r.
  Proof.
    intros h n i stack H. revert n. induction H as [i c E I|i c E I P0|i c j l E I P0 H IH]; intros n conts RT P acc r SS R.
    - destruct n; cbn [recovery_loop] in R; try discriminate. unfold deref in R. rewrite E in R. cbn [unwrap obindo] in R.
      destruct (x_invoking c <? 0) eqn:X; [|lia]. injection R as <-. eapply sound_set_impl; [|exact SS]. auto.
    - inversion RT as [|? f ? conts' ? RT' A1 A2]; subst. inversion RT'; subst.
      destruct (loop_follow _ _ _ _ RT) as (s & tr & g & rr & p & ts0 & fs & G1 & G2 & G3 & G4 & G5). subst tr.
      destruct n; cbn [recovery_loop] in R; try discriminate. unfold deref in R. rewrite E in R. cbn [unwrap obindo] in R.
      destruct (x_invoking c <? 0) eqn:X; [lia|]. rewrite G1 in R. cbn [obindo] in R. rewrite G2 in R. cbn [nth_error unwrap obindo] in R.
      rewrite G5 in R. cbn [obindo] in R. destruct (next_tokens fuel a fs) as [o| |] eqn:EN; try discriminate. cbn [obindo] in R.
      rewrite P0 in R. destruct n; cbn [recovery_loop] in R; injection R as <-;
      (destruct (next_tokens_hist a f fs wf G4) as (n1 & rs & H1 & _ & H3 & _);
       pose proof (next_tokens_same _ _ _ _ _ _ H1 EN) as ->; destruct (hist_sound_set rs) as [V M];
       eapply sound_set_impl; [|apply (union_sound P (fun x => can_start_with a (f, []) x) acc (IS (intervals (hist rs)) true)); auto];
       [intros x [Hx|Hx]; auto; right; exists f; split; [left|]; auto
       |cbn [intervals]; apply valid_low; auto; intros x Hx; apply (lookahead_low a f); auto
       |cbn [intervals]; intros x Hx N; apply lookahead_start; auto]).
    - inversion RT as [|? f ? conts' ? RT' A1 A2]; subst.
      destruct (loop_follow _ _ _ _ RT) as (s & tr & g & rr & p & ts0 & fs & G1 & G2 & G3 & G4 & G5). subst tr.
      destruct n; cbn [recovery_loop] in R; try discriminate. unfold deref in R. rewrite E in R. cbn [unwrap obindo] in R.
      destruct (x_invoking c <? 0) eqn:X; [lia|]. rewrite G1 in R. cbn [obindo] in R. rewrite G2 in R. cbn [nth_error unwrap obindo] in R.
      rewrite G5 in R. cbn [obindo] in R. destruct (next_tokens fuel a fs) as [o| |] eqn:EN; try discriminate. cbn [obindo] in R.
      rewrite P0 in R.
      destruct (next_tokens_hist a f fs wf G4) as (n1 & rs & H1 & _ & H3 & _).
      pose proof (next_tokens_same _ _ _ _ _ _ H1 EN) as ->. destruct (hist_sound_set rs) as [V M].
      eapply sound_set_impl; [|eapply (IH n conts' RT' _ _ r)]; [| |exact R].
      2: { apply (union_sound P (fun x => can_start_with a (f, []) x)); auto.
           - cbn [intervals]. apply valid_low; auto. intros x Hx. apply (lookahead_low a f); auto.
           - cbn [intervals]. intros x Hx N. apply lookahead_start; auto. }
      intros x [[Hx|Hx]|(f' & I1 & I2)]; auto; right; [exists f|exists f']; split; auto; [left|right]; auto.
  Qed.

  Lemma union_exact : forall s o, read_only s = false -> canonical (intervals s) -> narrow_history (intervals s) (intervals o) -> canonical (intervals o) ->
    read_only (add_set s o) = false /\ canonical (intervals (add_set s o)) /\
    forall x, contains (add_set s o) x = true <-> contains s x = true \/ contains o x = true.
  Proof.
    intros s o R C N Co. destruct (narrow_history_spec _ _ C N) as [C' M]. rewrite add_set_fold. cbn [read_only intervals].
    split; auto. split; auto. intros x. rewrite !contains_spec by auto. cbn [intervals]. rewrite M. tauto.
  Qed.

  Lemma recovery_exact : forall h n i stack, invoked_from h i stack -> forall conts, returns_to a stack conts ->
    forall sets acc r, Forall2 (exact_lookahead_set a) conts sets -> read_only acc = false -> canonical (intervals acc) -> narrow_unions acc sets ->
    recovery_loop a fuel n h (Some i) acc = Val r ->
    read_only r = false /\ canonical (intervals r) /\
    forall x, x <> TOKEN_EPSILON -> contains r x = true <-> contains acc x = true \/ can_resume a conts x.
  Proof.
    intros h n i stack H. revert n. induction H as [i c E I|i c E I P0|i c j l E I P0 H IH]; intros n conts RT sets acc r FS RO CA NU R.
    - inversion RT; subst. destruct n; cbn [recovery_loop] in R; try discriminate. unfold deref in R. rewrite E in R. cbn [unwrap obindo] in R.
      destruct (x_invoking c <? 0) eqn:X; [|lia]. injection R as <-. split; auto. split; auto. intros x N. split; auto.
      intros [Hx|(f & [] & _)]; auto.
    - inversion RT as [|? f ? conts' ? RT' A1 A2]; subst. inversion RT'; subst. inversion FS as [|? o ? ? ((fs0 & n1 & Z1 & Z2) & Z3 & Z4) FS']; subst. inversion FS'; subst.
      destruct (loop_follow _ _ _ _ RT) as (s & tr & g & rr & p & ts0 & fs & G1 & G2 & G3 & G4 & G5). subst tr.
      assert (fs0 = fs) by congruence. subst fs0.
      destruct n; cbn [recovery_loop] in R; try discriminate. unfold deref in R. rewrite E in R. cbn [unwrap obindo] in R.
      destruct (x_invoking c <? 0) eqn:X; [lia|]. rewrite G1 in R. cbn [obindo] in R. rewrite G2 in R. cbn [nth_error unwrap obindo] in R.
      rewrite G5 in R. cbn [obindo] in R. destruct (next_tokens fuel a fs) as [o'| |] eqn:EN; try discriminate. cbn [obindo] in R.
      pose proof (next_tokens_same _ _ _ _ _ _ Z2 EN) as ->. cbn [narrow_unions] in NU. destruct NU as [NU _].
      destruct (union_exact acc o RO CA NU Z3) as (U1 & U2 & U3).
      rewrite P0 in R. destruct n; cbn [recovery_loop] in R; injection R as <-; (split; auto; split; auto; intros x N; rewrite U3, Z4; split;
        [intros [Hx|[Hx|[Hx _]]]; [left; exact Hx|right; exists f; split; [left; reflexivity|exact Hx]|contradiction]
        |intros [Hx|(f' & [<-|[]] & Hx)]; [left; exact Hx|right; left; exact Hx]]).
    - inversion RT as [|? f ? conts' ? RT' A1 A2]; subst. inversion FS as [|? o ? sets' ((fs0 & n1 & Z1 & Z2) & Z3 & Z4) FS']; subst.
      destruct (loop_follow _ _ _ _ RT) as (s & tr & g & rr & p & ts0 & fs & G1 & G2 & G3 & G4 & G5). subst tr.
      assert (fs0 = fs) by congruence. subst fs0.
      destruct n; cbn [recovery_loop] in R; try discriminate. unfold deref in R. rewrite E in R. cbn [unwrap obindo] in R.
      destruct (x_invoking c <? 0) eqn:X; [lia|]. rewrite G1 in R. cbn [obindo] in R. rewrite G2 in R. cbn [nth_error unwrap obindo] in R.
      rewrite G5 in R. cbn [obindo] in R. destruct (next_tokens fuel a fs) as [o'| |] eqn:EN; try discriminate. cbn [obindo] in R.
      pose proof (next_tokens_same _ _ _ _ _ _ Z2 EN) as ->. cbn [narrow_unions] in NU. destruct NU as [NU NU'].
      destruct (union_exact acc o RO CA NU Z3) as (U1 & U2 & U3). rewrite P0 in R.
      destruct (IH n conts' RT' sets' _ r FS' U1 U2 NU' R) as (V1 & V2 & V3). split; auto. split; auto.
      intros x N. rewrite V3, U3, Z4 by auto. split.
      + intros [[Hx|[Hx|[Hx _]]]|(f' & I1 & I2)];
          [left; exact Hx|right; exists f; split; [left; reflexivity|exact Hx]|contradiction|right; exists f'; split; [right|]; auto].
      + intros [Hx|(f' & [<-|I1] & Hx)]; [left; left; exact Hx|left; right; left; exact Hx|right; exists f'; auto].
  Qed.

  Lemma recovery_set_sound : forall (p : parser S) c stack conts r, p_ctx p = Some c -> invoked_from (p_heap p) c stack -> returns_to a stack conts ->
    get_error_recovery_set a fuel p = Val r -> forall x, contains r x = true -> x <> TOKEN_EPSILON -> can_resume a conts x.
  Proof.
    intros p c stack conts r EC IV RT H x Hx N. unfold get_error_recovery_set, get_ctx in H. rewrite EC in H. cbn [unwrap obindo] in H.
    destruct (recovery_loop a fuel _ _ _ is_new) as [s| |] eqn:E; try discriminate. cbn [obindo] in H.
    assert (SS : sound_set (fun _ => False) is_new).
    { constructor; cbn; auto; try apply Forall_nil. intros y (r0 & [] & _). }
    pose proof (recovery_sound _ _ _ _ IV _ RT _ _ _ SS E) as [R V L M].
    destruct (remove_low (intervals s) TOKEN_EPSILON V L) as (l' & E' & V2 & L2 & M2).
    destruct s as [sl ro]. cbn [read_only] in R. subst ro. cbn [intervals] in *. rewrite E' in H. cbn [unwrap] in H. injection H as <-.
    apply contains_sound in Hx. cbn [intervals] in Hx. apply M2 in Hx. destruct (M x Hx N) as [[]|Y]; auto.
  Qed.

  Lemma recovery_set_exact : forall (p : parser S) c stack conts sets r, p_ctx p = Some c -> invoked_from (p_heap p) c stack -> returns_to a stack conts ->
    Forall2 (exact_lookahead_set a) conts sets -> narrow_unions is_new sets ->
    get_error_recovery_set a fuel p = Val r -> canonical (intervals r) /\ forall x, contains r x = true <-> can_resume a conts x.
  Proof.
    intros p c stack conts sets r EC IV RT FS NU H. unfold get_error_recovery_set, get_ctx in H. rewrite EC in H. cbn [unwrap obindo] in H.
    destruct (recovery_loop a fuel _ _ _ is_new) as [s| |] eqn:E; try discriminate. cbn [obindo] in H.
    destruct (recovery_exact _ _ _ _ IV _ RT _ _ _ FS (eq_refl : read_only is_new = false) canonical_nil NU E) as (R & C & M).
    destruct (remove_one_spec s TOKEN_EPSILON R C) as (s' & E' & R' & C' & M'). rewrite E' in H. cbn [unwrap] in H. injection H as <-.
    split; auto. intros x. rewrite contains_spec, M', <- contains_spec by auto. split.
    - intros [Hx N]. apply M in Hx; auto. destruct Hx as [Hx|Hx]; [discriminate|auto].
    - intros Hx. assert (x <> TOKEN_EPSILON). { intros ->. destruct Hx as (f & _ & Hx). apply (no_eps _ _ tl Hx). }
      split; auto. apply M; auto.
  Qed.
End RecoverySet.

(** ** recover and sync *)
Lemma invoked_ext : forall h h' i stack, (forall j c, nth_error h j = Some c -> exists c', nth_error h' j = Some c' /\ x_invoking c' = x_invoking c /\ x_parent c' = x_parent c) ->
  invoked_from h i stack -> invoked_from h' i stack.
Proof.
  intros h h' i stack H IV. induction IV as [i c E I|i c E I P0|i c j l E I P0 IV IH].
  - destruct (H _ _ E) as (c' & E' & X & Y). apply (invoked_by_user _ _ c'); auto. lia.
  - destruct (H _ _ E) as (c' & E' & X & Y). rewrite <- X. apply invoked_by_orphan; auto; [lia|congruence].
  - destruct (H _ _ E) as (c' & E' & X & Y). rewrite <- X. eapply invoked_by_rule; eauto; [lia|congruence].
Qed.

Section Resync.
  Context {S : Type} (ts : stream_ops S) (a : atn) (names : naming) (fuel : nat) (Inv : S -> Prop) (ahead : S -> list tok).
  Hypothesis Hin : input ts Inv ahead.
  Ltac step H := match type of H with obindo ?x _ = Val _ => let E := fresh "E" in destruct x eqn:E; cbn [obindo] in H; [|discriminate|discriminate] end.

  Lemma consume_ahead : forall rec p p', Inv (p_input p) -> consume ts rec p = Val p' ->
    Inv (p_input p') /\ exists forced, ahead (p_input p) = forced ++ ahead (p_input p') /\ (length forced <= 1)%nat.
  Proof.
    intros rec p p' HI H. destruct (ahead_cons ts Inv ahead Hin _ HI) as (t & l & HA). unfold consume in H.
    rewrite (cur_ahead ts Inv ahead Hin _ _ _ HI HA) in H. cbn [obindo] in H.
    assert (exists q, p_input p' = p_input q /\ (if t_type t =? EOF_TYPE then Val p else obindo (s_consume ts (p_input p)) (fun s => Val (with_input p s))) = Val q) as (q & Eq & Hq).
    { step H. exists a0. split; auto. destruct (_ || _); [step H; inversion H; subst; destruct rec; auto|inversion H; auto]. }
    rewrite Eq. clear H Eq. destruct l as [|u l].
    - rewrite (ahead_last ts Inv ahead Hin _ _ HI HA) in Hq. change (EOF_TYPE =? EOF_TYPE) with true in Hq. inversion Hq; subst. split; auto.
      exists []. cbn. auto.
    - pose proof (ahead_more ts Inv ahead Hin _ _ _ _ HI HA) as Q. destruct (Z.eqb_spec (t_type t) EOF_TYPE) as [Q'|_]; [contradiction|].
      destruct (in_consume _ _ _ Hin _ _ _ _ HI HA) as (s' & Es & Is & As & Xs). rewrite Es in Hq. inversion Hq; subst. cbn [p_input with_input].
      split; auto. exists [t]. rewrite HA, As. cbn. auto.
  Qed.

  Lemma recover_resync : forall d p d' p' c, Inv (p_input p) -> p_ctx p = Some c -> (length (ahead (p_input p)) <= fuel)%nat ->
    (exists x, nth_error (p_heap p) c = Some x) -> d_recover ts a fuel d p = Val (d', p') ->
    exists (q : parser S) set forced skipped stop rest,
      p_ctx q = Some c /\ (forall stack, invoked_from (p_heap p) c stack -> invoked_from (p_heap q) c stack) /\
      get_error_recovery_set a fuel q = Val set /\
      ahead (p_input p) = forced ++ skipped ++ stop :: rest /\ ahead (p_input p') = stop :: rest /\
      (length forced <= 1)%nat /\ (repeated ts d p = false -> forced = []) /\
      Forall (fun t => t_type t <> EOF_TYPE /\ contains set (t_type t) = false) skipped /\
      (t_type stop = EOF_TYPE \/ contains set (t_type stop) = true).
  Proof.
    intros d p d' p' c HI EC HL HX H. unfold d_recover in H. fold (repeated ts d p) in H.
    assert (exists q, (if repeated ts d p then consume ts (recovering d) p else Val p) = Val q) as [q Eq] by (step H; eauto).
    rewrite Eq in H. cbn [obindo] in H. step H. rename a0 into set. step H. inversion H; subst. clear H.
    assert (Q : Inv (p_input q) /\ p_ctx q = Some c /\ has_ctx q /\ (forall stack, invoked_from (p_heap p) c stack -> invoked_from (p_heap q) c stack) /\
      exists forced, ahead (p_input p) = forced ++ ahead (p_input q) /\ (length forced <= 1)%nat /\ (repeated ts d p = false -> forced = [])).
    { destruct (repeated ts d p).
      - destruct (consume_ahead _ _ _ HI Eq) as (A & fc & B & C). destruct (consume_flat ts no_inv no_past (no_history ts) _ _ _ Eq) as (t & _ & F).
        apply flat_grew in F. destruct F as (F1 & F2 & F3). split; auto. split; [congruence|]. split.
        { destruct HX as [x HX]. eexists c, _. split; [congruence|]. apply F3. exact HX. }
        split.
        { intros stack. apply invoked_ext. intros j x Hx. eexists. split; [apply F3; exact Hx|]. split; reflexivity. }
        exists fc. repeat split; auto. discriminate.
      - inversion Eq; subst. split; auto. split; auto. split; [destruct HX as [x HX]; exists c, x; auto|]. split; auto. exists []. auto. }
    destruct Q as (Q1 & Q2 & Q3 & Q4 & fc & Q5 & Q6 & Q7).
    match type of E0 with consume_until _ _ ?d1 _ _ = _ => destruct (consume_until_skips ts fuel Inv ahead Hin d1 set q) as (p1 & sk & rest & A1 & A2 & A3 & (t & r & A4 & A5) & _ & _ & A6 & _) end; auto.
    { rewrite Q5, app_length in HL. lia. }
    assert (p1 = p') by congruence. subst p1 rest. exists q, set, fc, sk, t, r. repeat (split; [solve [auto]|]). split; [congruence|]. repeat (split; [solve [auto]|]). exact A5.
  Qed.

  Lemma expected_same : forall p q : parser S, p_ctx q = p_ctx p -> p_heap q = p_heap p -> p_state q = p_state p ->
    get_expected_tokens a fuel q = get_expected_tokens a fuel p /\ get_error_recovery_set a fuel q = get_error_recovery_set a fuel p.
  Proof.
    intros p q E1 E2 E3. unfold get_expected_tokens, get_error_recovery_set, get_ctx. rewrite E1, E2, E3. auto.
  Qed.
  Lemma sync_loop_resync : forall d p d' p' r s nt e m c, Inv (p_input p) -> p_ctx p = Some c -> (length (ahead (p_input p)) <= fuel)%nat ->
    (exists x, nth_error (p_heap p) c = Some x) ->
    recovering d = false -> get_state a (p_state p) = Val s -> sync_case (st_type_id s) = SyncLoop -> next_tokens fuel a s = Val nt ->
    contains nt TOKEN_EPSILON = false -> (forall t l, ahead (p_input p) = t :: l -> contains nt (t_type t) = false) ->
    get_expected_tokens a fuel p = Val e -> get_error_recovery_set a fuel p = Val m ->
    d_sync ts a names fuel d p = Val (d', p', r) ->
    r = None /\ exists skipped stop rest,
      ahead (p_input p) = skipped ++ stop :: rest /\ ahead (p_input p') = stop :: rest /\
      Forall (fun t => t_type t <> EOF_TYPE /\ contains (add_set e m) (t_type t) = false) skipped /\
      (t_type stop = EOF_TYPE \/ contains (add_set e m) (t_type stop) = true).
  Proof.
    intros d p d' p' r s nt e m c HI EC HL HX HR ES SC EN NE HT EE EM H. unfold d_sync in H. rewrite HR in H.
    destruct (ahead_cons ts Inv ahead Hin _ HI) as (t & l & HA). destruct (la1 ts Inv ahead Hin p t l HI HA) as (q & EL & L). rewrite EL in H. cbn [obindo] in H.
    destruct L as (L1 & L2 & L3 & L4). assert (p_state q = p_state p) as LS by (rewrite L1; reflexivity). rewrite LS, ES in H. cbn [obindo] in H.
    rewrite EN in H. cbn [obindo] in H. rewrite (HT _ _ HA), NE, SC in H.
    destruct (report_unwanted_token ts a names fuel d q) as [[d2 q2]| |] eqn:E2; cbn [obindo] in H; try discriminate.
    assert (R : p_ctx q2 = p_ctx p /\ p_heap q2 = p_heap p /\ p_state q2 = p_state p /\ p_input q2 = p_input q).
    { unfold report_unwanted_token, report_token in E2. rewrite HR in E2. step E2. step E2. step E2. inversion E2; subst.
      unfold notify_error_listeners in E1. step E1. inversion E1; subst. rewrite L1. auto. }
    destruct R as (R1 & R2 & R3 & R4). destruct (expected_same p q2 R1 R2 R3) as [X1 X2]. rewrite X1, EE in H. cbn [obindo] in H.
    rewrite X2, EM in H. cbn [obindo] in H. step H. inversion H; subst. clear H. split; auto.
    destruct (consume_until_skips ts fuel Inv ahead Hin d' (add_set e m) q2) as (p1 & sk & rest & A1 & A2 & A3 & (t1 & r1 & A4 & A5) & _ & _ & A6 & _).
    { rewrite R4, L3; auto. } { destruct HX as [x HX]. exists c, x. rewrite R1, R2. auto. } { rewrite R4; auto. }
    assert (p1 = p') by congruence. subst p1 rest. exists sk, t1, r1. split; [rewrite R4, L3 in A2; congruence|]. split; [congruence|]. split; auto.
  Qed.
End Resync.
