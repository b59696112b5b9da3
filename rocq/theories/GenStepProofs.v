(** The steps of a generated rule function on valid input. *)
From Coq Require Import ZArith List Bool Lia Permutation Relations.
From Verif Require Import CharStreamModel TokenStreamModel TokenStreamSpec TokenStreamProofs CommonTokenStreamProofs.
From Verif Require Import Outcome IntervalSetModel IntervalSetSpec IntervalSetProofs PredContextModel PredContextSpec SemContextModel ConfigSetModel DfaModel AtnModel AtnSpec Ll1Model Ll1Spec Ll1Proofs Ll1Props ParserModel PredictModel PredictSpec PredictLLSpec PredictTotalSpec.
From Verif Require Import PredictTotalBaseProofs PredictTotalStreamProofs.
From Verif Require Import GenModel GenSpec GenBaseProofs.
Import ListNotations.
Local Open Scope Z_scope.
Local Open Scope outcome_scope.

(** ** Contexts *)
Definition hext (h h' : heap) : Prop := forall i x, nth_error h i = Some x ->
  exists x', nth_error h' i = Some x' /\ x_parent x' = x_parent x /\ x_invoking x' = x_invoking x.
Lemma hext_refl h : hext h h.
Proof. intros i x E. eauto. Qed.
Lemma hext_trans h h' h'' : hext h h' -> hext h' h'' -> hext h h''.
Proof. intros A B i x E. destruct (A i x E) as (x' & E' & P' & I'). destruct (B i x' E') as (x'' & E'' & P'' & I''). exists x''. repeat split; congruence. Qed.
Lemma hext_app h l : hext h (h ++ l).
Proof. intros i x E. exists x. rewrite nth_error_app1; [auto|]. apply nth_error_Some. congruence. Qed.
Lemma nth_update f : forall h i j, nth_error (update h i f) j = if Nat.eqb i j then option_map f (nth_error h j) else nth_error h j.
Proof.
  induction h as [|c h IH]; intros i j; [destruct i, j; cbn; try reflexivity; destruct (Nat.eqb i j); reflexivity|].
  destruct i, j; cbn; auto.
Qed.
Lemma length_update f : forall h i, length (update h i f) = length h.
Proof. induction h as [|c h IH]; intros [|i]; cbn; auto. Qed.
Lemma hext_update h i f : (forall c, x_parent (f c) = x_parent c /\ x_invoking (f c) = x_invoking c) -> hext h (update h i f).
Proof.
  intros H j x E. rewrite nth_update, E. destruct (Nat.eqb i j); cbn; [|eauto]. exists (f x). split; [reflexivity | apply H].
Qed.
Inductive chain (h : heap) : nat -> list Z -> Prop :=
| chain_root : forall c x, nth_error h c = Some x -> x_parent x = None -> chain h c [x_invoking x]
| chain_up : forall c x j st, nth_error h c = Some x -> x_parent x = Some j -> (j < c)%nat -> chain h j st -> chain h c (x_invoking x :: st).
Lemma chain_ext h h' c st : hext h h' -> chain h c st -> chain h' c st.
Proof.
  intros H. induction 1 as [c x E P|c x j st E P L _ IH]; destruct (H c x E) as (x' & E' & P' & I'); rewrite <- I'.
  - apply (chain_root h' c x' E'). congruence.
  - apply (chain_up h' c x' j st E'); [congruence | exact L | exact IH].
Qed.
Lemma chain_ancestors h c st : chain h c st -> forall n, (c < n)%nat -> ancestors n h c = Val st.
Proof.
  induction 1 as [c x E P|c x j st E P L _ IH]; intros [|n] Hn; try lia; cbn [ancestors]; unfold deref; rewrite E; cbn [unwrap obindo]; rewrite P; [reflexivity|].
  rewrite IH by lia. reflexivity.
Qed.
Lemma chain_length h c st : chain h c st -> (c < length h)%nat.
Proof. destruct 1; apply nth_error_Some; congruence. Qed.

(** what a step may change: not the notices, not the structure of the contexts *)
Definition kept {S} (p p' : parser S) : Prop := p_notices p' = p_notices p /\ p_errors p' = p_errors p /\ hext (p_heap p) (p_heap p').
Lemma kept_refl {S} (p : parser S) : kept p p.
Proof. split; [|split]; auto using hext_refl. Qed.
Lemma kept_trans {S} (p p' p'' : parser S) : kept p p' -> kept p' p'' -> kept p p''.
Proof. intros (A & B & C) (A' & B' & C'). split; [congruence|]. split; [congruence|]. eapply hext_trans; eauto. Qed.
(** the rule function with frame [f] runs *)
Definition inside {S} (p : parser S) (f : frame) (stack : list Z) : Prop :=
  p_ctx p = Some (f_local f) /\ chain (p_heap p) (f_local f) stack /\ exists x, nth_error (p_heap p) (f_local f) = Some x /\ x_parent x = f_parent f.
Lemma inside_kept {S} (p p' : parser S) f stack : inside p f stack -> kept p p' -> p_ctx p' = p_ctx p -> inside p' f stack.
Proof.
  intros (C & H & x & E & P) (_ & _ & X) Q. split; [congruence|]. split; [eapply chain_ext; eauto|].
  destruct (X _ _ E) as (x' & E' & P' & _). exists x'. split; [exact E' | congruence].
Qed.
Lemma kept_modify {S} (p : parser S) i f : (forall c, x_parent (f c) = x_parent c /\ x_invoking (f c) = x_invoking c) -> kept p (modify p i f).
Proof. intros H. split; [|split]; auto. apply hext_update, H. Qed.

Ltac keep := split; [reflexivity|]; split; [reflexivity | first [apply hext_refl | cbn; apply hext_update; auto]].

Section Steps.
  Variable src : nat -> tok.
  Variable ch : Z.
  Variable sfuel : nat.
  Variable e : nat.
  Hypothesis He : eof_number src e.
  Hypothesis Hf : (e <= sfuel)%nat.
  Hypothesis H0 : starts_visible src ch.
  Notation ts := (common_seek src ch sfuel).
  Notation base := (common_stream src ch sfuel).
  Notation ahead := (ahead src ch sfuel).
  Notation parser := (parser uts).
  Implicit Types p : parser.

  Lemma p_lt p w k : ahead (p_input p) w -> 1 <= k -> exists s t, ParserModel.lt base p k = Val (with_input p s, Some t) /\ ahead s w /\ (k = 1 -> t_type t = hd TOKEN_EOF w).
  Proof.
    intros A Hk. destruct (ahead_look src ch sfuel e He Hf _ w k A Hk) as (s & t & E & A' & T). exists s, t. unfold ParserModel.lt. rewrite E. cbn. auto.
  Qed.
  Lemma p_la p w k : ahead (p_input p) w -> 1 <= k -> exists s x, ParserModel.la base p k = Val (with_input p s, x) /\ ahead s w /\ (k = 1 -> x = hd TOKEN_EOF w).
  Proof.
    intros A Hk. destruct (p_lt p w k A Hk) as (s & t & E & A' & T). exists s, (t_type t). unfold ParserModel.la. rewrite E. cbn. auto.
  Qed.
  Lemma p_current p w : ahead (p_input p) w -> exists t, get_current_token base p = Val t /\ t_type t = hd TOKEN_EOF w.
  Proof. intros A. eapply ahead_get; eauto. Qed.
  Lemma p_consume rec p x w c : ahead (p_input p) (x :: w) -> p_ctx p = Some c -> exists p', ParserModel.consume base rec p = Val p' /\ kept p p' /\ p_ctx p' = p_ctx p /\ ahead (p_input p') w.
  Proof.
    intros A Hc. destruct (p_current p _ A) as (t & E & T). unfold ParserModel.consume. rewrite E. cbn [obindo].
    assert (Ne : t_type t =? TOKEN_EOF = false).
    { apply Z.eqb_neq. rewrite T. cbn [hd]. intros ->. eapply ahead_no_eof; [exact A | left; reflexivity]. }
    rewrite Ne. destruct (ahead_consume src ch sfuel e He Hf _ x w A) as (s' & Es & A'). cbn [k_base common_seek] in *. rewrite Es. cbn [obindo].
    destruct (_ || _); [|eexists; split; [reflexivity|]; split; [keep|]; split; [reflexivity | exact A']].
    unfold get_ctx. cbn [with_input p_ctx]. rewrite Hc. cbn [unwrap obindo].
    destruct rec; (eexists; split; [reflexivity|]; split; [keep|]; split; [exact Hc | exact A']).
  Qed.
  (** EOF is matched without being consumed *)
  Lemma p_consume_eof rec p c : ahead (p_input p) [] -> p_ctx p = Some c -> exists p', ParserModel.consume base rec p = Val p' /\ kept p p' /\ p_ctx p' = p_ctx p /\ ahead (p_input p') [].
  Proof.
    intros A Hc. destruct (p_current p _ A) as (t & E & T). unfold ParserModel.consume. rewrite E. cbn [obindo]. rewrite T. cbn [hd]. rewrite Z.eqb_refl. cbn [obindo].
    destruct (_ || _); [|eexists; split; [reflexivity|]; split; [apply kept_refl|]; split; [reflexivity | exact A]].
    unfold get_ctx. rewrite Hc. cbn [unwrap obindo].
    destruct rec; (eexists; split; [reflexivity|]; split; [keep|]; split; [exact Hc | exact A]).
  Qed.
  Lemma p_consume_any rec p w c : ahead (p_input p) w -> p_ctx p = Some c -> exists p', ParserModel.consume base rec p = Val p' /\ kept p p' /\ p_ctx p' = p_ctx p /\ ahead (p_input p') (tl w).
  Proof. destruct w as [|x w]; [apply p_consume_eof | apply p_consume]. Qed.

  Lemma p_enter p w c st x : ahead (p_input p) w -> nth_error (p_heap p) c = Some x -> exists p', enter_rule base p c st = Val p' /\ kept p p' /\ p_ctx p' = Some c /\ ahead (p_input p') w.
  Proof.
    intros A Hx. unfold enter_rule. cbv zeta. destruct (p_lt (set_state p st) w 1 A ltac:(lia)) as (s & t & E & A' & _). rewrite E. cbn [obindo].
    set (q := with_ctx (modify (with_input (set_state p st) s) c (set_start (Some t))) (Some c)).
    assert (K : kept p q) by (split; [reflexivity|]; split; [reflexivity|]; cbn; apply hext_update; auto).
    change (p_build (modify (with_input (set_state p st) s) c (set_start (Some t)))) with (p_build p) in *.
    change (if p_build q then add_context_to_parse_tree q else Val q) with (if p_build p then add_context_to_parse_tree q else Val q).
    destruct (p_build p); [|exists q; split; [reflexivity|]; split; [exact K|]; split; [reflexivity | exact A']].
    unfold add_context_to_parse_tree, get_ctx. change (p_ctx q) with (Some c). cbn [unwrap obindo].
    unfold deref. change (p_heap q) with (update (p_heap p) c (set_start (Some t))). rewrite nth_update, Nat.eqb_refl, Hx. cbn [option_map unwrap obindo].
    eexists. split; [reflexivity|]. split; [|split].
    - eapply kept_trans; [exact K|]. destruct (x_parent _); keep.
    - destruct (x_parent _); reflexivity.
    - destruct (x_parent _); exact A'.
  Qed.
  Lemma p_exit p w f stack inv rest : ahead (p_input p) w -> inside p f stack -> stack = inv :: rest -> exists p', exit_rule base p = Val p' /\ kept p p' /\ p_ctx p' = f_parent f /\ p_state p' = inv /\ ahead (p_input p') w.
  Proof.
    intros A (C & H & x & Ex & Px) ->. assert (Hv : x_invoking x = inv) by (inversion H; congruence). unfold exit_rule, get_ctx. rewrite C. cbn [unwrap obindo].
    assert (L : exists s o, ParserModel.lt base p (if p_eof p then 1 else -1) = Val (with_input p s, o) /\ ahead s w).
    { destruct (p_eof p).
      - destruct (p_lt p w 1 A ltac:(lia)) as (s & t & E & A' & _). eauto.
      - destruct (ahead_behind src ch sfuel e He Hf H0 _ w A) as (o & E). exists (p_input p), o. unfold ParserModel.lt. rewrite E. cbn. split; [destruct p; reflexivity | exact A]. }
    destruct L as (s & o & -> & A'). cbn [obindo]. unfold trigger_exit_rule_event, get_ctx. cbn [modify with_heap with_input p_ctx p_heap p_listeners]. rewrite C. cbn [unwrap obindo].
    unfold deref. rewrite nth_update, Nat.eqb_refl, Ex. cbn [option_map unwrap obindo].
    set (q := if x_plain (set_stop o x) then _ else _).
    assert (Kq : p_heap q = update (p_heap p) (f_local f) (set_stop o) /\ p_notices q = p_notices p /\ p_errors q = p_errors p /\ p_input q = s) by (unfold q; destruct (x_plain (set_stop o x)); auto).
    destruct Kq as (Hh & Hn & Herr & Hi). rewrite Hh, nth_update, Nat.eqb_refl, Ex. cbn [option_map unwrap obindo].
    eexists. split; [reflexivity|]. split; [|split; [cbn; exact Px|split; [|cbn [with_ctx set_state p_input]; rewrite Hi; exact A']]].
    - split; [exact Hn|]. split; [exact Herr|]. change (hext (p_heap p) (p_heap q)). rewrite Hh. apply hext_update. auto.
    - exact Hv.
  Qed.

  Variable a : atn.
  Variable names : naming.
  Hypothesis Hwf : well_formed a.
  Definition not_recovering (g : strategy) : Prop := in_error_recovery_mode g = false.
  Lemma strategy_recovering g : strategy_ok a g -> not_recovering g.
  Proof. destruct g; cbn; [intros (H & _); exact H | auto]. Qed.
  Lemma strategy_match g : strategy_ok a g -> strategy_ok a (report_match g).
  Proof. destruct g; cbn; auto. intros (_ & H). split; auto. Qed.

  (** ** Matching *)
  Lemma in_set_spec s x : in_set s x = true <-> member x (intervals s).
  Proof.
    unfold in_set, member. rewrite existsb_exists. split.
    - intros (r & I & H). exists r. split; [exact I|]. unfold in_range. lia.
    - intros (r & I & H). exists r. split; [exact I|]. unfold in_range in H. lia.
  Qed.
  Lemma p_take t g p w : ahead (p_input p) w -> strategy_ok a g -> (exists c, p_ctx p = Some c) -> symbols t 1 (max_token_type a) (hd TOKEN_EOF w) ->
    exists g' p', (forall n, match_label ts a names n t g p = Val (g', p', None)) /\ strategy_ok a g' /\ kept p p' /\ p_ctx p' = p_ctx p /\ ahead (p_input p') (tl w).
  Proof.
    intros A G (c & Hc) Sy. destruct (p_current p w A) as (tk & Ec & T).
    assert (Kset : forall q, ahead (p_input q) w -> p_ctx q = Some c -> kept p q -> exists p', ParserModel.consume base (in_error_recovery_mode (report_match g)) q = Val p' /\ kept p p' /\ p_ctx p' = p_ctx p /\ ahead (p_input p') (tl w)).
    { intros q Aq Cq Kq. destruct (p_consume_any (in_error_recovery_mode (report_match g)) q w c Aq Cq) as (p' & E & K & Cp & A'). exists p'. split; [exact E|]. split; [eapply kept_trans; eauto|]. split; [congruence | exact A']. }
    assert (Ks : set_test t (hd TOKEN_EOF w) = true -> exists g' p', (forall n, match_set base a names n (set_test t) g p = Val (g', p', None)) /\ strategy_ok a g' /\ kept p p' /\ p_ctx p' = p_ctx p /\ ahead (p_input p') (tl w)).
    { intros Ht. destruct (p_la p w 1 A ltac:(lia)) as (s1 & x1 & E1 & A1 & T1). rewrite (T1 eq_refl) in E1.
      destruct (p_la (with_input p s1) w 1 A1 ltac:(lia)) as (s2 & x2 & E2 & A2 & T2). rewrite (T2 eq_refl) in E2.
      set (q := if hd TOKEN_EOF w =? TOKEN_EOF then with_eof (with_input (with_input p s1) s2) else with_input (with_input p s1) s2).
      destruct (Kset q) as (p' & E' & K' & C' & A'); [unfold q; destruct (_ =? _); exact A2 | unfold q; destruct (_ =? _); exact Hc | unfold q; destruct (_ =? _); keep|].
      exists (report_match g), p'. split; [|split; [apply strategy_match, G|]; auto]. intros n. unfold match_set. rewrite E1. cbn [obindo]. rewrite Ht, E2. cbn [obindo]. fold q. rewrite E'. reflexivity. }
    destruct t as [g0 x0|? ? ? ?|? ?|g0 lo hi|? ? ? ? ?|g0 ss|g0 ss|g0|? ? ? ?|? ?]; cbn [symbols] in Sy; try contradiction; cbn [match_label k_base common_seek].
    - set (q := if x0 =? TOKEN_EOF then with_eof p else p).
      destruct (Kset q) as (p' & E' & K' & C' & A'); [unfold q; destruct (_ =? _); exact A | unfold q; destruct (_ =? _); exact Hc | unfold q; destruct (_ =? _); keep|].
      exists (report_match g), p'. split; [|split; [apply strategy_match, G|]; auto]. intros n. unfold match_token. rewrite Ec. cbn [obindo]. rewrite T, Sy, Z.eqb_refl. fold q. rewrite E'. reflexivity.
    - apply Ks. cbn. lia.
    - apply Ks. cbn. apply in_set_spec, Sy.
    - apply Ks. cbn. destruct (in_set ss (hd TOKEN_EOF w)) eqn:Q; [apply in_set_spec in Q; tauto|]. apply andb_true_intro. split; [lia | reflexivity].
    - destruct (Kset p A Hc (kept_refl p)) as (p' & E' & K' & C' & A').
      exists (report_match g), p'. split; [|split; [apply strategy_match, G|]; auto]. intros n. unfold match_wildcard. rewrite Ec. cbn [obindo]. rewrite T.
      destruct (hd TOKEN_EOF w >? 0) eqn:Q; [|lia]. rewrite E'. reflexivity.
  Qed.
End Steps.
