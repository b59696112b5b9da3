(** A generated parser with the bail-out strategy comes back on every input. *)
From Coq Require Import ZArith List Bool Lia Permutation Relations Wellfounded.
From Verif Require Import CharStreamModel TokenStreamModel TokenStreamSpec TokenStreamProofs CommonTokenStreamProofs.
From Verif Require Import Outcome IntervalSetModel IntervalSetSpec IntervalSetProofs PredContextModel PredContextSpec SemContextModel ConfigSetModel DfaModel DfaProofs AtnModel AtnSpec Ll1Model Ll1Spec Ll1Proofs Ll1Props ParserModel PredictModel PredictSpec PredictLLSpec PredictTotalSpec.
From Verif Require Import PredictTotalBaseProofs PredictTotalStackProofs PredictTotalStreamProofs PredictTotalProps PredictAltProps PredictFrameProofs PredictStreamProofs.
From Verif Require Import GenModel GenSpec GenBaseProofs GenStepProofs GenAcceptProofs GenBailSpec GenBailBaseProofs.
Import ListNotations.
Local Open Scope Z_scope.
Local Open Scope outcome_scope.

Lemma past_use a decision start rule d : dfa_past a decision start rule d -> dfa_use a decision start d.
Proof.
  induction 1 as [prec|d order alt_order hash dhash share src ch sfuel e ctx sempred fuel mode precedence outer main stack conts input ops clock m r _ IH Ho _ _ _ _ _ E|
    d order alt_order hash dhash share src e ctx sempred fuel mode precedence outer main stack conts input ops clock m r _ IH Ho _ _ _ _ E].
  - apply use_new.
  - eapply use_predict; [exact IH | apply Ho | exact E].
  - eapply use_predict; [exact IH | apply Ho | exact E].
Qed.

(** progress: a move without a token, or a token less *)
Section Progress.
  Variable a : atn.
  Hypothesis NS : no_stall a.
  Inductive step : goal -> goal -> Prop :=
  | step_quiet : forall p q w, quiet a p q -> step (p, w) (q, w)
  | step_token : forall p q x w, step (p, x :: w) (q, w).
  Lemma step_acc w : forall p, Acc (fun y x => step x y) (p, w).
  Proof.
    induction w as [|x w IH]; intros [q l]; induction (quiet_acc a NS l q) as [p _ IHp]; constructor; intros y A; inversion A; subst; auto.
  Qed.
  Lemma steps_acc g : Acc (fun y x => clos_trans goal step x y) g.
  Proof.
    destruct g as [p w]. assert (A : Acc (clos_trans goal (fun y x => step x y)) (p, w)) by apply Acc_clos_trans, step_acc.
    induction A as [g _ IH]. constructor. intros y T. apply IH. clear - T. induction T; [apply t_step; assumption|]. eapply t_trans; eauto.
  Qed.
End Progress.

Section Bail.
  Variable src : nat -> tok.
  Variable ch : Z.
  Variable sfuel : nat.
  Variable e : nat.
  Hypothesis He : eof_number src e.
  Hypothesis Hf : (e <= sfuel)%nat.
  Hypothesis H0 : starts_visible src ch.
  Notation ts := (common_seek src ch sfuel).
  Notation base := (common_stream src ch sfuel).
  Notation ahead := (ahead src ch sfuel).
  Notation parser := (parser uts).
  Implicit Types p : parser.
  Variable a : atn.
  Variable main : Z.
  Hypothesis Hg : simple_grammar a main.
  Hypothesis H1 : one_stop a.
  Hypothesis NS : no_stall a.
  Variable names : naming.
  Variable sempred : uts -> option nat -> Z -> Z -> bool.
  Variable order : list nat -> list sem -> list sem.
  Variable alt_order : list (list Z) -> list (list Z).
  Variable hash : pctx -> Z.
  Variable dhash : list pconfig -> Z.
  Variable share : pctx -> pctx.
  Hypothesis Ho : orders_ok order alt_order.
  Hypothesis Hx : contexts_ok hash share.
  Variable clock : uts -> nat.
  Variable mode : pmode.
  Variable plan : Z -> Z -> list ParserModel.call.
  Hypothesis Hplan : plan_ok a plan.
  Variable switch : Z -> option (Z -> option Z).
  Hypothesis Hdec : decisions_ok a switch.
  Hypothesis Hsw : tests_in_range a switch.
  Variable plain : Z -> bool.
  Notation dfas_ok := (dfas_ok a order alt_order hash dhash share).
  Notation choose := (choose ts a sempred order alt_order hash dhash share clock mode switch).
  Notation rule_function := (rule_function ts a names plain).
  Notation walk := (walk ts a names sempred order alt_order hash dhash share clock mode plan switch plain).

  Lemma progress_cons rule stack conts : in_progress a main rule stack conts -> stack <> [].
  Proof. destruct 1; discriminate. Qed.
  Lemma stack_iter h c stack : chain h c stack -> forall rule conts, in_progress a main rule stack conts -> forall n, (c < n)%nat -> exists l, states_iter n h c = Val (l, true).
  Proof.
    induction 1 as [c x E P|c x j st E P L _ IH]; intros rule conts Pr [|n] Hn; try lia; cbn [states_iter]; unfold deref; rewrite E; cbn [unwrap obindo].
    - assert (Q : x_invoking x = -1); [|rewrite Q; cbn; eauto].
      inversion Pr as [|i s g f r p tr stack0 conts0 Es Ns Et Pr0]; subst; [congruence|]. destruct (progress_cons _ _ _ Pr0). reflexivity.
    - destruct (Z.ltb_spec (x_invoking x) 0) as [Q|Q]; [eauto|]. rewrite P.
      inversion Pr as [A B|i s g f r p tr stack0 conts0 Es Ns Et Pr0]; subst; [lia|]. destruct (IH _ _ Pr0 n ltac:(lia)) as (l & ->). cbn [obindo]. eauto.
  Qed.
  Lemma b_stack p f stack rule conts : inside p f stack -> in_progress a main rule stack conts -> exists l, stack_of p = Val l.
  Proof.
    intros (C & Ch & _) Pr. unfold stack_of, get_ctx. rewrite C. cbn [unwrap obindo]. unfold states_stack.
    destruct (stack_iter _ _ _ Ch _ _ Pr (Datatypes.S (length (p_heap p)))) as (l & ->); [pose proof (chain_length _ _ _ Ch); lia|]. cbn. eauto.
  Qed.
  Lemma ahead_here s w : ahead s w -> exists n c, crep src n s /\ cur s = Z.of_nat c /\ (c < n)%nat.
  Proof.
    intros A. destruct (ahead_rep _ _ _ _ _ A) as (n & c & C & Hc & _). exists n, c. pose proof (crep_cur _ _ _ C) as Q. destruct C as (R & L). split; [split; assumption|]. split; [exact Hc | lia].
  Qed.
  Lemma b_current p w : ahead (p_input p) w -> exists n c, crep src n (p_input p) /\ (c < n)%nat /\ get_current_token base p = Val (tok_at src c) /\ t_type (tok_at src c) = hd TOKEN_EOF w.
  Proof.
    intros A. destruct (ahead_here _ _ A) as (n & c & C & Hc & L). exists n, c. split; [exact C|]. split; [exact L|].
    destruct (p_current src ch sfuel e Hf p w A) as (t & E & T). unfold get_current_token in *. cbn [s_get s_index common_stream] in *.
    rewrite (get_spec src 0 n _ _ (proj1 C)), Hc in *. destruct ((Z.of_nat 0 <=? Z.of_nat c) && (Z.of_nat c <? Z.of_nat (0 + n))) eqn:Q; [|lia]. cbn [of_out] in *. rewrite Nat2Z.id in *.
    injection E as <-. auto.
  Qed.

  (** an error raised in a rule body is caught and becomes a cancellation; the error
      listeners are told at most one thing *)
  Definition cancels (g : strategy) (p : parser) (e : perr) : Prop := exists g' p' c,
    (forall fuel, catch base a names fuel g p (Some e) = Val (g', p', Some (FallThrough (Some c)))) /\
    (p_notices p' = p_notices p \/ exists x, p_notices p' = p_notices p ++ [x]).
  Lemma cancels_through g p c : cancels g p (FallThrough (Some c)).
  Proof. exists g, p, c. split; [reflexivity | left; reflexivity]. Qed.
  Lemma cancels_no_alt d p c n i j st l : recovering d = false -> p_ctx p = Some c -> crep src n (p_input p) -> (i < n)%nat -> (j < n)%nat ->
    cancels (Bail d) p (NoAltError (BaseErr (tok_at src j) st l) (tok_at src i)).
  Proof.
    intros Rd Cp (R & _) Li Lj. unfold cancels. cbn [catch report_error]. unfold d_report_error. rewrite Rd.
    assert (Tx : exists tx, (if t_type (tok_at src i) =? TOKEN_EOF then Val (lit "<EOF>") else s_text base (p_input p) (t_index (tok_at src i)) (t_index (e_token (BaseErr (tok_at src j) st l)))) = Val tx).
    { destruct (_ =? TOKEN_EOF); [eauto|]. cbn [s_text common_stream e_token]. change (t_index (tok_at src i)) with (Z.of_nat i). change (t_index (tok_at src j)) with (Z.of_nat j). unfold get_text_from_interval, get_buffer_start_index.
      rewrite (r_base _ _ _ _ R). unfold zlen. rewrite (r_toks _ _ _ _ R), map_length, seq_length.
      destruct ((Z.of_nat i <? Z.of_nat 0) || (Z.of_nat j >? Z.of_nat 0 + Z.of_nat n - 1)) eqn:Q; [lia|]. cbn. eauto. }
    destruct Tx as (tx & Tx). cbn [message_of]. 
    eexists _, _, _. split.
    - intros fuel. cbn [message_of]. rewrite Tx. cbn [obindo]. unfold notify_error_listeners. cbn [get_offending_token option_map e_token s_get common_stream]. change (t_index (tok_at src j)) with (Z.of_nat j).
      rewrite (get_spec src 0 n _ _ R). destruct ((Z.of_nat 0 <=? Z.of_nat j) && (Z.of_nat j <? Z.of_nat (0 + n))) eqn:Q; [|lia]. cbn [of_out obindo].
      unfold recover, process_error, get_ctx. cbn [with_notice p_ctx]. rewrite Cp. cbn [unwrap obindo]. reflexivity.
    - right. eexists. reflexivity.
  Qed.
  Lemma match_dec t x : {set_test t x = true} + {set_test t x = false}.
  Proof. destruct (set_test t x); auto. Qed.
  (** a token: taken, or the parse is cancelled *)
  Lemma b_label t d p w f stack rule conts : consuming t -> recovering d = false -> ahead (p_input p) w -> inside p f stack -> in_progress a main rule stack conts ->
    exists g' p' r, (forall n, match_label ts a names n t (Bail d) p = Val (g', p', r)) /\
      ((r = None /\ (exists d', g' = Bail d' /\ recovering d' = false) /\ kept p p' /\ p_ctx p' = p_ctx p /\ ahead (p_input p') (tl w) /\ (w = [] -> symbols t 1 (max_token_type a) TOKEN_EOF)) \/
       (kept p p' /\ exists c, r = Some (FallThrough (Some c)))).
  Proof.
    intros Ct Rd A In Pr. pose proof In as (Hc & _). destruct (p_current src ch sfuel e Hf p w A) as (tk & Ec & T).
    destruct (b_stack p f stack rule conts In Pr) as (l & El).
    assert (Fail : forall q, p_ctx q = p_ctx p -> p_heap q = p_heap p -> p_notices q = p_notices p -> p_errors q = p_errors p -> ahead (p_input q) w ->
      exists c, forall n, recover_inline base a names n (Bail d) q = Val (Bail d, q, inr (FallThrough (Some c)))).
    { intros q Cq Hq _ _ Aq. destruct (p_current src ch sfuel e Hf q w Aq) as (tk' & Ec' & _). eexists. intros n. unfold recover_inline, base_error_new, process_error, stack_of, get_ctx in *.
      rewrite Ec', Cq, Hq. rewrite Hc in *. cbn [unwrap obindo] in *. rewrite El. cbn [obindo]. reflexivity. }
    assert (Take : forall q, ahead (p_input q) w -> p_ctx q = p_ctx p -> kept p q -> exists p', ParserModel.consume base (in_error_recovery_mode (report_match (Bail d))) q = Val p' /\ kept p p' /\ p_ctx p' = p_ctx p /\ ahead (p_input p') (tl w)).
    { intros q Aq Cq Kq. destruct (p_consume_any src ch sfuel e He Hf (in_error_recovery_mode (report_match (Bail d))) q w (f_local f) Aq) as (p' & E & K & Cp & A'); [congruence|]. exists p'. split; [exact E|]. split; [eapply kept_trans; eauto|]. split; [congruence | exact A']. }
    assert (Ks : (set_test t TOKEN_EOF = true -> symbols t 1 (max_token_type a) TOKEN_EOF) -> exists g' p' r, (forall n, match_set base a names n (set_test t) (Bail d) p = Val (g', p', r)) /\
      ((r = None /\ (exists d', g' = Bail d' /\ recovering d' = false) /\ kept p p' /\ p_ctx p' = p_ctx p /\ ahead (p_input p') (tl w) /\ (w = [] -> symbols t 1 (max_token_type a) TOKEN_EOF)) \/
       (kept p p' /\ exists c, r = Some (FallThrough (Some c))))).
    { intros Hs. destruct (p_la src ch sfuel e He Hf p w 1 A ltac:(lia)) as (s1 & x1 & E1 & A1 & T1). rewrite (T1 eq_refl) in E1.
      destruct (match_dec t (hd TOKEN_EOF w)) as [Ht|Ht].
      - destruct (p_la src ch sfuel e He Hf (with_input p s1) w 1 A1 ltac:(lia)) as (s2 & x2 & E2 & A2 & T2). rewrite (T2 eq_refl) in E2.
        set (q := if hd TOKEN_EOF w =? TOKEN_EOF then with_eof (with_input (with_input p s1) s2) else with_input (with_input p s1) s2).
        destruct (Take q) as (p' & E' & K' & C' & A'); [unfold q; destruct (_ =? _); exact A2 | unfold q; destruct (_ =? _); reflexivity | unfold q; destruct (_ =? _); keep|].
        exists (Bail d), p', None. split.
        + intros n. unfold match_set. rewrite E1. cbn [obindo]. rewrite Ht, E2. cbn [obindo]. fold q. rewrite E'. reflexivity.
        + left. split; [reflexivity|]. split; [eauto|]. split; [exact K'|]. split; [exact C'|]. split; [exact A'|]. intros ->. auto.
      - destruct (Fail (with_input p s1)) as (c & F); try reflexivity; [exact A1|].
        exists (Bail d), (with_input p s1), (Some (FallThrough (Some c))). split; [|right; split; [keep | eauto]].
        intros n. unfold match_set. rewrite E1. cbn [obindo]. rewrite Ht, F. reflexivity. }
    destruct t as [g0 x0|? ? ? ?|? ?|g0 lo hi|? ? ? ? ?|g0 ss|g0 ss|g0|? ? ? ?|? ?]; cbn [consuming] in Ct; try contradiction; cbn [match_label k_base common_seek].
    - destruct (Z.eqb_spec (t_type tk) x0) as [Q|Q].
      + set (q := if x0 =? TOKEN_EOF then with_eof p else p).
        destruct (Take q) as (p' & E' & K' & C' & A'); [unfold q; destruct (_ =? _); exact A | unfold q; destruct (_ =? _); reflexivity | unfold q; destruct (_ =? _); keep|].
        exists (Bail d), p', None. split.
        * intros n. unfold match_token. rewrite Ec. cbn [obindo]. rewrite (proj2 (Z.eqb_eq _ _) Q). fold q. rewrite E'. reflexivity.
        * left. split; [reflexivity|]. split; [eauto|]. split; [exact K'|]. split; [exact C'|]. split; [exact A'|]. intros ->. cbn in *. congruence.
      + destruct (Fail p) as (c & F); try reflexivity; [exact A|]. exists (Bail d), p, (Some (FallThrough (Some c))). split; [|right; split; [apply kept_refl | eauto]].
        intros n. unfold match_token. rewrite Ec. cbn [obindo]. rewrite (proj2 (Z.eqb_neq _ _) Q), F. reflexivity.
    - apply Ks. cbn. lia.
    - apply Ks. cbn. intros Q. eapply in_set_spec; eauto.
    - apply Ks. cbn. discriminate.
    - destruct (t_type tk >? 0) eqn:Q.
      + destruct (Take p A eq_refl (kept_refl p)) as (p' & E' & K' & C' & A'). exists (Bail d), p', None. split.
        * intros n. unfold match_wildcard. rewrite Ec. cbn [obindo]. rewrite Q, E'. reflexivity.
        * left. split; [reflexivity|]. split; [eauto|]. split; [exact K'|]. split; [exact C'|]. split; [exact A'|]. intros ->. rewrite T in Q. discriminate.
      + destruct (Fail p) as (c & F); try reflexivity; [exact A|]. exists (Bail d), p, (Some (FallThrough (Some c))). split; [|right; split; [apply kept_refl | eauto]].
        intros n. unfold match_wildcard. rewrite Ec. cbn [obindo]. rewrite Q, F. reflexivity.
  Qed.

  Lemma b_plan i cs : plan_for a i cs -> forall d p f w stack,
    ahead (p_input p) w -> inside p f stack ->
    exists p' f', (forall fuel, run_calls base a names fuel cs (Bail d) p f = Val (Bail d, p', f', None)) /\
      kept p p' /\ inside p' f' stack /\ f_parent f' = f_parent f /\ ahead (p_input p') w.
  Proof.
    intros Pf. induction Pf as [|q cs Pf IH|q cs Re Pf IH|k cs Hk Pf IH|l cs Pf IH]; intros d p f w stack A In.
    - exists p, f. split; [reflexivity|]. split; [apply kept_refl|]. auto.
    - destruct (IH d (set_state p q) f w stack A In) as (p' & f' & Hr & K' & I' & P' & A').
      exists p', f'. split; [intros fuel; cbn [run_calls run_call obindo]; apply Hr|]. split; [eapply kept_trans; [|exact K']; keep|]. auto.
    - destruct (IH d (set_state p q) f w stack A In) as (p' & f' & Hr & K' & I' & P' & A').
      exists p', f'. split; [intros fuel; cbn [run_calls run_call obindo sync no_result]; apply Hr|]. split; [eapply kept_trans; [|exact K']; keep|]. auto.
    - destruct (p_la src ch sfuel e He Hf p w k A Hk) as (s1 & x & E1 & A1 & _).
      destruct (IH d (with_input p s1) f w stack A1 In) as (p' & f' & Hr & K' & I' & P' & A').
      exists p', f'. split; [intros fuel; cbn [run_calls run_call]; rewrite E1; cbn [obindo]; apply Hr|]. split; [eapply kept_trans; [|exact K']; keep|]. auto.
    - destruct (p_alt src ch sfuel e Hf a main names plain p w f stack l A In) as (p1 & f1 & Hl & K1 & I1 & P1 & A1).
      destruct (IH d p1 f1 w stack A1 I1) as (p' & f' & Hr & K' & I' & P' & A').
      exists p', f'. split; [intros fuel; cbn [run_calls]; rewrite Hl; cbn [obindo]; apply Hr|]. split; [eapply kept_trans; eauto|]. split; [exact I'|]. split; [congruence | exact A'].
  Qed.

  Lemma simple_sound : sound_grammar a.
  Proof.
    destruct Hg as (W & Pf & Mk & Lk & Om).
    split; [exact W|]. split; [exact Mk|]. split; [intros i s E St t I; exact (proj1 (Lk i s E St) t I)|]. split; [exact H1|].
    intros i s n g l E T. pose proof (proj2 (Pf i s E)) as X. rewrite T in X. destruct X.
  Qed.

  Lemma b_blame s x y s' start_index i0 : blamed ts start_index (common_history src ch sfuel) (NoViableAlt x y) s' -> start_index = Z.of_nat i0 -> s = s' ->
    exists n i j, crep src n s' /\ (i < n)%nat /\ (j < n)%nat /\ x = tok_at src i /\ y = tok_at src j.
  Proof.
    intros (s0 & s1 & Hh & Gx & Gy & Mv) Ei _. destruct Hh as (ops & Hr). destruct (crun_reach src ch sfuel _ _ Hr) as (n & C & _).
    cbn [s_get s_lt common_seek k_base common_stream k_seek] in *. rewrite (get_spec src 0 n s0 _ (proj1 C)) in Gx.
    destruct ((Z.of_nat 0 <=? start_index) && (start_index <? Z.of_nat (0 + n))) eqn:Q; [|discriminate]. cbn in Gx. injection Gx as <-.
    pose proof (crep_cur _ _ _ C) as Hp. pose proof C as (R & Lp). pose proof (r_p _ _ _ _ R) as Rp.
    assert (Hc : cur s0 = Z.of_nat (Z.to_nat (cur s0))) by lia. 
    destruct (clt_spec src ch sfuel n s0 (Z.to_nat (cur s0)) 1 e C Hc ltac:(lia) (proj1 He) ltac:(lia)) as (s2 & n2 & j & E2 & C2 & Ln & Hc2 & Hp2 & _ & K).
    rewrite E2 in Gy. cbn [of_out] in Gy. injection Gy as <- <-.
    assert (j = Z.to_nat (cur s0)) as -> by (inversion K; subst; [reflexivity | match goal with K0 : kth_visible _ _ _ 0 _ |- _ => inversion K0 end..]).
    assert (C' : crep src n2 s').
    { destruct Mv as [-> |Mv]; [exact C2|]. destruct (tseek src s2 start_index) as [s3| |] eqn:Es; unfold cseek in Mv; rewrite Es in Mv; cbn in Mv; try discriminate. injection Mv as <-. eapply cseek_rep; eauto. }
    exists n2, (Z.to_nat start_index), (Z.to_nat (cur s0)). split; [exact C'|]. split; [lia|]. split; [lia|]. auto.
  Qed.

  Lemma b_choose i s conts w p d ds f stack : state_at a i = Some s -> ~ Ll1Spec.is_stop s ->
    in_progress a main (st_rule s) stack conts -> recovering d = false -> ahead (p_input p) w -> dfas_ok ds -> inside p f stack ->
    exists n p' ds' c, (forall fuel, (n <= fuel)%nat -> choose fuel i s p ds = Val (p', ds', c)) /\ kept p p' /\ p_ctx p' = p_ctx p /\ ahead (p_input p') w /\ dfas_ok ds' /\
      (c = DfaFull \/ (exists t, c = Go t /\ In t (st_trans s) /\ (is_call t = true \/ consuming t -> st_trans s = [t])) \/ (exists er, c = Stuck er /\ cancels (Bail d) p' er)).
  Proof.
    intros Ei Ns Pr Rd A D In.
    destruct (Hdec i s Ei Ns) as [(t0 & Q)|(All & Sw)].
    - exists O, p, ds, (Go t0). unfold choose. rewrite Q. split; [reflexivity|]. split; [apply kept_refl|]. split; [reflexivity|]. split; [exact A|]. split; [exact D|].
      right. left. exists t0. split; [reflexivity|]. split; [left; reflexivity|]. auto.
    - assert (One : (exists t0, st_trans s = [t0]) \/ forall fuel, choose fuel i s p ds =
        match switch i with
        | Some f =>
            let! (p, x) := ParserModel.la base p 1 in
            match f x with
            | Some j => let! t := alternative s j in Val (p, ds, Go t)
            | None => let! e := no_alt_here ts p in Val (p, ds, Stuck e)
            end
        | None =>
            match st_type s with
            | DecisionState k _ _ =>
                let! d := unwrap (vget ds k) in
                let! c := get_ctx p in
                let! stack := ancestors (Datatypes.S (length (p_heap p))) (p_heap p) c in
                let! (m, r) := adaptive_predict ts a nat sempred order alt_order hash dhash share fuel mode (get_precedence p) c stack
                                 k i d (p_input p) (clock (p_input p)) in
                let p := with_input p (m_input m) in
                let! ds := unwrap (vset ds k (m_dfa m)) in
                if ERROR_DFA_STATE_REF <=? Z.of_nat (length (dfa_states (m_dfa m))) then Val (p, ds, DfaFull)
                else
                  match r with
                  | Predicted j => let! t := alternative s j in Val (p, ds, Go t)
                  | NoViableAlt t0 t1 => let! e := no_alt_full p t0 t1 in Val (p, ds, Stuck e)
                  end
            | _ => Panics
            end
        end).
      { unfold choose. destruct (st_trans s) as [|t0 [|t1 l]]; [right; reflexivity | left; eauto | right; reflexivity]. }
      destruct One as [(t0 & Q)|One].
      { exists O, p, ds, (Go t0). unfold choose. rewrite Q. split; [reflexivity|]. split; [apply kept_refl|]. split; [reflexivity|]. split; [exact A|]. split; [exact D|].
        right. left. exists t0. split; [reflexivity|]. split; [left; reflexivity|]. auto. }
      assert (Alt : forall j, 1 <= j <= Z.of_nat (length (st_trans s)) -> exists t, alternative s j = Val t /\ List.In t (st_trans s) /\ (is_call t = true \/ consuming t -> st_trans s = [t])).
      { intros j Lj. unfold alternative. destruct (Z.ltb_spec j 1); [lia|]. destruct (nth_error (st_trans s) (Z.to_nat (j - 1))) as [t|] eqn:Q; [|apply nth_error_None in Q; lia].
        exists t. split; [reflexivity|]. apply nth_error_In in Q. split; [exact Q|]. destruct (All t Q) as (B1 & B2). intros [B|B]; [congruence | contradiction]. }
      destruct (switch i) as [ff|] eqn:Hs.
      + destruct (p_la src ch sfuel e He Hf p w 1 A ltac:(lia)) as (s1 & x & E1 & A1 & T1).
        destruct (ff x) as [j|] eqn:Fx.
        * destruct (Alt j (Hsw i s ff x j Ei Hs Fx)) as (t & Et & It & Kt).
          exists O, (with_input p s1), ds, (Go t). split; [intros fuel _; rewrite One, E1; cbn [obindo]; rewrite Fx, Et; reflexivity|].
          split; [keep|]. split; [reflexivity|]. split; [exact A1|]. split; [exact D|]. right. left. eauto.
        * assert (I1 : inside (with_input p s1) f stack) by exact In.
          destruct (b_stack _ _ _ _ _ I1 Pr) as (l & El). destruct (b_current (with_input p s1) w A1) as (n & c & C & Lc & Ec & _).
          exists O, (with_input p s1), ds, (Stuck (NoAltError (BaseErr (tok_at src c) (p_state p) l) (tok_at src c))). split.
          { intros fuel _. rewrite One, E1. cbn [obindo]. rewrite Fx. unfold no_alt_here, base_error_new. cbn [k_base common_seek]. rewrite Ec. cbn [obindo]. rewrite El. reflexivity. }
          split; [keep|]. split; [reflexivity|]. split; [exact A1|]. split; [exact D|]. right. right. eexists. split; [reflexivity|].
          eapply cancels_no_alt; [exact Rd | apply I1 | exact C | exact Lc | exact Lc].
      + destruct Sw as [Sw|(k & greedy & b & Ty & Hk)]; [contradiction|]. rewrite Ty in One. pose proof D as (Ld & Dd).
        destruct (vget_some ds k) as (d0 & Ed); [rewrite Ld; eapply vget_lt; exact Hk|].
        assert (Dok : decision_ok a k i (st_rule s)) by (split; [exact Hk|]; exists s; split; [exact Ei|]; split; [exact Ns|]; split; [reflexivity | apply All]).
        destruct (Dd k i (st_rule s) d0 Dok Ed) as (Past & Hist).
        pose proof In as (Hc & Ch & _). pose proof A as ((ops & Hrun) & cc & Hcc & Hw).
        destruct (C85_common_stream_returns a simple_sound NS k i (st_rule s) Dok order alt_order hash dhash share Ho Hx src ch sfuel e He Hf nat sempred mode (get_precedence p) (f_local f) main stack conts d0 (p_input p) ops
          (clock (p_input p)) Pr Past Hrun) as (n & (m, r) & E). pose proof (E n (PeanoNat.Nat.le_refl n)) as En.
        assert (A' : ahead (m_input m) w) by (eapply ahead_predict; eauto).
        destruct (vset_some ds k (m_dfa m)) as (ds' & Es'); [eapply vget_lt; exact Ed|].
        assert (D' : dfas_ok ds') by (eapply dfas_set; eauto; [eapply past_common; eauto | eapply history_predict; [exact Hist | exact En]]).
        assert (One' : forall fuel, (n <= fuel)%nat -> choose fuel i s p ds = if ERROR_DFA_STATE_REF <=? Z.of_nat (length (dfa_states (m_dfa m))) then Val (with_input p (m_input m), ds', DfaFull)
                else
                  match r with
                  | Predicted j => let! t := alternative s j in Val (with_input p (m_input m), ds', Go t)
                  | NoViableAlt t0 t1 => let! e := no_alt_full (with_input p (m_input m)) t0 t1 in Val (with_input p (m_input m), ds', Stuck e)
                  end).
        { intros fuel L. rewrite One, Ed. cbn [unwrap obindo]. unfold get_ctx. rewrite Hc. cbn [unwrap obindo].
          rewrite (chain_ancestors _ _ _ Ch) by (pose proof (chain_length _ _ _ Ch); lia). cbn [obindo]. rewrite (E fuel L). cbn [obindo]. rewrite Es'. reflexivity. }
        destruct (ERROR_DFA_STATE_REF <=? Z.of_nat (length (dfa_states (m_dfa m)))) eqn:Q.
        * exists n, (with_input p (m_input m)), ds', DfaFull. split; [exact One'|]. split; [keep|]. split; [reflexivity|]. split; [exact A'|]. split; [exact D'|]. left. reflexivity.
        * destruct r as [j|t0 t1].
          -- destruct (Alt j (C81_alternative_exists a k i s Ei d0 (past_use _ _ _ _ _ Past) uts ts nat sempred order alt_order hash dhash share n mode _ _ _ _ _ m j (proj2 Ho) En)) as (t & Et & It & Kt).
             exists n, (with_input p (m_input m)), ds', (Go t). split; [intros fuel L; rewrite (One' fuel L), Et; reflexivity|]. split; [keep|]. split; [reflexivity|]. split; [exact A'|]. split; [exact D'|].
             right. left. eauto.
          -- destruct (b_blame (m_input m) t0 t1 (m_input m) (cur (p_input p)) cc) as (n1 & i1 & j1 & C1 & Li & Lj & -> & ->); [|exact Hcc | reflexivity|].
             { eapply (adaptive_blamed ts (common_laws src ch sfuel)) with (5 := En); cbn [common_seek k_base k_seek k_mark common_stream s_lt s_consume fst].
               - intros s1 s' t Hx1 H. apply of_out_val in H. apply (history_step _ _ _ s1 (CLt 1) s' Hx1). cbn [cstep]. rewrite H. reflexivity.
               - intros s1 s' Hx1 H. apply of_out_val in H. exact (history_step _ _ _ s1 CConsume s' Hx1 H).
               - intros s1 i1 s' Hx1 H. apply of_out_val in H. exact (history_step _ _ _ s1 (CSeek i1) s' Hx1 H).
               - apply A. }
             assert (I1 : inside (with_input p (m_input m)) f stack) by exact In.
             destruct (b_stack _ _ _ _ _ I1 Pr) as (l & El).
             exists n, (with_input p (m_input m)), ds', (Stuck (NoAltError (BaseErr (tok_at src j1) (p_state p) l) (tok_at src i1))). split.
             { intros fuel L. rewrite (One' fuel L). unfold no_alt_full. rewrite El. reflexivity. }
             split; [keep|]. split; [reflexivity|]. split; [exact A'|]. split; [exact D'|]. right. right. eexists. split; [reflexivity|].
             eapply cancels_no_alt; [exact Rd | apply I1 | exact C1 | exact Li | exact Lj].
  Qed.

  Definition bail (g : strategy) : Prop := exists d, g = Bail d /\ recovering d = false.
  (** the rest of a rule body ended at the stop state *)
  Definition over (i : Z) (conts w : list Z) (p : parser) (f : frame) (stack : list Z) (g' : strategy) (p' : parser) (f' : frame) : Prop :=
    exists stop s w', state_at a stop = Some s /\ Ll1Spec.is_stop s /\ clos_refl_trans goal (step a) ((i, conts), w) ((stop, conts), w') /\
      bail g' /\ kept p p' /\ inside p' f' stack /\ f_parent f' = f_parent f /\ ahead (p_input p') w'.
  (** how a body ends *)
  Definition body_end (i : Z) (conts w : list Z) (p : parser) (f : frame) (stack : list Z) (g' : strategy) (p' : parser) (f' : frame) (r : ending) : Prop :=
    r = Full \/ (r = Ended /\ over i conts w p f stack g' p' f') \/
    (exists er, r = Raised er /\ cancels g' p' er /\ (p_notices p' = p_notices p \/ exists c x, er = FallThrough (Some c) /\ p_notices p' = p_notices p ++ [x])).

  Lemma b_rule rule g0 g p ds w conts stack :
    callers p stack -> ahead (p_input p) w ->
    (forall p1 f1, kept p p1 -> inside p1 f1 (p_state p :: stack) -> ahead (p_input p1) w ->
      exists n g' p' ds' f' r, (forall fuel, (n <= fuel)%nat -> walk fuel (-1) g0 g p1 ds f1 = Val (g', p', ds', f', r)) /\ dfas_ok ds' /\
        body_end g0 conts w p1 f1 (p_state p :: stack) g' p' f' r) ->
    exists n g' p' ds' r, (forall fuel, (n <= fuel)%nat -> rule_function fuel (walk fuel (-1) g0) rule g0 g p ds = Val (g', p', ds', r)) /\ dfas_ok ds' /\
      (r = Full \/
       (r = Ended /\ p_ctx p' = p_ctx p /\ p_state p' = p_state p /\ kept p p' /\
         exists stop s w', state_at a stop = Some s /\ Ll1Spec.is_stop s /\ clos_refl_trans goal (step a) ((g0, conts), w) ((stop, conts), w') /\
          bail g' /\ ahead (p_input p') w') \/
       (exists c, r = Raised (FallThrough (Some c)) /\ (p_notices p' = p_notices p \/ exists x, p_notices p' = p_notices p ++ [x]))).
  Proof.
    intros Cs A Body. unfold rule_function. cbn [alloc k_base common_seek]. set (x := new_parser_ctx (p_ctx p) (p_state p) rule 0 (plain rule)). set (c := length (p_heap p)).
    set (q := with_heap p (p_heap p ++ [x])).
    assert (Kq : kept p q) by (split; [reflexivity|]; split; [reflexivity|]; apply hext_app).
    assert (Xq : nth_error (p_heap q) c = Some x) by (cbn; unfold c; rewrite nth_error_app2, PeanoNat.Nat.sub_diag; reflexivity).
    assert (Cq : chain (p_heap q) c (p_state p :: stack)).
    { unfold callers in Cs. destruct (p_ctx p) as [c0|] eqn:Q.
      - apply (chain_up _ c x c0 stack Xq); [reflexivity | apply chain_length in Cs; exact Cs|]. eapply chain_ext; [apply hext_app | exact Cs].
      - subst stack. apply (chain_root _ c x Xq). reflexivity. }
    destruct (p_enter src ch sfuel e He Hf q w c g0 x A Xq) as (p1 & E1 & K1 & C1 & A1).
    set (f1 := Frame c (p_ctx p) (p_state p) g0 rule).
    assert (I1 : inside p1 f1 (p_state p :: stack)).
    { split; [exact C1|]. split; [eapply chain_ext; [apply K1 | exact Cq]|]. destruct K1 as (_ & _ & X). destruct (X c x Xq) as (x' & E' & P' & _). exists x'. split; [exact E' | exact P']. }
    assert (Kp : kept p p1) by (eapply kept_trans; eauto).
    destruct (Body p1 f1 Kp I1 A1) as (n & g' & p2 & ds' & f2 & r & Ew & D' & Rw).
    destruct Rw as [-> |[(-> & stop & s & w' & Es & St & Ad & G' & K' & I' & P' & A')|(er & -> & (g2 & p3 & c2 & Ec & Nc) & Nt)]].
    - exists n, g', p2, ds', Full. split; [|split; [exact D' | left; reflexivity]]. intros fuel L. rewrite E1. cbn [obindo]. fold f1. rewrite (Ew fuel L). reflexivity.
    - destruct (p_exit src ch sfuel e He Hf H0 p2 w' f2 _ _ _ A' I' eq_refl) as (p3 & E3 & K3 & C3 & S3 & A3).
      exists n, g', p3, ds', Ended. split; [|split; [exact D'|]].
      + intros fuel L. rewrite E1. cbn [obindo]. fold f1. rewrite (Ew fuel L). cbn [obindo catch]. rewrite E3. reflexivity.
      + right. left. split; [reflexivity|]. split; [rewrite C3, P'; reflexivity|]. split; [exact S3|]. split; [eapply kept_trans; [exact Kp|]; eapply kept_trans; eauto|].
        exists stop, s, w'. auto 12.
    - exists n, g2, p3, ds', (Raised (FallThrough (Some c2))). split; [|split; [exact D'|]].
      + intros fuel L. rewrite E1. cbn [obindo]. fold f1. rewrite (Ew fuel L). cbn [obindo]. rewrite Ec. reflexivity.
      + right. right. exists c2. split; [reflexivity|]. rewrite <- (proj1 Kp). destruct Nt as [Nt|(c3 & y & -> & Nt)].
        * rewrite <- Nt. exact Nc.
        * specialize (Ec O). cbn in Ec. injection Ec as <- <- <-. right. eauto.
  Qed.

  Lemma b_walk gl : forall i conts w, gl = ((i, conts), w) ->
    forall from g p ds f stack, exists_state a i -> in_progress a main (rule_of a i) stack conts ->
    inside p f stack -> ahead (p_input p) w -> dfas_ok ds -> bail g ->
    exists n g' p' ds' f' r, (forall fuel, (n <= fuel)%nat -> walk fuel from i g p ds f = Val (g', p', ds', f', r)) /\ dfas_ok ds' /\
      body_end i conts w p f stack g' p' f' r.
  Proof.
    induction (steps_acc a NS gl) as [gl _ IH]. intros i conts w -> from g p ds f stack Ei Pr In A D G.
    assert (IHn : forall i' conts' w', clos_trans goal (step a) ((i, conts), w) ((i', conts'), w') ->
      forall from g p ds f stack, exists_state a i' -> in_progress a main (rule_of a i') stack conts' ->
      inside p f stack -> ahead (p_input p) w' -> dfas_ok ds -> bail g ->
      exists n g' p' ds' f' r, (forall fuel, (n <= fuel)%nat -> walk fuel from i' g p ds f = Val (g', p', ds', f', r)) /\ dfas_ok ds' /\
        body_end i' conts' w' p f stack g' p' f' r).
    { intros i' conts' w' T. exact (IH _ T i' conts' w' eq_refl). }
    clear IH. rename IHn into IH. destruct G as (d & -> & Rd).
    destruct (b_plan i (plan from i) (Hplan from i) d p f w stack A In) as (p1 & f1 & R1 & K1 & I1 & P1 & A1).
    unfold exists_state in Ei. destruct (state_at a i) as [s|] eqn:Es; [clear Ei|congruence].
    assert (Gs : get_state a i = Val s) by (unfold get_state; change (vget (states a) i) with (state_at a i); rewrite Es; reflexivity).
    assert (Dec : Ll1Spec.is_stop s \/ ~ Ll1Spec.is_stop s) by (unfold Ll1Spec.is_stop; destruct (st_type s); auto; right; discriminate).
    destruct Dec as [St|Ns].
    { exists 1%nat, (Bail d), p1, ds, f1, Ended. split; [|split; [exact D|]].
      - intros [|fuel] L; [lia|]. rewrite walk_S, R1. cbn [obindo]. rewrite Gs. cbn [obindo]. unfold Ll1Spec.is_stop in St. rewrite St. reflexivity.
      - right. left. split; [reflexivity|]. exists i, s, w. split; [exact Es|]. split; [exact St|]. split; [apply rt_refl|]. split; [exists d; auto|]. auto 12. }
    rewrite (rule_state a i s Es) in Pr.
    destruct (b_choose i s conts w p1 d ds f1 stack Es Ns Pr Rd A1 D I1) as (n2 & p2 & ds2 & c & R2 & K2 & C2 & A2 & D2 & Hc).
    assert (I2 : inside p2 f1 stack) by (eapply inside_kept; eauto).
    assert (K12 : kept p p2) by (eapply kept_trans; eauto).
    assert (NSt : forall B (X Y : B), match st_type s with RuleStopState => X | _ => Y end = Y) by (intros; unfold Ll1Spec.is_stop in Ns; destruct (st_type s); congruence).
    assert (From : forall i' w' p2' g' p' f' r, clos_refl_trans goal (step a) ((i, conts), w) ((i', conts), w') -> kept p p2' ->
      body_end i' conts w' p2' f1 stack g' p' f' r -> body_end i conts w p f stack g' p' f' r).
    { intros i' w' p2' g' p' f' r Re K [-> |[(-> & stop & s' & w2 & Es' & St' & Ad & G & K' & I & P' & A')|(er & -> & Ca & Nt)]].
      - left. reflexivity.
      - right. left. split; [reflexivity|]. exists stop, s', w2. split; [exact Es'|]. split; [exact St'|]. split; [eapply rt_trans; eauto|]. split; [exact G|]. split; [eapply kept_trans; eauto|].
        split; [exact I|]. split; [congruence | exact A'].
      - right. right. exists er. split; [reflexivity|]. split; [exact Ca|]. rewrite <- (proj1 K). exact Nt. }
    destruct Hc as [-> |[(t & -> & It & Kt)|(er & -> & Ca)]].
    { exists (Datatypes.S n2), (Bail d), p2, ds2, f1, Full. split; [|split; [exact D2 | left; reflexivity]].
      intros [|fuel] L; [lia|]. rewrite walk_S, R1. cbn [obindo]. rewrite Gs. cbn [obindo]. rewrite NSt, R2 by lia. reflexivity. }
    2:{ exists (Datatypes.S n2), (Bail d), p2, ds2, f1, (Raised er). split; [|split; [exact D2|]].
      - intros [|fuel] L; [lia|]. rewrite walk_S, R1. cbn [obindo]. rewrite Gs. cbn [obindo]. rewrite NSt, R2 by lia. reflexivity.
      - right. right. exists er. split; [reflexivity|]. split; [exact Ca|]. left. apply K12. }
    destruct (proj2 (proj1 Hg) i s Es) as (_ & Wt). specialize (Wt Ns t It). destruct Wt as (Et & _ & Rt).
    assert (Kinds : (~ consuming t /\ is_call t = false) \/ (exists g0 fo r0 pr, t = RuleTr g0 fo r0 pr) \/ consuming t).
    { destruct t; cbn; auto; right; left; eauto. }
    destruct Kinds as [(Nc & Kc)|[(g0 & fo & r0 & pr & ->)|Co]].
    - (* epsilon, action *)
      assert (Step : step a ((i, conts), w) ((get_target t, conts), w)) by (apply step_quiet; left; eapply move_epsilon; eauto).
      assert (Ru : rule_of a (get_target t) = st_rule s) by (destruct t; try exact Rt; discriminate).
      destruct (IH (get_target t) conts w (t_step _ _ _ _ Step) i (Bail d) p2 ds2 f1 stack Et ltac:(rewrite Ru; exact Pr) I2 A2 D2 ltac:(exists d; auto)) as (n3 & g3 & p3 & ds3 & f3 & r & R3 & D3 & Q3).
      exists (Datatypes.S (Nat.max n2 n3)), g3, p3, ds3, f3, r. split; [|split; [exact D3|]].
      + intros [|fuel] L; [lia|]. rewrite walk_S, R1. cbn [obindo]. rewrite Gs. cbn [obindo]. rewrite NSt, R2 by lia. cbn [obindo].
        pose proof (proj1 (proj1 (proj2 Hg) i s Es) t It) as Np. destruct t; cbn [consuming is_call get_target] in *; try contradiction; try discriminate; try (exfalso; apply Nc; exact Logic.I); apply R3; lia.
      + eapply From; [apply rt_step, Step | exact K12 | exact Q3].
    - (* call *)
      cbn [get_target] in *. destruct Rt as (Efo & Rfo).
      assert (Call : step a ((i, conts), w) ((g0, fo :: conts), w)) by (apply step_quiet; left; eapply move_call; eauto).
      destruct (b_rule r0 g0 (Bail d) (set_state p2 i) ds2 w (fo :: conts) stack) as (n3 & g3 & p3 & ds3 & r & R3 & D3 & Q3).
      { unfold callers. cbn [set_state p_ctx p_heap]. rewrite (proj1 I2). apply I2. }
      { exact A2. }
      { intros px fx Kx Ix Ax. apply (IH g0 (fo :: conts) w (t_step _ _ _ _ Call) (-1) (Bail d) px ds2 fx (i :: stack)); auto; [|exists d; auto].
        eapply progress_call; eauto. }
      assert (Rn : forall fuel, (Datatypes.S (Nat.max n2 n3) <= fuel)%nat -> walk fuel from i (Bail d) p ds f = match r with Ended => walk (pred fuel) i fo g3 p3 ds3 f1 | r => Val (g3, p3, ds3, f1, r) end).
      { intros [|fuel] L; [lia|]. rewrite walk_S, R1. cbn [obindo]. rewrite Gs. cbn [obindo]. rewrite NSt, R2 by lia. cbn [obindo]. rewrite R3 by lia. reflexivity. }
      destruct Q3 as [-> |[(-> & C3 & S3 & K3 & stop & sk & w3 & Ek & Sk & Ad & G3 & A3)|(c3 & -> & Nt)]].
      { exists (Datatypes.S (Nat.max n2 n3)), g3, p3, ds3, f1, Full. split; [exact Rn|]. split; [exact D3 | left; reflexivity]. }
      2:{ exists (Datatypes.S (Nat.max n2 n3)), g3, p3, ds3, f1, (Raised (FallThrough (Some c3))). split; [exact Rn|]. split; [exact D3|]. right. right. eexists. split; [reflexivity|].
          split; [apply cancels_through|]. cbn [set_state p_notices] in Nt. rewrite (proj1 K12) in Nt. destruct Nt as [Nt|(x & Nt)]; [left; exact Nt | right; eauto]. }
      assert (Ret : clos_trans goal (step a) ((i, conts), w) ((fo, conts), w3)).
      { apply clos_rt_t with (y := ((stop, fo :: conts), w3)); [eapply rt_trans; [apply rt_step, Call | exact Ad]|]. apply t_step, step_quiet. left. eapply move_return; eauto. }
      assert (K23 : kept p2 p3) by (eapply kept_trans; [|exact K3]; keep).
      destruct (IH fo conts w3 Ret i g3 p3 ds3 f1 stack Efo ltac:(rewrite Rfo; exact Pr) ltac:(eapply inside_kept; [exact I2 | exact K23 | exact C3]) A3 D3 G3) as (n4 & g4 & p4 & ds4 & f4 & r & R4 & D4 & Q4).
      exists (Datatypes.S (Nat.max n2 (Nat.max n3 n4))), g4, p4, ds4, f4, r. split; [|split; [exact D4|]].
      + intros fuel L. rewrite Rn by lia. apply R4. lia.
      + eapply From; [apply clos_t_rt, Ret | eapply kept_trans; [exact K12 | exact K23] | exact Q4].
    - (* a token *)
      destruct (b_label t d (set_state p2 i) w f1 stack (st_rule s) conts Co Rd A2 I2 Pr) as (g3 & p3 & r & R3 & Q3).
      assert (Rn : forall fuel, (Datatypes.S n2 <= fuel)%nat -> walk fuel from i (Bail d) p ds f = match r with None => walk (pred fuel) i (get_target t) g3 p3 ds2 f1 | Some er => Val (g3, p3, ds2, f1, Raised er) end).
      { intros [|fuel] L; [lia|]. rewrite walk_S, R1. cbn [obindo]. rewrite Gs. cbn [obindo]. rewrite NSt, R2 by lia. cbn [obindo].
        destruct t; cbn [consuming get_target] in *; try contradiction; rewrite R3; reflexivity. }
      destruct Q3 as [(-> & G3 & K3 & C3 & A3 & Sy)|(K3 & c3 & ->)].
      2:{ exists (Datatypes.S n2), g3, p3, ds2, f1, (Raised (FallThrough (Some c3))). split; [exact Rn|]. split; [exact D2|]. right. right. eexists. split; [reflexivity|]. split; [apply cancels_through|].
          left. rewrite (proj1 K3). apply K12. }
      assert (Step : step a ((i, conts), w) ((get_target t, conts), tl w)).
      { destruct w as [|x w]; cbn [hd tl] in *; [apply step_quiet; right; eapply take_token; eauto | apply step_token]. }
      assert (Ru : rule_of a (get_target t) = st_rule s) by (destruct t; try exact Rt; contradiction).
      assert (K23 : kept p2 p3) by (eapply kept_trans; [|exact K3]; keep).
      destruct (IH (get_target t) conts (tl w) (t_step _ _ _ _ Step) i g3 p3 ds2 f1 stack Et ltac:(rewrite Ru; exact Pr) ltac:(eapply inside_kept; [exact I2 | exact K23 | exact C3]) A3 D2 G3) as (n4 & g4 & p4 & ds4 & f4 & r & R4 & D4 & Q4).
      exists (Datatypes.S (Nat.max n2 n4)), g4, p4, ds4, f4, r. split; [|split; [exact D4|]].
      + intros fuel L. rewrite Rn by lia. apply R4. lia.
      + eapply From; [apply rt_step, Step | eapply kept_trans; [exact K12 | exact K23] | exact Q4].
  Qed.

  (** ** The start rule *)
  Lemma b_parse rule start d p ds w : exists_state a start -> rule_of a start = main ->
    recovering d = false -> outside p -> ahead (p_input p) w -> dfas_ok ds ->
    exists n g' p' ds' r, (forall fuel, (n <= fuel)%nat -> parse ts a names sempred order alt_order hash dhash share clock mode plan switch plain fuel rule start (Bail d) p ds = Val (g', p', ds', r)) /\ dfas_ok ds' /\
      (r = Full \/
       (r = Ended /\ outside p' /\ p_notices p' = p_notices p /\ bail g' /\ exists w', ahead (p_input p') w') \/
       (exists c, r = Raised (FallThrough (Some c)) /\ (p_notices p' = p_notices p \/ exists x, p_notices p' = p_notices p ++ [x]))).
  Proof.
    intros Es Rs Rd (Oc & Os) A D.
    destruct (b_rule rule start (Bail d) p ds w [] []) as (n & g' & p' & ds' & r & R & D' & Q).
    - unfold callers. rewrite Oc. reflexivity.
    - exact A.
    - intros p1 f1 K1 I1 A1. rewrite Os in *. eapply b_walk; eauto; [rewrite Rs; constructor | exists d; auto].
    - exists n, g', p', ds', r. split; [exact R|]. split; [exact D'|]. destruct Q as [-> |[(-> & C' & S' & K' & stop & s & w' & _ & _ & _ & G' & A')|Q]]; [left; reflexivity | | right; right; exact Q].
      right. left. split; [reflexivity|]. split; [split; congruence|]. split; [apply K'|]. split; [exact G'|]. eauto.
  Qed.
End Bail.
