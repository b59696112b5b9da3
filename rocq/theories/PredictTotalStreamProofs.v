(** Predictions on the two token streams come back. *)
From Coq Require Import ZArith List Bool Lia ZifyBool ZifyNat Permutation.
From Verif Require Import Outcome IntervalSetModel PredContextModel PredContextSpec SemContextModel.
From Verif Require Import ConfigSetModel DfaModel AtnModel AtnSpec AtnProofs Ll1Model Ll1Spec ParserModel PredictModel PredictLLSpec.
From Verif Require Import PredictTotalSpec PredictTotalBaseProofs PredictTotalDfaProofs PredictTotalExecProofs PredictTotalFuelProofs.
From Verif Require Import CharStreamModel TokenStreamModel TokenStreamSpec TokenStreamProofs CommonTokenStreamProofs.
Import ListNotations.
Local Open Scope Z_scope.
Local Open Scope outcome_scope.

Lemma skipn_cons {A} (l : list A) d : forall i, (i < length l)%nat -> skipn i l = nth i l d :: skipn (S i) l.
Proof. induction l as [|x l IH]; intros [|i] H; cbn in *; try lia; [reflexivity|]. apply (IH i). lia. Qed.

Section Words.
  Variable src : nat -> tok.
  Variable on : Z -> Prop.
  Hypothesis on_dec : forall c, {on c} + {~ on c}.
  Lemma visible_word e : eof_number src e -> forall k i, (i + k = e)%nat -> exists w, visible_types src on i w.
  Proof.
    intros (He & Hn). induction k as [|k IH]; intros i Q.
    - exists []. constructor. replace i with e by lia. exact He.
    - destruct (IH (S i) ltac:(lia)) as (w & Hw). assert (Ne : t_type (src i) <> TOKEN_EOF) by (apply Hn; lia).
      destruct (on_dec (t_channel (src i))) as [On|On]; [eexists; apply vis_token; eauto | exists w; apply vis_hidden; auto].
  Qed.
  Lemma read_word e i : eof_number src e -> (i <= e)%nat -> exists w, read_types src on i w.
  Proof.
    intros He L. destruct (Nat.eq_dec i e) as [->|N]; [exists []; constructor; apply He|].
    destruct (visible_word e He (e - S i)%nat (S i) ltac:(lia)) as (w & Hw). eexists. apply read_token; [apply He; lia | exact Hw].
  Qed.
  Lemma visible_no_eof i w : visible_types src on i w -> ~ In TOKEN_EOF w.
  Proof. induction 1; cbn; intuition. Qed.
  Lemma read_no_eof i w : read_types src on i w -> ~ In TOKEN_EOF w.
  Proof. destruct 1 as [|i w Ne H]; cbn; [tauto|]. intros [Q|Q]; [auto | eapply visible_no_eof; eauto]. Qed.
  Lemma read_head i w : read_types src on i w -> t_type (src i) = nth 0 w TOKEN_EOF.
  Proof. destruct 1; cbn; auto. Qed.
  Lemma nth_skipn {A} (l : list A) d : forall i, nth 0 (skipn i l) d = nth i l d.
  Proof. induction l as [|x l IH]; intros [|i]; cbn; auto. Qed.
End Words.

Section Common.
  Variable src : nat -> tok.
  Variable ch : Z.
  Variable sfuel : nat.
  Variable e : nat.
  Hypothesis He : eof_number src e.
  Hypothesis Hf : (e <= sfuel)%nat.
  Notation on := (fun c => c = ch).
  Variable c0 : nat.
  Variable W : list Z.
  Hypothesis HW : read_types src on c0 W.
  Notation ts := (common_seek src ch sfuel).

  Lemma visible_next i w : visible_types src on i w -> forall j, first_visible src ch i j -> read_types src on j w.
  Proof.
    induction 1 as [i E|i w Ne No _ IH|i w Ne On Hv IH]; intros j (L & Vj & F).
    - assert (j = i) by (destruct (Nat.eq_dec i j) as [|N]; [auto|]; destruct (F i ltac:(lia)); right; exact E). subst j. constructor. exact E.
    - destruct (Nat.eq_dec i j) as [<-|N]; [destruct Vj; contradiction|]. apply IH. split; [lia|]. split; [exact Vj|]. intros m Hm. apply F. lia.
    - assert (j = i) by (destruct (Nat.eq_dec i j) as [|N]; [auto|]; destruct (F i ltac:(lia)); left; exact On). subst j. apply read_token; assumption.
  Qed.

  Definition common_at (i : nat) (s : uts) : Prop := exists n c, crep src n s /\ cur s = Z.of_nat c /\ (c0 <= c)%nat /\ read_types src on c (skipn i W).

  Lemma common_lt i s : common_at i s -> exists s' tk, s_lt (k_base ts) s 1 = Val (s', Some tk) /\ t_type tk = nth i W TOKEN_EOF /\ common_at i s'.
  Proof.
    intros (n & c & C & Hc & L & R). cbn [common_seek k_base s_lt common_stream].
    destruct (clt_spec src ch sfuel n s c 1 e C Hc ltac:(lia) (proj1 He) ltac:(lia)) as (s2 & n2 & j & E2 & C2 & _ & Hc2 & _ & _ & K).
    rewrite E2. cbn [of_out]. eexists s2, _. split; [reflexivity|].
    assert (j = c) as -> by (inversion K; subst; [reflexivity | match goal with K0 : kth_visible _ _ _ 0 _ |- _ => inversion K0 end..]).
    split; [|exists n2, c; split; [exact C2|]; split; [congruence|]; auto]. cbn. rewrite (read_head _ _ _ _ R). apply nth_skipn.
  Qed.
  Lemma common_consume i s : common_at i s -> (i < length W)%nat -> exists s', s_consume (k_base ts) s = Val s' /\ common_at (S i) s'.
  Proof.
    intros (n & c & C & Hc & L & R) Li. cbn [common_seek k_base s_consume common_stream]. rewrite (skipn_cons W TOKEN_EOF i Li) in R. inversion R as [|? w Ne Hv Q1 Q2].
    destruct (proj2 (cconsume_spec src ch sfuel n s c C Hc) e) as (s2 & n2 & j & E2 & C2 & _ & Hc2 & _ & F2); [assumption | apply He | lia |].
    rewrite E2. cbn [of_out]. exists s2. split; [reflexivity|]. exists n2, j. split; [exact C2|]. split; [exact Hc2|]. split; [destruct F2; lia|]. eapply visible_next; eauto.
  Qed.
  Lemma seek_at n s i : crep src n s -> 0 <= i < Z.of_nat n -> exists s', tseek src s i = Done s' /\ crep src n s' /\ cur s' = i.
  Proof.
    intros C Hi. pose proof C as (R & Hp). destruct (seek_spec src 0 n s i R) as [(Q & E)|[(_ & _ & E & _)|(_ & X & E)]]; [| |lia].
    - exists s. split; [exact E|]. split; [exact C | congruence].
    - eexists. split; [exact E|]. destruct (cseek_rep src n s i _ C E) as (C' & Hc & _). split; assumption.
  Qed.
  Lemma common_back i s : common_at i s -> exists s1 s2, k_seek ts s (Z.of_nat c0) = Val s1 /\ common_at O s1 /\ k_seek ts s1 (s_index (k_base ts) s) = Val s2 /\ common_at i s2.
  Proof.
    intros (n & c & C & Hc & L & R). cbn [common_seek k_base k_seek s_index common_stream]. unfold cseek.
    pose proof (crep_cur _ _ _ C) as Hp. destruct (C) as (Rp & Hlt).
    destruct (seek_at n s (Z.of_nat c0) C ltac:(lia)) as (s1 & E1 & C1 & Hc1). destruct (seek_at n s1 (cur s) C1 ltac:(lia)) as (s2 & E2 & C2 & Hc2).
    exists s1, s2. rewrite E1, E2. split; [reflexivity|]. split; [exists n, c0; split; [exact C1|]; split; [exact Hc1|]; split; [lia | exact HW]|]. split; [reflexivity|].
    exists n, c. split; [exact C2|]. split; [congruence|]. auto.
  Qed.
  Lemma common_get_start i s : common_at i s -> exists tk, s_get (k_base ts) s (Z.of_nat c0) = Val tk.
  Proof.
    intros (n & c & C & Hc & L & R). cbn [common_seek k_base s_get common_stream]. pose proof (crep_cur _ _ _ C) as Hp. destruct C as (Rp & Hlt).
    rewrite (get_spec src 0 n s (Z.of_nat c0) Rp). destruct ((Z.of_nat 0 <=? Z.of_nat c0) && (Z.of_nat c0 <? Z.of_nat (0 + n))) eqn:Q; [cbn; eauto | lia].
  Qed.
End Common.

Section Unbuffered.
  Variable src : nat -> tok.
  Notation on := (fun _ : Z => True).
  Variable b c0 : nat.
  Hypothesis Hb : (b <= c0)%nat.
  Variable W : list Z.
  Hypothesis HW : read_types src on c0 W.
  Variable M : Z.
  Notation ts := (unbuffered_seek src).

  Definition unbuffered_at (i : nat) (s : uts) : Prop := exists n c, rep src b n s /\ cur s = Z.of_nat c /\ (c0 <= c)%nat /\ p s < Z.of_nat n /\ markers s = M /\
    read_types src on c (skipn i W).
  Definition unbuffered_init (s : uts) : Prop := exists n, rep src b n s /\ cur s = Z.of_nat c0 /\ markers s = M.

  Lemma unbuffered_first n s c i : rep src b n s -> cur s = Z.of_nat c -> (c0 <= c)%nat -> markers s = M -> read_types src on c (skipn i W) ->
    exists s' tk, s_lt (k_base ts) s 1 = Val (s', Some tk) /\ t_type tk = nth i W TOKEN_EOF /\ unbuffered_at i s'.
  Proof.
    intros R Hc L Hm Rt. cbn [unbuffered_seek k_base s_lt unbuffered_stream].
    destruct (lt_spec src b n s 1 c R ltac:(lia) Hc) as (s2 & n2 & o2 & E2 & R2 & _ & Hc2 & Hp2 & Hm2 & So & _).
    replace (c + Z.to_nat (1 - 1))%nat with c in So by lia. rewrite (So (rep_noeof_cur _ _ _ _ _ R Hc)) in E2.
    assert (Lp : p s2 < Z.of_nat n2).
    { unfold lt in E2. cbn [Z.eqb] in E2. cbv zeta in E2. inversion E2 as [[Es Er]]. clear E2. rewrite Es in Er.
      rewrite (r_toks _ _ _ _ R2), zget_map_seq in Er. destruct ((0 <=? p s2 + 1 - 1) && (p s2 + 1 - 1 <? Z.of_nat n2)) eqn:Q; [rewrite ?Es; lia | discriminate Er]. }
    rewrite E2. cbn [of_out]. eexists s2, _. split; [reflexivity|]. split; [cbn; rewrite (read_head _ _ _ _ Rt); apply nth_skipn|].
    exists n2, c. split; [exact R2|]. split; [congruence|]. split; [exact L|]. split; [exact Lp|]. split; [congruence | exact Rt].
  Qed.
  Lemma unbuffered_lt i s : unbuffered_at i s -> exists s' tk, s_lt (k_base ts) s 1 = Val (s', Some tk) /\ t_type tk = nth i W TOKEN_EOF /\ unbuffered_at i s'.
  Proof. intros (n & c & R & Hc & L & _ & Hm & Rt). eapply unbuffered_first; eauto. Qed.
  Lemma unbuffered_begin s : unbuffered_init s -> exists s' tk, s_lt (k_base ts) s 1 = Val (s', Some tk) /\ t_type tk = nth 0 W TOKEN_EOF /\ unbuffered_at 0 s'.
  Proof. intros (n & R & Hc & Hm). eapply unbuffered_first; eauto. Qed.
  Lemma unbuffered_consume i s : unbuffered_at i s -> (i < length W)%nat -> exists s', s_consume (k_base ts) s = Val s' /\ unbuffered_at (S i) s'.
  Proof.
    intros (n & c & R & Hc & L & Hp & Hm & Rt) Li. cbn [unbuffered_seek k_base s_consume unbuffered_stream]. rewrite (skipn_cons W TOKEN_EOF i Li) in Rt.
    remember (skipn (S i) W) as rest eqn:Qr. inversion Rt as [|? w Ne Hv Q1 Q2].
    destruct (proj2 (consume_spec src b n s c R Hc)) as (s2 & n2 & E2 & R2 & _ & Hc2 & Hm2 & Hp2 & _); [assumption|].
    rewrite E2. cbn [of_out]. exists s2. split; [reflexivity|]. exists n2, (S c). split; [exact R2|]. split; [lia|]. split; [lia|]. split; [exact Hp2|]. split; [congruence|].
    rewrite <- Qr. clear - Hv. inversion Hv; subst; [apply read_eof; assumption | tauto | apply read_token; assumption].
  Qed.
  Lemma useek_at n s i : rep src b n s -> p s < Z.of_nat n -> Z.of_nat b <= i < Z.of_nat (b + n) ->
    exists s', tseek src s i = Done s' /\ rep src b n s' /\ cur s' = i /\ markers s' = markers s /\ p s' < Z.of_nat n.
  Proof.
    intros R Hp Hi. destruct (seek_spec src b n s i R) as [(Q & E)|[(_ & _ & E & R')|(_ & X & E)]]; [| |lia].
    - exists s. split; [exact E|]. split; [exact R|]. split; [congruence|]. auto.
    - eexists. split; [exact E|]. split; [exact R'|]. cbn. split; [reflexivity|]. split; [reflexivity | lia].
  Qed.
  Lemma unbuffered_back i s : unbuffered_at i s -> exists s1 s2, k_seek ts s (Z.of_nat c0) = Val s1 /\ unbuffered_at O s1 /\ k_seek ts s1 (s_index (k_base ts) s) = Val s2 /\ unbuffered_at i s2.
  Proof.
    intros (n & c & R & Hc & L & Hp & Hm & Rt). cbn [unbuffered_seek k_base k_seek s_index unbuffered_stream].
    pose proof (r_base _ _ _ _ R) as Rb.
    destruct (useek_at n s (Z.of_nat c0) R Hp ltac:(lia)) as (s1 & E1 & R1 & Hc1 & Hm1 & Hp1). destruct (useek_at n s1 (cur s) R1 Hp1 ltac:(lia)) as (s2 & E2 & R2 & Hc2 & Hm2 & Hp2).
    exists s1, s2. rewrite E1, E2. split; [reflexivity|]. split; [|split; [reflexivity|]].
    - exists n, c0. split; [exact R1|]. split; [exact Hc1|]. split; [lia|]. split; [exact Hp1|]. split; [congruence | exact HW].
    - exists n, c. split; [exact R2|]. split; [congruence|]. split; [exact L|]. split; [exact Hp2|]. split; [congruence | exact Rt].
  Qed.
  Lemma unbuffered_get_start i s : unbuffered_at i s -> exists tk, s_get (k_base ts) s (Z.of_nat c0) = Val tk.
  Proof.
    intros (n & c & R & Hc & L & Hp & _). cbn [unbuffered_seek k_base s_get unbuffered_stream]. pose proof (r_base _ _ _ _ R) as Rb.
    rewrite (get_spec src b n s (Z.of_nat c0) R). destruct ((Z.of_nat b <=? Z.of_nat c0) && (Z.of_nat c0 <? Z.of_nat (b + n))) eqn:Q; [cbn; eauto | lia].
  Qed.
  Lemma unbuffered_release i s : unbuffered_at i s -> exists s', k_release ts s (- M) = Val s'.
  Proof.
    intros (n & c & R & Hc & L & Hp & Hm & _). cbn [unbuffered_seek k_release]. unfold trelease. rewrite Hm, Z.eqb_refl. cbn [negb]. cbv zeta.
    rewrite (r_toks _ _ _ _ R), zlen_map_seq. destruct ((M - 1 =? 0) && (p s >? 0)); [|cbn; eauto]. destruct (p s >? Z.of_nat n) eqn:Q; [lia | cbn; eauto].
  Qed.
End Unbuffered.

(** ** Both streams, and the DFAs that are left *)
Section Predictions.
  Variable a : atn.
  Hypothesis G : sound_grammar a.
  Hypothesis NS : no_stall a.
  Variable decision start rule : Z.
  Variable sd : atn_state.
  Hypothesis Hdecision : vget (decision_to_state a) decision = Some start.
  Hypothesis Hsd : state_at a start = Some sd.
  Hypothesis Hstop : ~ Ll1Spec.is_stop sd.
  Hypothesis Hrule : st_rule sd = rule.
  Hypothesis Hcalls : forall t, In t (st_trans sd) -> is_call t = false.
  Notation dok := (dok a 0 (Z.of_nat (length (st_trans sd)))).

  Lemma common_total order alt_order hash dhash share src ch sfuel e ctx sempred mode precedence (outer : ctx) main stack conts input ops clock d :
    orders_ok order alt_order -> contexts_ok hash share -> eof_number src e -> (e <= sfuel)%nat -> crun src ch sfuel (with_channel src) ops = Done input ->
    in_progress a main rule stack conts -> dok d ->
    tot (fun n => adaptive_predict (common_seek src ch sfuel) a ctx sempred order alt_order hash dhash share n mode precedence outer stack decision start d input clock)
      (fun r => dok (m_dfa (fst r))).
  Proof.
    intros (Ho & Ha) (Hh & Hsh) He Hf Hr Hp Hd. destruct (crun_reach src ch sfuel _ _ Hr) as (n & C & _).
    pose proof (crep_cur _ _ _ C) as Hcp. pose proof (r_p _ _ _ _ (proj1 C)) as Hpp.
    set (c0 := Z.to_nat (cur input)). assert (Hc0 : cur input = Z.of_nat c0) by (unfold c0; lia).
    assert (Lc : (c0 <= e)%nat).
    { pose proof (rep_noeof_cur src _ _ _ _ (proj1 C) Hc0) as No. destruct (Nat.le_gt_cases c0 e) as [H|H]; [exact H|]. destruct (No e H (proj1 He)). }
    destruct (read_word src (fun c => c = ch) (fun c => Z.eq_dec c ch) e c0 He Lc) as (W & HW).
    eapply tot_weaken; [intros r H; eapply dok_main, H|].
    eapply (predict_total (common_seek src ch sfuel) a main G NS ctx sempred order alt_order Ho Ha hash dhash share Hh Hsh mode (Z.of_nat c0) precedence outer rule stack conts Hp
      decision start sd Hdecision Hsd Hstop Hrule Hcalls W (common_at src ch c0 W)) with (Init := common_at src ch c0 W O).
    - intros i s. apply (common_lt src ch sfuel e He Hf).
    - intros i s. apply (common_consume src ch sfuel e He Hf).
    - intros i s. apply (common_back src ch sfuel e Hf c0 W HW).
    - intros s. apply (common_lt src ch sfuel e He Hf).
    - intros i s. apply (common_get_start src ch sfuel e Hf).
    - symmetry. exact Hc0.
    - cbn. exists n, c0. split; [exact C|]. split; [exact Hc0|]. split; [lia | exact HW].
    - intros s _. cbn. eauto.
    - eapply dok_main, Hd.
  Qed.
  Lemma unbuffered_total order alt_order hash dhash share src e ctx sempred mode precedence (outer : ctx) main stack conts input ops clock d :
    orders_ok order alt_order -> contexts_ok hash share -> eof_number src e -> trun src new_unbuffered ops = Done input ->
    in_progress a main rule stack conts -> dok d ->
    tot (fun n => adaptive_predict (unbuffered_seek src) a ctx sempred order alt_order hash dhash share n mode precedence outer stack decision start d input clock)
      (fun r => dok (m_dfa (fst r))).
  Proof.
    intros (Ho & Ha) (Hh & Hsh) He Hr Hp Hd. destruct (reach_rep src _ _ Hr) as (b & n & R).
    pose proof (r_base _ _ _ _ R) as Rb. pose proof (r_p _ _ _ _ R) as Hpp.
    set (c0 := Z.to_nat (cur input)). assert (Hc0 : cur input = Z.of_nat c0) by (unfold c0; lia).
    assert (Lc : (c0 <= e)%nat).
    { pose proof (rep_noeof_cur src _ _ _ _ R Hc0) as No. destruct (Nat.le_gt_cases c0 e) as [H|H]; [exact H|]. destruct (No e H (proj1 He)). }
    destruct (read_word src (fun _ => True) (fun _ => left Logic.I) e c0 He Lc) as (W & HW).
    eapply tot_weaken; [intros r H; eapply dok_main, H|].
    eapply (predict_total (unbuffered_seek src) a main G NS ctx sempred order alt_order Ho Ha hash dhash share Hh Hsh mode (Z.of_nat c0) precedence outer rule stack conts Hp
      decision start sd Hdecision Hsd Hstop Hrule Hcalls W (unbuffered_at src b c0 W (markers input + 1))) with (Init := unbuffered_init src b c0 (markers input + 1)).
    - intros i s. apply unbuffered_lt; lia.
    - intros i s. apply unbuffered_consume; lia.
    - intros i s. apply unbuffered_back; [lia | exact HW].
    - intros s. apply unbuffered_begin; [lia | exact HW].
    - intros i s. apply unbuffered_get_start; lia.
    - symmetry. exact Hc0.
    - exists n. split; [apply mark_spec, R|]. split; [exact Hc0 | reflexivity].
    - intros s A. cbn [unbuffered_seek k_mark tmark snd]. eapply unbuffered_release; [|exact A]. lia.
    - eapply dok_main, Hd.
  Qed.

  Lemma past_dok d : dfa_past a decision start rule d -> dok d.
  Proof.
    induction 1 as [prec | d order alt_order hash dhash share src ch sfuel e ctx sempred fuel mode precedence outer main stack conts input ops clock m r _ IH Ho Hc He Hf Hr Hp E
      | d order alt_order hash dhash share src e ctx sempred fuel mode precedence outer main stack conts input ops clock m r _ IH Ho Hc He Hr Hp E].
    - apply dok_new.
    - refine (tot_at (fun n => adaptive_predict (common_seek src ch sfuel) a ctx sempred order alt_order hash dhash share n mode precedence outer stack decision start d input clock)
        (fun r => dok (m_dfa (fst r))) fuel (m, r) _ _ E); [intros; apply predict_le | eapply common_total; eauto].
    - refine (tot_at (fun n => adaptive_predict (unbuffered_seek src) a ctx sempred order alt_order hash dhash share n mode precedence outer stack decision start d input clock)
        (fun r => dok (m_dfa (fst r))) fuel (m, r) _ _ E); [intros; apply predict_le | eapply unbuffered_total; eauto].
  Qed.
End Predictions.
Lemma tot_returns {A} (f : nat -> outcome A) P : tot f P -> returns f.
Proof. intros (r & _ & n & H). exists n, r. exact H. Qed.
