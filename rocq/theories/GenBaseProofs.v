(** The operations of a parser on the common token stream, on valid input. *)
From Coq Require Import ZArith List Bool Lia Permutation Relations.
From Verif Require Import CharStreamModel TokenStreamModel TokenStreamSpec TokenStreamProofs CommonTokenStreamProofs.
From Verif Require Import Outcome IntervalSetModel PredContextModel PredContextSpec SemContextModel ConfigSetModel DfaModel AtnModel AtnSpec Ll1Model Ll1Spec ParserModel PredictModel PredictSpec PredictLLSpec PredictTotalSpec.
From Verif Require Import PredictTotalBaseProofs PredictTotalStreamProofs PredictFrameProofs PredictStreamProofs.
From Verif Require Import GenModel GenSpec.
Import ListNotations.
Local Open Scope Z_scope.
Local Open Scope outcome_scope.

Lemma crun_app src ch fuel : forall ops ops' s, crun src ch fuel s (ops ++ ops') =
  match crun src ch fuel s ops with Done s' => crun src ch fuel s' ops' | Crash => Crash | OutOfFuel => OutOfFuel end.
Proof. induction ops as [|o ops IH]; intros ops' s; cbn; [reflexivity|]. destruct (cstep src ch fuel s o); cbn; auto. Qed.
Lemma history_step src ch fuel s o s' : common_history src ch fuel s -> cstep src ch fuel s o = Done s' -> common_history src ch fuel s'.
Proof. intros (ops & H) E. exists (ops ++ [o]). rewrite crun_app, H. cbn. rewrite E. reflexivity. Qed.

Section Stream.
  Variable src : nat -> tok.
  Variable ch : Z.
  Variable sfuel : nat.
  Variable e : nat.
  Hypothesis He : eof_number src e.
  Hypothesis Hf : (e <= sfuel)%nat.
  Hypothesis H0 : starts_visible src ch.
  Notation ts := (common_seek src ch sfuel).
  Notation base := (common_stream src ch sfuel).
  Notation ahead := (ahead src ch sfuel).

  Lemma ahead_rep s w : ahead s w -> exists n c, crep src n s /\ cur s = Z.of_nat c /\ read_types src (fun k => k = ch) c w.
  Proof. intros ((ops & H) & c & Hc & R). destruct (crun_reach src ch sfuel _ _ H) as (n & C & _). eauto. Qed.
  Lemma ahead_look s w k : ahead s w -> 1 <= k -> exists s' t, s_lt base s k = Val (s', Some t) /\ ahead s' w /\ (k = 1 -> t_type t = hd TOKEN_EOF w).
  Proof.
    intros A Hk. destruct (ahead_rep s w A) as (n & c & C & Hc & R). destruct A as (Hh & _). cbn [s_lt common_stream].
    destruct (clt_spec src ch sfuel n s c k e C Hc Hk (proj1 He) ltac:(lia)) as (s2 & n2 & j & E2 & C2 & _ & Hc2 & _ & _ & K).
    rewrite E2. cbn [of_out]. eexists s2, _. split; [reflexivity|]. split.
    - split; [apply (history_step src ch sfuel s (CLt k)); [exact Hh|]; cbn [cstep]; rewrite E2; reflexivity|]. exists c. split; [congruence | exact R].
    - intros ->. assert (j = c) as -> by (inversion K; subst; [reflexivity | match goal with K0 : kth_visible _ _ _ 0 _ |- _ => inversion K0 end..]).
      cbn. destruct R; cbn; auto.
  Qed.
  Lemma prev_exists : forall c, (0 < c)%nat -> exists j, prev_on_channel src ch c j.
  Proof.
    induction c as [|c IH]; [lia|]. intros _. destruct (Z.eq_dec (t_channel (src c)) ch) as [E|N].
    - exists c. split; [lia|]. split; [exact E|]. intros m Hm. lia.
    - destruct c as [|c]; [contradiction|]. destruct (IH ltac:(lia)) as (j & L & V & B). exists j. split; [lia|]. split; [exact V|].
      intros m Hm. destruct (Nat.eq_dec m (S c)) as [->|]; [exact N | apply B; lia].
  Qed.
  Lemma ahead_behind s w : ahead s w -> exists o, s_lt base s (-1) = Val (s, o).
  Proof.
    intros A. destruct (ahead_rep s w A) as (n & c & C & Hc & R). cbn [s_lt common_stream].
    pose proof (crep_cur _ _ _ C) as Hp. destruct c as [|c].
    - exists None. unfold clt, lb. rewrite Hp, Hc. reflexivity.
    - destruct (prev_exists (S c) ltac:(lia)) as (j & P).
      assert (L : (S c <= e)%nat).
      { pose proof (rep_noeof_cur src _ _ _ _ (proj1 C) Hc) as No. destruct (Nat.le_gt_cases (S c) e) as [H|H]; [exact H|]. destruct (No e H (proj1 He)). }
      pose proof (lb_found src ch sfuel n s (S c) 1 j C Hc ltac:(lia) ltac:(lia) (kb_one _ _ _ _ P)) as E. change (- (1)) with (-1) in E. rewrite E. cbn. eauto.
  Qed.
  Lemma ahead_get s w : ahead s w -> exists t, s_get base s (s_index base s) = Val t /\ t_type t = hd TOKEN_EOF w.
  Proof.
    intros A. destruct (ahead_rep s w A) as (n & c & C & Hc & R). cbn [s_get s_index common_stream]. pose proof (crep_cur _ _ _ C) as Hp. destruct C as (Rp & Hlt).
    rewrite (get_spec src 0 n s (cur s) Rp). destruct ((Z.of_nat 0 <=? cur s) && (cur s <? Z.of_nat (0 + n))) eqn:Q; [|lia].
    cbn. eexists. split; [reflexivity|]. rewrite Hc, Nat2Z.id. destruct R; cbn; auto.
  Qed.
  Lemma ahead_consume s x w : ahead s (x :: w) -> exists s', s_consume base s = Val s' /\ ahead s' w.
  Proof.
    intros A. destruct (ahead_rep s _ A) as (n & c & C & Hc & R). destruct A as (Hh & _). cbn [s_consume common_stream]. inversion R as [|? w' Ne Hv Q1 Q2]; subst.
    destruct (proj2 (cconsume_spec src ch sfuel n s c C Hc) e) as (s2 & n2 & j & E2 & C2 & _ & Hc2 & _ & F2); [assumption | apply He | lia |].
    rewrite E2. cbn [of_out]. exists s2. split; [reflexivity|]. split; [apply (history_step src ch sfuel s CConsume); assumption|].
    exists j. split; [exact Hc2|]. eapply visible_next; eauto.
  Qed.
  Lemma ahead_no_eof s w : ahead s w -> ~ In TOKEN_EOF w.
  Proof. intros A. destruct (ahead_rep s w A) as (n & c & _ & _ & R). eapply read_no_eof; eauto. Qed.
  (** a prediction leaves the stream as it was, but for buffered tokens *)
  Lemma ahead_predict a ctx sempred order alt_order hash dhash share fuel mode precedence outer stack decision start d s clock m r w :
    ahead s w ->
    adaptive_predict ts a ctx sempred order alt_order hash dhash share fuel mode precedence outer stack decision start d s clock = Val (m, r) ->
    ahead (m_input m) w.
  Proof.
    intros (Hh & c & Hc & R) E.
    destruct (@adaptive_frame uts _ (common_laws src ch sfuel)) with (Q := common_history src ch sfuel) (5 := E) as (Ei & _ & K); cbn [common_seek k_base k_seek k_mark k_release common_stream s_lt s_consume s_index fst]; auto.
    - intros s1 s' t Hx H. apply of_out_val in H. apply (history_step _ _ _ s1 (CLt 1) s' Hx). cbn [cstep]. rewrite H. reflexivity.
    - intros s1 s' Hx H. apply of_out_val in H. exact (history_step _ _ _ s1 CConsume s' Hx H).
    - intros s1 i s' Hx H. apply of_out_val in H. exact (history_step _ _ _ s1 (CSeek i) s' Hx H).
    - cbn [common_seek k_base common_stream s_index] in Ei. split; [destruct r; [destruct K as (s1 & K & Ks); inversion Ks; subst|]; auto|]. exists c. split; [congruence | exact R].
  Qed.
End Stream.
