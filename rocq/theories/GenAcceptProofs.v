(** A generated parser accepts every sentence of its grammar. *)
From Coq Require Import ZArith List Bool Lia Permutation Relations Wellfounded.
From Verif Require Import CharStreamModel TokenStreamModel TokenStreamSpec TokenStreamProofs CommonTokenStreamProofs.
From Verif Require Import Outcome IntervalSetModel IntervalSetSpec IntervalSetProofs PredContextModel PredContextSpec SemContextModel ConfigSetModel DfaModel DfaProofs AtnModel AtnSpec Ll1Model Ll1Spec Ll1Proofs Ll1Props ParserModel PredictModel PredictSpec PredictLLSpec PredictTotalSpec.
From Verif Require Import PredictTotalBaseProofs PredictTotalStackProofs PredictTotalStreamProofs PredictTotalProps.
From Verif Require Import GenModel GenSpec GenBaseProofs GenStepProofs.
Import ListNotations.
Local Open Scope Z_scope.
Local Open Scope outcome_scope.

(** ** The grammar *)
Section Grammar.
  Variable a : atn.
  Hypothesis NS : no_stall a.

  Lemma quiet_acc_state q : forall l, (ends a q -> match l with f :: l' => Acc (fun y x => quiet a x y) (f, l') | [] => True end) -> Acc (fun y x => quiet a x y) (q, l).
  Proof.
    induction q as [q IH] using (well_founded_induction (next_wf a NS)). intros l Hl. constructor. intros [q' l'] Q.
    assert (St : (edge a q q' /\ l' = l) \/ (exists f, call a q q' f /\ l' = f :: l) \/ (stops a q /\ l = q' :: l')).
    { destruct Q as [M|M]; inversion M; subst.
      - left. split; [|reflexivity]. exists s, t. tauto.
      - right. left. eexists. split; [|reflexivity]. unfold call. eauto 8.
      - right. right. split; [|reflexivity]. unfold stops. eauto.
      - left. split; [|reflexivity]. exists s, t. repeat (split; [assumption|]). split; [destruct t; try reflexivity; destruct H6|]. auto. }
    destruct St as [(E & ->)|[(f & C & ->)|(Sp & ->)]].
    - apply IH; [apply next_edge; assumption|]. intros X. apply Hl. eapply ends_edge; eauto.
    - apply IH; [eapply next_call; eassumption|]. intros X. apply IH; [eapply next_follow; eassumption|]. intros X'. apply Hl. eapply ends_follow; eauto.
    - apply Hl. apply stops_ends, Sp.
  Qed.
  Lemma quiet_acc l : forall q, Acc (fun y x => quiet a x y) (q, l).
  Proof. induction l as [|f l IH]; intros q; apply quiet_acc_state; intros _; auto. Qed.

  (** progress: a move without a token, or a token less *)
  Definition goal : Type := (position * list Z)%type.
  Inductive adv : goal -> goal -> Prop :=
  | adv_quiet : forall p q w, quiet a p q -> adv (p, w) (q, w)
  | adv_take : forall p q x w, take a x p q -> adv (p, x :: w) (q, w).
  Lemma adv_acc w : forall p, Acc (fun y x => adv x y) (p, w).
  Proof.
    induction w as [|x w IH]; intros [q l]; induction (quiet_acc l q) as [p _ IHp]; constructor; intros y A; inversion A; subst; auto.
  Qed.
  Lemma advs_acc g : Acc (fun y x => clos_trans goal adv x y) g.
  Proof.
    destruct g as [p w]. assert (A : Acc (clos_trans goal (fun y x => adv x y)) (p, w)) by apply Acc_clos_trans, adv_acc.
    induction A as [g _ IH]. constructor. intros y T. apply IH. clear - T. induction T; [apply t_step; assumption|]. eapply t_trans; eauto.
  Qed.

  Lemma reaches_trans p q r : reaches a p q -> reaches a q r -> reaches a p r.
  Proof. intros A B. induction B; [exact A|]. eapply reaches_move; eauto. Qed.
  Lemma reaches_quiet p q : reaches a p q -> clos_refl_trans position (quiet a) p q.
  Proof. induction 1 as [|q r _ IH M]; [apply rt_refl|]. eapply rt_trans; [exact IH|]. apply rt_step. left. exact M. Qed.
  Lemma reaches_first p q : reaches a p q -> p = q \/ exists_state a (fst p).
  Proof.
    induction 1 as [|q r R [<-|IH] M]; [auto| |auto].
    right. inversion M; subst; cbn; unfold exists_state; congruence.
  Qed.
  (** no rule is left-recursive *)
  Lemma never_left_recursive : one_start a -> forall rule, ~ left_recursive a rule.
  Proof.
    intros One rule (start & i & st & s & g & f & r & p & Hs & Hr & R & E & Ns & I & Hg).
    assert (g = start) as -> by (apply One; [exists i, s, f, r, p; auto | exact Hs | congruence]).
    apply (NS start (f :: st)). apply clos_rt_t with (y := (i, st)); [apply reaches_quiet, R|]. apply t_step. left. eapply move_call; eauto.
  Qed.

  (** what comes next in a sentence *)
  Lemma run_next q0 p u e : run a p u e -> snd e = [] -> (exists s, state_at a (fst e) = Some s /\ Ll1Spec.is_stop s) ->
    forall i l conts, p = (i, l ++ conts) -> reaches a (q0, []) (i, l) ->
    can_finish a (q0, []) \/ exists x u', u = x :: u' /\ can_start_with a (q0, []) x.
  Proof.
    intros R. induction R as [p|p q w r M R IH|p x q w r T R IH]; intros He (s & Es & St) i l conts -> Re.
    - cbn in *. apply app_eq_nil in He as [-> ->]. left. exists i, s. auto.
    - inversion M; subst.
      + eapply IH; [exact He | eauto | reflexivity|]. eapply reaches_move; [exact Re|]. eapply move_epsilon; eauto.
      + eapply (IH He ltac:(eauto) g (f :: l) conts eq_refl). eapply reaches_move; [exact Re|]. eapply move_call; eauto.
      + destruct l as [|f0 l]; cbn in *; [left; exists i; eauto|]. match goal with H : _ :: _ = _ :: _ |- _ => inversion H; subst end.
        eapply (IH He ltac:(eauto) f0 l conts eq_refl). eapply reaches_move; [exact Re|]. eapply move_return; eauto.
    - right. exists x, w. split; [reflexivity|]. inversion T; subst. exists i, l. eauto 8.
  Qed.
  Lemma completes_next q i conts w n : completes a n (i, conts) w -> reaches a (q, []) (i, []) -> can_finish a (q, []) \/ can_start_with a (q, []) (hd TOKEN_EOF w).
  Proof.
    intros (e & s & R & E & St) Re. destruct (run_next q _ _ _ R eq_refl ltac:(eauto) i [] conts eq_refl Re) as [F|(x & u & Q & C)]; [auto|]. right.
    destruct w as [|y w]; cbn in *; [destruct n; cbn in Q; [discriminate|]|]; congruence.
  Qed.
  (** the first step of a sentence from a state that is not a stop state *)
  Definition first_step (s : atn_state) (conts w : list Z) (t : transition) : Prop :=
    (~ consuming t /\ is_call t = false /\ exists n, completes a n (get_target t, conts) w) \/
    (exists g f r pr, t = RuleTr g f r pr /\ exists n, completes a n (g, f :: conts) w) \/
    (symbols t 1 (max_token_type a) (hd TOKEN_EOF w) /\ exists n, completes a n (get_target t, conts) (tl w)).
  Lemma completes_step i s conts w n : completes a n (i, conts) w -> state_at a i = Some s -> ~ Ll1Spec.is_stop s ->
    exists t, In t (st_trans s) /\ first_step s conts w t /\ (~ consuming t -> is_call t = false -> completes a n (get_target t, conts) w).
  Proof.
    intros (e & se & R & E & St) Ei Ns. remember (w ++ repeat TOKEN_EOF n) as u. inversion R as [p Q1 Q2 Q3|p q v r M R' Q1 Q2 Q3|p x q v r T R' Q1 Q2 Q3]; subst.
    - congruence.
    - inversion M as [i0 st s0 t E0 N0 I0 C0 K0 A0 B0|i0 st s0 g f r0 p0 E0 N0 I0 A0 B0|i0 f st s0 E0 S0 A0 B0]; subst; rewrite Ei in E0; injection E0 as <-.
      + exists t. split; [exact I0|]. assert (C : completes a n (get_target t, conts) w) by (exists e, se; auto). split; [|auto]. left. eauto.
      + exists (RuleTr g f r0 p0). split; [exact I0|]. split; [|discriminate]. right. left. exists g, f, r0, p0. split; [reflexivity|]. exists n, e, se. auto.
      + contradiction.
    - inversion T as [i0 st s0 t E0 N0 I0 S0 A0 B0]; subst. rewrite Ei in E0; injection E0 as <-.
      exists t. split; [exact I0|]. split.
      + right. right. destruct w as [|y w]; cbn [app hd tl] in *.
        * destruct n as [|n]; [discriminate|]. cbn in Q2. injection Q2 as -> ->. split; [exact S0|]. exists n, e, se. auto.
        * injection Q2 as -> ->. split; [exact S0|]. exists n, e, se. auto.
      + intros Nc. exfalso. apply Nc. destruct t; cbn in *; auto; contradiction.
  Qed.
End Grammar.

(** ** The parser *)
Section Accept.
  Variable src : nat -> tok.
  Variable ch : Z.
  Variable sfuel : nat.
  Variable e : nat.
  Hypothesis He : eof_number src e.
  Hypothesis Hf : (e <= sfuel)%nat.
  Hypothesis H0 : starts_visible src ch.
  Notation ts := (common_seek src ch sfuel).
  Notation base := (common_stream src ch sfuel).
  Notation ahead := (ahead src ch sfuel).
  Notation parser := (parser uts).
  Implicit Types p : parser.
  Variable a : atn.
  Variable main : Z.
  Hypothesis Hg : simple_grammar a main.
  Hypothesis H1 : one_stop a.
  Hypothesis H2 : one_start a.
  Hypothesis NS : no_stall a.
  Variable names : naming.
  Variable sempred : uts -> option nat -> Z -> Z -> bool.
  Variable order : list nat -> list sem -> list sem.
  Variable alt_order : list (list Z) -> list (list Z).
  Variable hash : pctx -> Z.
  Variable dhash : list pconfig -> Z.
  Variable share : pctx -> pctx.
  Hypothesis Ho : orders_ok order alt_order.
  Hypothesis Hx : contexts_ok hash share.
  Variable clock : uts -> nat.
  Variable mode : pmode.
  Hypothesis Hm : mode <> SLL.
  Variable plan : Z -> Z -> list ParserModel.call.
  Hypothesis Hplan : plan_ok a plan.
  Variable switch : Z -> option (Z -> option Z).
  Hypothesis Hdec : decisions_ok a switch.
  Hypothesis Hsw : switches_ok a main switch.
  Variable plain : Z -> bool.
  Notation dfas_ok := (dfas_ok a order alt_order hash dhash share).
  Notation choose := (choose ts a sempred order alt_order hash dhash share clock mode switch).
  Notation rule_function := (rule_function ts a names plain).
  Notation walk := (walk ts a names sempred order alt_order hash dhash share clock mode plan switch plain).

  Lemma p_sync g p w i conts N f stack : strategy_ok a g -> ahead (p_input p) w -> inside p f stack ->
    completes a N (i, conts) w -> reaches a (p_state p, []) (i, []) -> exists_state a i ->
    exists n g' p', (forall fuel, (n <= fuel)%nat -> sync base a names fuel g p = Val (g', p', None)) /\ strategy_ok a g' /\ kept p p' /\ p_ctx p' = p_ctx p /\ ahead (p_input p') w.
  Proof.
    intros G A In C Re Ei. destruct g as [d|d]; [|exists O, (Bail d), p; split; [reflexivity|]; split; [exact G|]; split; [apply kept_refl|]; auto].
    destruct G as (Rec & Thin). cbn [sync]. unfold d_sync. rewrite Rec.
    destruct (p_la src ch sfuel e He Hf p w 1 A ltac:(lia)) as (s1 & x & E1 & A1 & T1). rewrite (T1 eq_refl) in E1. rewrite E1. cbn [obindo with_input p_state].
    assert (Eq : exists s, state_at a (p_state p) = Some s).
    { assert (X : exists_state a (p_state p)) by (destruct (reaches_first a _ _ Re) as [Q|Q]; [injection Q as Q; rewrite Q; exact Ei | exact Q]).
      unfold exists_state in X. destruct (state_at a (p_state p)); [eauto | congruence]. }
    destruct Eq as (s & Es). unfold get_state. change (vget (states a) (p_state p)) with (state_at a (p_state p)). rewrite Es. cbn [unwrap obindo].
    destruct (C47_exact_partial a (p_state p) s (proj1 Hg) (never_left_recursive a NS H2) Thin Es) as (n & r & Hr & _ & Ex).
    destruct In as (Hc & _).
    assert (K : kept p (with_input p s1)) by keep.
    destruct (contains r (hd TOKEN_EOF w)) eqn:Q1.
    - exists n. eexists _, _. split; [intros fuel L; rewrite (Hr fuel L); cbn [obindo]; rewrite Q1; reflexivity|]. split; [split; [first [exact Rec | reflexivity] | exact Thin]|]. auto.
    - assert (Q2 : contains r TOKEN_EPSILON = true).
      { apply Ex. right. split; [reflexivity|]. destruct (completes_next a (p_state p) i conts w N C Re) as [F|F]; [exact F|]. assert (X : contains r (hd TOKEN_EOF w) = true) by (apply Ex; auto). congruence. }
      destruct (nt_ctx d) eqn:Q3.
      + exists n. eexists _, _. split; [intros fuel L; rewrite (Hr fuel L); cbn [obindo]; rewrite Q1, Q2; reflexivity|]. split; [split; [first [exact Rec | reflexivity] | exact Thin]|]. auto.
      + exists n. eexists _, _. split; [intros fuel L; rewrite (Hr fuel L); cbn [obindo]; rewrite Q1, Q2; unfold get_ctx; cbn [with_input p_ctx]; rewrite Hc; reflexivity|]. split; [split; [first [exact Rec | reflexivity] | exact Thin]|]. auto.
  Qed.

  Lemma p_alt p w f stack l : ahead (p_input p) w -> inside p f stack ->
    exists p' f', (forall g fuel, run_call base a names fuel (CAlt l) g p f = Val (g, p', f', None)) /\ kept p p' /\ inside p' f' stack /\ f_parent f' = f_parent f /\ ahead (p_input p') w.
  Proof.
    intros A In. pose proof In as (Hc & Ch & x & Ex & Px). destruct l as [k|].
    - assert (Lf : (f_local f < length (p_heap p))%nat) by (apply nth_error_Some; congruence).
      cbn [run_call]. unfold deref. rewrite Ex. cbn [unwrap obindo alloc].
      set (q := with_heap p (p_heap p ++ [copy_from x k false])). set (i := length (p_heap p)).
      assert (Kq : kept p q) by (split; [reflexivity|]; split; [reflexivity|]; apply hext_app).
      assert (Iq : nth_error (p_heap q) i = Some (copy_from x k false)) by (cbn; rewrite nth_error_app2, PeanoNat.Nat.sub_diag; [reflexivity | reflexivity]).
      unfold enter_outer_alt. unfold get_ctx. change (p_ctx q) with (p_ctx p). rewrite Hc. cbn [unwrap obindo]. unfold deref.
      assert (Fq : nth_error (p_heap q) (f_local f) = Some x) by (cbn; rewrite nth_error_app1; assumption). rewrite Fq. cbn [unwrap obindo].
      set (q2 := if p_build q && negb (Nat.eqb i (f_local f)) then _ else _).
      assert (K2 : kept q q2 /\ p_input q2 = p_input p).
      { unfold q2. destruct (_ && _); [|split; [apply kept_refl | reflexivity]]. destruct (x_parent x) as [j|]; [|split; [apply kept_refl | reflexivity]].
        split; [|reflexivity]. eapply kept_trans; apply kept_modify; split; reflexivity. }
      destruct K2 as (K2 & I2). clearbody q2.
      assert (I3 : exists x2, nth_error (p_heap q2) i = Some x2 /\ x_parent x2 = x_parent x /\ x_invoking x2 = x_invoking x).
      { destruct K2 as (_ & _ & X). destruct (X i _ Iq) as (x2 & E2 & P2 & V2). exists x2. auto. }
      destruct I3 as (x2 & E2 & P2 & V2).
      unfold trigger_enter_rule_event, get_ctx. cbn [with_ctx p_ctx unwrap obindo]. unfold deref. cbn [with_ctx p_heap]. rewrite E2. cbn [unwrap obindo].
      eexists _, (set_local f i). split; [reflexivity|].
      assert (K3 : kept p (with_ctx q2 (Some i))) by (eapply kept_trans; [exact Kq|]; eapply kept_trans; [exact K2|]; split; [reflexivity|]; split; [reflexivity | apply hext_refl]).
      match goal with |- kept p ?z /\ _ => set (q3 := z) end.
      assert (K4 : kept p q3 /\ p_ctx q3 = Some i /\ p_heap q3 = p_heap q2 /\ p_input q3 = p_input q2).
      { unfold q3. destruct (x_plain x2); [|split; [exact K3 | auto]]. split; [exact K3 | auto]. }
      destruct K4 as (K4 & C4 & Hh4 & I4). split; [exact K4|]. split.
      + split; [exact C4|]. rewrite Hh4. cbn [set_local f_local f_parent]. split.
        * assert (Ch2 : chain (p_heap q2) (f_local f) stack) by (eapply chain_ext; [|exact Ch]; eapply hext_trans; [apply Kq | apply K2]).
          inversion Ch as [c0 x0 E0 P0 A0 B0|c0 x0 j st E0 P0 L0 C0 A0 B0]; subst; rewrite Ex in E0; injection E0 as <-; rewrite <- V2.
          -- apply chain_root; congruence.
          -- apply (chain_up _ _ _ j); [exact E2 | congruence | unfold i; lia|]. eapply chain_ext; [|exact C0]. eapply hext_trans; [apply Kq | apply K2].
        * exists x2. split; [exact E2 | congruence].
      + split; [reflexivity|]. rewrite I4, I2. exact A.
    - cbn [run_call enter_outer_alt obindo]. unfold trigger_enter_rule_event, get_ctx. rewrite Hc. cbn [unwrap obindo]. unfold deref. rewrite Ex. cbn [unwrap obindo].
      eexists _, f. split; [reflexivity|].
      match goal with |- kept p ?z /\ _ => set (q3 := z) end.
      assert (K4 : kept p q3 /\ p_ctx q3 = p_ctx p /\ p_input q3 = p_input p).
      { unfold q3. destruct (x_plain x); (split; [split; [reflexivity|]; split; [reflexivity | apply hext_refl] | auto]). }
      destruct K4 as (K4 & C4 & I4). split; [exact K4|]. split; [eapply inside_kept; eauto|]. split; [reflexivity|]. rewrite I4. exact A.
  Qed.

  Lemma p_plan i cs : plan_for a i cs -> exists_state a i -> forall g p f w conts N stack,
    strategy_ok a g -> ahead (p_input p) w -> inside p f stack -> completes a N (i, conts) w ->
    exists n g' p' f', (forall fuel, (n <= fuel)%nat -> run_calls base a names fuel cs g p f = Val (g', p', f', None)) /\
      strategy_ok a g' /\ kept p p' /\ inside p' f' stack /\ f_parent f' = f_parent f /\ ahead (p_input p') w.
  Proof.
    intros Pf Ei. induction Pf as [|q cs Pf IH|q cs Re Pf IH|k cs Hk Pf IH|l cs Pf IH]; intros g p f w conts N stack G A In C.
    - exists O, g, p, f. split; [reflexivity|]. split; [exact G|]. split; [apply kept_refl|]. auto.
    - destruct (IH g (set_state p q) f w conts N stack G A) as (n & g' & p' & f' & Hr & G' & K' & I' & P' & A'); [exact In | exact C|].
      exists n, g', p', f'. split; [intros fuel L; cbn [run_calls run_call obindo]; apply Hr, L|]. split; [exact G'|]. split; [eapply kept_trans; [|exact K']; split; [reflexivity|]; split; [reflexivity | apply hext_refl]|]. auto.
    - destruct (p_sync g (set_state p q) w i conts N f stack G A In C Re Ei) as (n1 & g1 & p1 & Hs & G1 & K1 & C1 & A1).
      destruct (IH g1 p1 f w conts N stack G1 A1) as (n & g' & p' & f' & Hr & G' & K' & I' & P' & A'); [eapply inside_kept; [exact In | exact K1 | exact C1] | exact C|].
      exists (Nat.max n1 n), g', p', f'. split; [intros fuel L; cbn [run_calls run_call obindo]; rewrite (Hs fuel ltac:(lia)); cbn [no_result obindo]; apply Hr; lia|].
      split; [exact G'|]. split; [eapply kept_trans; [exact K1 | exact K']|]. auto.
    - destruct (p_la src ch sfuel e He Hf p w k A Hk) as (s1 & x & E1 & A1 & _).
      destruct (IH g (with_input p s1) f w conts N stack G A1) as (n & g' & p' & f' & Hr & G' & K' & I' & P' & A'); [exact In | exact C|].
      exists n, g', p', f'. split; [intros fuel L; cbn [run_calls run_call]; rewrite E1; cbn [obindo]; apply Hr, L|]. split; [exact G'|]. split; [eapply kept_trans; [|exact K']; split; [reflexivity|]; split; [reflexivity | apply hext_refl]|]. auto.
    - destruct (p_alt p w f stack l A In) as (p1 & f1 & Hl & K1 & I1 & P1 & A1).
      destruct (IH g p1 f1 w conts N stack G A1 I1 C) as (n & g' & p' & f' & Hr & G' & K' & I' & P' & A').
      exists n, g', p', f'. split; [intros fuel L; cbn [run_calls]; rewrite Hl; cbn [obindo]; apply Hr, L|]. split; [exact G'|]. split; [eapply kept_trans; eauto|]. split; [exact I'|]. split; [congruence | exact A'].
  Qed.

  Lemma rule_state i s : state_at a i = Some s -> rule_of a i = st_rule s.
  Proof. unfold rule_of. intros ->. reflexivity. Qed.

  Lemma p_predict k i s d p w conts N j stack : state_at a i = Some s -> ~ Ll1Spec.is_stop s -> (forall t, In t (st_trans s) -> is_call t = false) ->
    vget (decision_to_state a) k = Some i -> dfa_past a k i (st_rule s) d -> dfa_history a order alt_order hash dhash share k i d ->
    in_progress a main (st_rule s) stack conts -> ahead (p_input p) w -> token_types a w -> viable a i conts w N j ->
    forall c, exists n m r, (forall fuel, (n <= fuel)%nat -> adaptive_predict ts a nat sempred order alt_order hash dhash share fuel mode (get_precedence p) c stack k i d (p_input p) (clock (p_input p)) = Val (m, r)) /\
      ahead (m_input m) w /\ dfa_past a k i (st_rule s) (m_dfa m) /\ dfa_history a order alt_order hash dhash share k i (m_dfa m) /\
      (Z.of_nat (length (dfa_states (m_dfa m))) < ERROR_DFA_STATE_REF -> exists j', r = Predicted j' /\ right_prediction a i conts w j').
  Proof.
    intros Ei Ns Nc Hk Past Hist Pr A Tt V c. pose proof A as ((ops & Hrun) & cc & Hc & Hw).
    destruct (C85_returns_right_partial a main Hg H1 NS k i (st_rule s) (conj Hk (ex_intro _ s (conj Ei (conj Ns (conj eq_refl Nc))))) order alt_order hash dhash share Ho Hx src ch sfuel e He Hf
      nat sempred mode (get_precedence p) c stack conts d (p_input p) ops (clock (p_input p)) cc w Hm Pr Past Hist Hrun Hc Hw Tt (ex_intro _ j (ex_intro _ N V))) as (n & m & r & E & R).
    exists n, m, r. split; [exact E|]. pose proof (E n (PeanoNat.Nat.le_refl n)) as En. split.
    - eapply ahead_predict; eauto.
    - split; [eapply past_common; eauto|]. split; [|exact R]. eapply history_predict; [exact Hist | exact En].
  Qed.

  Lemma dfas_set ds k i s d' ds' : dfas_ok ds -> state_at a i = Some s -> vget (decision_to_state a) k = Some i -> vset ds k d' = Some ds' ->
    dfa_past a k i (st_rule s) d' -> dfa_history a order alt_order hash dhash share k i d' -> dfas_ok ds'.
  Proof.
    intros (L & D) Ei Hk Hs Past Hist. destruct (vset_ok _ _ _ _ Hs) as (_ & L' & Get). split; [congruence|].
    intros k' start rule d (Hd & sd & Es & Nsd & Rsd & Csd) Q. rewrite Get in Q. destruct (Z.eqb_spec k' k) as [-> |Ne].
    - injection Q as <-. rewrite Hk in Hd. injection Hd as <-. rewrite Ei in Es. injection Es as <-. subst rule. auto.
    - apply (D k' start rule d); [|exact Q]. split; [exact Hd|]. exists sd. auto.
  Qed.

  Lemma p_choose i s conts w N p ds f stack : state_at a i = Some s -> ~ Ll1Spec.is_stop s -> completes a N (i, conts) w ->
    in_progress a main (st_rule s) stack conts -> ahead (p_input p) w -> token_types a w -> dfas_ok ds -> inside p f stack ->
    exists n p' ds' c, (forall fuel, (n <= fuel)%nat -> choose fuel i s p ds = Val (p', ds', c)) /\ kept p p' /\ p_ctx p' = p_ctx p /\ ahead (p_input p') w /\ dfas_ok ds' /\
      (c = DfaFull \/ exists t, c = Go t /\ In t (st_trans s) /\ first_step a s conts w t /\ (is_call t = true -> st_trans s = [t])).
  Proof.
    intros Ei Ns C Pr A Tt D In. destruct (completes_step a i s conts w N C Ei Ns) as (t & It & Ft & Ct).
    destruct (Hdec i s Ei Ns) as [(t0 & Q)|(All & Sw)].
    - exists O, p, ds, (Go t). unfold choose. rewrite Q in *. destruct It as [->|[]]. split; [reflexivity|]. split; [apply kept_refl|]. split; [reflexivity|]. split; [exact A|]. split; [exact D|].
      right. exists t. split; [reflexivity|]. split; [left; reflexivity|]. auto.
    - assert (One : (exists t0, st_trans s = [t0]) \/ (forall x, match st_trans s with [t] => x | _ => choose 0 i s p ds end = choose 0 i s p ds)).
      { destruct (st_trans s) as [|t0 [|t1 l]]; [right; reflexivity | left; eauto | right; reflexivity]. }
      destruct One as [(t0 & Q)|_].
      { exists O, p, ds, (Go t). unfold choose. rewrite Q in *. destruct It as [->|[]]. split; [reflexivity|]. split; [apply kept_refl|]. split; [reflexivity|]. split; [exact A|]. split; [exact D|].
        right. exists t. split; [reflexivity|]. split; [left; reflexivity|]. auto. }
      destruct (All t It) as (Nc & Kc). apply In_nth_error in It as (nt & Hn). set (j := Z.of_nat nt + 1).
      assert (V : viable a i conts w N j).
      { exists s, t. split; [exact Ei|]. split; [unfold j; lia|]. split; [replace (Z.to_nat (j - 1)) with nt by (unfold j; lia); exact Hn|]. apply Ct; assumption. }
      assert (Alt : forall j', (exists n', viable a i conts w n' j') -> exists t', alternative s j' = Val t' /\ List.In t' (st_trans s) /\ first_step a s conts w t' /\ is_call t' = false).
      { intros j' (n' & s' & t' & Es' & Lj & Nj & Cj). rewrite Ei in Es'. injection Es' as <-. exists t'. unfold alternative.
        destruct (Z.ltb_spec j' 1); [lia|]. rewrite Nj. split; [reflexivity|]. apply nth_error_In in Nj. split; [exact Nj|].
        destruct (All t' Nj) as (Nc' & Kc'). split; [left; eauto | exact Kc']. }
      assert (Step : exists n p' ds' c, (forall fuel, (n <= fuel)%nat ->
        match switch i with
        | Some f =>
            let! (p, x) := ParserModel.la base p 1 in
            match f x with
            | Some j => let! t := alternative s j in Val (p, ds, Go t)
            | None => let! e := no_alt_here ts p in Val (p, ds, Stuck e)
            end
        | None =>
            match st_type s with
            | DecisionState k _ _ =>
                let! d := unwrap (vget ds k) in
                let! c := get_ctx p in
                let! stack := ancestors (Datatypes.S (length (p_heap p))) (p_heap p) c in
                let! (m, r) := adaptive_predict ts a nat sempred order alt_order hash dhash share fuel mode (get_precedence p) c stack
                                 k i d (p_input p) (clock (p_input p)) in
                let p := with_input p (m_input m) in
                let! ds := unwrap (vset ds k (m_dfa m)) in
                if ERROR_DFA_STATE_REF <=? Z.of_nat (length (dfa_states (m_dfa m))) then Val (p, ds, DfaFull)
                else
                  match r with
                  | Predicted j => let! t := alternative s j in Val (p, ds, Go t)
                  | NoViableAlt t0 t1 => let! e := no_alt_full p t0 t1 in Val (p, ds, Stuck e)
                  end
            | _ => Panics
            end
        end = Val (p', ds', c)) /\ kept p p' /\ p_ctx p' = p_ctx p /\ ahead (p_input p') w /\ dfas_ok ds' /\
        (c = DfaFull \/ exists t, c = Go t /\ List.In t (st_trans s) /\ first_step a s conts w t /\ (is_call t = true -> st_trans s = [t]))).
      { destruct (switch i) as [ff|] eqn:Hs.
        - destruct (p_la src ch sfuel e He Hf p w 1 A ltac:(lia)) as (s1 & x & E1 & A1 & T1). rewrite (T1 eq_refl) in E1.
          destruct (Alt j ltac:(eauto)) as (t' & Et & It' & Ft' & Kt').
          exists O, (with_input p s1), ds, (Go t'). split.
          { intros fuel _. rewrite E1. cbn [obindo]. rewrite (Hsw i ff Hs stack conts w N j); [|rewrite (rule_state i s Ei); exact Pr | exact V]. rewrite Et. reflexivity. }
          split; [keep|]. split; [reflexivity|]. split; [exact A1|]. split; [exact D|]. right. exists t'. split; [reflexivity|]. split; [exact It'|]. split; [exact Ft' | congruence].
        - destruct Sw as [Sw|(k & greedy & b & Ty & Hk)]; [contradiction|]. rewrite Ty. pose proof D as (Ld & Dd).
          destruct (vget_some ds k) as (d & Ed); [rewrite Ld; eapply vget_lt; exact Hk|]. rewrite Ed. cbn [unwrap obindo].
          destruct (Dd k i (st_rule s) d) as (Past & Hist); [split; [exact Hk|]; exists s; split; [exact Ei|]; split; [exact Ns|]; split; [reflexivity | apply All] | exact Ed|].
          pose proof In as (Hc & Ch & _). unfold get_ctx. rewrite Hc. cbn [unwrap obindo].
          rewrite (chain_ancestors _ _ _ Ch) by (pose proof (chain_length _ _ _ Ch); lia). cbn [obindo].
          destruct (p_predict k i s d p w conts N j stack Ei Ns (fun t I => proj2 (All t I)) Hk Past Hist Pr A Tt V (f_local f)) as (n & m & r & E & A' & Past' & Hist' & R).
          destruct (vset_some ds k (m_dfa m)) as (ds' & Es'); [eapply vget_lt; exact Ed|].
          assert (D' : dfas_ok ds') by (eapply dfas_set; eauto).
          destruct (ERROR_DFA_STATE_REF <=? Z.of_nat (length (dfa_states (m_dfa m)))) eqn:Q.
          + exists n, (with_input p (m_input m)), ds', DfaFull. split; [intros fuel L; rewrite (E fuel L); cbn [obindo]; rewrite Es'; cbn [unwrap obindo]; rewrite Q; reflexivity|].
            split; [keep|]. split; [exact Hc|]. split; [exact A'|]. split; [exact D'|]. left. reflexivity.
          + destruct R as (j' & -> & Rp); [lia|]. destruct (Alt j' (proj1 Rp)) as (t' & Et & It' & Ft' & Kt').
            exists n, (with_input p (m_input m)), ds', (Go t'). split; [intros fuel L; rewrite (E fuel L); cbn [obindo]; rewrite Es'; cbn [unwrap obindo]; rewrite Q, Et; reflexivity|].
            split; [keep|]. split; [exact Hc|]. split; [exact A'|]. split; [exact D'|]. right. exists t'. split; [reflexivity|]. split; [exact It'|]. split; [exact Ft' | congruence]. }
      destruct Step as (n & p' & ds' & c & E & Rest). destruct (st_trans s) as [|t0 [|t1 l]] eqn:Q.
      + destruct nt; discriminate.
      + destruct nt as [|[|nt]]; [|discriminate..]. cbn in Hn. injection Hn as ->.
        exists O, p, ds, (Go t). unfold choose. rewrite Q. split; [reflexivity|]. split; [apply kept_refl|]. split; [reflexivity|]. split; [exact A|]. split; [exact D|].
        right. exists t. split; [reflexivity|]. split; [left; reflexivity|]. auto.
      + exists n, p', ds', c. split; [|exact Rest]. intros fuel L. unfold choose. rewrite Q. apply E, L.
  Qed.

  (** the rest of a rule body ended properly: at the stop state, where the rest of the
      sentence goes on *)
  Definition done (i : Z) (conts w : list Z) (p : parser) (f : frame) (stack : list Z) (g' : strategy) (p' : parser) (ds' : list pdfa) (f' : frame) : Prop :=
    exists stop s w' N, state_at a stop = Some s /\ Ll1Spec.is_stop s /\ clos_refl_trans goal (adv a) ((i, conts), w) ((stop, conts), w') /\
      completes a N (stop, conts) w' /\ strategy_ok a g' /\ kept p p' /\ inside p' f' stack /\ f_parent f' = f_parent f /\ ahead (p_input p') w' /\ token_types a w' /\ dfas_ok ds'.

  Lemma token_types_tl w : token_types a w -> token_types a (tl w).
  Proof.
    intros (A & B). destruct w as [|x w]; [split; assumption|]. cbn [tl]. split; [inversion A; assumption|]. intros X. specialize (B X). inversion B; assumption.
  Qed.
  Lemma completes_return stop s f conts w N : state_at a stop = Some s -> Ll1Spec.is_stop s -> completes a N (stop, f :: conts) w -> completes a N (f, conts) w.
  Proof.
    intros E St (k & sk & R & Ek & Sk). inversion R as [p0 Q1 Q2 Q3|p0 q v r M R' Q1 Q2 Q3|p0 x q v r T R' Q1 Q2 Q3]; subst.
    - inversion M; subst; [congruence..|]. exists k, sk. auto.
    - inversion T; subst. congruence.
  Qed.
  Lemma completes_over stop s w N : state_at a stop = Some s -> Ll1Spec.is_stop s -> completes a N (stop, []) w -> w = [].
  Proof.
    intros E St (k & sk & R & Ek & Sk). inversion R as [p0 Q1 Q2 Q3|p0 q v r M R' Q1 Q2 Q3|p0 x q v r T R' Q1 Q2 Q3]; subst.
    - symmetry in Q2. apply app_eq_nil in Q2. tauto.
    - inversion M; subst; congruence.
    - inversion T; subst. congruence.
  Qed.

  (** a call of a rule function *)
  Definition callers (p : parser) (stack : list Z) : Prop := match p_ctx p with None => stack = [] | Some c => chain (p_heap p) c stack end.
  Lemma p_rule rule g0 g p ds w conts stack :
    callers p stack -> ahead (p_input p) w ->
    (forall p1 f1, kept p p1 -> inside p1 f1 (p_state p :: stack) -> ahead (p_input p1) w ->
      exists n g' p' ds' f' r, (forall fuel, (n <= fuel)%nat -> walk fuel (-1) g0 g p1 ds f1 = Val (g', p', ds', f', r)) /\
        (r = Full \/ r = Ended /\ done g0 conts w p1 f1 (p_state p :: stack) g' p' ds' f')) ->
    exists n g' p' ds' r, (forall fuel, (n <= fuel)%nat -> rule_function fuel (walk fuel (-1) g0) rule g0 g p ds = Val (g', p', ds', r)) /\
      (r = Full \/ r = Ended /\ p_ctx p' = p_ctx p /\ p_state p' = p_state p /\ kept p p' /\
        exists stop s w' N, state_at a stop = Some s /\ Ll1Spec.is_stop s /\ clos_refl_trans goal (adv a) ((g0, conts), w) ((stop, conts), w') /\
          completes a N (stop, conts) w' /\ strategy_ok a g' /\ ahead (p_input p') w' /\ token_types a w' /\ dfas_ok ds').
  Proof.
    intros Cs A Body. unfold rule_function. cbn [alloc k_base common_seek]. set (x := new_parser_ctx (p_ctx p) (p_state p) rule 0 (plain rule)). set (c := length (p_heap p)).
    set (q := with_heap p (p_heap p ++ [x])).
    assert (Kq : kept p q) by (split; [reflexivity|]; split; [reflexivity|]; apply hext_app).
    assert (Xq : nth_error (p_heap q) c = Some x) by (cbn; unfold c; rewrite nth_error_app2, PeanoNat.Nat.sub_diag; reflexivity).
    assert (Cq : chain (p_heap q) c (p_state p :: stack)).
    { unfold callers in Cs. destruct (p_ctx p) as [c0|] eqn:Q.
      - apply (chain_up _ c x c0 stack Xq); [reflexivity | apply chain_length in Cs; exact Cs|]. eapply chain_ext; [apply hext_app | exact Cs].
      - subst stack. apply (chain_root _ c x Xq). reflexivity. }
    destruct (p_enter src ch sfuel e He Hf q w c g0 x A Xq) as (p1 & E1 & K1 & C1 & A1).
    set (f1 := Frame c (p_ctx p) (p_state p) g0 rule).
    assert (I1 : inside p1 f1 (p_state p :: stack)).
    { split; [exact C1|]. split; [eapply chain_ext; [apply K1 | exact Cq]|]. destruct K1 as (_ & _ & X). destruct (X c x Xq) as (x' & E' & P' & _). exists x'. split; [exact E' | exact P']. }
    destruct (Body p1 f1) as (n & g' & p2 & ds' & f2 & r & Ew & Rw); [eapply kept_trans; eauto | exact I1 | exact A1|].
    destruct Rw as [-> |(-> & stop & s & w' & N & Es & St & Ad & C & G' & K' & I' & P' & A' & T' & D')].
    - exists n, g', p2, ds', Full. split; [|left; reflexivity]. intros fuel L. rewrite E1. cbn [obindo]. fold f1. rewrite (Ew fuel L). reflexivity.
    - destruct (p_exit src ch sfuel e He Hf H0 p2 w' f2 _ _ _ A' I' eq_refl) as (p3 & E3 & K3 & C3 & S3 & A3).
      exists n, g', p3, ds', Ended. split.
      + intros fuel L. rewrite E1. cbn [obindo]. fold f1. rewrite (Ew fuel L). cbn [obindo catch]. rewrite E3. reflexivity.
      + right. split; [reflexivity|]. split; [rewrite C3, P'; reflexivity|]. split; [exact S3|]. split; [eapply kept_trans; [exact Kq|]; eapply kept_trans; [exact K1|]; eapply kept_trans; eauto|].
        exists stop, s, w', N. auto 12.
  Qed.

  Lemma done_from i conts w i' w' p f p2 f2 stack g' p' ds' f' : clos_refl_trans goal (adv a) ((i, conts), w) ((i', conts), w') -> kept p p2 -> f_parent f2 = f_parent f ->
    done i' conts w' p2 f2 stack g' p' ds' f' -> done i conts w p f stack g' p' ds' f'.
  Proof.
    intros R K P (stop & s & w2 & N & Es & St & Ad & C & G & K' & I & P' & A & T & D). exists stop, s, w2, N. split; [exact Es|]. split; [exact St|]. split; [eapply rt_trans; eauto|].
    split; [exact C|]. split; [exact G|]. split; [eapply kept_trans; eauto|]. split; [exact I|]. split; [congruence|]. auto.
  Qed.
  Lemma walk_S n from i g p ds f : walk (Datatypes.S n) from i g p ds f =
        let! (g, p, f, r) := run_calls base a names n (plan from i) g p f in
        match r with
        | Some e => Val (g, p, ds, f, Raised e)
        | None =>
            let! s := get_state a i in
            match st_type s with
            | RuleStopState => Val (g, p, ds, f, Ended)
            | _ =>
                let! (p, ds, c) := choose n i s p ds in
                match c with
                | Stuck e => Val (g, p, ds, f, Raised e)
                | DfaFull => Val (g, p, ds, f, Full)
                | Go t =>
                    match t with
                    | RuleTr start follow rule _ =>
                        let! (g, p, ds, r) := rule_function n (walk n (-1) start) rule start g (set_state p i) ds in
                        match r with
                        | Ended => walk n i follow g p ds f
                        | r => Val (g, p, ds, f, r)
                        end
                    | Atom target _ | Wildcard target | Range target _ _ | SetTr target _ | NotSet target _ =>
                        let! (g, p, r) := match_label ts a names n t g (set_state p i) in
                        match r with
                        | None => walk n i target g p ds f
                        | Some e => Val (g, p, ds, f, Raised e)
                        end
                    | Epsilon target _ | Action target _ _ _ _ => walk n i target g p ds f
                    | PredicateTr _ _ _ _ | PrecedenceTr _ _ => Panics
                    end
                end
            end
        end.
  Proof. reflexivity. Qed.

  Lemma p_walk gl : forall i conts w, gl = ((i, conts), w) ->
    forall from g p ds f stack N, exists_state a i -> in_progress a main (rule_of a i) stack conts ->
    inside p f stack -> ahead (p_input p) w -> token_types a w -> dfas_ok ds -> strategy_ok a g -> completes a N (i, conts) w ->
    exists n g' p' ds' f' r, (forall fuel, (n <= fuel)%nat -> walk fuel from i g p ds f = Val (g', p', ds', f', r)) /\
      (r = Full \/ r = Ended /\ done i conts w p f stack g' p' ds' f').
  Proof.
    induction (advs_acc a NS gl) as [gl _ IH]. intros i conts w -> from g p ds f stack N Ei Pr In A Tt D G C.
    assert (IHn : forall i' conts' w', clos_trans goal (adv a) ((i, conts), w) ((i', conts'), w') ->
      forall from g p ds f stack N, exists_state a i' -> in_progress a main (rule_of a i') stack conts' ->
      inside p f stack -> ahead (p_input p) w' -> token_types a w' -> dfas_ok ds -> strategy_ok a g -> completes a N (i', conts') w' ->
      exists n g' p' ds' f' r, (forall fuel, (n <= fuel)%nat -> walk fuel from i' g p ds f = Val (g', p', ds', f', r)) /\
        (r = Full \/ r = Ended /\ done i' conts' w' p f stack g' p' ds' f')).
    { intros i' conts' w' T. exact (IH _ T i' conts' w' eq_refl). }
    clear IH. rename IHn into IH.
    destruct (p_plan i (plan from i) (Hplan from i) Ei g p f w conts N stack G A In C) as (n1 & g1 & p1 & f1 & R1 & G1 & K1 & I1 & P1 & A1).
    unfold exists_state in Ei. destruct (state_at a i) as [s|] eqn:Es; [clear Ei|congruence].
    assert (Gs : get_state a i = Val s) by (unfold get_state; change (vget (states a) i) with (state_at a i); rewrite Es; reflexivity).
    assert (Dec : Ll1Spec.is_stop s \/ ~ Ll1Spec.is_stop s) by (unfold Ll1Spec.is_stop; destruct (st_type s); auto; right; discriminate).
    destruct Dec as [St|Ns].
    { exists (Datatypes.S n1), g1, p1, ds, f1, Ended. split.
      - intros [|fuel] L; [lia|]. rewrite walk_S, R1 by lia. cbn [obindo]. rewrite Gs. cbn [obindo]. unfold Ll1Spec.is_stop in St. rewrite St. reflexivity.
      - right. split; [reflexivity|]. exists i, s, w, N. split; [exact Es|]. split; [exact St|]. split; [apply rt_refl|]. auto 12. }
    rewrite (rule_state i s Es) in Pr.
    destruct (p_choose i s conts w N p1 ds f1 stack Es Ns C Pr A1 Tt D I1) as (n2 & p2 & ds2 & c & R2 & K2 & C2 & A2 & D2 & Hc).
    assert (I2 : inside p2 f1 stack) by (eapply inside_kept; eauto).
    assert (K12 : kept p p2) by (eapply kept_trans; eauto).
    assert (NSt : forall B (X Y : B), match st_type s with RuleStopState => X | _ => Y end = Y) by (intros; unfold Ll1Spec.is_stop in Ns; destruct (st_type s); congruence).
    destruct Hc as [-> |(t & -> & It & Ft & Kt)].
    { exists (Datatypes.S (Nat.max n1 n2)), g1, p2, ds2, f1, Full. split; [|left; reflexivity].
      intros [|fuel] L; [lia|]. rewrite walk_S, R1 by lia. cbn [obindo]. rewrite Gs. cbn [obindo]. rewrite NSt, R2 by lia. reflexivity. }
    destruct (proj2 (proj1 Hg) i s Es) as (_ & Wt). specialize (Wt Ns t It). destruct Wt as (Et & _ & Rt).
    destruct Ft as [(Nc & Kc & N' & C')|[(g0 & fo & r0 & pr & -> & N' & C')|(Sy & N' & C')]].
    - (* epsilon, action *)
      assert (Step : adv a ((i, conts), w) ((get_target t, conts), w)) by (apply adv_quiet; left; eapply move_epsilon; eauto).
      assert (Ru : rule_of a (get_target t) = st_rule s) by (destruct t; try exact Rt; discriminate).
      destruct (IH (get_target t) conts w (t_step _ _ _ _ Step) i g1 p2 ds2 f1 stack N' Et ltac:(rewrite Ru; exact Pr) I2 A2 Tt D2 G1 C') as (n3 & g3 & p3 & ds3 & f3 & r & R3 & Q3).
      exists (Datatypes.S (Nat.max n1 (Nat.max n2 n3))), g3, p3, ds3, f3, r. split.
      + intros [|fuel] L; [lia|]. rewrite walk_S, R1 by lia. cbn [obindo]. rewrite Gs. cbn [obindo]. rewrite NSt, R2 by lia. cbn [obindo].
        pose proof (proj1 (proj1 (proj2 Hg) i s Es) t It) as Np. destruct t; cbn [consuming is_call get_target] in *; try contradiction; try discriminate; try (exfalso; apply Nc; exact Logic.I); apply R3; lia.
      + destruct Q3 as [-> |(-> & Dn)]; [left; reflexivity|]. right. split; [reflexivity|]. eapply done_from; [apply rt_step, Step | exact K12 | exact P1 | exact Dn].
    - (* call *)
      cbn [get_target] in *. destruct Rt as (Efo & Rfo).
      assert (Call : adv a ((i, conts), w) ((g0, fo :: conts), w)) by (apply adv_quiet; left; eapply move_call; eauto).
      destruct (p_rule r0 g0 g1 (set_state p2 i) ds2 w (fo :: conts) stack) as (n3 & g3 & p3 & ds3 & r & R3 & Q3).
      { unfold callers. cbn [set_state p_ctx p_heap]. rewrite (proj1 I2). apply I2. }
      { exact A2. }
      { intros px fx Kx Ix Ax. apply (IH g0 (fo :: conts) w (t_step _ _ _ _ Call) (-1) g1 px ds2 fx (i :: stack) N'); auto.
        eapply progress_call; eauto. }
      destruct Q3 as [-> |(-> & C3 & S3 & K3 & stop & sk & w3 & N3 & Ek & Sk & Ad & Ck & G3 & A3 & T3 & D3)].
      { exists (Datatypes.S (Nat.max n1 (Nat.max n2 n3))), g3, p3, ds3, f1, Full. split; [|left; reflexivity].
        intros [|fuel] L; [lia|]. rewrite walk_S, R1 by lia. cbn [obindo]. rewrite Gs. cbn [obindo]. rewrite NSt, R2 by lia. cbn [obindo]. rewrite R3 by lia. reflexivity. }
      assert (Ret : clos_trans goal (adv a) ((i, conts), w) ((fo, conts), w3)).
      { apply clos_rt_t with (y := ((stop, fo :: conts), w3)); [eapply rt_trans; [apply rt_step, Call | exact Ad]|]. apply t_step, adv_quiet. left. eapply move_return; eauto. }
      assert (K23 : kept p2 p3) by (eapply kept_trans; [|exact K3]; split; [reflexivity|]; split; [reflexivity | apply hext_refl]).
      destruct (IH fo conts w3 Ret i g3 p3 ds3 f1 stack N3 Efo ltac:(rewrite Rfo; exact Pr) ltac:(eapply inside_kept; [exact I2 | exact K23 | exact C3]) A3 T3 D3 G3 (completes_return _ _ _ _ _ _ Ek Sk Ck)) as (n4 & g4 & p4 & ds4 & f4 & r & R4 & Q4).
      exists (Datatypes.S (Nat.max n1 (Nat.max n2 (Nat.max n3 n4)))), g4, p4, ds4, f4, r. split.
      + intros [|fuel] L; [lia|]. rewrite walk_S, R1 by lia. cbn [obindo]. rewrite Gs. cbn [obindo]. rewrite NSt, R2 by lia. cbn [obindo]. rewrite R3 by lia. cbn [obindo]. apply R4. lia.
      + destruct Q4 as [-> |(-> & Dn)]; [left; reflexivity|]. right. split; [reflexivity|]. eapply done_from; [apply clos_t_rt, Ret | eapply kept_trans; [exact K12 | exact K23] | exact P1 | exact Dn].
    - (* a token *)
      assert (Step : adv a ((i, conts), w) ((get_target t, conts), tl w)).
      { destruct w as [|x w]; cbn [hd tl] in *; [apply adv_quiet; right | apply adv_take]; eapply take_token; eauto. }
      assert (Ru : rule_of a (get_target t) = st_rule s) by (destruct t; try exact Rt; contradiction).
      destruct (p_take src ch sfuel e He Hf a names t g1 (set_state p2 i) w A2 G1) as (g3 & p3 & R3 & G3 & K3 & C3 & A3); [exists (f_local f1); apply I2 | exact Sy|].
      assert (K23 : kept p2 p3) by (eapply kept_trans; [|exact K3]; split; [reflexivity|]; split; [reflexivity | apply hext_refl]).
      destruct (IH (get_target t) conts (tl w) (t_step _ _ _ _ Step) i g3 p3 ds2 f1 stack N' Et ltac:(rewrite Ru; exact Pr) ltac:(eapply inside_kept; [exact I2 | exact K23 | exact C3]) A3 (token_types_tl w Tt) D2 G3 C') as (n4 & g4 & p4 & ds4 & f4 & r & R4 & Q4).
      exists (Datatypes.S (Nat.max n1 (Nat.max n2 n4))), g4, p4, ds4, f4, r. split.
      + intros [|fuel] L; [lia|]. rewrite walk_S, R1 by lia. cbn [obindo]. rewrite Gs. cbn [obindo]. rewrite NSt, R2 by lia. cbn [obindo].
        destruct t; cbn [symbols get_target] in *; try contradiction; rewrite R3; cbn [obindo]; apply R4; lia.
      + destruct Q4 as [-> |(-> & Dn)]; [left; reflexivity|]. right. split; [reflexivity|]. eapply done_from; [apply rt_step, Step | eapply kept_trans; [exact K12 | exact K23] | exact P1 | exact Dn].
  Qed.

  (** ** The start rule *)
  Lemma p_parse rule start g p ds w N : exists_state a start -> rule_of a start = main ->
    strategy_ok a g -> outside p -> ahead (p_input p) w -> token_types a w -> dfas_ok ds -> completes a N (start, []) w ->
    exists n g' p' ds' r, (forall fuel, (n <= fuel)%nat -> parse ts a names sempred order alt_order hash dhash share clock mode plan switch plain fuel rule start g p ds = Val (g', p', ds', r)) /\
      (r = Full \/ r = Ended /\ strategy_ok a g' /\ outside p' /\ p_notices p' = p_notices p /\ p_errors p' = p_errors p /\ ahead (p_input p') [] /\ dfas_ok ds').
  Proof.
    intros Es Rs G (Oc & Os) A T D C.
    destruct (p_rule rule start g p ds w [] []) as (n & g' & p' & ds' & r & R & Q).
    - unfold callers. rewrite Oc. reflexivity.
    - exact A.
    - intros p1 f1 K1 I1 A1. rewrite Os in *. eapply p_walk; eauto. rewrite Rs. constructor.
    - exists n, g', p', ds', r. split; [exact R|]. destruct Q as [-> |(-> & C' & S' & K' & stop & s & w' & N' & E' & St' & _ & Cp & G' & A' & _ & D')]; [left; reflexivity|].
      right. split; [reflexivity|]. split; [exact G'|]. split; [split; congruence|]. destruct K' as (Kn & Ke & _). split; [exact Kn|]. split; [exact Ke|]. split; [|exact D'].
      rewrite (completes_over stop s w' N' E' St' Cp) in A'. exact A'.
  Qed.
End Accept.
