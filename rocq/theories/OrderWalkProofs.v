(** The loop of operators in the parser: it is left when it should be (C101). *)
From Coq Require Import ZArith List Bool Lia Permutation.
From Verif Require Import CharStreamModel TokenStreamModel TokenStreamSpec TokenStreamProofs CommonTokenStreamProofs.
From Verif Require Import Outcome IntervalSetModel IntervalSetSpec PredContextModel SemContextModel ConfigSetModel DfaModel AtnModel AtnSpec Ll1Model Ll1Spec ParserModel ParserSpec ParserTreeProofs ParserRunProofs ParserEventProofs ParserStreamProofs.
From Verif Require Import PredictModel GenModel GenSpec GenBaseProofs GenStepProofs GenSoundProofs RecModel RecSpec RecCallsProofs RecSoundProofs RecTreeProofs RecBuildSpec RecBuildProofs RecDerivProofs DfaProofs.
From Verif Require Import PredictFrameProofs PredictLLSpec OperatorSpec OperatorExecProofs OperatorProps OrderSpec OrderTreeProofs.
Import ListNotations.
Local Open Scope Z_scope.
Local Open Scope outcome_scope.

Section Deriv.
  Variable src : nat -> tok.
  Variable ch : Z.
  Variable sfuel : nat.
  Variable e : nat.
  Hypothesis He : eof_number src e.
  Hypothesis Hf : (e <= sfuel)%nat.
  Notation ts := (common_seek src ch sfuel).
  Notation base := (common_stream src ch sfuel).
  Notation ahead := (ahead src ch sfuel).
  Notation parser := (parser uts).
  Implicit Types p : parser.
  Notation mode := in_error_recovery_mode.
  Notation reading := (reading src ch).
  Notation past := (read_so_far src ch).
  Notation Hist := (common_history src ch sfuel e He Hf).
  Notation flat := (flat reading past).
  Notation same_past := (same_past src ch).
  Notation still := (still src ch sfuel).
  Variable a : atn.
  Variable names : naming.
  Variable recursive : Z -> bool.
  Variable pred : parser -> frame -> Z -> Z -> bool.
  Variable sempred : uts -> option nat -> Z -> Z -> bool.
  Variable order : list nat -> list sem -> list sem.
  Variable alt_order : list (list Z) -> list (list Z).
  Variable hash : pctx -> Z.
  Variable dhash : list pconfig -> Z.
  Variable share : pctx -> pctx.
  Variable clock : uts -> nat.
  Variable pred_mode : pmode.
  Variable plan : Z -> Z -> list ParserModel.call.
  Variable switch : Z -> option (Z -> option Z).
  Variable plain : Z -> bool.
  Variable pred_text : Z -> Z -> text.
  Variable pred_message : Z -> Z -> option text.
  Variable fuel : nat.
  Hypothesis Hwf : well_formed a.
  Hypothesis Hnamed : named_rules a.
  Hypothesis Hfit : plan_fits a plan recursive.
  Hypothesis Hplan : rec_plan_kinds plan.
  Notation choose := (choose ts a sempred order alt_order hash dhash share clock pred_mode switch fuel).
  Notation invoke := (RecModel.invoke ts a names plain recursive fuel).
  Notation walk := (RecModel.walk ts a names sempred order alt_order hash dhash share clock pred_mode plan switch plain recursive pred pred_text pred_message fuel).
  Notation run_calls := (ParserModel.run_calls base a names fuel).
  Notation run_call := (ParserModel.run_call base a names fuel).
  Notation body_runs := (body_runs src ch sfuel a names plan plain recursive fuel).
  Notation rsound_end := (rsound_end src ch sfuel a recursive pred).
  Ltac step H := match type of H with obindo ?x _ = Val _ => let E := fresh "E" in destruct x eqn:E; cbn [obindo] in H; [|discriminate|discriminate] end.

  Variable entry ops out : Z.
  Variable level : Z -> option Z.
  Variable where_ : Z -> place.
  Variable kd : Z.
  Hypothesis OL : operator_loop a entry ops out level where_.
  Hypothesis TL : token_levels a level.
  Hypothesis OD : own_decision a entry kd.
  Hypothesis SW : switch entry = None.
  Hypothesis AO : forall l, Permutation (alt_order l) l.
  Notation directed := (directed a plan recursive (can_hold pred) entry ops level).
  Notation seen := (RecDerivProofs.seen src ch sfuel).
  Notation seen_trans := (RecDerivProofs.seen_trans src ch sfuel).
  Notation seen_same := (RecDerivProofs.seen_same src ch sfuel).
  Notation seen_token := (RecDerivProofs.seen_token src ch sfuel).
  (** the DFA of the loop is the result of its own predictions *)
  Definition ds_ok (ds : list pdfa) : Prop := forall d, vget ds kd = Some d -> dfa_use a kd entry d /\ is_precedence_dfa d = true.

  Lemma choose_turn i s p ds p' ds' t w : state_at a i = Some s -> choose i s p ds = Val (p', ds', Go t) -> ds_ok ds -> ahead (p_input p) w ->
    ds_ok ds' /\ right_turn entry ops level (get_precedence p) i (get_target t) w.
  Proof.
    intros Es H D A. destruct (ol_entry _ _ _ _ _ _ OL) as (s0' & k & gr & back & o1 & o2 & Ee & Te & Tr). destruct OD as ((s1 & g1 & x1 & Ee1 & Te1) & Own).
    rewrite Ee in Ee1. injection Ee1 as <-. rewrite Te in Te1. injection Te1 as -> _ _.
    unfold GenModel.choose in H. destruct (Z.eq_dec i entry) as [->|NE].
    - rewrite Ee in Es. injection Es as <-. rewrite Tr, SW, Te in H.
      destruct (vget ds kd) as [d|] eqn:Ed; cbn [unwrap obindo] in H; [|discriminate]. destruct (D d Ed) as (U & P).
      bind H c Ec. bind H st Est. bind2 H m r Em. destruct (vset ds kd (m_dfa m)) as [ds1|] eqn:Ev; cbn [unwrap obindo] in H; [|discriminate].
      destruct (Z.leb_spec ERROR_DFA_STATE_REF (Z.of_nat (length (dfa_states (m_dfa m))))) as [|Len]; [discriminate|].
      destruct (predict_longer _ _ _ _ _ _ _ _ _ _ _ _ _ _ _ _ _ _ _ _ _ Em) as (_ & Pm).
      assert (D' : ds_ok ds1).
      { intros d' Ed'. destruct (vset_ok _ _ _ _ Ev) as (_ & _ & Get). rewrite Get, Z.eqb_refl in Ed'. injection Ed' as <-. split; [eapply use_predict; eauto | congruence]. }
      destruct (C100_operators a entry ops out level where_ Hwf OL TL kd d U P _ _ _ _ _ _ _ _ _ _ _ _ _ _ _ _ _ _ Em Len) as (i1 & i2 & o & <- & El & (L1 & L2)).
      destruct (p_lt src ch sfuel e He Hf p w 1 A ltac:(lia)) as (q & t1 & El' & _ & T). unfold ParserModel.lt in El'. cbn [k_mark common_seek unbuffered_seek fst k_base] in El. rewrite El in El'. cbn [obindo] in El'. injection El' as <- ->.
      rewrite (T eq_refl) in L1, L2.
      destruct r as [j|t0 t1']; [|bind H z Ez; discriminate]. unfold alternative in H. rewrite Tr in H.
      assert (J : j = 1 \/ j = 2).
      { destruct (Z.ltb_spec j 1); [discriminate|]. destruct (Z.to_nat (j - 1)) as [|[|n]] eqn:En; [left; lia | right; lia | destruct n; discriminate]. }
      destruct (ol_places _ _ _ _ _ _ OL) as (_ & P1 & P2).
      destruct J as [-> | ->]; cbn in H; injection H as <- <- <-; (split; [exact D'|]); intros _; cbn [get_target].
      + split; [intros _; apply L1; reflexivity | reflexivity].
      + split; [intros F; rewrite F in P2; congruence | intros B; apply L1 in B; discriminate].
    - split; [|intros F; contradiction]. assert (X : ds' = ds \/ exists k g x d', st_type s = DecisionState k g x /\ vset ds k d' = Some ds').
      { destruct (st_trans s) as [|t1 [|t2 l]]; [|injection H as <- <- <-; left; reflexivity|];
          (destruct (switch i) as [f|]; [bind2 H p1 y Ey; destruct (f y); [bind H t' Et; injection H as <- <- <-; left; reflexivity | bind H e1 Ee1; discriminate]|];
           destruct (st_type s) eqn:Ty; try discriminate; right;
           bind H d Ed; bind H c Ec; bind H st Est; bind2 H m r Em; destruct (vset ds _ (m_dfa m)) as [ds1|] eqn:Ev; cbn [unwrap obindo] in H; [|discriminate];
           destruct (ERROR_DFA_STATE_REF <=? _); [discriminate|]; destruct r; [bind H t' Et; injection H as <- <- <-; eauto 8 | bind H e1 Ee1; discriminate]). }
      destruct X as [-> | (k & g & x & d' & Ty & Ev)]; [exact D|]. intros d Ed. apply D. destruct (vset_ok _ _ _ _ Ev) as (_ & _ & Get). rewrite Get in Ed.
      destruct (Z.eqb_spec kd k) as [->|]; [|exact Ed]. destruct NE. eapply Own; eauto.
  Qed.

  Definition bodied (body : strategy -> parser -> list pdfa -> frame -> outcome (strategy * parser * list pdfa * frame * ending)) (from i : Z) : Prop :=
    forall g p ds f g' p' ds' f' rec h0 pr st0 x w, body g p ds f = Val (g', p', ds', f', Ended) ->
      mode g = false -> p_notices p' = p_notices p -> reading (p_input p) -> ahead (p_input p) w -> known_types a w -> ds_ok ds ->
      rec = recursive (f_rule f) -> f_rule f = Ll1Spec.rule_of a i -> inv rec h0 true pr st0 f x p ->
      exists u y w', ds_ok ds' /\ directed (get_precedence p) (f_rule f) from i x w u y w' /\ inv rec h0 true pr st0 f' y p' /\ same_frame f f' /\ seen p w u p' w'.

  Lemma invoke_directed body rule start prec g p ds g' p' ds' w :
    body_runs body (-1) start ->
    (forall g p ds f g' p' ds' f' r, body g p ds f = Val (g', p', ds', f', r) -> rsound_end (get_precedence p) start g p g' p' r) ->
    bodied body (-1) start -> Ll1Spec.rule_of a start = rule -> wf p -> p_build p = true -> reading (p_input p) ->
    invoke body rule start prec g p ds = Val (g', p', ds', Ended) -> mode g = false -> p_notices p' = p_notices p -> ahead (p_input p) w -> known_types a w -> ds_ok ds ->
    exists cs n u y w', ds_ok ds' /\ returned reading past rule cs p p' n (Node rule (fst y) (snd y)) /\
      directed (if recursive rule then prec else get_precedence p) rule (-1) start (0%nat, []) w u y w' /\ seen p w u p' w'.
  Proof.
    intros HR HS HB Hr W Hb R H M N A K D. unfold RecModel.invoke in H. destruct (recursive rule) eqn:Er.
    - unfold rec_function in H. cbn [alloc k_base common_seek] in H. step H. rename a0 into p1.
      match type of H with obindo ?x _ = _ => destruct x as [[[[[g2 p2] ds2] f2] r2]| |] eqn:E2; cbn [obindo] in H; try discriminate end.
      pose proof (enter_rec_kept _ _ _ Hist _ _ _ _ _ E) as [_ Kp]. cbn in Kp. pose proof (still_enter_rec src ch sfuel _ _ _ _ _ E) as [Np A1]. cbn in Np, A1.
      destruct (enter_recursion_inv _ _ _ Hist _ _ _ _ _ _ _ W E) as ((st0 & I1) & _ & SP1). destruct (SP1 R) as [R1 P1].
      assert (Pr : get_precedence p1 = prec) by (unfold get_precedence; rewrite Kp; apply last_last).
      assert (r2 <> Full) as Nf by (intros ->; discriminate).
      assert (X : (let! (g, p0, r) := catch base a names fuel g2 p2 (raised r2) in
            match r with Some e => Val (g, p0, ds2, Raised e) | None => let! p0 := unroll_recursion_context base p0 (p_ctx p) in Val (g, p0, ds2, Ended) end) = Val (g', p', ds', Ended))
        by (destruct r2; [exact H | exact H | congruence]).
      clear H. destruct (catch base a names fuel g2 p2 (raised r2)) as [[[g3 p3] r3]| |] eqn:E3; cbn [obindo] in X; try discriminate.
      destruct r3 as [x3|]; [discriminate|]. step X. injection X as <- <- <-. rename a0 into p4, E0 into E4.
      pose proof (still_unroll src ch sfuel _ _ _ E4) as [N4 A4].
      destruct (HS _ _ _ _ _ _ _ _ _ E2) as (N2 & _). destruct (catch_noted base a names fuel _ _ _ _ _ _ E3) as (N3 & C3).
      assert (N12 : noted (mode g) p (mode g2) p2) by (eapply noted_trans; [apply same_noted; exact Np | exact N2]).
      destruct (grows_mid p p2 p3 (noted_more _ _ _ _ N12) (noted_more _ _ _ _ N3) ltac:(congruence)) as (Q1 & Q2).
      pose proof (noted_mode _ _ _ _ N12 M Q1) as M2. specialize (C3 M2 Q2).
      destruct r2 as [|x2|]; [|destruct x2; cbn [raised] in *; try contradiction; cbn in E3; discriminate|congruence].
      cbn in E3. injection E3 as <- <-.
      destruct (HR _ _ _ _ _ _ _ _ _ R1 E2 Nf) as (b & cs & Al & Rc & _). cbn [k_base common_seek raised] in Rc.
      assert (Rr : run_call (CRec rule start prec (plain rule) cs) g p (Frame 0 None 0 0 0) = Val (g2, p4, Frame 0 None 0 0 0, None)).
      { cbn [ParserModel.run_call alloc]. rewrite E. cbn [obindo]. rewrite run_calls_eq, Rc. cbn [obindo raised ParserModel.catch]. rewrite E4. reflexivity. }
      assert (HG : Forall (generated true) cs) by (rewrite <- Er, <- Hr; eapply along_generated; eauto).
      destruct (rec_returned_at base a names fuel _ _ Hist _ _ _ _ _ _ _ _ _ _ _ _ (all_bodies_ok _ _ _ _ _ _ Hist _) HG W Rr Logic.I) as (_ & _ & n & T & Rt & Q).
      destruct (Q _ _ _ _ _ _ _ _ E Rc eq_refl) as (_ & _ & st1 & x & I3 & ->). clear Q. rewrite Hb in I1, I3.
      destruct (HB _ _ _ _ _ _ _ _ true _ _ _ _ w E2 M ltac:(congruence) R1 (A1 w A) K D (eq_sym Er) (eq_sym Hr) I1) as (u & y & w' & D' & Bu & I4 & SF & Se).
      cbn [f_rule] in Bu. assert (y = x) as <- by (eapply inv_det; eauto).
      exists cs, n, u, y, w'. split; [exact D'|]. split; [exact Rt|]. split; [rewrite <- Pr; exact Bu|].
      change u with ([] ++ u). apply (seen_trans p w [] p1 w u p4 w'); [apply seen_same; [split; auto | exact R | exact (A1 w A)]|]. rewrite <- (app_nil_r u). eapply seen_trans; [exact Se|].
      destruct Se as (R2 & A2 & _). apply seen_same; [eapply unroll_past; eauto | exact R2 | auto].
    - unfold rule_function in H. cbn [alloc k_base common_seek] in H. step H. rename a0 into p1.
      match type of H with obindo ?x _ = _ => destruct x as [[[[[g2 p2] ds2] f2] r2]| |] eqn:E2; cbn [obindo] in H; try discriminate end.
      pose proof (enter_rule_kept _ _ _ Hist _ _ _ _ E) as [_ Kp]. cbn in Kp. pose proof (still_enter src ch sfuel _ _ _ _ E) as [Np A1]. cbn in Np, A1.
      destruct (enter_rule_inv _ _ _ Hist _ _ _ _ _ _ W E) as ((st0 & I1) & _ & SP1). destruct (SP1 R) as [R1 P1].
      assert (Pr : get_precedence p1 = get_precedence p) by (unfold get_precedence; rewrite Kp; reflexivity).
      assert (r2 <> Full) as Nf by (intros ->; discriminate).
      assert (X : (let! (g, p0, r) := catch base a names fuel g2 p2 (raised r2) in
            match r with Some e => Val (g, p0, ds2, Raised e) | None => let! p0 := exit_rule base p0 in Val (g, p0, ds2, Ended) end) = Val (g', p', ds', Ended))
        by (destruct r2; [exact H | exact H | congruence]).
      clear H. destruct (catch base a names fuel g2 p2 (raised r2)) as [[[g3 p3] r3]| |] eqn:E3; cbn [obindo] in X; try discriminate.
      destruct r3 as [x3|]; [discriminate|]. step X. injection X as <- <- <-. rename a0 into p4, E0 into E4.
      pose proof (still_exit src ch sfuel _ _ E4) as [N4 A4].
      destruct (HS _ _ _ _ _ _ _ _ _ E2) as (N2 & _). destruct (catch_noted base a names fuel _ _ _ _ _ _ E3) as (N3 & C3).
      assert (N12 : noted (mode g) p (mode g2) p2) by (eapply noted_trans; [apply same_noted; exact Np | exact N2]).
      destruct (grows_mid p p2 p3 (noted_more _ _ _ _ N12) (noted_more _ _ _ _ N3) ltac:(congruence)) as (Q1 & Q2).
      pose proof (noted_mode _ _ _ _ N12 M Q1) as M2. specialize (C3 M2 Q2).
      destruct r2 as [|x2|]; [|destruct x2; cbn [raised] in *; try contradiction; cbn in E3; discriminate|congruence].
      cbn in E3. injection E3 as <- <-.
      destruct (HR _ _ _ _ _ _ _ _ _ R1 E2 Nf) as (b & cs & Al & Rc & _). cbn [k_base common_seek raised] in Rc.
      assert (Rr : run_call (CRule rule start (plain rule) cs) g p (Frame 0 None 0 0 0) = Val (g2, p4, Frame 0 None 0 0 0, None)).
      { cbn [ParserModel.run_call alloc]. rewrite E. cbn [obindo]. rewrite run_calls_eq, Rc. cbn [obindo raised ParserModel.catch]. rewrite E4. reflexivity. }
      assert (HG : Forall (generated false) cs) by (rewrite <- Er, <- Hr; eapply along_generated; eauto).
      destruct (rule_returned_at base a names fuel _ _ Hist _ _ _ _ _ _ _ _ _ _ _ (all_bodies_ok _ _ _ _ _ _ Hist _) HG W Rr Logic.I) as (_ & _ & _ & n & T & Rt & Q).
      destruct (Q _ _ _ _ _ _ _ _ E Rc eq_refl) as (_ & _ & st1 & x & I3 & ->). clear Q. rewrite Hb in I1, I3.
      destruct (HB _ _ _ _ _ _ _ _ false _ _ _ _ w E2 M ltac:(congruence) R1 (A1 w A) K D (eq_sym Er) (eq_sym Hr) I1) as (u & y & w' & D' & Bu & I4 & SF & Se).
      cbn [f_rule] in Bu. assert (y = x) as <- by (eapply inv_det; eauto).
      exists cs, n, u, y, w'. split; [exact D'|]. split; [exact Rt|]. split; [rewrite <- Pr; exact Bu|].
      change u with ([] ++ u). apply (seen_trans p w [] p1 w u p4 w'); [apply seen_same; [split; auto | exact R | exact (A1 w A)]|]. rewrite <- (app_nil_r u). eapply seen_trans; [exact Se|].
      destruct Se as (R2 & A2 & _). apply seen_same; [eapply exit_past; eauto | exact R2 | auto].
  Qed.

  Notation walk_runs := (walk_runs src ch sfuel e He Hf a names sempred order alt_order hash dhash share clock pred_mode plan switch plain recursive pred pred_text pred_message fuel).
  Notation rec_walk_sound := (rec_walk_sound src ch sfuel e He Hf a names recursive pred sempred order alt_order hash dhash share clock pred_mode plan Hplan switch plain pred_text pred_message fuel).

  Theorem walk_directed : forall n from i, bodied (walk n from i) from i.
  Proof.
    induction n as [|n IH]; intros from i g p ds f g' p' ds' f' rec h0 pr st0 x w H M N R A K D Hrec Hfr I; [discriminate|].
    cbn [RecModel.walk k_base common_seek] in H.
    destruct (run_calls (plan from i) g p f) as [[[[g1 p1] f1] r1]| |] eqn:E1; cbn [obindo] in H; try discriminate.
    destruct r1 as [x1|]; [discriminate|].
    destruct (rec_plan_clean src ch sfuel e He Hf a names fuel _ (Hplan from i) _ _ _ _ _ _ _ E1) as (N1 & A1).
    assert (HG : Forall (generated rec) (plan from i)) by (rewrite Hrec, Hfr; apply Hfit).
    pose proof (calls_keep _ _ _ _ _ _ Hist _ _ _ _ _ _ _ _ E1) as [_ P1]. specialize (P1 Logic.I).
    destruct (get_state a i) as [s| |] eqn:Es; cbn [obindo] in H; try discriminate.
    assert (Ei : state_at a i = Some s).
    { unfold get_state in Es. change (vget (states a) i) with (state_at a i) in Es. destruct (state_at a i); cbn in Es; [injection Es as <-; reflexivity | discriminate]. }
    (* the calls before a transition is taken *)
    assert (Here : forall p0, p_notices p0 = p_notices p1 -> p_notices p1 = p_notices p -> mode g1 = false /\
      inv rec h0 true pr st0 f1 (planned (f_rule f) (plan from i) x) p1 /\ same_frame f f1 /\ seen p w [] p1 w).
    { intros _ _ Q. destruct (plan_exact src ch sfuel e He Hf a names fuel _ (Hplan from i) _ _ _ _ _ _ _ _ _ _ _ HG I E1 M Q) as (I1 & SF1 & SP1).
      split; [eapply noted_mode; eauto|]. split; [exact I1|]. split; [exact SF1|]. apply seen_same; auto. }
    assert (B : (Ll1Spec.is_stop s /\ g' = g1 /\ p' = p1 /\ f' = f1 /\ ds' = ds) \/ ~ Ll1Spec.is_stop s /\
      (let! (p, ds, c) := choose i s p1 ds in
                match c with
                | Stuck e => Val (g1, p, ds, f1, Raised e)
                | DfaFull => Val (g1, p, ds, f1, Full)
                | Go t =>
                    match t with
                    | RuleTr start follow rule prec =>
                        let! (g, p, ds, r) := invoke (walk n (-1) start) rule start prec g1 (set_state p i) ds in
                        match r with
                        | Ended => walk n i follow g p ds f1
                        | r => Val (g, p, ds, f1, r)
                        end
                    | Atom target _ | Wildcard target | Range target _ _ | SetTr target _ | NotSet target _ =>
                        let! (g, p, r) := match_label ts a names fuel t g1 (set_state p i) in
                        match r with
                        | None => walk n i target g p ds f1
                        | Some e => Val (g, p, ds, f1, Raised e)
                        end
                    | Epsilon target _ | Action target _ _ _ _ => walk n i target g1 p ds f1
                    | PredicateTr target _ _ _ | PrecedenceTr target _ =>
                        let p := set_state p i in
                        let! r := predicate ts a pred pred_text pred_message t p f1 in
                        match r with
                        | None => walk n i target g1 p ds f1
                        | Some e => Val (g1, p, ds, f1, Raised e)
                        end
                    end
                end) = Val (g', p', ds', f', Ended)).
    { destruct (st_type s) eqn:Ty; first [right; split; [unfold Ll1Spec.is_stop; congruence | exact H] | left; split; [exact Ty|]; injection H as <- <- <- <-; repeat split; reflexivity]. }
    clear H. destruct B as [(St & -> & -> & -> & ->)|(Ns & B)].
    { destruct (Here p1 eq_refl N) as (M1 & I1 & SF1 & S1). eexists [], _, w. split; [exact D|]. split; [eapply di_end; eauto|]. auto. }
    destruct (choose i s p1 ds) as [[[p2 ds2] c]| |] eqn:E2; cbn [obindo] in B; try discriminate.
    destruct (choose_still _ _ _ e He Hf _ _ _ _ _ _ _ _ _ _ _ _ _ _ _ _ _ _ E2) as ((N2 & A2) & In2). pose proof (choose_prec _ _ _ e He Hf _ _ _ _ _ _ _ _ _ _ _ _ _ _ _ _ _ _ E2) as P2.
    assert (P12 : p_prec p2 = p_prec p) by congruence.
    assert (N12 : noted (mode g) p (mode g1) p2) by (eapply noted_trans; [exact N1 | apply same_noted; exact N2]).
    destruct c as [t|e2|]; try discriminate.
    specialize (In2 t eq_refl). assert (Ld : leads a i t) by (exists s; auto).
    pose proof (leads_rule a recursive Hwf _ _ Ld) as Hlr.
    set (z := planned (f_rule f) (plan from i) x) in *.
    assert (Go2 : p_notices p2 = p_notices p -> (ahead (p_input p1) w /\ mode g1 = false) /\ inv rec h0 true pr st0 f1 z p2 /\ same_frame f f1 /\ seen p w [] p2 w).
    { intros Q. destruct (Here p2 N2 ltac:(congruence)) as (M1 & I1 & SF1 & S1). destruct S1 as (R1 & Aw1 & X1). split; [auto|].
      destruct (choose_looks src ch sfuel e He Hf a names sempred order alt_order hash dhash share clock pred_mode plan switch plain recursive pred pred_text pred_message fuel i s p1 ds p2 ds2 (Go t) R1 E2 ltac:(discriminate)) as ((l & Ll & Rl) & _).
      destruct (plan_exact src ch sfuel e He Hf a names fuel l (look_plan l Ll) rec _ _ _ _ _ _ _ _ _ _ (looks_generated rec l Ll) I1 (Rl g1 f1) M1 N2) as (I2 & _ & SP2).
      rewrite (look_planned _ _ _ Ll) in I2. split; [exact I2|]. split; [exact SF1|]. apply (seen_trans p w [] p1 w [] p2 w); [split; auto|]. apply seen_same; auto. }
    assert (Tn : ahead (p_input p1) w -> ds_ok ds2 /\ right_turn entry ops level (get_precedence p) i (get_target t) w).
    { intros Aw. replace (get_precedence p) with (get_precedence p1) by (unfold get_precedence; congruence). eapply choose_turn; eauto. }
    clear Here.
    assert (Next : forall g3 p3 ds3 j, noted (mode g1) p2 (mode g3) p3 -> walk n i j g3 p3 ds3 f1 = Val (g', p', ds', f', Ended) -> Ll1Spec.rule_of a j = Ll1Spec.rule_of a i ->
      (mode g1 = false -> p_notices p3 = p_notices p2 -> inv rec h0 true pr st0 f1 z p2 -> reading (p_input p2) -> ahead (p_input p2) w -> ds_ok ds2 -> right_turn entry ops level (get_precedence p) i (get_target t) w ->
        ds_ok ds3 /\ p_prec p3 = p_prec p2 /\ exists v z' w3, inv rec h0 true pr st0 f1 z' p3 /\ seen p2 w v p3 w3 /\
        forall u y w', directed (get_precedence p) (f_rule f) i j z' w3 u y w' -> directed (get_precedence p) (f_rule f) from i x w (v ++ u) y w') ->
      exists u y w', ds_ok ds' /\ directed (get_precedence p) (f_rule f) from i x w u y w' /\ inv rec h0 true pr st0 f' y p' /\ same_frame f f' /\ seen p w u p' w').
    { intros g3 p3 ds3 j N3 W Hj St. destruct (rec_walk_sound _ _ _ _ _ _ _ _ _ _ _ _ W) as (N4 & _).
      assert (N13 : noted (mode g) p (mode g3) p3) by (eapply noted_trans; eauto).
      destruct (grows_mid _ _ _ (noted_more _ _ _ _ N13) (noted_more _ _ _ _ N4) N) as (Q3 & Q4).
      destruct (grows_mid _ _ _ (noted_more _ _ _ _ N12) (noted_more _ _ _ _ N3) Q3) as (Q12 & Q23).
      destruct (Go2 Q12) as ((Aw1 & M1) & I2 & SF & S2). destruct (Tn Aw1) as (D2 & Rt). assert (M3 : mode g3 = false) by (eapply noted_mode; eauto).
      pose proof S2 as (R2 & Aw2 & _).
      destruct (St M1 Q23 I2 R2 Aw2 D2 Rt) as (D3 & P3 & v & z' & w3 & I3 & S3 & Bu). pose proof S3 as (R3 & Aw3 & tk3 & eo3 & _ & _ & _ & Ew & _).
      assert (K3 : known_types a w3) by (unfold known_types in *; rewrite Ew in K; apply Forall_app in K; apply K).
      destruct SF as (F1 & F2 & F3 & F4).
      destruct (IH _ _ _ _ _ _ _ _ _ _ rec h0 pr st0 z' w3 W M3 Q4 R3 Aw3 K3 D3 ltac:(rewrite F4; exact Hrec) ltac:(congruence) I3) as (u & y & w' & D' & Bu' & I' & SF' & S').
      exists (v ++ u), y, w'. split; [exact D'|]. split; [apply Bu; rewrite <- F4; replace (get_precedence p) with (get_precedence p3); [exact Bu' | unfold get_precedence; congruence]|].
      split; [exact I'|]. split; [eapply same_frame_trans; [|exact SF']; repeat split; auto|].
      apply (seen_trans p w [] p2 w (v ++ u) p' w'); [exact S2|]. eapply seen_trans; eauto. }
    assert (Label : forall j, (let! (g, p, r) := match_label ts a names fuel t g1 (set_state p2 i) in
                        match r with
                        | None => walk n i j g p ds2 f1
                        | Some e => Val (g, p, ds2, f1, Raised e)
                        end) = Val (g', p', ds', f', Ended) -> j = get_target t -> Ll1Spec.rule_of a j = Ll1Spec.rule_of a i ->
      exists u y w', ds_ok ds' /\ directed (get_precedence p) (f_rule f) from i x w u y w' /\ inv rec h0 true pr st0 f' y p' /\ same_frame f f' /\ seen p w u p' w').
    { intros j L -> Hj. destruct (match_label ts a names fuel t g1 (set_state p2 i)) as [[[g3 p3] r3]| |] eqn:E3; cbn [obindo] in L; try discriminate.
      pose proof (label_noted src ch sfuel a names _ _ _ _ _ _ _ E3) as N3. change (noted (mode g1) p2 (mode g3) p3) in N3.
      destruct r3 as [e3|]; [discriminate|].
      eapply Next; [exact N3 | exact L | exact Hj|]. intros M1 Q I2 R2 Aw2 D2 Rt.
      destruct (label_exact src ch sfuel e He Hf a names fuel _ _ _ _ _ w E3 M1 Q Aw2) as (k & F & T).
      destruct (label_clean src ch sfuel e He Hf a names _ _ _ _ _ _ w E3 M1 Q Aw2 K) as (Sy & A3).
      split; [exact D2|]. split; [exact (fl_prec _ _ _ _ _ F)|]. exists [k], (with_kid z (Leaf k)), (tl w).
      split; [|split; [apply (seen_token (set_state p2 i) w k p3); auto|]].
      - pose proof (inv_flat reading past _ _ _ _ _ _ _ (set_state p2 i) p3 _ (inv_ext _ _ _ _ _ _ _ p2 (set_state p2 i) I2 eq_refl eq_refl eq_refl eq_refl) F) as I3.
        unfold taken in I3. destruct (t_type k =? -1); exact I3.
      - intros u y w' Bu. cbn [app]. eapply di_token; eauto. rewrite T. exact Sy. }
    assert (Quiet : forall p3 j, p3 = p2 \/ p3 = set_state p2 i -> walk n i j g1 p3 ds2 f1 = Val (g', p', ds', f', Ended) -> Ll1Spec.rule_of a j = Ll1Spec.rule_of a i ->
      (right_turn entry ops level (get_precedence p) i (get_target t) w -> forall u y w', directed (get_precedence p) (f_rule f) i j z w u y w' -> directed (get_precedence p) (f_rule f) from i x w u y w') ->
      exists u y w', ds_ok ds' /\ directed (get_precedence p) (f_rule f) from i x w u y w' /\ inv rec h0 true pr st0 f' y p' /\ same_frame f f' /\ seen p w u p' w').
    { intros p3 j Hp W Hj Di. eapply Next; [| exact W | exact Hj |]; [destruct Hp as [-> | ->]; apply same_noted; reflexivity|]. intros M1 Q I2 R2 Aw2 D2 Rt. split; [exact D2|]. split; [destruct Hp as [-> | ->]; reflexivity|].
      exists [], z, w. split; [destruct Hp as [-> | ->]; [exact I2 | exact (inv_ext _ _ _ _ _ _ _ p2 (set_state p2 i) I2 eq_refl eq_refl eq_refl eq_refl)]|].
      split; [|exact (Di Rt)]. destruct Hp as [-> | ->]; (apply seen_same; [intros R'; split; [exact R' | reflexivity] | exact R2 | exact Aw2]). }
    destruct t as [g0 x0|start follow rule prec|g0 x0|g0 lo hi|g0 x1 x2 x3 x4|g0 ss|g0 ss|g0|g0 x1 x2 x3|g0 x1]; cbn [get_target] in Hlr; try (eapply Label; [exact B | reflexivity | exact Hlr]; fail).
    - destruct (invoke (walk n (-1) start) rule start prec g1 (set_state p2 i) ds2) as [[[[g3 p3] ds3] r3]| |] eqn:E3; cbn [obindo] in B; try discriminate.
      assert (HS : forall g p ds f g' p' ds' f' r, walk n (-1) start g p ds f = Val (g', p', ds', f', r) -> rsound_end (get_precedence p) start g p g' p' r) by (intros until 1; eapply rec_walk_sound; eauto).
      destruct (invoke_sound src ch sfuel e He Hf a names recursive pred plain fuel _ _ _ _ _ _ _ _ _ _ _ HS E3) as (N3 & A3). change (noted (mode g1) p2 (mode g3) p3) in N3.
      destruct r3 as [|e3|]; try discriminate.
      eapply Next; [exact N3 | exact B | exact Hlr|]. intros M1 Q I2 R2 Aw2 D2 Rt. destruct (A3 M1 Q eq_refl) as [P3 _].
      assert (I2' : inv rec h0 true pr st0 f1 z (set_state p2 i)) by exact (inv_ext _ _ _ _ _ _ _ p2 (set_state p2 i) I2 eq_refl eq_refl eq_refl eq_refl).
      destruct (invoke_directed (walk n (-1) start) rule start prec g1 (set_state p2 i) ds2 g3 p3 ds3 w (walk_runs n (-1) start) HS (IH (-1) start) (Hnamed _ _ _ _ _ Ld) (inv_wf _ _ _ _ _ _ _ _ I2') (i_build _ _ _ _ _ _ _ _ I2') R2 E3 M1 Q Aw2 K D2) as (cs & m & v & y0 & w3 & D3 & Rtd & Bu & S3). split; [exact D3|]. split; [exact P3|].
      exists v, (with_kid z (Node rule (fst y0) (snd y0))), w3. split; [exact (inv_returned _ _ _ _ _ _ _ _ _ _ _ _ _ _ _ I2' Rtd)|]. split; [exact S3|].
      intros u y w' Bu'. eapply di_rule; eauto. replace (get_precedence p) with (get_precedence (set_state p2 i)); [exact Bu|]. unfold get_precedence. cbn. congruence.
    - eapply Quiet; [left; reflexivity | exact B | exact Hlr|]. intros Rt u y w' Di. eapply di_epsilon; [exact Ld | exact Logic.I | exact Rt | exact Di].
    - eapply Quiet; [left; reflexivity | exact B | exact Hlr|]. intros Rt u y w' Di. eapply di_epsilon; [exact Ld | exact Logic.I | exact Rt | exact Di].
    - cbn zeta in B. unfold predicate in B. destruct (pred (set_state p2 i) f1 x2 x3) eqn:Ep; cbn [obindo] in B; [|destruct (failed_predicate _ _ _ _ _) as [[]| |]; discriminate].
      eapply Quiet; [right; reflexivity | exact B | exact Hlr|]. intros Rt u y w' Di. eapply di_predicate; [exact Ld | exists (set_state p2 i), f1; exact Ep | exact Di].
    - cbn zeta in B. unfold predicate in B. destruct (precpred (set_state p2 i) x1) eqn:Ep; cbn [obindo] in B; [|destruct (failed_predicate _ _ _ _ _) as [[]| |]; discriminate].
      eapply Quiet; [right; reflexivity | exact B | exact Hlr|]. intros Rt u y w' Di. eapply di_precedence; [exact Ld | | exact Di].
      unfold precpred in Ep. replace (get_precedence p) with (get_precedence (set_state p2 i)) by (unfold get_precedence; cbn; congruence). lia.
  Qed.
End Deriv.
