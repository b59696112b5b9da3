(** The trees generated parsers build for valid input are derivation trees (C95). *)
From Coq Require Import ZArith List Bool Lia.
From Verif Require Import CharStreamModel TokenStreamModel TokenStreamSpec TokenStreamProofs CommonTokenStreamProofs.
From Verif Require Import Outcome IntervalSetModel IntervalSetSpec PredContextModel SemContextModel ConfigSetModel DfaModel AtnModel AtnSpec Ll1Model Ll1Spec ParserModel ParserSpec ParserTreeProofs ParserRunProofs ParserEventProofs ParserStreamProofs.
From Verif Require Import PredictModel GenModel GenSpec GenBaseProofs GenStepProofs GenSoundProofs RecModel RecSpec RecCallsProofs RecSoundProofs RecTreeProofs RecBuildSpec RecBuildProofs.
Import ListNotations.
Local Open Scope Z_scope.
Local Open Scope outcome_scope.

Section Deriv.
  Variable src : nat -> tok.
  Variable ch : Z.
  Variable sfuel : nat.
  Variable e : nat.
  Hypothesis He : eof_number src e.
  Hypothesis Hf : (e <= sfuel)%nat.
  Notation ts := (common_seek src ch sfuel).
  Notation base := (common_stream src ch sfuel).
  Notation ahead := (ahead src ch sfuel).
  Notation parser := (parser uts).
  Implicit Types p : parser.
  Notation mode := in_error_recovery_mode.
  Notation reading := (reading src ch).
  Notation past := (read_so_far src ch).
  Notation Hist := (common_history src ch sfuel e He Hf).
  Notation flat := (flat reading past).
  Notation same_past := (same_past src ch).
  Notation still := (still src ch sfuel).
  Variable a : atn.
  Variable names : naming.
  Variable recursive : Z -> bool.
  Variable pred : parser -> frame -> Z -> Z -> bool.
  Variable sempred : uts -> option nat -> Z -> Z -> bool.
  Variable order : list nat -> list sem -> list sem.
  Variable alt_order : list (list Z) -> list (list Z).
  Variable hash : pctx -> Z.
  Variable dhash : list pconfig -> Z.
  Variable share : pctx -> pctx.
  Variable clock : uts -> nat.
  Variable pred_mode : pmode.
  Variable plan : Z -> Z -> list ParserModel.call.
  Variable switch : Z -> option (Z -> option Z).
  Variable plain : Z -> bool.
  Variable pred_text : Z -> Z -> text.
  Variable pred_message : Z -> Z -> option text.
  Variable fuel : nat.
  Hypothesis Hwf : well_formed a.
  Hypothesis Hnamed : named_rules a.
  Hypothesis Hfit : plan_fits a plan recursive.
  Hypothesis Hplan : rec_plan_kinds plan.
  Notation choose := (choose ts a sempred order alt_order hash dhash share clock pred_mode switch fuel).
  Notation invoke := (RecModel.invoke ts a names plain recursive fuel).
  Notation walk := (RecModel.walk ts a names sempred order alt_order hash dhash share clock pred_mode plan switch plain recursive pred pred_text pred_message fuel).
  Notation run_calls := (ParserModel.run_calls base a names fuel).
  Notation run_call := (ParserModel.run_call base a names fuel).
  Notation builds := (builds a plan recursive (can_hold pred)).
  Notation body_runs := (body_runs src ch sfuel a names plan plain recursive fuel).
  Notation rsound_end := (rsound_end src ch sfuel a recursive pred).
  Ltac step H := match type of H with obindo ?x _ = Val _ => let E := fresh "E" in destruct x eqn:E; cbn [obindo] in H; [|discriminate|discriminate] end.

  (** ** What is left of the functions of rules *)
  Lemma exit_past p p' : exit_rule base p = Val p' -> same_past p p'.
  Proof.
    intros H R. unfold exit_rule in H. step H. step H. destruct a1 as [p1 t]. step H.
    destruct (lt_same _ _ _ Hist _ _ _ _ E0) as (_ & _ & _ & _ & _ & _ & K). destruct (exit_event _ _ E1) as (_ & _ & _ & _ & _ & X & _).
    cbn in X. step H. inversion H; subst. cbn. rewrite X. auto.
  Qed.
  Lemma unroll_loop_input : forall n p parent q, unroll_loop n p parent = Val q -> p_input q = p_input p.
  Proof.
    induction n as [|n IH]; intros p parent q H; cbn [unroll_loop] in H; destruct (same_ctx _ _); try discriminate;
      try (inversion H; subst; reflexivity).
    step H. step H. step H. apply IH in H. destruct (exit_event _ _ E) as (_ & _ & _ & _ & _ & X & _). cbn in H. congruence.
  Qed.
  Lemma unroll_past p parent p' : unroll_recursion_context base p parent = Val p' -> same_past p p'.
  Proof.
    intros H R. unfold unroll_recursion_context in H. step H. step H. destruct a1 as [p1 t]. step H. inversion H; subst. clear H.
    destruct (lt_same _ _ _ Hist _ _ _ _ E0) as (_ & _ & _ & _ & _ & _ & K). cbn in K.
    assert (X : p_input a1 = p_input p1).
    { destruct (p_listeners _); [inversion E1; subst; reflexivity|]. apply unroll_loop_input in E1. exact E1. }
    destruct (p_ctx _); [destruct (p_build _)|]; cbn; rewrite X; auto.
  Qed.

  (** ** Tokens *)
  Definition seen p (w : list Z) (u : list tok) p' (w' : list Z) : Prop :=
    reading (p_input p') /\ ahead (p_input p') w' /\ exists tk eofs, u = tk ++ eofs /\ Forall (fun k => t_type k = TOKEN_EOF) eofs /\
      past (p_input p') = past (p_input p) ++ tk /\ w = map t_type tk ++ w' /\ (eofs <> [] -> w' = []).
  Lemma seen_trans p w u p1 w1 v p2 w2 : seen p w u p1 w1 -> seen p1 w1 v p2 w2 -> seen p w (u ++ v) p2 w2.
  Proof.
    intros (_ & _ & tk & eo & -> & Fe & P & -> & Z) (R & A & tk' & eo' & -> & Fe' & P' & -> & Z'). split; [exact R|]. split; [exact A|].
    destruct eo as [|k eo].
    - exists (tk ++ tk'), eo'. rewrite app_nil_r, map_app, !app_assoc. repeat split; auto. congruence.
    - specialize (Z ltac:(discriminate)). apply app_eq_nil in Z as [Z1 ->]. apply map_eq_nil in Z1. subst tk'. cbn [app map].
      exists tk, ((k :: eo) ++ eo'). rewrite app_assoc. split; [reflexivity|]. split; [now apply Forall_app|]. split; [rewrite P', app_nil_r; exact P|]. auto.
  Qed.
  Lemma seen_same p p' w : same_past p p' -> reading (p_input p) -> ahead (p_input p') w -> seen p w [] p' w.
  Proof. intros S R A. destruct (S R) as [R' P]. split; [exact R'|]. split; [exact A|]. exists [], []. cbn. rewrite app_nil_r. repeat split; auto; congruence. Qed.
  Lemma seen_token p w k p' : ahead (p_input p) w -> flat [taken k] p p' -> t_type k = hd TOKEN_EOF w -> reading (p_input p) -> ahead (p_input p') (tl w) -> seen p w [k] p' (tl w).
  Proof.
    intros K F T R A. destruct (fl_past _ _ _ _ _ F R) as [R' P]. split; [exact R'|]. split; [exact A|]. cbn in P. rewrite app_nil_r in P.
    unfold taken in P. rewrite T in P. destruct w as [|x w]; cbn in *.
    - exists [], [k]. cbn. repeat split; auto.
    - assert (x =? -1 = false) as Q by (apply Z.eqb_neq; intros ->; apply (ahead_no_eof src ch sfuel (p_input p) _ K); left; reflexivity). rewrite Q in P. exists [k], []. cbn. rewrite T. repeat split; auto; congruence.
  Qed.

  Definition bodied (body : strategy -> parser -> list pdfa -> frame -> outcome (strategy * parser * list pdfa * frame * ending)) (from i : Z) : Prop :=
    forall g p ds f g' p' ds' f' rec h0 pr st0 x w, body g p ds f = Val (g', p', ds', f', Ended) ->
      mode g = false -> p_notices p' = p_notices p -> reading (p_input p) -> ahead (p_input p) w -> known_types a w ->
      rec = recursive (f_rule f) -> f_rule f = Ll1Spec.rule_of a i -> inv rec h0 true pr st0 f x p ->
      exists u y w', builds (get_precedence p) (f_rule f) from i x u y /\ inv rec h0 true pr st0 f' y p' /\ same_frame f f' /\ seen p w u p' w'.

  Lemma invoke_built body rule start prec g p ds g' p' ds' w :
    body_runs body (-1) start ->
    (forall g p ds f g' p' ds' f' r, body g p ds f = Val (g', p', ds', f', r) -> rsound_end (get_precedence p) start g p g' p' r) ->
    bodied body (-1) start -> Ll1Spec.rule_of a start = rule -> wf p -> p_build p = true -> reading (p_input p) ->
    invoke body rule start prec g p ds = Val (g', p', ds', Ended) -> mode g = false -> p_notices p' = p_notices p -> ahead (p_input p) w -> known_types a w ->
    exists cs n u y w', returned reading past rule cs p p' n (Node rule (fst y) (snd y)) /\
      builds (if recursive rule then prec else get_precedence p) rule (-1) start (0%nat, []) u y /\ seen p w u p' w'.
  Proof.
    intros HR HS HB Hr W Hb R H M N A K. unfold RecModel.invoke in H. destruct (recursive rule) eqn:Er.
    - unfold rec_function in H. cbn [alloc k_base common_seek] in H. step H. rename a0 into p1.
      match type of H with obindo ?x _ = _ => destruct x as [[[[[g2 p2] ds2] f2] r2]| |] eqn:E2; cbn [obindo] in H; try discriminate end.
      pose proof (enter_rec_kept _ _ _ Hist _ _ _ _ _ E) as [_ Kp]. cbn in Kp. pose proof (still_enter_rec src ch sfuel _ _ _ _ _ E) as [Np A1]. cbn in Np, A1.
      destruct (enter_recursion_inv _ _ _ Hist _ _ _ _ _ _ _ W E) as ((st0 & I1) & _ & SP1). destruct (SP1 R) as [R1 P1].
      assert (Pr : get_precedence p1 = prec) by (unfold get_precedence; rewrite Kp; apply last_last).
      assert (r2 <> Full) as Nf by (intros ->; discriminate).
      assert (X : (let! (g, p0, r) := catch base a names fuel g2 p2 (raised r2) in
            match r with Some e => Val (g, p0, ds2, Raised e) | None => let! p0 := unroll_recursion_context base p0 (p_ctx p) in Val (g, p0, ds2, Ended) end) = Val (g', p', ds', Ended))
        by (destruct r2; [exact H | exact H | congruence]).
      clear H. destruct (catch base a names fuel g2 p2 (raised r2)) as [[[g3 p3] r3]| |] eqn:E3; cbn [obindo] in X; try discriminate.
      destruct r3 as [x3|]; [discriminate|]. step X. injection X as <- <- <-. rename a0 into p4, E0 into E4.
      pose proof (still_unroll src ch sfuel _ _ _ E4) as [N4 A4].
      destruct (HS _ _ _ _ _ _ _ _ _ E2) as (N2 & _). destruct (catch_noted base a names fuel _ _ _ _ _ _ E3) as (N3 & C3).
      assert (N12 : noted (mode g) p (mode g2) p2) by (eapply noted_trans; [apply same_noted; exact Np | exact N2]).
      destruct (grows_mid p p2 p3 (noted_more _ _ _ _ N12) (noted_more _ _ _ _ N3) ltac:(congruence)) as (Q1 & Q2).
      pose proof (noted_mode _ _ _ _ N12 M Q1) as M2. specialize (C3 M2 Q2).
      destruct r2 as [|x2|]; [|destruct x2; cbn [raised] in *; try contradiction; cbn in E3; discriminate|congruence].
      cbn in E3. injection E3 as <- <-.
      destruct (HR _ _ _ _ _ _ _ _ _ R1 E2 Nf) as (b & cs & Al & Rc & _). cbn [k_base common_seek raised] in Rc.
      assert (Rr : run_call (CRec rule start prec (plain rule) cs) g p (Frame 0 None 0 0 0) = Val (g2, p4, Frame 0 None 0 0 0, None)).
      { cbn [ParserModel.run_call alloc]. rewrite E. cbn [obindo]. rewrite run_calls_eq, Rc. cbn [obindo raised ParserModel.catch]. rewrite E4. reflexivity. }
      assert (HG : Forall (generated true) cs) by (rewrite <- Er, <- Hr; eapply along_generated; eauto).
      destruct (rec_returned_at base a names fuel _ _ Hist _ _ _ _ _ _ _ _ _ _ _ _ (all_bodies_ok _ _ _ _ _ _ Hist _) HG W Rr Logic.I) as (_ & _ & n & T & Rt & Q).
      destruct (Q _ _ _ _ _ _ _ _ E Rc eq_refl) as (_ & _ & st1 & x & I3 & ->). clear Q. rewrite Hb in I1, I3.
      destruct (HB _ _ _ _ _ _ _ _ true _ _ _ _ w E2 M ltac:(congruence) R1 (A1 w A) K (eq_sym Er) (eq_sym Hr) I1) as (u & y & w' & Bu & I4 & SF & Se).
      cbn [f_rule] in Bu. assert (y = x) as <- by (eapply inv_det; eauto).
      exists cs, n, u, y, w'. split; [exact Rt|]. split; [rewrite <- Pr; exact Bu|].
      change u with ([] ++ u). apply (seen_trans p w [] p1 w u p4 w'); [apply seen_same; [split; auto | exact R | exact (A1 w A)]|]. rewrite <- (app_nil_r u). eapply seen_trans; [exact Se|].
      destruct Se as (R2 & A2 & _). apply seen_same; [eapply unroll_past; eauto | exact R2 | auto].
    - unfold rule_function in H. cbn [alloc k_base common_seek] in H. step H. rename a0 into p1.
      match type of H with obindo ?x _ = _ => destruct x as [[[[[g2 p2] ds2] f2] r2]| |] eqn:E2; cbn [obindo] in H; try discriminate end.
      pose proof (enter_rule_kept _ _ _ Hist _ _ _ _ E) as [_ Kp]. cbn in Kp. pose proof (still_enter src ch sfuel _ _ _ _ E) as [Np A1]. cbn in Np, A1.
      destruct (enter_rule_inv _ _ _ Hist _ _ _ _ _ _ W E) as ((st0 & I1) & _ & SP1). destruct (SP1 R) as [R1 P1].
      assert (Pr : get_precedence p1 = get_precedence p) by (unfold get_precedence; rewrite Kp; reflexivity).
      assert (r2 <> Full) as Nf by (intros ->; discriminate).
      assert (X : (let! (g, p0, r) := catch base a names fuel g2 p2 (raised r2) in
            match r with Some e => Val (g, p0, ds2, Raised e) | None => let! p0 := exit_rule base p0 in Val (g, p0, ds2, Ended) end) = Val (g', p', ds', Ended))
        by (destruct r2; [exact H | exact H | congruence]).
      clear H. destruct (catch base a names fuel g2 p2 (raised r2)) as [[[g3 p3] r3]| |] eqn:E3; cbn [obindo] in X; try discriminate.
      destruct r3 as [x3|]; [discriminate|]. step X. injection X as <- <- <-. rename a0 into p4, E0 into E4.
      pose proof (still_exit src ch sfuel _ _ E4) as [N4 A4].
      destruct (HS _ _ _ _ _ _ _ _ _ E2) as (N2 & _). destruct (catch_noted base a names fuel _ _ _ _ _ _ E3) as (N3 & C3).
      assert (N12 : noted (mode g) p (mode g2) p2) by (eapply noted_trans; [apply same_noted; exact Np | exact N2]).
      destruct (grows_mid p p2 p3 (noted_more _ _ _ _ N12) (noted_more _ _ _ _ N3) ltac:(congruence)) as (Q1 & Q2).
      pose proof (noted_mode _ _ _ _ N12 M Q1) as M2. specialize (C3 M2 Q2).
      destruct r2 as [|x2|]; [|destruct x2; cbn [raised] in *; try contradiction; cbn in E3; discriminate|congruence].
      cbn in E3. injection E3 as <- <-.
      destruct (HR _ _ _ _ _ _ _ _ _ R1 E2 Nf) as (b & cs & Al & Rc & _). cbn [k_base common_seek raised] in Rc.
      assert (Rr : run_call (CRule rule start (plain rule) cs) g p (Frame 0 None 0 0 0) = Val (g2, p4, Frame 0 None 0 0 0, None)).
      { cbn [ParserModel.run_call alloc]. rewrite E. cbn [obindo]. rewrite run_calls_eq, Rc. cbn [obindo raised ParserModel.catch]. rewrite E4. reflexivity. }
      assert (HG : Forall (generated false) cs) by (rewrite <- Er, <- Hr; eapply along_generated; eauto).
      destruct (rule_returned_at base a names fuel _ _ Hist _ _ _ _ _ _ _ _ _ _ _ (all_bodies_ok _ _ _ _ _ _ Hist _) HG W Rr Logic.I) as (_ & _ & _ & n & T & Rt & Q).
      destruct (Q _ _ _ _ _ _ _ _ E Rc eq_refl) as (_ & _ & st1 & x & I3 & ->). clear Q. rewrite Hb in I1, I3.
      destruct (HB _ _ _ _ _ _ _ _ false _ _ _ _ w E2 M ltac:(congruence) R1 (A1 w A) K (eq_sym Er) (eq_sym Hr) I1) as (u & y & w' & Bu & I4 & SF & Se).
      cbn [f_rule] in Bu. assert (y = x) as <- by (eapply inv_det; eauto).
      exists cs, n, u, y, w'. split; [exact Rt|]. split; [rewrite <- Pr; exact Bu|].
      change u with ([] ++ u). apply (seen_trans p w [] p1 w u p4 w'); [apply seen_same; [split; auto | exact R | exact (A1 w A)]|]. rewrite <- (app_nil_r u). eapply seen_trans; [exact Se|].
      destruct Se as (R2 & A2 & _). apply seen_same; [eapply exit_past; eauto | exact R2 | auto].
  Qed.

  Lemma look_plan l : looks l -> Forall plan_kind l.
  Proof. intros [->|(k & _ & ->)]; repeat constructor. Qed.
  Lemma look_planned rule l x : looks l -> planned rule l x = x.
  Proof. intros [->|(k & _ & ->)]; reflexivity. Qed.
  Notation walk_runs := (walk_runs src ch sfuel e He Hf a names sempred order alt_order hash dhash share clock pred_mode plan switch plain recursive pred pred_text pred_message fuel).
  Notation rec_walk_sound := (rec_walk_sound src ch sfuel e He Hf a names recursive pred sempred order alt_order hash dhash share clock pred_mode plan Hplan switch plain pred_text pred_message fuel).

  Theorem walk_builds : forall n from i, bodied (walk n from i) from i.
  Proof.
    induction n as [|n IH]; intros from i g p ds f g' p' ds' f' rec h0 pr st0 x w H M N R A K Hrec Hfr I; [discriminate|].
    cbn [RecModel.walk k_base common_seek] in H.
    destruct (run_calls (plan from i) g p f) as [[[[g1 p1] f1] r1]| |] eqn:E1; cbn [obindo] in H; try discriminate.
    destruct r1 as [x1|]; [discriminate|].
    destruct (rec_plan_clean src ch sfuel e He Hf a names fuel _ (Hplan from i) _ _ _ _ _ _ _ E1) as (N1 & A1).
    assert (HG : Forall (generated rec) (plan from i)) by (rewrite Hrec, Hfr; apply Hfit).
    pose proof (calls_keep _ _ _ _ _ _ Hist _ _ _ _ _ _ _ _ E1) as [_ P1]. specialize (P1 Logic.I).
    destruct (get_state a i) as [s| |] eqn:Es; cbn [obindo] in H; try discriminate.
    assert (Ei : state_at a i = Some s).
    { unfold get_state in Es. change (vget (states a) i) with (state_at a i) in Es. destruct (state_at a i); cbn in Es; [injection Es as <-; reflexivity | discriminate]. }
    (* the calls before a transition is taken *)
    assert (Here : forall p0, p_notices p0 = p_notices p1 -> p_notices p1 = p_notices p -> mode g1 = false /\
      inv rec h0 true pr st0 f1 (planned (f_rule f) (plan from i) x) p1 /\ same_frame f f1 /\ seen p w [] p1 w).
    { intros _ _ Q. destruct (plan_exact src ch sfuel e He Hf a names fuel _ (Hplan from i) _ _ _ _ _ _ _ _ _ _ _ HG I E1 M Q) as (I1 & SF1 & SP1).
      split; [eapply noted_mode; eauto|]. split; [exact I1|]. split; [exact SF1|]. apply seen_same; auto. }
    assert (B : (Ll1Spec.is_stop s /\ g' = g1 /\ p' = p1 /\ f' = f1) \/ ~ Ll1Spec.is_stop s /\
      (let! (p, ds, c) := choose i s p1 ds in
                match c with
                | Stuck e => Val (g1, p, ds, f1, Raised e)
                | DfaFull => Val (g1, p, ds, f1, Full)
                | Go t =>
                    match t with
                    | RuleTr start follow rule prec =>
                        let! (g, p, ds, r) := invoke (walk n (-1) start) rule start prec g1 (set_state p i) ds in
                        match r with
                        | Ended => walk n i follow g p ds f1
                        | r => Val (g, p, ds, f1, r)
                        end
                    | Atom target _ | Wildcard target | Range target _ _ | SetTr target _ | NotSet target _ =>
                        let! (g, p, r) := match_label ts a names fuel t g1 (set_state p i) in
                        match r with
                        | None => walk n i target g p ds f1
                        | Some e => Val (g, p, ds, f1, Raised e)
                        end
                    | Epsilon target _ | Action target _ _ _ _ => walk n i target g1 p ds f1
                    | PredicateTr target _ _ _ | PrecedenceTr target _ =>
                        let p := set_state p i in
                        let! r := predicate ts a pred pred_text pred_message t p f1 in
                        match r with
                        | None => walk n i target g1 p ds f1
                        | Some e => Val (g1, p, ds, f1, Raised e)
                        end
                    end
                end) = Val (g', p', ds', f', Ended)).
    { destruct (st_type s) eqn:Ty; first [right; split; [unfold Ll1Spec.is_stop; congruence | exact H] | left; split; [exact Ty|]; injection H as <- <- <- <-; auto]. }
    clear H. destruct B as [(St & -> & -> & ->)|(Ns & B)].
    { destruct (Here p1 eq_refl N) as (M1 & I1 & SF1 & S1). eexists [], _, w. split; [eapply bu_end; eauto|]. auto. }
    destruct (choose i s p1 ds) as [[[p2 ds2] c]| |] eqn:E2; cbn [obindo] in B; try discriminate.
    destruct (choose_still _ _ _ e He Hf _ _ _ _ _ _ _ _ _ _ _ _ _ _ _ _ _ _ E2) as ((N2 & A2) & In2). pose proof (choose_prec _ _ _ e He Hf _ _ _ _ _ _ _ _ _ _ _ _ _ _ _ _ _ _ E2) as P2.
    assert (P12 : p_prec p2 = p_prec p) by congruence.
    assert (N12 : noted (mode g) p (mode g1) p2) by (eapply noted_trans; [exact N1 | apply same_noted; exact N2]).
    destruct c as [t|e2|]; try discriminate.
    specialize (In2 t eq_refl). assert (Ld : leads a i t) by (exists s; auto).
    pose proof (leads_rule a recursive Hwf _ _ Ld) as Hlr.
    set (z := planned (f_rule f) (plan from i) x) in *.
    assert (Go2 : p_notices p2 = p_notices p -> mode g1 = false /\ inv rec h0 true pr st0 f1 z p2 /\ same_frame f f1 /\ seen p w [] p2 w).
    { intros Q. destruct (Here p2 N2 ltac:(congruence)) as (M1 & I1 & SF1 & S1). split; [exact M1|].
      destruct S1 as (R1 & Aw1 & X1).
      destruct (choose_looks src ch sfuel e He Hf a names sempred order alt_order hash dhash share clock pred_mode plan switch plain recursive pred pred_text pred_message fuel i s p1 ds p2 ds2 (Go t) R1 E2 ltac:(discriminate)) as ((l & Ll & Rl) & _).
      destruct (plan_exact src ch sfuel e He Hf a names fuel l (look_plan l Ll) rec _ _ _ _ _ _ _ _ _ _ (looks_generated rec l Ll) I1 (Rl g1 f1) M1 N2) as (I2 & _ & SP2).
      rewrite (look_planned _ _ _ Ll) in I2. split; [exact I2|]. split; [exact SF1|]. apply (seen_trans p w [] p1 w [] p2 w); [split; auto|]. apply seen_same; auto. }
    clear Here.
    assert (Next : forall g3 p3 ds3 j, noted (mode g1) p2 (mode g3) p3 -> walk n i j g3 p3 ds3 f1 = Val (g', p', ds', f', Ended) -> Ll1Spec.rule_of a j = Ll1Spec.rule_of a i ->
      (mode g1 = false -> p_notices p3 = p_notices p2 -> inv rec h0 true pr st0 f1 z p2 -> reading (p_input p2) -> ahead (p_input p2) w ->
        p_prec p3 = p_prec p2 /\ exists v z' w3, inv rec h0 true pr st0 f1 z' p3 /\ seen p2 w v p3 w3 /\
        forall u y, builds (get_precedence p) (f_rule f) i j z' u y -> builds (get_precedence p) (f_rule f) from i x (v ++ u) y) ->
      exists u y w', builds (get_precedence p) (f_rule f) from i x u y /\ inv rec h0 true pr st0 f' y p' /\ same_frame f f' /\ seen p w u p' w').
    { intros g3 p3 ds3 j N3 W Hj St. destruct (rec_walk_sound _ _ _ _ _ _ _ _ _ _ _ _ W) as (N4 & _).
      assert (N13 : noted (mode g) p (mode g3) p3) by (eapply noted_trans; eauto).
      destruct (grows_mid _ _ _ (noted_more _ _ _ _ N13) (noted_more _ _ _ _ N4) N) as (Q3 & Q4).
      destruct (grows_mid _ _ _ (noted_more _ _ _ _ N12) (noted_more _ _ _ _ N3) Q3) as (Q12 & Q23).
      destruct (Go2 Q12) as (M1 & I2 & SF & S2). assert (M3 : mode g3 = false) by (eapply noted_mode; eauto).
      pose proof S2 as (R2 & Aw2 & _).
      destruct (St M1 Q23 I2 R2 Aw2) as (P3 & v & z' & w3 & I3 & S3 & Bu). pose proof S3 as (R3 & Aw3 & tk3 & eo3 & _ & _ & _ & Ew & _).
      assert (K3 : known_types a w3) by (unfold known_types in *; rewrite Ew in K; apply Forall_app in K; apply K).
      destruct SF as (F1 & F2 & F3 & F4).
      destruct (IH _ _ _ _ _ _ _ _ _ _ rec h0 pr st0 z' w3 W M3 Q4 R3 Aw3 K3 ltac:(rewrite F4; exact Hrec) ltac:(congruence) I3) as (u & y & w' & Bu' & I' & SF' & S').
      exists (v ++ u), y, w'. split; [apply Bu; rewrite <- F4; replace (get_precedence p) with (get_precedence p3); [exact Bu' | unfold get_precedence; congruence]|].
      split; [exact I'|]. split; [eapply same_frame_trans; [|exact SF']; repeat split; auto|].
      apply (seen_trans p w [] p2 w (v ++ u) p' w'); [exact S2|]. eapply seen_trans; eauto. }
    assert (Label : forall j, (let! (g, p, r) := match_label ts a names fuel t g1 (set_state p2 i) in
                        match r with
                        | None => walk n i j g p ds2 f1
                        | Some e => Val (g, p, ds2, f1, Raised e)
                        end) = Val (g', p', ds', f', Ended) -> j = get_target t -> Ll1Spec.rule_of a j = Ll1Spec.rule_of a i ->
      exists u y w', builds (get_precedence p) (f_rule f) from i x u y /\ inv rec h0 true pr st0 f' y p' /\ same_frame f f' /\ seen p w u p' w').
    { intros j L -> Hj. destruct (match_label ts a names fuel t g1 (set_state p2 i)) as [[[g3 p3] r3]| |] eqn:E3; cbn [obindo] in L; try discriminate.
      pose proof (label_noted src ch sfuel a names _ _ _ _ _ _ _ E3) as N3. change (noted (mode g1) p2 (mode g3) p3) in N3.
      destruct r3 as [e3|]; [discriminate|].
      eapply Next; [exact N3 | exact L | exact Hj|]. intros M1 Q I2 R2 Aw2.
      destruct (label_exact src ch sfuel e He Hf a names fuel _ _ _ _ _ w E3 M1 Q Aw2) as (k & F & T).
      destruct (label_clean src ch sfuel e He Hf a names _ _ _ _ _ _ w E3 M1 Q Aw2 K) as (Sy & A3).
      split; [exact (fl_prec _ _ _ _ _ F)|]. exists [k], (with_kid z (Leaf k)), (tl w).
      split; [|split; [apply (seen_token (set_state p2 i) w k p3); auto|]].
      - pose proof (inv_flat reading past _ _ _ _ _ _ _ (set_state p2 i) p3 _ (inv_ext _ _ _ _ _ _ _ p2 (set_state p2 i) I2 eq_refl eq_refl eq_refl eq_refl) F) as I3.
        unfold taken in I3. destruct (t_type k =? -1); exact I3.
      - intros u y Bu. cbn [app]. eapply bu_token; eauto. rewrite T. exact Sy. }
    assert (Quiet : forall p3 j, p3 = p2 \/ p3 = set_state p2 i -> walk n i j g1 p3 ds2 f1 = Val (g', p', ds', f', Ended) -> Ll1Spec.rule_of a j = Ll1Spec.rule_of a i ->
      (forall u y, builds (get_precedence p) (f_rule f) i j z u y -> builds (get_precedence p) (f_rule f) from i x u y) ->
      exists u y w', builds (get_precedence p) (f_rule f) from i x u y /\ inv rec h0 true pr st0 f' y p' /\ same_frame f f' /\ seen p w u p' w').
    { intros p3 j Hp W Hj D. eapply Next; [| exact W | exact Hj |]; [destruct Hp as [-> | ->]; apply same_noted; reflexivity|]. intros M1 Q I2 R2 Aw2. split; [destruct Hp as [-> | ->]; reflexivity|].
      exists [], z, w. split; [destruct Hp as [-> | ->]; [exact I2 | exact (inv_ext _ _ _ _ _ _ _ p2 (set_state p2 i) I2 eq_refl eq_refl eq_refl eq_refl)]|].
      split; [|exact D]. destruct Hp as [-> | ->]; (apply seen_same; [intros R'; split; [exact R' | reflexivity] | exact R2 | exact Aw2]). }
    destruct t as [g0 x0|start follow rule prec|g0 x0|g0 lo hi|g0 x1 x2 x3 x4|g0 ss|g0 ss|g0|g0 x1 x2 x3|g0 x1]; cbn [get_target] in Hlr; try (eapply Label; [exact B | reflexivity | exact Hlr]; fail).
    - destruct (invoke (walk n (-1) start) rule start prec g1 (set_state p2 i) ds2) as [[[[g3 p3] ds3] r3]| |] eqn:E3; cbn [obindo] in B; try discriminate.
      assert (HS : forall g p ds f g' p' ds' f' r, walk n (-1) start g p ds f = Val (g', p', ds', f', r) -> rsound_end (get_precedence p) start g p g' p' r) by (intros until 1; eapply rec_walk_sound; eauto).
      destruct (invoke_sound src ch sfuel e He Hf a names recursive pred plain fuel _ _ _ _ _ _ _ _ _ _ _ HS E3) as (N3 & A3). change (noted (mode g1) p2 (mode g3) p3) in N3.
      destruct r3 as [|e3|]; try discriminate.
      eapply Next; [exact N3 | exact B | exact Hlr|]. intros M1 Q I2 R2 Aw2. destruct (A3 M1 Q eq_refl) as [P3 _]. split; [exact P3|].
      assert (I2' : inv rec h0 true pr st0 f1 z (set_state p2 i)) by exact (inv_ext _ _ _ _ _ _ _ p2 (set_state p2 i) I2 eq_refl eq_refl eq_refl eq_refl).
      destruct (invoke_built (walk n (-1) start) rule start prec g1 (set_state p2 i) ds2 g3 p3 ds3 w (walk_runs n (-1) start) HS (IH (-1) start) (Hnamed _ _ _ _ _ Ld) (inv_wf _ _ _ _ _ _ _ _ I2') (i_build _ _ _ _ _ _ _ _ I2') R2 E3 M1 Q Aw2 K) as (cs & m & v & y0 & w3 & Rt & Bu & S3).
      exists v, (with_kid z (Node rule (fst y0) (snd y0))), w3. split; [exact (inv_returned _ _ _ _ _ _ _ _ _ _ _ _ _ _ _ I2' Rt)|]. split; [exact S3|].
      intros u y Bu'. eapply bu_rule; eauto. replace (get_precedence p) with (get_precedence (set_state p2 i)); [exact Bu|]. unfold get_precedence. cbn. congruence.
    - eapply Quiet; [left; reflexivity | exact B | exact Hlr|]. intros u y D. eapply bu_epsilon; [exact Ld | exact Logic.I | exact D].
    - eapply Quiet; [left; reflexivity | exact B | exact Hlr|]. intros u y D. eapply bu_epsilon; [exact Ld | exact Logic.I | exact D].
    - cbn zeta in B. unfold predicate in B. destruct (pred (set_state p2 i) f1 x2 x3) eqn:Ep; cbn [obindo] in B; [|destruct (failed_predicate _ _ _ _ _) as [[]| |]; discriminate].
      eapply Quiet; [right; reflexivity | exact B | exact Hlr|]. intros u y D. eapply bu_predicate; [exact Ld | exists (set_state p2 i), f1; exact Ep | exact D].
    - cbn zeta in B. unfold predicate in B. destruct (precpred (set_state p2 i) x1) eqn:Ep; cbn [obindo] in B; [|destruct (failed_predicate _ _ _ _ _) as [[]| |]; discriminate].
      eapply Quiet; [right; reflexivity | exact B | exact Hlr|]. intros u y D. eapply bu_precedence; [exact Ld | | exact D].
      unfold precpred in Ep. replace (get_precedence p) with (get_precedence (set_state p2 i)) by (unfold get_precedence; cbn; congruence). lia.
  Qed.
End Deriv.
