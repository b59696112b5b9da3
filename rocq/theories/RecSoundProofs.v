(** Sentences accepted by generated parsers with left-recursive rules. *)
From Coq Require Import ZArith List Bool Lia.
From Verif Require Import CharStreamModel TokenStreamModel TokenStreamSpec TokenStreamProofs CommonTokenStreamProofs.
From Verif Require Import Outcome IntervalSetModel IntervalSetSpec PredContextModel SemContextModel ConfigSetModel DfaModel AtnModel AtnSpec Ll1Model Ll1Spec ParserModel ParserSpec ParserTreeProofs ParserRunProofs ParserEventProofs ParserStreamProofs.
From Verif Require Import PredictModel GenModel GenSpec GenBaseProofs GenStepProofs GenSoundProofs RecModel RecSpec RecCallsProofs.
Import ListNotations.
Local Open Scope Z_scope.
Local Open Scope outcome_scope.

Section RecSound.
  Variable src : nat -> tok.
  Variable ch : Z.
  Variable sfuel : nat.
  Variable e : nat.
  Hypothesis He : eof_number src e.
  Hypothesis Hf : (e <= sfuel)%nat.
  Notation ts := (common_seek src ch sfuel).
  Notation base := (common_stream src ch sfuel).
  Notation ahead := (ahead src ch sfuel).
  Notation parser := (parser uts).
  Implicit Types p : parser.
  Notation mode := in_error_recovery_mode.
  Variable a : atn.
  Variable names : naming.
  Variable recursive : Z -> bool.
  Variable pred : parser -> frame -> Z -> Z -> bool.
  Definition can_hold (r k : Z) : Prop := exists p f, pred p f r k = true.
  Notation derives := (derives a recursive can_hold).
  Notation still := (still src ch sfuel).
  Notation Hist := (common_history src ch sfuel e He Hf).
  Ltac step H := match type of H with obindo ?x _ = Val _ => let E := fresh "E" in destruct x eqn:E; cbn [obindo] in H; [|discriminate|discriminate] end.

  Lemma derives_app q i u j : derives q i u j -> forall v k, derives q j v k -> derives q i (u ++ v) k.
  Proof.
    induction 1; intros w j' D; cbn [app]; auto.
    - eapply de_token; eauto.
    - eapply de_epsilon; eauto.
    - eapply de_precedence; eauto.
    - eapply de_predicate; eauto.
    - rewrite <- app_assoc. eapply de_rule; eauto.
  Qed.
  Definition deats (q i : Z) (w : list Z) (j : Z) (w' : list Z) : Prop :=
    exists u k, w = u ++ w' /\ (k <> O -> w' = []) /\ derives q i (u ++ repeat TOKEN_EOF k) j.
  Lemma deats_here q i w : deats q i w i w.
  Proof. exists [], O. split; [reflexivity|]. split; [congruence|]. constructor. Qed.
  Lemma deats_trans q i w j w1 r w2 : deats q i w j w1 -> deats q j w1 r w2 -> deats q i w r w2.
  Proof.
    intros (u & k & -> & Hk & R) (u' & k' & -> & Hk' & R'). destruct k as [|k].
    - exists (u ++ u'), k'. split; [apply app_assoc|]. split; [exact Hk'|]. rewrite <- app_assoc. eapply derives_app; [|exact R']. rewrite app_nil_r in R. exact R.
    - specialize (Hk ltac:(discriminate)). apply app_eq_nil in Hk as [-> ->]. exists u, (Datatypes.S k + k')%nat. split; [reflexivity|]. split; [auto|].
      rewrite repeat_app, app_assoc. eapply derives_app; [exact R | exact R'].
  Qed.
  Lemma deats_quiet q i j w : (forall u r, derives q j u r -> derives q i u r) -> deats q i w j w.
  Proof. intros H. exists [], O. split; [reflexivity|]. split; [congruence|]. apply H. constructor. Qed.
  Lemma deats_token q i t w : leads a i t -> symbols t 1 (max_token_type a) (hd TOKEN_EOF w) -> deats q i w (get_target t) (tl w).
  Proof.
    intros L. destruct w as [|x w]; cbn; intros T.
    - exists [], 1%nat. split; [reflexivity|]. split; [reflexivity|]. eapply de_token; [exact L | exact T | constructor].
    - exists [x], O. split; [reflexivity|]. split; [congruence|]. eapply de_token; [exact L | exact T | constructor].
  Qed.
  Lemma deats_rule q i g follow rule prec w stop s w' : leads a i (RuleTr g follow rule prec) ->
    deats (if recursive rule then prec else q) g w stop w' -> state_at a stop = Some s -> Ll1Spec.is_stop s -> deats q i w follow w'.
  Proof.
    intros L (u & k & -> & Hk & D) Es St. exists u, k. split; [reflexivity|]. split; [exact Hk|].
    rewrite <- (app_nil_r (u ++ _)). eapply de_rule; eauto. constructor.
  Qed.
  Lemma known_deats q i w j w' : deats q i w j w' -> known_types a w -> known_types a w'.
  Proof. intros (u & k & -> & _) K. apply Forall_app in K. apply K. Qed.

  (** ** The functions of left-recursive rules match nothing *)
  Lemma still_enter_rec p c st k p' : enter_recursion_rule base p c st k = Val p' -> still p p'.
  Proof.
    intros H. unfold enter_recursion_rule in H. step H. destruct a0 as [q t]. injection H as <-.
    apply still_lt in E. destruct E as [A B]. split; [exact A | exact B].
  Qed.
  Lemma still_push p n s q : push_new_recursion_context base p n s = Val q -> still p q.
  Proof.
    intros H. unfold push_new_recursion_context in H. step H. step H. destruct a1 as [q1 t]. step H.
    apply (still_enter_event src ch sfuel) in H. apply still_lt in E0. destruct E0 as [A B], H as [C D].
    destruct (p_build _); (split; [rewrite C; exact A | intros w X; apply D, B, X]).
  Qed.
  Lemma still_unroll_loop : forall n p parent q, unroll_loop n p parent = Val q -> still p q.
  Proof.
    induction n as [|n IH]; intros p parent q H; cbn [unroll_loop] in H; destruct (same_ctx _ _); try discriminate;
      try (inversion H; subst; apply still_refl).
    step H. step H. step H. eapply still_trans; [eapply still_exit_event; eauto|]. apply IH in H. destruct H as [A B]. split; [exact A | exact B].
  Qed.
  Lemma still_unroll p parent q : unroll_recursion_context base p parent = Val q -> still p q.
  Proof.
    intros H. unfold unroll_recursion_context in H. step H. step H. destruct a1 as [q1 t]. step H. inversion H; subst. clear H.
    apply still_lt in E0 as [A B]. cbn in A, B.
    assert (K : still (modify q1 a0 (set_stop t)) a1).
    { destruct (p_listeners _); [inversion E1; subst; apply still_same; reflexivity|]. eapply still_unroll_loop; eauto. }
    destruct K as [C D]. cbn in C, D.
    destruct (p_ctx _); [destruct (p_build _)|]; cbn; split; auto; cbn; congruence.
  Qed.

  Variable sempred : uts -> option nat -> Z -> Z -> bool.
  Variable order : list nat -> list sem -> list sem.
  Variable alt_order : list (list Z) -> list (list Z).
  Variable hash : pctx -> Z.
  Variable dhash : list pconfig -> Z.
  Variable share : pctx -> pctx.
  Variable clock : uts -> nat.
  Variable pred_mode : pmode.
  Variable plan : Z -> Z -> list ParserModel.call.
  Hypothesis Hplan : rec_plan_kinds plan.
  Variable switch : Z -> option (Z -> option Z).
  Variable plain : Z -> bool.
  Variable pred_text : Z -> Z -> text.
  Variable pred_message : Z -> Z -> option text.
  Variable fuel : nat.
  Notation choose := (choose ts a sempred order alt_order hash dhash share clock pred_mode switch fuel).
  Notation invoke := (RecModel.invoke ts a names plain recursive fuel).
  Notation walk := (RecModel.walk ts a names sempred order alt_order hash dhash share clock pred_mode plan switch plain recursive pred pred_text pred_message fuel).
  Notation clean := (clean src ch sfuel).

  Lemma rec_plan_clean cs : Forall (fun c => match c with CSetState _ | CSync | CLook _ | CAlt _ | CLabel _ | CSetStop | CExitEvent | CNext _ _ => True | _ => False end) cs ->
    forall g p f g' p' f' r, run_calls base a names fuel cs g p f = Val (g', p', f', r) -> clean g p g' p' (match r with None => true | _ => false end).
  Proof.
    induction 1 as [|c cs Hc _ IH]; intros g p f g' p' f' r H; cbn [run_calls] in H; [injection H as <- <- <- <-; apply still_clean, still_refl|].
    destruct (run_call base a names fuel c g p f) as [[[[g1 p1] f1] r1]| |] eqn:E; cbn [obindo] in H; try discriminate.
    assert (C1 : clean g p g1 p1 (match r1 with None => true | _ => false end)).
    { destruct c; try contradiction; cbn [run_call] in E.
      - injection E as <- <- <- <-. apply still_clean, still_same; reflexivity.
      - destruct (ParserModel.la base p k) as [[q x]| |] eqn:E1; cbn [obindo] in E; try discriminate. injection E as <- <- <- <-. apply still_clean. eapply still_la; eauto.
      - unfold no_result in E. destruct (sync base a names fuel g p) as [[[g2 p2] r2]| |] eqn:E1; cbn [obindo] in E; try discriminate. injection E as <- <- <- <-.
        split; [eapply sync_noted; exact E1|]. intros M N Ok w A. destruct r2; [discriminate|]. eapply sync_clean; eauto.
      - destruct label as [k|].
        + step E. cbn [alloc] in E. step E. injection E as <- <- <- <-. apply still_clean. eapply still_trans; [|eapply still_alt; eassumption]. apply still_same; reflexivity.
        + step E. injection E as <- <- <- <-. apply still_clean. eapply still_alt; eauto.
      - step E. cbn [alloc] in E. injection E as <- <- <- <-. apply still_clean, still_same; reflexivity.
      - destruct (ParserModel.lt base p (-1)) as [[q x]| |] eqn:E1; cbn [obindo] in E; try discriminate. step E. injection E as <- <- <- <-. apply still_clean.
        apply still_lt in E1. destruct E1 as [A B]. split; [exact A | exact B].
      - step E. injection E as <- <- <- <-. apply still_clean. eapply still_exit_event; eauto.
      - cbn [alloc] in E. step E. injection E as <- <- <- <-. apply still_clean. apply still_push in E0. destruct E0 as [A B]. split; [exact A | exact B]. }
    destruct r1 as [e1|]; [injection H as <- <- <- <-; exact C1|]. destruct (IH _ _ _ _ _ _ _ H) as (N2 & A2). destruct C1 as (N1 & A1).
    split; [eapply noted_trans; eauto|]. intros M N Ok w A.
    destruct (grows_mid p p1 p' (noted_more _ _ _ _ N1) (noted_more _ _ _ _ N2) N) as (Q1 & Q2). apply A2; auto. eapply noted_mode; eauto.
  Qed.

  Definition rsound_end (q i : Z) (g : strategy) (p : parser) (g' : strategy) (p' : parser) (r : ending) : Prop :=
    noted (mode g) p (mode g') p' /\
    (mode g = false -> p_notices p' = p_notices p -> r = Ended ->
      p_prec p' = p_prec p /\
      forall w, ahead (p_input p) w -> known_types a w ->
        exists stop s w', state_at a stop = Some s /\ Ll1Spec.is_stop s /\ ahead (p_input p') w' /\ deats q i w stop w').

  Lemma invoke_sound body rule start prec g p ds g' p' ds' r :
    (forall g p ds f g' p' ds' f' r, body g p ds f = Val (g', p', ds', f', r) -> rsound_end (get_precedence p) start g p g' p' r) ->
    invoke body rule start prec g p ds = Val (g', p', ds', r) ->
    rsound_end (if recursive rule then prec else get_precedence p) start g p g' p' r.
  Proof.
    intros Body H.
    (* the two kinds of functions *)
    assert (B : exists p1 f g2 p2 ds2 f2 r2, still p p1 /\ get_precedence p1 = (if recursive rule then prec else get_precedence p) /\
      body g p1 ds f = Val (g2, p2, ds2, f2, r2) /\
      ((r2 = Full /\ g' = g2 /\ p' = p2 /\ r = Full) \/ r2 <> Full /\ exists g3 p3 r3,
        catch base a names fuel g2 p2 (match r2 with Raised e => Some e | _ => None end) = Val (g3, p3, r3) /\
        match r3 with
        | Some x => g' = g3 /\ p' = p3 /\ r = Raised x
        | None => g' = g3 /\ still p3 p' /\ (p_prec p3 = p_prec p1 -> p_prec p' = p_prec p)
        end)).
    { unfold RecModel.invoke in H. destruct (recursive rule).
      - unfold rec_function in H. cbn [alloc k_base common_seek] in H. step H.
        match type of H with obindo ?x _ = _ => destruct x as [[[[[g2 p2] ds2] f2] r2]| |] eqn:E2; cbn [obindo] in H; try discriminate end.
        pose proof (enter_rec_kept _ _ _ Hist _ _ _ _ _ E) as [_ Kp]. cbn in Kp. apply still_enter_rec in E.
        exists a0; do 6 eexists. split; [destruct E as [A B]; split; [exact A | exact B]|]. split; [unfold get_precedence; rewrite Kp; apply last_last|]. split; [exact E2|].
        assert (X : (r2 = Full /\ Val (g2, p2, ds2, Full) = Val (g', p', ds', r)) \/ r2 <> Full /\
          (let! (g, p0, r) := catch base a names fuel g2 p2 (match r2 with Raised e => Some e | _ => None end) in
            match r with Some e => Val (g, p0, ds2, Raised e) | None => let! p0 := unroll_recursion_context base p0 (p_ctx p) in Val (g, p0, ds2, Ended) end) = Val (g', p', ds', r)).
        { destruct r2; [right; split; [discriminate | exact H] | right; split; [discriminate | exact H] | left; split; [reflexivity | exact H]]. }
        destruct X as [[-> X]|[N X]]; [left; injection X as <- <- <- <-; auto|]. right. split; [exact N|].
        destruct (catch _ _ _ _ _ _ _) as [[[g3 p3] r3]| |] eqn:E3; cbn [obindo] in X; try discriminate. exists g3, p3, r3. split; [reflexivity|].
        destruct r3; [injection X as <- <- <- <-; auto|]. step X. injection X as <- <- <- <-. pose proof (unroll_kept _ _ _ Hist _ _ _ E0) as [_ Ku].
        split; [reflexivity|]. split; [eapply still_unroll; eauto|]. intros Q. rewrite Ku, Q, Kp. apply removelast_last.
      - unfold rule_function in H. cbn [alloc k_base common_seek] in H. step H.
        match type of H with obindo ?x _ = _ => destruct x as [[[[[g2 p2] ds2] f2] r2]| |] eqn:E2; cbn [obindo] in H; try discriminate end.
        pose proof (enter_rule_kept _ _ _ Hist _ _ _ _ E) as [_ Kp]. cbn in Kp. apply still_enter in E.
        exists a0; do 6 eexists. split; [destruct E as [A B]; split; [exact A | exact B]|]. split; [unfold get_precedence; rewrite Kp; reflexivity|]. split; [exact E2|].
        assert (X : (r2 = Full /\ Val (g2, p2, ds2, Full) = Val (g', p', ds', r)) \/ r2 <> Full /\
          (let! (g, p0, r) := catch base a names fuel g2 p2 (match r2 with Raised e => Some e | _ => None end) in
            match r with Some e => Val (g, p0, ds2, Raised e) | None => let! p0 := exit_rule base p0 in Val (g, p0, ds2, Ended) end) = Val (g', p', ds', r)).
        { destruct r2; [right; split; [discriminate | exact H] | right; split; [discriminate | exact H] | left; split; [reflexivity | exact H]]. }
        destruct X as [[-> X]|[N X]]; [left; injection X as <- <- <- <-; auto|]. right. split; [exact N|].
        destruct (catch _ _ _ _ _ _ _) as [[[g3 p3] r3]| |] eqn:E3; cbn [obindo] in X; try discriminate. exists g3, p3, r3. split; [reflexivity|].
        destruct r3; [injection X as <- <- <- <-; auto|]. step X. injection X as <- <- <- <-. pose proof (exit_rule_kept _ _ _ Hist _ _ E0) as [_ Ku].
        split; [reflexivity|]. split; [eapply still_exit; eauto|]. intros Q. congruence. }
    clear H. destruct B as (p1 & f & g2 & p2 & ds2 & f2 & r2 & (N1 & A1) & <- & E2 & B).
    destruct (Body _ _ _ _ _ _ _ _ _ E2) as (N2 & A2). clear E2.
    assert (N12 : noted (mode g) p (mode g2) p2) by (eapply noted_trans; [apply same_noted; exact N1 | exact N2]).
    destruct B as [(-> & -> & -> & ->)|(Nf & g3 & p3 & r3 & E3 & B)]; [split; [exact N12 | discriminate]|].
    destruct (catch_noted base a names fuel _ _ _ _ _ _ E3) as (N3 & C3).
    assert (N13 : noted (mode g) p (mode g3) p3) by (eapply noted_trans; eauto).
    destruct r3 as [e3|]; [destruct B as (-> & -> & ->); split; [exact N13 | discriminate]|]. destruct B as (-> & (N4 & A4) & P4).
    split; [eapply noted_trans; [exact N13 | apply same_noted; exact N4]|].
    intros M N _. rewrite N4 in N.
    destruct (grows_mid p p2 p3 (noted_more _ _ _ _ N12) (noted_more _ _ _ _ N3) N) as (Q1 & Q2).
    pose proof (noted_mode _ _ _ _ N12 M Q1) as M2. specialize (C3 M2 Q2). destruct r2 as [|e2|]; [|destruct e2; try contradiction|].
    - cbn in E3. injection E3 as <- <-. destruct (A2 M ltac:(congruence) eq_refl) as [P2 A2']. split; [auto|]. intros w A K.
      destruct (A2' w (A1 w A) K) as (stop & s & w' & Es & St & A' & Ea). exists stop, s, w'. auto.
    - cbn in E3. discriminate.
    - congruence.
  Qed.

  Lemma choose_prec i s p ds p' ds' c : choose i s p ds = Val (p', ds', c) -> p_prec p' = p_prec p.
  Proof.
    intros H. unfold GenModel.choose in H.
    assert (X : p' = p \/
      match switch i with
        | Some f =>
            let! (p, x) := la (k_base ts) p 1 in
            match f x with
            | Some j => let! t := alternative s j in Val (p, ds, Go t)
            | None => let! e := no_alt_here ts p in Val (p, ds, Stuck e)
            end
        | None =>
            match st_type s with
            | DecisionState k _ _ =>
                let! d := unwrap (vget ds k) in
                let! c := get_ctx p in
                let! stack := ancestors (Datatypes.S (length (p_heap p))) (p_heap p) c in
                let! (m, r) := adaptive_predict ts a nat sempred order alt_order hash dhash share fuel pred_mode (get_precedence p) c stack
                                 k i d (p_input p) (clock (p_input p)) in
                let p := with_input p (m_input m) in
                let! ds := unwrap (vset ds k (m_dfa m)) in
                if ERROR_DFA_STATE_REF <=? Z.of_nat (length (dfa_states (m_dfa m))) then Val (p, ds, DfaFull)
                else
                  match r with
                  | Predicted j => let! t := alternative s j in Val (p, ds, Go t)
                  | NoViableAlt t0 t1 => let! e := no_alt_full p t0 t1 in Val (p, ds, Stuck e)
                  end
            | _ => Panics
            end
        end = Val (p', ds', c)).
    { destruct (st_trans s) as [|t [|t1 l]]; auto. left. inversion H; subst. auto. }
    clear H. destruct X as [-> |H]; auto. destruct (switch i) as [f|].
    - step H. destruct a0 as [p1 x]. unfold la in E. step E. destruct a0 as [p2 x2]. inversion E; subst. apply (lt_kept _ _ _ Hist) in E0 as [_ K].
      destruct (f _) as [j|]; step H; inversion H; subst; exact K.
    - destruct (st_type s) eqn:Et; try discriminate. step H. step H. step H. step H. destruct a3 as [m r]. step H.
      destruct (ERROR_DFA_STATE_REF <=? _); [inversion H; subst; reflexivity|]. destruct r as [j|t0 t1]; step H; inversion H; subst; reflexivity.
  Qed.

  Theorem rec_walk_sound : forall n from i g p ds f g' p' ds' f' r, walk n from i g p ds f = Val (g', p', ds', f', r) -> rsound_end (get_precedence p) i g p g' p' r.
  Proof.
    induction n as [|n IH]; intros from i g p ds f g' p' ds' f' r H; [discriminate|]. cbn [RecModel.walk k_base common_seek] in H.
    destruct (run_calls base a names fuel (plan from i) g p f) as [[[[g1 p1] f1] r1]| |] eqn:E1; cbn [obindo] in H; try discriminate.
    destruct (rec_plan_clean _ (Hplan from i) _ _ _ _ _ _ _ E1) as (N1 & A1).
    pose proof (calls_keep _ _ _ _ _ _ Hist _ _ _ _ _ _ _ _ E1) as [_ P1]. clear E1.
    destruct r1 as [e1|]; [injection H as <- <- <- <- <-; split; [exact N1 | discriminate]|]. specialize (P1 Logic.I).
    destruct (get_state a i) as [s| |] eqn:Es; cbn [obindo] in H; try discriminate.
    assert (Ei : state_at a i = Some s).
    { unfold get_state in Es. change (vget (states a) i) with (state_at a i) in Es. destruct (state_at a i); cbn in Es; [injection Es as <-; reflexivity | discriminate]. }
    assert (B : (Ll1Spec.is_stop s /\ g' = g1 /\ p' = p1 /\ r = Ended) \/ ~ Ll1Spec.is_stop s /\
      (let! (p, ds, c) := choose i s p1 ds in
                match c with
                | Stuck e => Val (g1, p, ds, f1, Raised e)
                | DfaFull => Val (g1, p, ds, f1, Full)
                | Go t =>
                    match t with
                    | RuleTr start follow rule prec =>
                        let! (g, p, ds, r) := invoke (walk n (-1) start) rule start prec g1 (set_state p i) ds in
                        match r with
                        | Ended => walk n i follow g p ds f1
                        | r => Val (g, p, ds, f1, r)
                        end
                    | Atom target _ | Wildcard target | Range target _ _ | SetTr target _ | NotSet target _ =>
                        let! (g, p, r) := match_label ts a names fuel t g1 (set_state p i) in
                        match r with
                        | None => walk n i target g p ds f1
                        | Some e => Val (g, p, ds, f1, Raised e)
                        end
                    | Epsilon target _ | Action target _ _ _ _ => walk n i target g1 p ds f1
                    | PredicateTr target _ _ _ | PrecedenceTr target _ =>
                        let p := set_state p i in
                        let! r := predicate ts a pred pred_text pred_message t p f1 in
                        match r with
                        | None => walk n i target g1 p ds f1
                        | Some e => Val (g1, p, ds, f1, Raised e)
                        end
                    end
                end) = Val (g', p', ds', f', r)).
    { destruct (st_type s) eqn:Ty; first [right; split; [unfold Ll1Spec.is_stop; congruence | exact H] | left; split; [exact Ty|]; injection H as <- <- <- <- <-; auto]. }
    clear H. destruct B as [(St & -> & -> & ->)|(Ns & B)].
    { split; [exact N1|]. intros M N _. split; [exact P1|]. intros w A K. exists i, s, w. split; [exact Ei|]. split; [exact St|]. split; [apply A1; auto | apply deats_here]. }
    destruct (choose i s p1 ds) as [[[p2 ds2] c]| |] eqn:E2; cbn [obindo] in B; try discriminate.
    destruct (choose_still _ _ _ e He Hf _ _ _ _ _ _ _ _ _ _ _ _ _ _ _ _ _ _ E2) as ((N2 & A2) & In2). pose proof (choose_prec _ _ _ _ _ _ _ E2) as P2. clear E2.
    assert (P12 : p_prec p2 = p_prec p) by congruence.
    assert (N12 : noted (mode g) p (mode g1) p2) by (eapply noted_trans; [exact N1 | apply same_noted; exact N2]).
    destruct c as [t|e2|]; [|injection B as <- <- <- <- <-; split; [exact N12 | discriminate]..].
    specialize (In2 t eq_refl). assert (Ld : leads a i t) by (exists s; auto).
    assert (Next : forall g3 p3 ds3 j, noted (mode g1) p2 (mode g3) p3 -> walk n i j g3 p3 ds3 f1 = Val (g', p', ds', f', r) ->
      (mode g1 = false -> p_notices p3 = p_notices p2 -> p_prec p3 = p_prec p2 /\ forall w, ahead (p_input p2) w -> known_types a w -> exists w3, ahead (p_input p3) w3 /\ deats (get_precedence p) i w j w3) ->
      rsound_end (get_precedence p) i g p g' p' r).
    { intros g3 p3 ds3 j N3 W A3. destruct (IH _ _ _ _ _ _ _ _ _ _ _ W) as (N4 & A4).
      assert (N13 : noted (mode g) p (mode g3) p3) by (eapply noted_trans; eauto). split; [eapply noted_trans; eauto|].
      intros M N Hr. destruct (grows_mid _ _ _ (noted_more _ _ _ _ N13) (noted_more _ _ _ _ N4) N) as (Q3 & Q4).
      destruct (grows_mid _ _ _ (noted_more _ _ _ _ N12) (noted_more _ _ _ _ N3) Q3) as (Q12 & Q23).
      assert (M1 : mode g1 = false) by (eapply noted_mode; eauto). assert (M3 : mode g3 = false) by (eapply noted_mode; eauto).
      destruct (A3 M1 Q23) as [P3 A3']. destruct (A4 M3 Q4 Hr) as [P4 A4']. split; [congruence|]. intros w A K.
      assert (Aw : ahead (p_input p2) w) by (apply A2, A1; auto; congruence).
      destruct (A3' w Aw K) as (w3 & Aw3 & Ew3).
      destruct (A4' w3 Aw3 (known_deats _ _ _ _ _ Ew3 K)) as (stop & ss & w' & Ess & Sts & Aw' & Ew'). exists stop, ss, w'.
      split; [exact Ess|]. split; [exact Sts|]. split; [exact Aw'|]. eapply deats_trans; eauto.
      replace (get_precedence p) with (get_precedence p3); [exact Ew'|]. unfold get_precedence. congruence. }
    assert (Fail : forall g3 p3 r3, noted (mode g1) p2 (mode g3) p3 -> r3 <> Ended -> rsound_end (get_precedence p) i g p g3 p3 r3).
    { intros g3 p3 r3 N3 Ne. split; [eapply noted_trans; eauto|]. intros; congruence. }
    assert (Label : forall j, (let! (g, p, r) := match_label ts a names fuel t g1 (set_state p2 i) in
                        match r with
                        | None => walk n i j g p ds2 f1
                        | Some e => Val (g, p, ds2, f1, Raised e)
                        end) = Val (g', p', ds', f', r) -> j = get_target t -> rsound_end (get_precedence p) i g p g' p' r).
    { intros j L ->. destruct (match_label ts a names fuel t g1 (set_state p2 i)) as [[[g3 p3] r3]| |] eqn:E3; cbn [obindo] in L; try discriminate.
      pose proof (label_noted src ch sfuel a names _ _ _ _ _ _ _ E3) as N3. change (noted (mode g1) p2 (mode g3) p3) in N3.
      destruct r3 as [e3|]; [injection L as <- <- <- <- <-; apply Fail; [exact N3 | discriminate]|].
      eapply Next; [exact N3 | exact L|]. intros M Q. split.
      - destruct (label_runs src ch sfuel a names fuel _ _ _ _ _ _ E3) as (c & _ & Rc). pose proof (call_keeps _ a names fuel _ _ Hist _ _ _ _ _ _ _ _ (Rc f1)) as [_ K3]. exact (K3 Logic.I).
      - intros w A K. destruct (label_clean src ch sfuel e He Hf a names _ _ _ _ _ _ w E3 M Q A K) as (Sy & A').
        exists (tl w). split; [exact A'|]. apply deats_token; auto. }
    assert (Quiet : forall p3 j, p3 = p2 \/ p3 = set_state p2 i -> walk n i j g1 p3 ds2 f1 = Val (g', p', ds', f', r) ->
      (forall u q, derives (get_precedence p) j u q -> derives (get_precedence p) i u q) -> rsound_end (get_precedence p) i g p g' p' r).
    { intros p3 j Hp W D. eapply Next; [| exact W |]; [destruct Hp as [-> | ->]; apply same_noted; reflexivity|]. intros M Q. split; [destruct Hp as [-> | ->]; reflexivity|].
      intros w A K. exists w. split; [destruct Hp as [-> | ->]; exact A|]. apply deats_quiet. exact D. }
    destruct t as [g0 x0|start follow rule pr|g0 x0|g0 lo hi|g0 x1 x2 x3 x4|g0 ss|g0 ss|g0|g0 x1 x2 x3|g0 x1]; try (eapply Label; [exact B | reflexivity]; fail).
    - destruct (invoke (walk n (-1) start) rule start pr g1 (set_state p2 i) ds2) as [[[[g3 p3] ds3] r3]| |] eqn:E3; cbn [obindo] in B; try discriminate.
      destruct (invoke_sound _ _ _ _ _ _ _ _ _ _ _ (fun g p ds f g' p' ds' f' r => IH (-1) start g p ds f g' p' ds' f' r) E3) as (N3 & A3). change (noted (mode g1) p2 (mode g3) p3) in N3.
      destruct r3 as [|e3|]; [|injection B as <- <- <- <- <-; apply Fail; [exact N3 | discriminate]..].
      eapply Next; [exact N3 | exact B|]. intros M Q. destruct (A3 M Q eq_refl) as [P3 A3']. split; [exact P3|]. intros w A K.
      destruct (A3' w A K) as (stop & sk & w3 & Ek & Sk & Aw3 & Ew3).
      exists w3. split; [exact Aw3|]. eapply deats_rule; eauto. unfold get_precedence in *. cbn in Ew3. rewrite P12 in Ew3. exact Ew3.
    - apply (Quiet p2 g0); [auto | exact B|]. intros u q D. exact (de_epsilon _ _ _ _ _ _ _ _ Ld Logic.I D).
    - apply (Quiet p2 g0); [auto | exact B|]. intros u q D. exact (de_epsilon _ _ _ _ _ _ _ _ Ld Logic.I D).
    - cbn [predicate] in B. destruct (pred (set_state p2 i) f1 x2 x3) eqn:Ep; cbn [obindo] in B.
      + eapply Quiet; [right; reflexivity | exact B |]. intros u q D. eapply de_predicate; eauto. exists (set_state p2 i), f1. exact Ep.
      + step B. step E. injection E as <-. injection B as <- <- <- <- <-. apply Fail; [apply same_noted; reflexivity | discriminate].
    - cbn [predicate] in B. destruct (precpred (set_state p2 i) x1) eqn:Ep; cbn [obindo] in B.
      + eapply Quiet; [right; reflexivity | exact B |]. intros u q D. eapply de_precedence; eauto. unfold precpred, get_precedence in *. cbn in Ep. rewrite P12 in Ep. lia.
      + step B. step E. injection E as <-. injection B as <- <- <- <- <-. apply Fail; [apply same_noted; reflexivity | discriminate].
  Qed.

  Lemma rec_parse_sound n rule start g p ds g' p' ds' w :
    RecModel.parse ts a names sempred order alt_order hash dhash share clock pred_mode plan switch plain recursive pred pred_text pred_message fuel n rule start g p ds = Val (g', p', ds', Ended) ->
    mode g = false -> p_notices p' = p_notices p -> ahead (p_input p) w -> known_types a w ->
    exists u w' k stop s, w = u ++ w' /\ ahead (p_input p') w' /\ (k <> O -> w' = []) /\ state_at a stop = Some s /\ Ll1Spec.is_stop s /\
      derives (if recursive rule then 0 else get_precedence p) start (u ++ repeat TOKEN_EOF k) stop.
  Proof.
    intros H M N A K. unfold RecModel.parse in H.
    destruct (invoke_sound _ _ _ _ _ _ _ _ _ _ _ (fun g p ds f g' p' ds' f' r => rec_walk_sound n (-1) start g p ds f g' p' ds' f' r) H) as (_ & S0).
    destruct (S0 M N eq_refl) as [_ S1]. destruct (S1 w A K) as (stop & s & w' & Es & St & A' & u & k & Hw & Hk & R). exists u, w', k, stop, s. auto 10.
  Qed.
End RecSound.
