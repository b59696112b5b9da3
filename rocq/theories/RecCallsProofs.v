(** A run of a generated parser is a history of calls of the runtime. *)
From Coq Require Import ZArith List Bool Lia.
From Verif Require Import CharStreamModel TokenStreamModel TokenStreamSpec TokenStreamProofs CommonTokenStreamProofs.
From Verif Require Import Outcome IntervalSetModel IntervalSetSpec IntervalSetProofs PredContextModel SemContextModel ConfigSetModel DfaModel AtnModel AtnSpec Ll1Model Ll1Spec ParserModel ParserSpec ParserTreeProofs ParserRunProofs ParserEventProofs ParserStreamProofs.
From Verif Require Import PredictModel GenModel GenBaseProofs GenStepProofs GenSoundProofs StreamLookProofs RecModel RecSpec.
Import ListNotations.
Local Open Scope Z_scope.
Local Open Scope outcome_scope.

(** ** What every call keeps *)
Section Kept.
  Context {S : Type}.
  Variable ts : stream_ops S.
  Variable a : atn.
  Variable names : naming.
  Variable fuel : nat.
  Variable Inv : S -> Prop.
  Variable past : S -> list tok.
  Hypothesis Hist : history ts Inv past.
  Ltac step H := match type of H with obindo ?x _ = Val _ => let E := fresh "E" in destruct x eqn:E; cbn [obindo] in H; [|discriminate|discriminate] end.

  Definition kept (p p' : parser S) : Prop := (Inv (p_input p) -> Inv (p_input p')) /\ p_prec p' = p_prec p.
  Definition kept_if (r : option perr) (p p' : parser S) : Prop := (Inv (p_input p) -> Inv (p_input p')) /\ (ended r -> p_prec p' = p_prec p).
  Lemma kept_refl p : kept p p.
  Proof. split; auto. Qed.
  Lemma kept_trans p q r : kept p q -> kept q r -> kept p r.
  Proof. intros [A B] [C D]. split; [auto | congruence]. Qed.
  Lemma kept_any r p p' : kept p p' -> kept_if r p p'.
  Proof. intros [A B]. split; auto. Qed.
  Lemma flat_kept p p' : flat_ex Inv past p p' -> kept p p'.
  Proof. intros [acts F]. split; [apply (fl_past _ _ _ _ _ F) | apply (fl_prec _ _ _ _ _ F)]. Qed.
  Lemma lt_kept p k p' t : lt ts p k = Val (p', t) -> kept p p'.
  Proof. intros H. destruct (lt_same ts Inv past Hist _ _ _ _ H) as (_ & _ & A & _ & _ & _ & B). split; [apply B | auto]. Qed.
  Lemma kept_same p p' : p_input p' = p_input p -> p_prec p' = p_prec p -> kept p p'.
  Proof. intros A B. split; congruence. Qed.
  Lemma enter_event_kept p q : trigger_enter_rule_event p = Val q -> kept p q.
  Proof. intros H. apply enter_event in H as (_ & _ & A & _ & _ & B & _). apply kept_same; auto. Qed.
  Lemma exit_event_kept p q : trigger_exit_rule_event p = Val q -> kept p q.
  Proof. intros H. apply exit_event in H as (_ & _ & A & _ & _ & B & _). apply kept_same; auto. Qed.
  Lemma enter_rule_kept p n s q : enter_rule ts p n s = Val q -> kept p q.
  Proof.
    intros H. unfold enter_rule in H. step H. destruct a0 as [p1 t].
    eapply kept_trans; [|eapply kept_trans; [eapply lt_kept; eauto|]]; [apply kept_same; reflexivity|].
    destruct (p_build _); [|inversion H; subst; apply kept_same; reflexivity].
    unfold add_context_to_parse_tree in H. step H. step H. inversion H; subst. destruct (x_parent a1); apply kept_same; reflexivity.
  Qed.
  Lemma exit_rule_kept p q : exit_rule ts p = Val q -> kept p q.
  Proof.
    intros H. unfold exit_rule in H. step H. step H. destruct a1 as [p1 t]. step H. step H. inversion H; subst.
    eapply kept_trans; [eapply lt_kept; eauto|]. apply exit_event_kept in E1 as [A B]. split; [exact A | exact B].
  Qed.
  Lemma outer_alt_kept p n q : enter_outer_alt p n = Val q -> kept p q.
  Proof.
    intros H. unfold enter_outer_alt in H. step H. eapply kept_trans; [|eapply enter_event_kept; eauto].
    destruct n as [n|]; [|inversion E; subst; apply kept_refl]. step E. step E. inversion E; subst.
    destruct (_ && _); [destruct (x_parent a2)|]; apply kept_same; reflexivity.
  Qed.
  Lemma push_kept p n s q : push_new_recursion_context ts p n s = Val q -> kept p q.
  Proof.
    intros H. unfold push_new_recursion_context in H. step H. step H. destruct a1 as [q1 t]. step H.
    apply enter_event_kept in H. eapply kept_trans; [|exact H].
    apply lt_kept in E0. destruct E0 as [A B]. destruct (p_build _); split; cbn in *; auto.
  Qed.
  Lemma unroll_loop_kept : forall n p parent q, unroll_loop n p parent = Val q -> kept p q.
  Proof.
    induction n as [|n IH]; intros p parent q H; cbn [unroll_loop] in H; destruct (same_ctx _ _); try discriminate;
      try (inversion H; subst; apply kept_refl).
    step H. step H. step H. eapply kept_trans; [eapply exit_event_kept; eauto|]. apply IH in H. destruct H as [A B]. split; [exact A | exact B].
  Qed.
  Lemma unroll_kept p parent q : unroll_recursion_context ts p parent = Val q ->
    (Inv (p_input p) -> Inv (p_input q)) /\ p_prec q = removelast (p_prec p).
  Proof.
    intros H. unfold unroll_recursion_context in H. step H. step H. destruct a1 as [q1 t]. step H. inversion H; subst. clear H.
    apply lt_kept in E0 as [A B]. cbn in A, B.
    assert (K : kept (modify q1 a0 (set_stop t)) a1).
    { destruct (p_listeners _); [inversion E1; subst; apply kept_same; reflexivity|]. eapply unroll_loop_kept; eauto. }
    destruct K as [C D]. cbn in C, D.
    destruct (p_ctx _); [destruct (p_build _)|]; cbn; split; auto; congruence.
  Qed.
  Lemma enter_rec_kept p n s k q : enter_recursion_rule ts p n s k = Val q ->
    (Inv (p_input p) -> Inv (p_input q)) /\ p_prec q = p_prec p ++ [k].
  Proof.
    intros H. unfold enter_recursion_rule in H. step H. destruct a0 as [q1 t]. inversion H; subst. apply lt_kept in E as [A B]. cbn in *. auto.
  Qed.
  (** errors that a rule function does not handle leave the function that raised them *)
  Lemma catch_kept g p r g' p' r' : catch ts a names fuel g p r = Val (g', p', r') ->
    kept p p' /\ (ended r' -> r' = None /\ ended r).
  Proof.
    intros H. split; [apply flat_kept; eapply catch_flat; eauto|]. intros E. destruct r' as [e|].
    - destruct (catch_result ts a names fuel _ _ _ _ _ _ H) as [c ->]. easy.
    - split; auto. destruct r as [[]|]; cbn; auto. cbn in H. discriminate.
  Qed.

  Definition call_kept (c : call) : Prop := forall g p f g' p' f' r,
    run_call ts a names fuel c g p f = Val (g', p', f', r) -> kept_if r p p'.
  Lemma calls_kept_of cs : Forall call_kept cs -> forall g p f g' p' f' r,
    run_calls ts a names fuel cs g p f = Val (g', p', f', r) -> kept_if r p p'.
  Proof.
    induction 1 as [|c cs Hc _ IH]; intros g p f g' p' f' r H; cbn [run_calls] in H.
    - inversion H; subst. split; auto.
    - step H. destruct a0 as [[[g1 p1] f1] r1]. apply Hc in E as [A B]. destruct r1 as [e|].
      + inversion H; subst. split; auto.
      + apply IH in H as [C D]. split; auto. intros X. rewrite D by auto. apply B. exact Logic.I.
  Qed.
  Lemma call_keeps : forall c, call_kept c.
  Proof.
    apply call_ind'.
    - intros c N1 N2. destruct c as [s|k| |ty| |inset|n|e|[k|]|k| | |k pl|r s pl b|r s n pl b];
        try solve [exfalso; eapply N1; eauto|exfalso; eapply N2; eauto]; clear N1 N2;
        intros g p f g' p' f' r H; cbn [run_call alloc] in H; apply kept_any.
      + inversion H; subst. apply kept_same; reflexivity.
      + step H. destruct a0 as [q t]. inversion H; subst. unfold la in E. step E. destruct a0. inversion E; subst. eapply lt_kept; eauto.
      + unfold no_result in H. step H. destruct a0 as [[g1 p1] r1]. inversion H; subst. apply flat_kept. eapply sync_flat; eauto.
      + unfold no_tok in H. step H. destruct a0 as [[g1 p1] r1]. inversion H; subst. apply flat_kept. eapply match_token_flat; eauto.
      + unfold no_tok in H. step H. destruct a0 as [[g1 p1] r1]. inversion H; subst. apply flat_kept. eapply match_wildcard_flat; eauto.
      + unfold no_result in H. step H. destruct a0 as [[g1 p1] r1]. inversion H; subst. apply flat_kept. eapply match_set_flat; eauto.
      + destruct (precpred p n); [inversion H; subst; apply kept_refl|]. step H. inversion H; subst. apply kept_refl.
      + inversion H; subst. apply kept_refl.
      + step H. cbn [alloc] in H. step H. inversion H; subst. apply outer_alt_kept in E0 as [A B]. split; [exact A | exact B].
      + step H. inversion H; subst. eapply outer_alt_kept; eauto.
      + step H. inversion H; subst. apply kept_same; reflexivity.
      + step H. destruct a0 as [q t]. step H. inversion H; subst. apply lt_kept in E as [A B]. split; [exact A | exact B].
      + step H. inversion H; subst. eapply exit_event_kept; eauto.
      + step H. inversion H; subst. apply push_kept in E as [A B]. split; [exact A | exact B].
    - intros r s pl b F g p f g' p' f' r' H. cbn [run_call alloc] in H. step H. apply enter_rule_kept in E as [A B]. cbn in A, B.
      rewrite run_calls_eq in H. step H. destruct a1 as [[[g1 p1] f1] r1]. apply (calls_kept_of _ F) in E as [C D].
      step H. destruct a1 as [[g2 p2] r2]. apply catch_kept in E as [[G I] J]. destruct r2 as [e|].
      + inversion H; subst. split; [auto|]. intros X. destruct (J X). discriminate.
      + step H. inversion H; subst. apply exit_rule_kept in E as [K L]. split; [auto|]. intros _.
        destruct (J Logic.I) as [_ X]. rewrite L, I, D, B by auto. reflexivity.
    - intros r s n pl b F g p f g' p' f' r' H. cbn [run_call alloc] in H. step H. apply enter_rec_kept in E as [A B]. cbn in A, B.
      rewrite run_calls_eq in H. step H. destruct a1 as [[[g1 p1] f1] r1]. apply (calls_kept_of _ F) in E as [C D].
      step H. destruct a1 as [[g2 p2] r2]. apply catch_kept in E as [[G I] J]. destruct r2 as [e|].
      + inversion H; subst. split; [auto|]. intros X. destruct (J X). discriminate.
      + step H. inversion H; subst. apply unroll_kept in E as [K L]. split; [auto|]. intros _.
        destruct (J Logic.I) as [_ X]. rewrite L, I, D, B by auto. apply removelast_last.
  Qed.
  Lemma calls_keep cs g p f g' p' f' r : run_calls ts a names fuel cs g p f = Val (g', p', f', r) -> kept_if r p p'.
  Proof. apply calls_kept_of. apply Forall_forall. intros. apply call_keeps. Qed.
End Kept.

Lemma in_set_member s x : in_set s x = true <-> member x (intervals s).
Proof.
  unfold in_set, member. rewrite existsb_exists. split.
  - intros (r & I & H). apply andb_prop in H. exists r. split; [exact I | unfold in_range; lia].
  - intros (r & I & H). exists r. unfold in_range in H. split; auto. apply andb_true_intro. split; lia.
Qed.
Lemma in_range_iff l h x : (l <=? x) && (x <=? h) = true <-> l <= x <= h.
Proof. rewrite andb_true_iff. lia. Qed.
Lemma not_in_set_iff s x : (x >? 0) && negb (in_set s x) = true <-> 0 < x /\ ~ member x (intervals s).
Proof. rewrite andb_true_iff, negb_true_iff, <- in_set_member. destruct (in_set s x); split; intros [A B]; (split; [lia | congruence]). Qed.

(** ** Runs as histories *)
Section Calls.
  Variable src : nat -> tok.
  Variable ch : Z.
  Variable sfuel : nat.
  Variable e : nat.
  Hypothesis He : eof_number src e.
  Hypothesis Hf : (e <= sfuel)%nat.
  Notation ts := (common_seek src ch sfuel).
  Notation S := uts.
  Variable a : atn.
  Variable names : naming.
  Variable sempred : S -> option nat -> Z -> Z -> bool.
  Variable order : list nat -> list sem -> list sem.
  Variable alt_order : list (list Z) -> list (list Z).
  Variable hash : pctx -> Z.
  Variable dhash : list pconfig -> Z.
  Variable share : pctx -> pctx.
  Variable clock : S -> nat.
  Variable mode : pmode.
  Variable plan : Z -> Z -> list call.
  Variable switch : Z -> option (Z -> option Z).
  Variable plain : Z -> bool.
  Variable recursive : Z -> bool.
  Variable pred : parser S -> frame -> Z -> Z -> bool.
  Variable pred_text : Z -> Z -> text.
  Variable pred_message : Z -> Z -> option text.
  Variable fuel : nat.
  Notation walk := (RecModel.walk ts a names sempred order alt_order hash dhash share clock mode plan switch plain recursive pred pred_text pred_message fuel).
  Notation invoke := (RecModel.invoke ts a names plain recursive fuel).
  Notation choose := (GenModel.choose ts a sempred order alt_order hash dhash share clock mode switch fuel).
  Notation along := (along a plan plain recursive).
  Notation run_calls := (ParserModel.run_calls (k_base ts) a names fuel).
  Notation run_call := (ParserModel.run_call (k_base ts) a names fuel).
  Notation reading := (reading src ch).
  Notation Hist := (common_history src ch sfuel e He Hf).
  Ltac step H := match type of H with obindo ?x _ = Val _ => let E := fresh "E" in destruct x eqn:E; cbn [obindo] in H; [|discriminate|discriminate] end.

  Definition raised (r : ending) : option perr := match r with Raised e => Some e | _ => None end.

  Lemma choose_looks i s (p : parser S) ds p' ds' c : reading (p_input p) -> choose i s p ds = Val (p', ds', c) -> c <> DfaFull ->
    (exists l, looks l /\ forall g f, run_calls l g p f = Val (g, p', f, None)) /\ (forall t, c = Go t -> In t (st_trans s)).
  Proof.
    intros R H N. unfold GenModel.choose in H.
    assert (X : (exists t, st_trans s = [t] /\ p' = p /\ ds' = ds /\ c = Go t) \/
      match switch i with
        | Some f =>
            let! (p, x) := la (k_base ts) p 1 in
            match f x with
            | Some j => let! t := alternative s j in Val (p, ds, Go t)
            | None => let! e := no_alt_here ts p in Val (p, ds, Stuck e)
            end
        | None =>
            match st_type s with
            | DecisionState k _ _ =>
                let! d := unwrap (vget ds k) in
                let! c := get_ctx p in
                let! stack := ancestors (Datatypes.S (length (p_heap p))) (p_heap p) c in
                let! (m, r) := adaptive_predict ts a nat sempred order alt_order hash dhash share fuel mode (get_precedence p) c stack
                                 k i d (p_input p) (clock (p_input p)) in
                let p := with_input p (m_input m) in
                let! ds := unwrap (vset ds k (m_dfa m)) in
                if ERROR_DFA_STATE_REF <=? Z.of_nat (length (dfa_states (m_dfa m))) then Val (p, ds, DfaFull)
                else
                  match r with
                  | Predicted j => let! t := alternative s j in Val (p, ds, Go t)
                  | NoViableAlt t0 t1 => let! e := no_alt_full p t0 t1 in Val (p, ds, Stuck e)
                  end
            | _ => Panics
            end
        end = Val (p', ds', c)).
    { destruct (st_trans s) as [|t [|t1 l]]; auto. left. inversion H; subst. eauto. }
    clear H. destruct X as [(t & -> & -> & -> & ->)|H].
    { split; [exists []; split; [now left | reflexivity] |]. intros t0 X. inversion X; subst. now left. }
    destruct (switch i) as [f|].
    - step H. destruct a0 as [p1 x].
      assert (L : exists l, looks l /\ forall g f, run_calls l g p f = Val (g, p1, f, None)).
      { exists [CLook 1]. split; [right; exists 1; split; [lia | reflexivity]|]. intros g f0. cbn [ParserModel.run_calls ParserModel.run_call]. rewrite E. reflexivity. }
      destruct (f x) as [j|]; step H; inversion H; subst; (split; [exact L|]); intros t X; inversion X; subst. eapply alternative_in; eauto.
    - destruct (st_type s) eqn:Et; try discriminate. step H. step H. step H. step H. destruct a3 as [m r]. step H.
      assert (L : exists l, looks l /\ forall g f, run_calls l g p f = Val (g, with_input p (m_input m), f, None)).
      { destruct R as (w & c0 & C & _). destruct (predict_looks src ch sfuel) with (1 := He) (2 := Hf) (3 := C) (4 := E2) as (k & t & Hk & Hc).
        exists [CLook k]. split; [right; eauto|]. intros g f. cbn [ParserModel.run_calls ParserModel.run_call]. unfold la, ParserModel.lt.
        cbn [k_base common_seek s_lt common_stream]. rewrite Hc. reflexivity. }
      destruct (ERROR_DFA_STATE_REF <=? _); [inversion H; subst; congruence|].
      destruct r as [j|t0 t1]; step H; inversion H; subst; (split; [exact L|]); intros t X; inversion X; subst. eapply alternative_in; eauto.
  Qed.

  Definition body_runs (body : strategy -> parser S -> list pdfa -> frame -> outcome (strategy * parser S * list pdfa * frame * ending)) (from i : Z) : Prop :=
    forall g p ds f g' p' ds' f' r, reading (p_input p) -> body g p ds f = Val (g', p', ds', f', r) -> r <> Full ->
      exists b cs, along from i b cs /\ run_calls cs g p f = Val (g', p', f', raised r) /\ (b = true <-> r = Ended).

  Lemma invoke_runs body rule start prec g p ds g' p' ds' r : body_runs body (-1) start -> reading (p_input p) ->
    invoke body rule start prec g p ds = Val (g', p', ds', r) -> r <> Full ->
    exists b cs, along (-1) start b cs /\ forall f, run_call (calls_rule plain recursive rule start prec cs) g p f = Val (g', p', f, raised r).
  Proof.
    intros HB R H N. unfold RecModel.invoke in H. unfold calls_rule. destruct (recursive rule).
    - unfold rec_function in H. cbn [alloc] in H. step H. pose proof (enter_rec_kept _ _ _ Hist _ _ _ _ _ E) as [K _].
      step H. destruct a1 as [[[[g1 p1] ds1] f1] r1].
      destruct (HB _ _ _ _ _ _ _ _ _ (K R) E0) as (b & cs & A & B & _); [destruct r1; congruence|].
      exists b, cs. split; auto. intros f. cbn [ParserModel.run_call alloc]. rewrite E. cbn [obindo]. rewrite run_calls_eq, B. cbn [obindo].
      destruct r1; try solve [inversion H; subst; congruence]; cbn [raised] in *; step H; destruct a1 as [[g2 p2] [e2|]]; try rewrite E1; cbn [obindo].
      all: try (inversion H; subst; reflexivity). all: step H; try rewrite E2; inversion H; subst; reflexivity.
    - unfold rule_function in H. cbn [alloc] in H. step H. pose proof (enter_rule_kept _ _ _ Hist _ _ _ _ E) as [K _].
      step H. destruct a1 as [[[[g1 p1] ds1] f1] r1].
      destruct (HB _ _ _ _ _ _ _ _ _ (K R) E0) as (b & cs & A & B & _); [destruct r1; congruence|].
      exists b, cs. split; auto. intros f. cbn [ParserModel.run_call alloc]. rewrite E. cbn [obindo]. rewrite run_calls_eq, B. cbn [obindo].
      destruct r1; try solve [inversion H; subst; congruence]; cbn [raised] in *; step H; destruct a1 as [[g2 p2] [e2|]]; try rewrite E1; cbn [obindo].
      all: try (inversion H; subst; reflexivity). all: step H; try rewrite E2; inversion H; subst; reflexivity.
  Qed.

  Lemma label_runs t g p g' p' r : match_label ts a names fuel t g p = Val (g', p', r) ->
    exists c, matches_label t c /\ forall f, run_call c g p f = Val (g', p', f, r).
  Proof.
    intros H. unfold match_label in H. destruct t; try discriminate; cbn [matches_label].
    - step H. destruct a0 as [[g1 p1] r1]. inversion H; subst. eexists. split; [reflexivity|]. intros f. cbn [ParserModel.run_call]. rewrite E. reflexivity.
    - exists (CMatchSet (set_test (Range target start stop))). split; [eexists; split; [reflexivity|]; intros x; apply in_range_iff|].
      intros f. cbn [ParserModel.run_call]. rewrite H. reflexivity.
    - exists (CMatchSet (set_test (SetTr target set))). split; [eexists; split; [reflexivity|]; intros x; apply in_set_member|].
      intros f. cbn [ParserModel.run_call]. rewrite H. reflexivity.
    - exists (CMatchSet (set_test (NotSet target set))).
      split; [eexists; split; [reflexivity|]; intros x; apply not_in_set_iff|].
      intros f. cbn [ParserModel.run_call]. rewrite H. reflexivity.
    - step H. destruct a0 as [[g1 p1] r1]. inversion H; subst. eexists. split; [reflexivity|]. intros f. cbn [ParserModel.run_call]. rewrite E. reflexivity.
  Qed.

  Lemma run_after cs l g p f g1 p1 f1 : run_calls cs g p f = Val (g1, p1, f1, None) -> run_calls (cs ++ l) g p f = run_calls l g1 p1 f1.
  Proof. intros H. rewrite run_calls_app, H. reflexivity. Qed.
  Lemma run_stops cs l g p f g1 p1 f1 x : run_calls cs g p f = Val (g1, p1, f1, Some x) -> run_calls (cs ++ l) g p f = Val (g1, p1, f1, Some x).
  Proof. intros H. rewrite run_calls_app, H. reflexivity. Qed.

  Lemma walk_runs : forall n from i, body_runs (walk n from i) from i.
  Proof.
    induction n as [|n IH]; intros from i g p ds f g' p' ds' f' r R H N; [discriminate|]. cbn [RecModel.walk] in H.
    step H. destruct a0 as [[[g1 p1] f1] r1]. pose proof (calls_keep _ _ _ _ _ _ Hist _ _ _ _ _ _ _ _ E) as [K1 _]. specialize (K1 R).
    destruct r1 as [x|].
    { inversion H; subst. exists false, (plan from i). split; [constructor|]. split; [exact E|]. split; discriminate. }
    step H. rename a0 into s. assert (St : state_at a i = Some s).
    { unfold get_state in E0. change (vget (states a) i) with (state_at a i) in E0. destruct (state_at a i); cbn in E0; [injection E0 as <-; reflexivity | discriminate]. }
    assert (Es : st_type s = RuleStopState \/ st_type s <> RuleStopState) by (destruct (st_type s); solve [now left | now right]).
    destruct Es as [Es|Es].
    { rewrite Es in H.
      inversion H; subst. exists true, (plan from i). split; [econstructor; eauto|]. split; [exact E|]. tauto. }
    assert (Ns : ~ Ll1Spec.is_stop s) by exact Es.
    assert (H' : (let! (p, ds, c) := choose i s p1 ds in
                match c with
                | Stuck e => Val (g1, p, ds, f1, Raised e)
                | DfaFull => Val (g1, p, ds, f1, Full)
                | Go t =>
                    match t with
                    | RuleTr start follow rule prec =>
                        let! (g, p, ds, r) := invoke (walk n (-1) start) rule start prec g1 (set_state p i) ds in
                        match r with
                        | Ended => walk n i follow g p ds f1
                        | r => Val (g, p, ds, f1, r)
                        end
                    | Atom target _ | Wildcard target | Range target _ _ | SetTr target _ | NotSet target _ =>
                        let! (g, p, r) := match_label ts a names fuel t g1 (set_state p i) in
                        match r with
                        | None => walk n i target g p ds f1
                        | Some e => Val (g, p, ds, f1, Raised e)
                        end
                    | Epsilon target _ | Action target _ _ _ _ => walk n i target g1 p ds f1
                    | PredicateTr target _ _ _ | PrecedenceTr target _ =>
                        let p := set_state p i in
                        let! r := predicate ts a pred pred_text pred_message t p f1 in
                        match r with
                        | None => walk n i target g1 p ds f1
                        | Some e => Val (g1, p, ds, f1, Raised e)
                        end
                    end
                end) = Val (g', p', ds', f', r)).
    { destruct (st_type s); try exact H; congruence. }
    clear H. rename H' into H. step H. destruct a0 as [[p2 ds2] c].
    destruct (choose_looks _ _ _ _ _ _ _ K1 E1) as ((l & Hl & Rl) & Hin); [intros ->; inversion H; subst; congruence|].
    pose proof (calls_keep _ _ _ _ _ _ Hist _ _ _ _ _ _ _ _ (Rl g1 f1)) as [K2 _]. specialize (K2 K1).
    assert (G : forall l', run_calls (plan from i ++ l ++ l') g p f = run_calls l' g1 p2 f1).
    { intros l'. rewrite (run_after _ _ _ _ _ _ _ _ E). apply run_after, Rl. }
    destruct c as [t|x|]; [|inversion H; subst; exists false, (plan from i ++ l ++ [CRaise x]); split; [now constructor|]; split; [rewrite G; reflexivity|]; split; discriminate|inversion H; subst; congruence].
    assert (Ld : leads a i t) by (exists s; split; [exact St|]; split; [exact Ns|]; now apply Hin).
    assert (TOK : forall g3 p3 r3, match_label ts a names fuel t g1 (set_state p2 i) = Val (g3, p3, r3) ->
              match r3 with None => walk n i (get_target t) g3 p3 ds2 f1 | Some e => Val (g3, p3, ds2, f1, Raised e) end = Val (g', p', ds', f', r) ->
              exists b cs, along from i b cs /\ run_calls cs g p f = Val (g', p', f', raised r) /\ (b = true <-> r = Ended)).
    { intros g3 p3 r3 M H3. destruct (label_runs _ _ _ _ _ _ M) as (c & Hc & Rc). destruct r3 as [x|].
      - inversion H3; subst. exists false, (plan from i ++ l ++ CSetState i :: c :: plan i (get_target t)). split; [eapply al_token; eauto; constructor|].
        split; [rewrite G; cbn [ParserModel.run_calls ParserModel.run_call obindo]; rewrite Rc; reflexivity|]. split; discriminate.
      - pose proof (call_keeps _ a names fuel _ _ Hist _ _ _ _ _ _ _ _ (Rc f1)) as [K3 _]. specialize (K3 K2).
        destruct (IH _ _ _ _ _ _ _ _ _ _ _ K3 H3 N) as (b & cs & A & B & C). exists b, (plan from i ++ l ++ CSetState i :: c :: cs).
        split; [eapply al_token; eauto|]. split; [|exact C]. rewrite G. cbn [ParserModel.run_calls ParserModel.run_call obindo]. rewrite Rc. exact B. }
    destruct t; try (step H; destruct a0 as [[g3 p3] r3]; exact (TOK _ _ _ eq_refl H)); clear TOK.
    - (* a rule *)
      step H. destruct a0 as [[[g3 p3] ds3] r3]. rename target into start.
      destruct (invoke_runs _ rule_index start precedence _ (set_state p2 i) _ _ _ _ _ (IH (-1) start) K2 E2) as (b' & body & A & B); [destruct r3; [| |inversion H; subst]; congruence|].
      destruct r3 as [|x|]; [|inversion H; subst|inversion H; subst; congruence].
      + pose proof (call_keeps _ a names fuel _ _ Hist _ _ _ _ _ _ _ _ (B f1)) as [K3 _]. specialize (K3 K2).
        destruct (IH _ _ _ _ _ _ _ _ _ _ _ K3 H N) as (b & cs & A' & B' & C').
        exists b, (plan from i ++ l ++ CSetState i :: calls_rule plain recursive rule_index start precedence body :: cs).
        split; [eapply al_rule; eauto|]. split; [|exact C']. rewrite G. cbn [ParserModel.run_calls]. cbn [ParserModel.run_call obindo]. rewrite B. exact B'.
      + exists false, (plan from i ++ l ++ CSetState i :: calls_rule plain recursive rule_index start precedence body :: plan i follow_state).
        split; [eapply al_rule; eauto; constructor|]. split; [|split; discriminate]. rewrite G. cbn [ParserModel.run_calls]. cbn [ParserModel.run_call obindo]. rewrite B. reflexivity.
    - (* Epsilon *)
      destruct (IH _ _ _ _ _ _ _ _ _ _ _ K2 H N) as (b & cs & A & B & C). exists b, (plan from i ++ l ++ cs).
      split; [eapply al_epsilon; eauto; exact Logic.I|]. split; [|exact C]. rewrite G. exact B.
    - (* Action *)
      destruct (IH _ _ _ _ _ _ _ _ _ _ _ K2 H N) as (b & cs & A & B & C). exists b, (plan from i ++ l ++ cs).
      split; [eapply al_epsilon; eauto; exact Logic.I|]. split; [|exact C]. rewrite G. exact B.
    - (* a predicate of the grammar *)
      cbn [predicate] in H. destruct (pred (set_state p2 i) f1 rule_index pred_index); cbn [obindo] in H.
      + destruct (IH i target g1 (set_state p2 i) ds2 f1 g' p' ds' f' r K2 H N) as (b & cs & A & B & C). exists b, (plan from i ++ l ++ CSetState i :: cs).
        split; [eapply al_predicate; eauto|]. split; [|exact C]. rewrite G. exact B.
      + step H. step E2. inversion E2; subst. inversion H; subst.
        match goal with |- context[Raised ?x] => exists false, (plan from i ++ l ++ [CSetState i; CRaise x]) end.
        split; [eapply al_refused; eauto|]. split; [rewrite G; reflexivity|]. split; discriminate.
    - (* a precedence *)
      cbn [predicate] in H. destruct (precpred (set_state p2 i) precedence) eqn:Ep; cbn [obindo] in H.
      + destruct (IH i target g1 (set_state p2 i) ds2 f1 g' p' ds' f' r K2 H N) as (b & cs & A & B & C). exists b, (plan from i ++ l ++ CSetState i :: CPrec precedence :: cs).
        split; [eapply al_precedence; eauto|]. split; [|exact C]. rewrite G. cbn [ParserModel.run_calls ParserModel.run_call obindo]. rewrite Ep. exact B.
      + step H. step E2. inversion E2; subst. inversion H; subst. exists false, (plan from i ++ l ++ CSetState i :: CPrec precedence :: plan i target).
        split; [eapply al_precedence; eauto; constructor|]. split; [|split; discriminate].
        rewrite G. cbn [ParserModel.run_calls ParserModel.run_call obindo]. rewrite Ep, E3. reflexivity.
  Qed.

  Lemma parse_runs n rule start g p ds g' p' ds' r : reading (p_input p) ->
    RecModel.parse ts a names sempred order alt_order hash dhash share clock mode plan switch plain recursive pred pred_text pred_message fuel n rule start g p ds = Val (g', p', ds', r) ->
    r <> Full ->
    exists b cs, along (-1) start b cs /\ forall f, run_call (calls_rule plain recursive rule start 0 cs) g p f = Val (g', p', f, raised r).
  Proof. intros R H N. exact (invoke_runs _ _ _ _ _ _ _ _ _ _ _ (walk_runs n (-1) start) R H N). Qed.
End Calls.
