(** The events of an error-free run are a walk over the tree it builds. *)
From Coq Require Import ZArith List Bool Lia.
From Verif Require Import Outcome IntervalSetModel AtnModel Ll1Model TokenStreamModel ParserModel ParserSpec.
From Verif Require Import ParserTreeProofs ParserRunProofs ParserEventProofs.
Import ListNotations.
Local Open Scope Z_scope.

(** ** Walks restricted to the contexts [P] *)
Inductive pwalk (h : heap) (P : nat -> Prop) : kid -> list event -> Prop :=
| pw_term : forall t, pwalk h P (KTerm t) [VisitTerminal t]
| pw_err : forall t, pwalk h P (KErr t) [VisitError t]
| pw_missing : forall t, t_index t = -1 -> pwalk h P (KErr t) []
| pw_rule : forall i c es, P i -> nth_error h i = Some c -> pwalks h P (x_children c) es -> pwalk h P (KRule i) (around i c es)
| pw_left : forall i c j d ks es es', P i -> P j -> nth_error h i = Some c -> x_children c = KRule j :: ks ->
    nth_error h j = Some d -> x_rule d = x_rule c -> pwalk h P (KRule j) es -> pwalks h P ks es' ->
    pwalk h P (KRule i) (es ++ around i c es')
with pwalks (h : heap) (P : nat -> Prop) : list kid -> list event -> Prop :=
| pws_nil : pwalks h P [] []
| pws_cons : forall k ks es es', pwalk h P k es -> pwalks h P ks es' -> pwalks h P (k :: ks) (es ++ es').

Scheme pwalk_mut := Induction for pwalk Sort Prop with pwalks_mut := Induction for pwalks Sort Prop.
Combined Scheme pwalk_both from pwalk_mut, pwalks_mut.

Lemma pwalk_mono : forall h (P : nat -> Prop) h' (P' : nat -> Prop),
  (forall i c, P i -> nth_error h i = Some c -> P' i /\
     exists c', nth_error h' i = Some c' /\ x_children c' = x_children c /\ x_plain c' = x_plain c /\ x_rule c' = x_rule c) ->
  (forall k es, pwalk h P k es -> pwalk h' P' k es) /\ (forall ks es, pwalks h P ks es -> pwalks h' P' ks es).
Proof.
  intros h P h' P' H. apply pwalk_both.
  - constructor.
  - constructor.
  - intros. now constructor.
  - intros i c es Hi Hc _ IH. destruct (H _ _ Hi Hc) as (Hi' & c' & Hc' & A & B & D).
    unfold around. rewrite <- B. apply pw_rule; auto. now rewrite A.
  - intros i c j d ks es es' Hi Hj Hc Hk Hd R _ IH1 _ IH2.
    destruct (H _ _ Hi Hc) as (Hi' & c' & Hc' & A & B & D). destruct (H _ _ Hj Hd) as (Hj' & d' & Hd' & A' & B' & D').
    unfold around. rewrite <- B. eapply pw_left with (d := d'); eauto; congruence.
  - constructor.
  - intros. now constructor.
Qed.

Lemma pwalk_walk : forall h P, (forall k es, pwalk h P k es -> walk h k es) /\ (forall ks es, pwalks h P ks es -> walks h ks es).
Proof. intros h P. apply pwalk_both; intros; try (econstructor; eauto; fail). Qed.

Lemma pwalks_app : forall h P ks es ks' es', pwalks h P ks es -> pwalks h P ks' es' -> pwalks h P (ks ++ ks') (es ++ es').
Proof. induction 1; intros; cbn [app]; auto. rewrite <- app_assoc. constructor; auto. Qed.

Definition enter_ev (i : nat) (c : rctx) : list event := if x_plain c then [] else [EnterRule i].
Definition exit_ev (i : nat) (c : rctx) : list event := if x_plain c then [] else [ExitRule i].
Lemma around_split : forall i c es, around i c es = enter_ev i c ++ es ++ exit_ev i c.
Proof. intros i c es. unfold around, enter_ev, exit_ev. destruct (x_plain c); cbn; now rewrite ?app_nil_r. Qed.

(** the events so far of the open context [i] *)
Inductive begun (h : heap) (P : nat -> Prop) (i : nat) (c : rctx) : list event -> Prop :=
| be_plain : forall es, pwalks h P (x_children c) es -> begun h P i c (enter_ev i c ++ es)
| be_left : forall j d ks es es', P j -> x_children c = KRule j :: ks -> nth_error h j = Some d -> x_rule d = x_rule c ->
    pwalk h P (KRule j) es -> pwalks h P ks es' -> begun h P i c (es ++ enter_ev i c ++ es').

Lemma begun_mono : forall h (P : nat -> Prop) h' (P' : nat -> Prop) i c c' es ks es',
  (forall i c, P i -> nth_error h i = Some c -> P' i /\
     exists c', nth_error h' i = Some c' /\ x_children c' = x_children c /\ x_plain c' = x_plain c /\ x_rule c' = x_rule c) ->
  x_plain c' = x_plain c -> x_rule c' = x_rule c -> x_children c' = x_children c ++ ks -> pwalks h' P' ks es' ->
  begun h P i c es -> begun h' P' i c' (es ++ es').
Proof.
  intros h P h' P' i c c' es ks es' H B D K W A. destruct (pwalk_mono _ _ _ _ H) as [M1 M2].
  destruct A as [es W0|j d k0 es0 es1 Hj Hk Hd R W0 W1]; rewrite <- ?app_assoc.
  - replace (enter_ev i c) with (enter_ev i c') by (unfold enter_ev; now rewrite B). apply be_plain. rewrite K. apply pwalks_app; auto.
  - replace (enter_ev i c) with (enter_ev i c') by (unfold enter_ev; now rewrite B).
    destruct (H _ _ Hj Hd) as (Hj' & d' & Hd' & A' & B' & D').
    eapply be_left with (d := d'); eauto; [rewrite K, Hk; reflexivity|congruence|]. apply pwalks_app; auto.
Qed.

(** leaving the context *)
Lemma begun_walk : forall h (P P' : nat -> Prop) i c es, nth_error h i = Some c -> P' i -> (forall j, P j -> P' j) ->
  begun h P i c es -> pwalk h P' (KRule i) (es ++ exit_ev i c).
Proof.
  intros h P P' i c es Hc Hi HP A.
  destruct (pwalk_mono h P h P') as [M1 M2]. { intros j d Hj Hd. split; auto. exists d. auto. }
  destruct A as [es W0|j d k0 es0 es1 Hj Hk Hd R W0 W1]; rewrite <- !app_assoc; rewrite <- around_split.
  - apply pw_rule; auto.
  - eapply pw_left with (j := j) (d := d); eauto.
Qed.

Section Walk.
  Context {S : Type}.
  Variable ts : stream_ops S.
  Variable a : atn.
  Variable names : naming.
  Variable fuel : nat.
  Notation run_call := (run_call ts a names fuel).
  Notation run_calls := (run_calls ts a names fuel).
  Notation flat := (flat no_inv no_past).
  Notation flat_ex := (flat_ex no_inv no_past).
  Notation inv := (@inv S).
  Notation mode := in_error_recovery_mode.
  Notation Hist := (no_history ts).
  Ltac step H := match type of H with obindo ?x _ = Val _ => let E := fresh "E" in destruct x eqn:E; cbn [obindo] in H; [|discriminate|discriminate] end.

  (** ** Without errors, looking and synchronising leave the tree alone *)
  Lemma report_token_loud : forall msg d p d' p', report_token ts a fuel msg d p = Val (d', p') -> recovering d = false -> 
    exists n, p_notices p' = p_notices p ++ [n].
  Proof.
    intros msg d p d' p' H R. unfold report_token in H. rewrite R in H. step H. step H. step H. inversion H; subst.
    unfold notify_error_listeners in E1. step E1. inversion E1; subst. cbn. eauto.
  Qed.
  Lemma sync_quiet : forall g p g' p', sync ts a names fuel g p = Val (g', p', None) -> mode g = false -> p_notices p' = p_notices p ->
    flat [] p p'.
  Proof.
    intros g p g' p' H M N. destruct g as [d|d]; cbn [sync in_error_recovery_mode] in *; [|inversion H; subst; apply flat_refl].
    destruct (d_sync ts a names fuel d p) as [[[d1 q] r1]| |] eqn:E; cbn [obindo] in H; try discriminate. inversion H; subst. clear H.
    unfold d_sync in E. rewrite M in E. destruct (la ts p 1) as [[q1 next]| |] eqn:E1; cbn [obindo] in E; try discriminate.
    step E. step E. pose proof (la_flat ts no_inv no_past Hist _ _ _ _ E1) as F. pose proof (la_notices _ _ _ _ _ E1) as N1. unfold same_notices in N1.
    destruct (contains a1 next); [inversion E; subst; auto|].
    destruct (contains a1 TOKEN_EPSILON).
    { destruct (nt_ctx d); [inversion E; subst; auto|]. step E. inversion E; subst; auto. }
    exfalso. destruct (sync_case _); try discriminate.
    - step E. destruct a2 as [[d2 q2] r2]. destruct r2 as [t|]; [|step E; discriminate]. inversion E; subst. clear E.
      unfold single_token_deletion in E3. destruct (la ts q1 2) as [[q2 cur]| |] eqn:E4; cbn [obindo] in E3; try discriminate.
      step E3. pose proof (la_notices _ _ _ _ _ E4) as N2. unfold same_notices in N2.
      destruct (contains a2 cur); [|discriminate].
      unfold report_unwanted_token in E3. destruct (report_token ts a fuel _ d q2) as [[d3 q3]| |] eqn:E6; cbn [obindo] in E3; try discriminate.
      destruct (report_token_loud _ _ _ _ _ E6 M) as [n Hn]. step E3. step E3. inversion E3; subst.
      pose proof (consume_notices _ _ _ _ E5) as N3. unfold same_notices in N3. rewrite N3, Hn, N2, N1 in N.
      apply (f_equal (@length notice)) in N. rewrite app_length in N. cbn in N. lia.
    - unfold report_unwanted_token in E. destruct (report_token ts a fuel _ d q1) as [[d3 q3]| |] eqn:E6; cbn [obindo] in E; try discriminate.
      destruct (report_token_loud _ _ _ _ _ E6 M) as [n Hn]. step E. step E. step E. inversion E; subst.
      pose proof (consume_until_notices _ _ _ _ _ _ E5) as N3. unfold same_notices in N3. rewrite N3, Hn, N1 in N.
      apply (f_equal (@length notice)) in N. rewrite app_length in N. cbn in N. lia.
  Qed.
  Lemma before_quiet : forall c g p f g' p' f', before_alt c -> run_call c g p f = Val (g', p', f', None) -> mode g = false ->
    p_notices p' = p_notices p -> f' = f /\ p_heap p' = p_heap p /\ p_ctx p' = p_ctx p /\ p_build p' = p_build p /\ p_prec p' = p_prec p /\ told_all p p' [].
  Proof.
    assert (K : forall p q : parser S, flat [] p q -> p_heap q = p_heap p /\ p_ctx q = p_ctx p /\ p_build q = p_build p /\ p_prec q = p_prec p /\ told_all p q []).
    { intros p q F. pose proof (told_flat _ _ _ F) as T. destruct F as [F1 F2 F3 F4 F5 F6 F7 F8 F9]. repeat split; auto; try apply T.
      rewrite F6. unfold kids_of. destruct (showing p); apply grow_nil. }
    intros c g p f g' p' f' B H M N. destruct c; cbn [before_alt] in B; try contradiction; cbn [ParserModel.run_call] in H.
    - inversion H; subst. repeat split; auto. cbn. now rewrite app_nil_r.
    - step H. destruct a0 as [q t]. inversion H; subst. split; auto. apply K. eapply la_flat; eauto using no_history.
    - unfold no_result in H. step H. destruct a0 as [[g1 p1] r1]. inversion H; subst. split; auto. apply K. eapply sync_quiet; eauto.
  Qed.

  (** ** One call after the other *)
  Definition begun_at (h0 : heap) (f : frame) (p : parser S) (es : list event) : Prop :=
    exists c, nth_error (p_heap p) (f_local f) = Some c /\
      begun (p_heap p) (open_ids (length h0) (f_local f)) (f_local f) c es.

  Lemma acts_walks : forall h P acts, Forall act_ok acts -> pwalks h P (map kid_of acts) (flat_map visit_of acts).
  Proof.
    induction 1 as [|x acts Hx _ IH]; cbn [map flat_map]; constructor; auto.
    destruct x as [t []|t []|t]; cbn; constructor. exact Hx.
  Qed.
  Lemma flat_begun : forall rec h0 pr st0 f x p acts p' es, inv rec h0 true pr st0 f x p -> flat acts p p' -> begun_at h0 f p es ->
    begun_at h0 f p' (es ++ flat_map visit_of acts).
  Proof.
    intros rec h0 pr st0 f x p acts p' es A F (c & Hc & B). destruct F as [F1 F2 F3 F4 F5 F6 F7 F8 F9].
    rewrite (i_ctx _ _ _ _ _ _ _ _ A) in F6. cbn [grow] in F6. unfold kids_of, showing in F6.
    rewrite (i_build _ _ _ _ _ _ _ _ A) in F6. cbn [orb] in F6.
    exists (add_kids (map kid_of acts) c). split; [rewrite F6; now apply nth_update_same|].
    eapply begun_mono with (c := c) (ks := map kid_of acts); [|reflexivity|reflexivity|reflexivity|apply acts_walks; auto|exact B].
    intros i d [I1 I2] Hd. split; [split; auto|]. exists d. rewrite F6, nth_update_other by auto. auto.
  Qed.
  Lemma kept_begun : forall h0 f p p' es, (length h0 <= f_local f)%nat -> kept (length h0) (p_heap p) (p_heap p') ->
    begun_at h0 f p es -> begun_at h0 f p' es.
  Proof.
    intros h0 f p p' es L K (c & Hc & B). destruct (K _ _ L Hc) as (c' & Hc' & K1 & K2 & K3).
    exists c'. split; auto. rewrite <- (app_nil_r es). eapply begun_mono; [|eauto|eauto|rewrite app_nil_r; eauto|constructor|exact B].
    intros i d [I1 I2] Hd. split; [split; auto|]. now apply K.
  Qed.

  Definition tells (c : call) : Prop :=
    forall rec h0 pr st0 f x p g g' p' f' es, generated rec c -> inv rec h0 true pr st0 f x p ->
      run_call c g p f = Val (g', p', f', None) -> mode g = false -> p_notices p' = p_notices p -> begun_at h0 f p es ->
      f' = f /\ exists es', told_all p p' es' /\ begun_at h0 f p' (es ++ es').

  Lemma flat_tells : forall rec h0 pr st0 f x p p' es, inv rec h0 true pr st0 f x p -> flat_ex p p' -> begun_at h0 f p es ->
    exists es', told_all p p' es' /\ begun_at h0 f p' (es ++ es').
  Proof.
    intros rec h0 pr st0 f x p p' es A [acts F] B. exists (flat_map visit_of acts). split; [eapply told_flat; eauto|]. eapply flat_begun; eauto.
  Qed.
  Lemma same_tells : forall h0 f p p' es, begun_at h0 f p es -> p_heap p' = p_heap p -> told_all p p' [] ->
    exists es', told_all p p' es' /\ begun_at h0 f p' (es ++ es').
  Proof. intros h0 f p p' es B E T. exists []. split; auto. rewrite app_nil_r. unfold begun_at in *. now rewrite E. Qed.

  Lemma inside_tells : forall c, inside c -> tells c.
  Proof.
    intros c HI rec h0 pr st0 f x p g g' p' f' es HG A H M N B.
    destruct c; cbn [inside] in HI; try contradiction; cbn [ParserModel.run_call] in H.
    - inversion H; subst. split; auto. eapply same_tells; eauto. now apply told_all_same.
    - step H. destruct a0 as [q t]. inversion H; subst. split; auto. eapply flat_tells; eauto. eexists. eapply la_flat; eauto using no_history.
    - unfold no_result in H. step H. destruct a0 as [[g1 p1] r1]. inversion H; subst. split; auto. eapply flat_tells; eauto. eapply sync_flat; eauto using no_history.
    - unfold no_tok in H. step H. destruct a0 as [[g1 p1] r1]. inversion H; subst. split; auto. eapply flat_tells; eauto. eapply match_token_flat; eauto using no_history.
    - unfold no_tok in H. step H. destruct a0 as [[g1 p1] r1]. inversion H; subst. split; auto. eapply flat_tells; eauto. eapply match_wildcard_flat; eauto using no_history.
    - unfold no_result in H. step H. destruct a0 as [[g1 p1] r1]. inversion H; subst. split; auto. eapply flat_tells; eauto. eapply match_set_flat; eauto using no_history.
    - destruct (precpred p _); [|step H; discriminate]. inversion H; subst. split; auto. eapply same_tells; eauto. apply told_all_refl.
    - discriminate.
    - step H. destruct a0 as [q t]. step H. inversion H; subst. split; auto. unfold lt in E. step E. destruct a1 as [s u]. inversion E; subst. clear E.
      exists []. split; [apply told_all_same; reflexivity|]. rewrite app_nil_r. apply (kept_begun h0 f' p); [apply (i_low _ _ _ _ _ _ _ _ A)| |exact B].
      cbn. intros i ci _ Hi. destruct (Nat.eq_dec a0 i) as [<-|D].
      + eexists. split; [apply nth_update_same; eauto|auto].
      + exists ci. rewrite nth_update_other by auto. auto.
  Qed.

  Lemma all_tell : forall cs, Forall tells cs ->
    forall rec h0 pr st0 f x p g g' p' f' es, Forall (generated rec) cs -> inv rec h0 true pr st0 f x p ->
      run_calls cs g p f = Val (g', p', f', None) -> mode g = false -> p_notices p' = p_notices p -> begun_at h0 f p es ->
      f' = f /\ exists es', told_all p p' es' /\ begun_at h0 f p' (es ++ es').
  Proof.
    induction 1 as [|c cs Hc _ IH]; intros rec h0 pr st0 f x p g g' p' f' es HG A H M N B.
    - cbn in H. inversion H; subst. split; auto. eapply same_tells; eauto. apply told_all_refl.
    - destruct (one_more _ _ _ _ _ _ _ _ _ _ _ _ _ _ _ _ _ _ HG A H M N) as (g1 & p1 & f1 & x1 & E1 & E2 & A1 & M1 & N1 & N2).
      inversion HG; subst. destruct (Hc _ _ _ _ _ _ _ _ _ _ _ _ H2 A E1 M N1 B) as [-> (es1 & T1 & B1)].
      destruct (IH _ _ _ _ _ _ _ _ _ _ _ _ H3 A1 E2 M1 N2 B1) as [-> (es2 & T2 & B2)]. split; auto.
      exists (es1 ++ es2). split; [eapply told_all_trans; eauto|]. now rewrite app_assoc.
  Qed.

  Lemma entered_ev : forall h i c, nth_error h i = Some c -> entered h i = enter_ev i c.
  Proof. intros h i c H. unfold entered, enter_ev. now rewrite H. Qed.
  Lemma left_ev : forall h i c, nth_error h i = Some c -> left_ h i = exit_ev i c.
  Proof. intros h i c H. unfold left_, exit_ev. now rewrite H. Qed.

  (** up to the announcement *)
  Lemma announcement_walk : forall rec pre l post h0 pr st0 f k p g g' p' f', Forall before_alt pre ->
    Forall (generated rec) (pre ++ CAlt l :: post) -> inv rec h0 true pr st0 f (k, []) p ->
    run_calls (pre ++ CAlt l :: post) g p f = Val (g', p', f', None) -> mode g = false -> p_notices p' = p_notices p ->
    exists g1 p1 f1 x1 es, run_calls post g1 p1 f1 = Val (g', p', f', None) /\ inv rec h0 true pr st0 f1 x1 p1 /\
      mode g1 = false /\ p_notices p' = p_notices p1 /\ told_all p p1 es /\ begun_at h0 f1 p1 es.
  Proof.
    intros rec pre l post. induction pre as [|c pre IH]; intros h0 pr st0 f k p g g' p' f' HB HG A H M N; cbn [app] in *;
      destruct (one_more _ _ _ _ _ _ _ _ _ _ _ _ _ _ _ _ _ _ HG A H M N) as (g1 & p1 & f1 & x1 & E1 & E2 & A1 & M1 & N1 & N2).
    - clear x1 A1. inversion HG; subst.
      destruct (all_ok ts a names fuel _ _ Hist _ _ _ _ _ _ _ _ _ _ _ _ _ _ H2 A E1 Logic.I) as (x1 & A1 & _ & _ & G & _).
      specialize (G eq_refl). assert (snd x1 = []) as Hx.
      { inversion G; subst; cbn; auto. contradiction. }
      exists g1, p1, f1, x1. eexists. split; [eauto|]. split; [eauto|]. split; [auto|]. split; [auto|]. split; [eapply alt_call; eauto|].
      destruct (i_node _ _ _ _ _ _ _ _ A1) as (c & Hc & _ & _ & _ & _ & _ & D). specialize (D eq_refl). rewrite Hx in D.
      exists c. split; auto. rewrite (entered_ev _ _ _ Hc), <- (app_nil_r (enter_ev _ _)). apply be_plain.
      inversion D as [HD|]. constructor.
    - inversion HB; subst. inversion HG; subst.
      destruct (before_quiet _ _ _ _ _ _ _ H2 E1 M N1) as (-> & Q1 & Q2 & Q3 & Q4 & Q5).
      assert (A' : inv rec h0 true pr st0 f (k, []) p1) by (eapply inv_ext; eauto).
      destruct (IH _ _ _ _ _ _ _ _ _ _ H3 H5 A' E2 M1 N2) as (g2 & p2 & f2 & x2 & es & K1 & K2 & K3 & K4 & K5 & K6).
      exists g2, p2, f2, x2, ([] ++ es). repeat (split; [assumption|]). split; [eapply told_all_trans; eauto|exact K6].
  Qed.

  (** the next context of a left-recursive rule *)
  Lemma next_heap : forall rec h0 pr st0 f x p g g' p' f' k pl, inv rec h0 true pr st0 f x p ->
    run_call (CNext k pl) g p f = Val (g', p', f', None) ->
    f_local f' = length (p_heap p) /\ kept 0 (p_heap p) (p_heap p') /\
    exists c, nth_error (p_heap p') (f_local f') = Some c /\ x_children c = [KRule (f_local f)] /\ x_rule c = f_rule f.
  Proof.
    intros rec h0 pr st0 f x p g g' p' f' k pl A H. cbn [ParserModel.run_call alloc] in H.
    destruct A as [A1 A2 A3 A4 A5 A6 (c & Hc & _) A8].
    set (n := length (p_heap p)) in *. set (c1 := new_parser_ctx _ _ _ _ _) in *.
    assert (Hloc : (f_local f < n)%nat) by (apply nth_error_Some; congruence).
    unfold push_new_recursion_context in H. unfold get_ctx in H. cbn [p_ctx with_heap] in H. rewrite A1 in H. cbn [unwrap obindo] in H.
    set (p0 := modify (modify (with_heap p (p_heap p ++ [c1])) (f_local f) (set_parent (Some n))) (f_local f) (set_invoking_state (f_start f))) in *.
    destruct (lt ts p0 (-1)) as [[q t]| |] eqn:Elt; cbn [obindo] in H; try discriminate.
    pose proof (lt_flat ts no_inv no_past Hist _ _ _ _ Elt) as F. destruct F as [F1 F2 F3 F4 F5 F6 F7 F8 F9].
    assert (Fh : p_heap q = p_heap p0).
    { rewrite F6. unfold kids_of. destruct (showing p0); apply grow_nil. }
    set (u := fun c => set_stop t (set_invoking_state (f_start f) (set_parent (Some n) c))).
    assert (Hq : update (p_heap q) (f_local f) (set_stop t) = update (p_heap p) (f_local f) u ++ [c1]).
    { rewrite Fh. subst p0. cbn. rewrite !update_update. rewrite update_app_old by auto. reflexivity. }
    unfold deref, modify in H. cbn [p_heap with_heap] in H. rewrite Hq in H.
    rewrite nth_app_old in H by (rewrite update_length; auto). rewrite (nth_update_same _ _ _ _ Hc) in H. cbn [unwrap obindo] in H.
    assert (Hnew : forall y v, update (update (p_heap p) (f_local f) u ++ [y]) n v = update (p_heap p) (f_local f) u ++ [v y]).
    { intros y v. replace n with (length (update (p_heap p) (f_local f) u)) by apply update_length. apply update_app_new. }
    rewrite Hnew in H. cbn [p_build with_ctx with_heap] in H. rewrite F2 in H.
    replace (p_build p0) with true in H by (subst p0; cbn; auto). cbn [p_heap with_ctx with_heap] in H. rewrite Hnew in H.
    step H. inversion H; subst p' f' g'. clear H. destruct (enter_event _ _ E) as (_ & _ & _ & B4 & _).
    cbn [p_heap with_ctx with_heap] in B4. cbn [f_local set_local]. split; auto. split.
    - intros i d _ Hd. assert (i < n)%nat by (apply nth_error_Some; congruence).
      rewrite B4, nth_app_old by (rewrite update_length; auto). destruct (Nat.eq_dec (f_local f) i) as [<-|D].
      + eexists. split; [apply nth_update_same; eauto|auto].
      + exists d. rewrite nth_update_other by auto. auto.
    - exists (add_child (KRule (f_local f)) (set_start (Some (x_start (u c))) c1)). rewrite B4. split; [|split; reflexivity].
      replace n with (length (update (p_heap p) (f_local f) u)) at 1 by apply update_length. apply nth_app_new.
  Qed.

  Definition ended_at (h0 : heap) (f : frame) (p : parser S) (es : list event) : Prop :=
    pwalk (p_heap p) (fun i => (length h0 <= i)%nat) (KRule (f_local f)) es.
  Lemma rounds_walk : forall (P : call -> Prop) o cs, rounds P o cs -> Forall (fun c => P c -> tells c) cs ->
    forall h0 pr st0 f x p g g' p' f' es, Forall (generated true) cs -> inv true h0 true pr st0 f x p ->
      run_calls cs g p f = Val (g', p', f', None) -> mode g = false -> p_notices p' = p_notices p ->
      (if o then begun_at h0 f p es else ended_at h0 f p es) ->
      exists es', told_all p p' es' /\ begun_at h0 f' p' (es ++ es').
  Proof.
    intros P o cs HR. induction HR as [|c cs Pc _ IH|c cs Bc _ IH|cs _ IH|k pl cs _ IH]; intros HP h0 pr st0 f x p g g' p' f' es HG A H M N B.
    - cbn in H. inversion H; subst. eapply same_tells; eauto. apply told_all_refl.
    - destruct (one_more _ _ _ _ _ _ _ _ _ _ _ _ _ _ _ _ _ _ HG A H M N) as (g1 & p1 & f1 & x1 & E1 & E2 & A1 & M1 & N1 & N2).
      inversion HG; subst. inversion HP; subst.
      destruct (H4 Pc _ _ _ _ _ _ _ _ _ _ _ _ H2 A E1 M N1 B) as [-> (es1 & T1 & B1)].
      destruct (IH H5 _ _ _ _ _ _ _ _ _ _ _ H3 A1 E2 M1 N2 B1) as (es2 & T2 & B2).
      exists (es1 ++ es2). split; [eapply told_all_trans; eauto|]. now rewrite app_assoc.
    - destruct (one_more _ _ _ _ _ _ _ _ _ _ _ _ _ _ _ _ _ _ HG A H M N) as (g1 & p1 & f1 & x1 & E1 & E2 & A1 & M1 & N1 & N2).
      inversion HG; subst. inversion HP; subst.
      destruct (before_quiet _ _ _ _ _ _ _ Bc E1 M N1) as (-> & Q1 & Q2 & Q3 & Q4 & Q5).
      assert (B' : ended_at h0 f p1 es) by (unfold ended_at in *; now rewrite Q1).
      destruct (IH H5 _ _ _ _ _ _ _ _ _ _ _ H3 A1 E2 M1 N2 B') as (es2 & T2 & B2).
      exists ([] ++ es2). split; [eapply told_all_trans; eauto|]. exact B2.
    - destruct (one_more _ _ _ _ _ _ _ _ _ _ _ _ _ _ _ _ _ _ HG A H M N) as (g1 & p1 & f1 & x1 & E1 & E2 & A1 & M1 & N1 & N2).
      inversion HG; subst. inversion HP; subst.
      destruct (exit_call _ _ _ _ _ _ _ _ _ _ _ _ _ _ _ _ _ A E1) as [-> T].
      destruct B as (c & Hc & B). rewrite (left_ev _ _ _ Hc) in T.
      assert (HE : p_heap p1 = p_heap p).
      { cbn [ParserModel.run_call] in E1. step E1. inversion E1; subst. now destruct (exit_event _ _ E) as (_ & _ & _ & B4 & _). }
      assert (B' : ended_at h0 f p1 (es ++ exit_ev (f_local f) c)).
      { unfold ended_at. rewrite HE. apply begun_walk with (P := open_ids (length h0) (f_local f)); auto; [apply (i_low _ _ _ _ _ _ _ _ A)|]. intros j [J _]; auto. }
      destruct (IH H5 _ _ _ _ _ _ _ _ _ _ _ H3 A1 E2 M1 N2 B') as (es2 & T2 & B2).
      eexists. split; [eapply told_all_trans; eauto|]. now rewrite app_assoc.
    - destruct (one_more _ _ _ _ _ _ _ _ _ _ _ _ _ _ _ _ _ _ HG A H M N) as (g1 & p1 & f1 & x1 & E1 & E2 & A1 & M1 & N1 & N2).
      inversion HG; subst. inversion HP; subst.
      pose proof (next_call _ _ _ _ _ _ _ _ _ _ _ _ _ _ _ _ _ _ _ A E1) as T.
      destruct (next_heap _ _ _ _ _ _ _ _ _ _ _ _ _ A E1) as (L & K & c & Hc & C1 & C2).
      rewrite (entered_ev _ _ _ Hc) in T.
      pose proof (inv_local _ _ _ _ _ _ _ _ A) as Hl. pose proof (i_low _ _ _ _ _ _ _ _ A) as Hlow.
      destruct (i_node _ _ _ _ _ _ _ _ A) as (d & Hd & _ & _ & D3 & _).
      destruct (K _ _ (Nat.le_0_l _) Hd) as (d' & Hd' & _ & _ & K3).
      assert (B' : begun_at h0 f1 p1 (es ++ enter_ev (f_local f1) c)).
      { exists c. split; auto. rewrite <- (app_nil_r (enter_ev _ _)). eapply be_left with (d := d'); eauto.
        - split; lia.
        - congruence.
        - refine (proj1 (pwalk_mono _ _ _ _ _) _ _ B).
          intros i e Hi He. assert (i < length (p_heap p))%nat by (apply nth_error_Some; congruence).
          split; [split; [auto|lia]|]. apply K; auto. lia.
        - constructor. }
      destruct (IH H5 _ _ _ _ _ _ _ _ _ _ _ H3 A1 E2 M1 N2 B') as (es2 & T2 & B2).
      eexists. split; [eapply told_all_trans; eauto|]. now rewrite app_assoc.
  Qed.

  (** ** A rule call *)
  Definition walked (rule : Z) (body : list call) (p p' : parser S) : Prop :=
    exists n T es, returned no_inv no_past rule body p p' n T /\ told_all p p' es /\
      pwalk (p_heap p') (fun i => (length (p_heap p) <= i)%nat) (KRule n) es.

  Lemma walked_end : forall rec h0 pr st0 f x (p p' : parser S) es, inv rec h0 true pr st0 f x p -> begun_at h0 f p es ->
    kept (length h0) (p_heap p) (p_heap p') ->
    pwalk (p_heap p') (fun i => (length h0 <= i)%nat) (KRule (f_local f)) (es ++ left_ (p_heap p) (f_local f)).
  Proof.
    intros rec h0 pr st0 f x p p' es A (c & Hc & B) K. rewrite (left_ev _ _ _ Hc).
    refine (proj1 (pwalk_mono (p_heap p) (fun i => (length h0 <= i)%nat) _ _ _) _ _ _).
    - intros i d Hi Hd. split; auto.
    - apply begun_walk with (P := open_ids (length h0) (f_local f)); auto; [apply (i_low _ _ _ _ _ _ _ _ A)|]. intros j [J _]; auto.
  Qed.

  Lemma called_walk : forall c, announced c ->
    match c with CRule _ _ _ body | CRec _ _ _ _ body => Forall (fun c => announced c -> tells c) body | _ => False end ->
    forall p g f g' p' f', wf p -> p_build p = true -> run_call c g p f = Val (g', p', f', None) -> mode g = false -> p_notices p' = p_notices p ->
    f' = f /\ match c with CRule rule _ _ body | CRec rule _ _ _ body => walked rule body p p' | _ => False end.
  Proof.
    intros c HA IH p g f g' p' f' W Hb H M N.
    destruct c as [s|k| |ty| |inset|n|e|lb|k| | |k pl|rule s pl body|rule s n pl body]; try contradiction.
    - pose proof (announced_generated _ HA false) as HG. cbn [generated] in HG. apply generated_forall in HG.
      destruct (rule_returned_at ts a names fuel _ _ Hist _ _ _ _ _ _ _ _ _ _ _ (all_bodies_ok ts a names fuel _ _ Hist body) HG W H Logic.I) as (_ & -> & _ & n & T & R & RA).
      split; auto. inversion HA as [|r0 s0 pl0 pre l post HB HP|]; subst; [contradiction|].
      cbn [ParserModel.run_call alloc] in H. step H. rename a0 into p1.
      destruct (enter_rule_inv ts _ _ Hist _ _ _ _ _ _ W E) as ((st0 & A1) & L1 & _). rewrite Hb in A1.
      pose proof (enter_rule_quiet _ _ _ _ _ E) as T0.
      pose proof (enter_rule_ran ts g _ _ _ _ E) as R0.
      match type of H with obindo (?rc ?bd g p1 ?fr) _ = _ => change (rc bd g p1 fr) with (run_calls bd g p1 fr) in H end.
      step H. destruct a0 as [[[g2 p2] f2] r2]. step H. destruct a0 as [[g3 p3] r3]. destruct r3; [discriminate|].
      destruct (RA _ _ _ _ _ _ _ _ eq_refl E0 E1) as (-> & KP & _). clear RA.
      step H. inversion H; subst. clear H.
      pose proof (calls_ran _ _ _ _ _ _ _ _ _ _ _ _ E0) as R1. pose proof (catch_ran _ _ _ _ _ _ _ _ _ _ E1) as R2. pose proof (exit_rule_ran ts g' _ _ E2) as R3.
      assert (R' : ran g p g p1) by (eapply ran_trans; [apply alloc_ran|eauto]).
      destruct (ran_silent _ _ _ _ _ _ R' (ran_trans _ _ _ _ _ _ R1 (ran_trans _ _ _ _ _ _ R2 R3)) N) as [N1 N1'].
      destruct (ran_silent _ _ _ _ _ _ R1 (ran_trans _ _ _ _ _ _ R2 R3) N1') as [N2 N2'].
      destruct (ran_silent _ _ _ _ _ _ R2 R3 N2') as [N3 N3'].
      pose proof (ran_calm _ _ _ _ R1 N2 M) as M2.
      destruct (catch_noted _ _ _ _ _ _ _ _ _ _ E1) as [_ C]. specialize (C M2 N3).
      destruct r2 as [[]|]; try contradiction; [cbn in E1; inversion E1|]. cbn in E1. inversion E1; subst. clear E1.
      destruct (announcement_walk _ _ _ _ _ _ _ _ _ _ _ _ _ _ HB HG A1 E0 M N2) as (g4 & p4 & f4 & x4 & es & K1 & K2 & K3 & K4 & K5 & K6).
      apply Forall_app in IH as [_ IH]. inversion IH as [|? ? _ IHp]; subst.
      apply Forall_app in HG as [_ HG]. inversion HG as [|? ? _ HGp]; subst.
      assert (FB : Forall tells post). { rewrite Forall_forall in *. auto. }
      destruct (all_tell _ FB _ _ _ _ _ _ _ _ _ _ _ _ HGp K2 K1 K3 K4 K6) as [-> (es2 & T2 & B2)].
      destruct (all_bodies_ok ts a names fuel _ _ Hist _ _ _ _ _ _ _ _ _ _ _ _ _ _ HGp K2 K1 Logic.I) as (x5 & A5 & _).
      pose proof (exit_rule_told _ _ _ _ E2 (i_ctx _ _ _ _ _ _ _ _ A5)) as T3.
      exists (f_local f4), T. eexists. split; [exact R|]. split.
      2:{ eapply walked_end; eauto. }
      rewrite <- (app_nil_l (_ ++ _)). eapply told_all_trans; [exact T0|]. rewrite <- app_assoc. eapply told_all_trans; eauto. eapply told_all_trans; eauto.
    - pose proof (announced_generated _ HA true) as HG. cbn [generated] in HG. apply generated_forall in HG.
      destruct (rec_returned_at ts a names fuel _ _ Hist _ _ _ _ _ _ _ _ _ _ _ _ (all_bodies_ok ts a names fuel _ _ Hist body) HG W H Logic.I) as (_ & -> & m & T & R & RA).
      split; auto. inversion HA as [| |r0 s0 n0 pl0 pre post HB HP]; subst; [contradiction|].
      cbn [ParserModel.run_call alloc] in H. step H. rename a0 into p1.
      destruct (enter_recursion_inv ts _ _ Hist _ _ _ _ _ _ _ W E) as ((st0 & A1) & L1 & _). rewrite Hb in A1.
      pose proof (enter_rec_quiet _ _ _ _ _ _ E) as T0.
      pose proof (enter_rec_ran ts g _ _ _ _ _ E) as R0.
      match type of H with obindo (?rc ?bd g p1 ?fr) _ = _ => change (rc bd g p1 fr) with (run_calls bd g p1 fr) in H end.
      step H. destruct a0 as [[[g2 p2] f2] r2]. step H. destruct a0 as [[g3 p3] r3]. destruct r3; [discriminate|].
      destruct (RA _ _ _ _ _ _ _ _ eq_refl E0 E1) as (-> & KP & _). clear RA.
      step H. inversion H; subst. clear H.
      pose proof (calls_ran _ _ _ _ _ _ _ _ _ _ _ _ E0) as R1. pose proof (catch_ran _ _ _ _ _ _ _ _ _ _ E1) as R2. pose proof (unroll_ran ts g' _ _ _ E2) as R3.
      assert (R' : ran g p g p1) by (eapply ran_trans; [apply alloc_ran|eauto]).
      destruct (ran_silent _ _ _ _ _ _ R' (ran_trans _ _ _ _ _ _ R1 (ran_trans _ _ _ _ _ _ R2 R3)) N) as [N1 N1'].
      destruct (ran_silent _ _ _ _ _ _ R1 (ran_trans _ _ _ _ _ _ R2 R3) N1') as [N2 N2'].
      destruct (ran_silent _ _ _ _ _ _ R2 R3 N2') as [N3 N3'].
      pose proof (ran_calm _ _ _ _ R1 N2 M) as M2.
      destruct (catch_noted _ _ _ _ _ _ _ _ _ _ E1) as [_ C]. specialize (C M2 N3).
      destruct r2 as [[]|]; try contradiction; [cbn in E1; inversion E1|]. cbn in E1. inversion E1; subst. clear E1.
      destruct (announcement_walk _ _ _ _ _ _ _ _ _ _ _ _ _ _ HB HG A1 E0 M N2) as (g4 & p4 & f4 & x4 & es & K1 & K2 & K3 & K4 & K5 & K6).
      apply Forall_app in IH as [_ IH]. inversion IH as [|? ? _ IHp]; subst.
      pose proof HG as HGa. apply Forall_app in HG as [_ HG]. inversion HG as [|? ? _ HGp]; subst.
      destruct (rounds_walk _ _ _ HP IHp _ _ _ _ _ _ _ _ _ _ _ HGp K2 K1 K3 K4 K6) as (es2 & T2 & B2).
      destruct (all_bodies_ok ts a names fuel _ _ Hist _ _ _ _ _ _ _ _ _ _ _ _ _ _ HGa A1 E0 Logic.I) as (x5 & A5 & SF & _).
      destruct SF as (SF & _). cbn [f_parent] in SF. rewrite <- SF in E2.
      pose proof (unroll_told _ _ _ _ _ _ _ _ _ _ A5 E2) as T3.
      exists (f_local f2), T. eexists. split; [exact R|]. split.
      2:{ eapply walked_end; eauto. }
      rewrite <- (app_nil_l (_ ++ _)). eapply told_all_trans; [exact T0|]. rewrite <- app_assoc. eapply told_all_trans; eauto. eapply told_all_trans; eauto.
  Qed.

  (** a called rule seen from its caller *)
  Lemma walked_tells : forall rec h0 pr st0 f x p p' rule body es, inv rec h0 true pr st0 f x p -> walked rule body p p' -> begun_at h0 f p es ->
    exists es', told_all p p' es' /\ begun_at h0 f p' (es ++ es').
  Proof.
    intros rec h0 pr st0 f x p p' rule body es A (n & T & es' & R & TA & PW) (c & Hc & B). exists es'. split; auto.
    destruct R as [R1 R2 R3 R4 R5 R6 R7 R8 R9].
    pose proof (inv_local _ _ _ _ _ _ _ _ A) as Hl. pose proof (i_low _ _ _ _ _ _ _ _ A) as Hlow.
    rewrite (i_build _ _ _ _ _ _ _ _ A), (i_ctx _ _ _ _ _ _ _ _ A) in R8. cbn [grow] in R8.
    exists (add_kids [KRule n] c). split; [rewrite R8 by auto; now apply nth_update_same|].
    eapply begun_mono with (c := c) (ks := [KRule n]); [|reflexivity|reflexivity|reflexivity| |exact B].
    - intros i d [I1 I2] Hd. split; [split; auto|]. exists d. assert (i < length (p_heap p))%nat by (apply nth_error_Some; congruence).
      rewrite R8 by auto. rewrite nth_update_other by auto. auto.
    - rewrite <- (app_nil_r es'). constructor; [|constructor].
      refine (proj1 (pwalk_mono _ _ _ _ _) _ _ PW). intros i d Hi Hd. split; [split; lia|]. exists d. auto.
  Qed.
  Lemma announced_tells : forall c, announced c -> tells c.
  Proof.
    induction c as [c N1 N2|rule s pl body IH|rule s n pl body IH] using call_ind'; intros HA.
    - inversion HA; subst; [|exfalso; eapply N1; eauto|exfalso; eapply N2; eauto]. now apply inside_tells.
    - intros rec h0 pr st0 f x p g g' p' f' es HG A H M N B.
      destruct (called_walk _ HA IH _ _ _ _ _ _ (inv_wf _ _ _ _ _ _ _ _ A) (i_build _ _ _ _ _ _ _ _ A) H M N) as [-> K].
      split; auto. eapply walked_tells; eauto.
    - intros rec h0 pr st0 f x p g g' p' f' es HG A H M N B.
      destruct (called_walk _ HA IH _ _ _ _ _ _ (inv_wf _ _ _ _ _ _ _ _ A) (i_build _ _ _ _ _ _ _ _ A) H M N) as [-> K].
      split; auto. eapply walked_tells; eauto.
  Qed.
  Lemma rule_walk : forall rule s pl body p g f g' p' f', announced (CRule rule s pl body) -> wf p -> p_build p = true ->
    run_call (CRule rule s pl body) g p f = Val (g', p', f', None) -> mode g = false -> p_notices p' = p_notices p -> walked rule body p p'.
  Proof.
    intros rule s pl body p g f g' p' f' HA W Hb H M N.
    eapply (called_walk _ HA); eauto. apply Forall_forall. intros. now apply announced_tells.
  Qed.
  Lemma rec_walk : forall rule s n pl body p g f g' p' f', announced (CRec rule s n pl body) -> wf p -> p_build p = true ->
    run_call (CRec rule s n pl body) g p f = Val (g', p', f', None) -> mode g = false -> p_notices p' = p_notices p -> walked rule body p p'.
  Proof.
    intros rule s n pl body p g f g' p' f' HA W Hb H M N.
    eapply (called_walk _ HA); eauto. apply Forall_forall. intros. now apply announced_tells.
  Qed.
End Walk.
