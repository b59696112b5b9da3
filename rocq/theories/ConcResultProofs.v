(** What threads that share DFAs come to, from what each of their predictions may answer
    (C92). *)
From Coq Require Import List Arith Bool Lia.
From Verif Require Import ConcModel ConcSpec ConcProofs.
Import ListNotations.

Section Results.
  Context {D R V : Type}.
  Notation job := (job D R V). Notation thread := (thread D R V). Notation event := (event D R V).
  Notation ctl := (ctl D R V). Notation phase := (phase D R V). Notation sys := (sys D R V).
  Variable d0 : nat -> D.
  Variable Q : nat -> job -> R -> Prop.
  Variables (i : nat) (t0 : thread).

  (** the prediction at the bottom of what the thread does, if any *)
  Fixpoint bottom (k : nat) (c : R -> thread) (st : suspended D R V) : nat * (R -> thread) :=
    match st with [] => (k, c) | (k', _, c') :: st => bottom k' c' st end.
  Definition heading (tr : list event) (x : nat * (R -> thread)) : Prop :=
    exists es j, on (fst x) tr = es ++ [Began i (fst x) j] /\ forall r v, Q (fst x) j r -> may_stop Q (snd x r) v -> may_stop Q t0 v.
  Definition on_the_way (tr : list event) (c : ctl) : Prop :=
    match c with
    | Run t [] | Dumping _ t [] => forall v, may_stop Q t v -> may_stop Q t0 v
    | Inside k _ c st => heading tr (bottom k c st)
    | Run _ ((k, _, c) :: st) | Dumping _ _ ((k, _, c) :: st) => heading tr (bottom k c st)
    end.
  Lemma bottom_frame : forall (st : suspended D R V) k c, fst (bottom k c st) = k \/ exists fr, In (fst (bottom k c st), fr) (map susp st).
  Proof.
    induction st as [|[[k' f] c'] st IH]; intros k c; cbn; [auto|]. right. destruct (IH k' c') as [->|[fr H]]; [|eauto]. exists (Susp f). now left.
  Qed.
  Lemma heading_other : forall tr e x, on (fst x) e = [] -> heading tr x -> heading (tr ++ e) x.
  Proof. intros tr e x E (es & j & H & K). exists es, j. split; auto. rewrite on_app, E, app_nil_r. exact H. Qed.

  (** [Q] allows what the predictions of the run have answered *)
  Variable s_end : sys.
  Variable ts : list thread.
  Hypothesis here : nth_error ts i = Some t0.
  Hypothesis allowed : forall s k es j r, steps (start d0 ts) s -> steps s s_end -> on k (trace s) = es ++ [Began i k j; Ended i k r] -> Q k j r.

  Lemma not_mine : forall L d (l : list ctl) tr x y L' d' e y' k fr c, ok d0 (Sys L d l tr) -> nth_error l i = Some c -> In (k, fr) (frames c) ->
    nth_error l x = Some y -> move x L d y L' d' e y' -> x <> i -> on k e = [].
  Proof.
    intros L d l tr x y L' d' e y' k fr c O E I Ex M N. pose proof (ok_held _ _ O _ _ _ _ E I) as H. cbn in H.
    assert (F : forall i0 k0 j r, e = [Began i0 k0 j] \/ e = [Ended i0 k0 r] -> k0 <> k -> on k e = []).
    { intros i0 k0 j r [->| ->] K; unfold on; cbn; apply Nat.eqb_neq in K; now rewrite K. }
    destruct M; try reflexivity.
    - destruct (Nat.eq_dec k0 k) as [->|K].
      + exfalso. unfold l_upgradable_read in H0. rewrite H in H0. destruct fr as [[]|]; discriminate.
      + unfold on. cbn. apply Nat.eqb_neq in K. now rewrite K.
    - destruct (Nat.eq_dec k0 k) as [->|K].
      + exfalso. pose proof (ok_held _ _ O _ _ k (Top (Held (Answer r))) Ex (or_introl eq_refl)) as H1. cbn in H1. rewrite H in H1. destruct fr as [[]|]; cbn in H1; congruence.
      + unfold on. cbn. apply Nat.eqb_neq in K. now rewrite K.
  Qed.
  Lemma bottom_in : forall k0 ph c st, exists fr, In (fst (bottom k0 c st), fr) (frames (Inside k0 ph c st : ctl)).
  Proof. intros k0 ph c st. cbn. destruct (bottom_frame st k0 c) as [->|[fr H]]; eauto. Qed.

  Lemma way_step : forall s s', ok d0 s -> steps (start d0 ts) s' -> steps s' s_end -> step s s' -> forall c c', nth_error (threads s) i = Some c -> on_the_way (trace s) c ->
    nth_error (threads s') i = Some c' -> on_the_way (trace s') c'.
  Proof.
    intros s s' O R1 R2 St c c' E W E'. destruct St as [L d l tr x y L' d' e y' Ex M]. cbn in *. destruct (Nat.eq_dec x i) as [->|N].
    - rewrite E in Ex. injection Ex as ->. rewrite (put_eq _ _ _ _ _ E) in E'. injection E' as <-.
      assert (Nest : forall k f c0 st k1 fr, y = Run (Predict k1 (fst fr) (snd fr)) ((k, f, c0) :: st) -> k1 <> fst (bottom k c0 st) -> forall j, heading tr (bottom k c0 st) -> heading (tr ++ [Began i k1 j]) (bottom k c0 st)).
      { intros k f c0 st k1 fr _ K j H. apply heading_other; auto. unfold on. cbn. apply Nat.eqb_neq in K. now rewrite K. }
      destruct M; rewrite ?app_nil_r in *.
      + (* acquire *) destruct st as [|[[k' f] c'] st]; cbn in W |- *.
        * exists (on k tr), j. split. { rewrite on_app. unfold on at 2. cbn. now rewrite Nat.eqb_refl. }
          intros r v Hq Hm. apply W. econstructor; eauto.
        * apply (Nest k' f c' st k (j, c)); auto. intros K.
          assert (Ih : In (k', Susp f) (frames (Run (Predict k j c) ((k', f, c') :: st) : ctl))) by (now left).
          assert (exists fr, In (k, fr) (frames (Run (Predict k j c) ((k', f, c') :: st) : ctl))) as [fr If].
          { rewrite K. destruct (bottom_frame st k' c') as [->|[fr H1]]; [exists (Susp f); now left|]. exists fr. right. exact H1. }
          pose proof (ok_held _ _ O _ _ _ _ E If) as H1. cbn in H1. unfold l_upgradable_read in H. rewrite H1 in H. destruct fr as [[]|]; discriminate.
      + exact W.
      + exact W.
      + exact W.
      + exact W.
      + exact W.
      + exact W.
      + exact W.
      + (* call *) cbn in *. exact W.
      + (* return *) cbn in *. exact W.
      + (* release *) destruct st as [|[[k' f] c'] st]; cbn in W |- *.
        * intros v Hv. destruct W as (es & j & H1 & H2). cbn in H1. apply (H2 r v); auto.
          apply (allowed (Sys (upd L k l0) d (put l i (Run (c r) [])) (tr ++ [Ended i k r])) k es j r R1 R2). change (on k (tr ++ [Ended i k r]) = es ++ [Began i k j; Ended i k r]). rewrite on_app, H1, <- app_assoc. f_equal. unfold on. cbn. now rewrite Nat.eqb_refl.
        * apply heading_other; auto. unfold on. cbn. destruct (k =? fst (bottom k' c' st)) eqn:K; auto. apply Nat.eqb_eq in K. exfalso.
          pose proof (ok_once _ _ O _ _ E) as ND. cbn in ND. inversion ND as [|? ? NI ND1]; subst. apply NI.
          destruct (bottom_frame st k' c') as [->|[fr H1]]; [now left|]. right. apply in_map_iff. eexists. split; [|exact H1]. reflexivity.
      + (* dump *) destruct st as [|[[k' f] c'] st]; cbn in W |- *; auto. intros v Hv. apply W. now constructor.
      + destruct st as [|[[k' f] c'] st]; cbn in W |- *; auto.
    - rewrite put_ne in E' by auto. rewrite E in E'. injection E' as <-.
      assert (G : forall k0 ph c0 st, c = Inside k0 ph c0 st -> on (fst (bottom k0 c0 st)) e = []).
      { intros k0 ph c0 st ->. destruct (bottom_in k0 ph c0 st) as [fr I]. exact (not_mine L d l tr x y L' d' e y' _ fr _ O E I Ex M N). }
      assert (G1 : forall k0 f c0 st, map susp ((k0, f, c0) :: st) = frames c -> on (fst (bottom k0 c0 st)) e = []).
      { intros k0 f c0 st Ef. assert (exists fr, In (fst (bottom k0 c0 st), fr) (frames c)) as [fr I].
        { rewrite <- Ef. cbn. destruct (bottom_frame st k0 c0) as [->|[fr H]]; [exists (Susp f); now left|exists fr; now right]. }
        exact (not_mine L d l tr x y L' d' e y' _ fr _ O E I Ex M N). }
      destruct c as [t [|[[k0 f] c0] st]|k0 ph c0 st|k0 t [|[[k1 f] c0] st]]; cbn in *; auto.
      + apply heading_other; auto. now apply (G1 k0 f).
      + apply heading_other; auto. now apply (G k0 ph).
      + apply heading_other; auto. now apply (G1 k1 f).
  Qed.
  Lemma steps_trans2 : forall a b c : sys, steps a b -> steps b c -> steps a c.
  Proof. intros a b c H1 H2. induction H2 as [s|s1 s2 s3 H IH St]; [exact H1|]. exact (steps_more _ _ _ _ _ _ (IH H1) St). Qed.
  Lemma comes_to : forall v, steps (start d0 ts) s_end -> nth_error (threads s_end) i = Some (Run (Stop v) []) -> may_stop Q t0 v.
  Proof.
    assert (G : forall s, steps (start d0 ts) s -> steps s s_end -> forall c, nth_error (threads s) i = Some c -> on_the_way (trace s) c).
    { intros s H. remember (start d0 ts) as s0 eqn:Es. induction H as [s|s1 s2 s3 H IH St]; intros R2 c E; subst.
      - cbn in E. rewrite nth_error_map, here in E. injection E as <-. cbn. auto.
      - assert (exists c', nth_error (threads s2) i = Some c') as [c' E'].
        { destruct St as [L d l tr x y L' d' e y' Ex M]. cbn in *. destruct (Nat.eq_dec x i) as [->|N]; [eauto|]. rewrite put_ne in E by auto. eauto. }
        eapply (way_step s2 s3); eauto.
        + apply (steps_ok d0 _ _ H (ok_start d0 ts)).
        + eapply steps_more; eauto.
        + apply IH; auto. eapply steps_trans2; [|exact R2]. eapply steps_more; [constructor|exact St]. }
    intros v R1 E. pose proof (G s_end R1 (steps_none _ _ _ _) _ E) as W. cbn in W. apply W. constructor.
  Qed.
End Results.

(** ** DFAs only grow *)
Section Growth.
  Context {D R V : Type}.
  Notation job := (job D R V). Notation thread := (thread D R V). Notation event := (event D R V).
  Notation ctl := (ctl D R V). Notation phase := (phase D R V). Notation sys := (sys D R V).
  Variable M : D -> D -> Prop.
  Hypothesis M_refl : forall d, M d d.
  Hypothesis M_trans : forall x y z, M x y -> M y z -> M x z.
  Variable P : nat -> job -> Prop.
  (** the changes of the job itself *)
  Fixpoint growing (j : job) : Prop :=
    match j with
    | Answer _ => True
    | Peek f | Shared f => forall d, growing (f d)
    | Grow g f => (forall d, M d (g d)) /\ forall d, growing (f d)
    | Callback _ f => forall v, growing (f v)
    end.
  Hypothesis P_growing : forall k j, P k j -> growing j.
  Definition ph_growing (ph : phase) : Prop :=
    match ph with
    | Held j | Written j => growing j
    | Reading f => forall d, growing (f d)
    | Waiting g f | Writing g f => (forall d, M d (g d)) /\ forall d, growing (f d)
    end.
  Fixpoint st_growing (st : suspended D R V) : Prop := match st with [] => True | (_, f, _) :: st => (forall v, growing (f v)) /\ st_growing st end.
  Definition ctl_growing (c : ctl) : Prop :=
    match c with
    | Run _ st | Dumping _ _ st => st_growing st
    | Inside _ ph _ st => ph_growing ph /\ st_growing st
    end.
  Lemma move_growing : forall i L d c L' d' e c', move i L d c L' d' e c' -> ctl_uses P c -> ctl_growing c -> ctl_growing c' /\ forall k, M (d k) (d' k).
  Proof.
    intros i L d c L' d' e c' Mv Us G. destruct Mv; cbn in *; try (split; [intuition (auto; fail)|now intros; apply M_refl]).
    - destruct Us as ((Pk & _ & _) & _). split; [split; [now apply (P_growing k)|exact G]|now intros; apply M_refl].
    - destruct G as ((G1 & G2) & G3). split; [auto|]. intros x. unfold upd. destruct (x =? k) eqn:E; auto. apply Nat.eqb_eq in E. subst. apply G1.
  Qed.
  Lemma steps_growing : forall s s', steps s s' -> Forall (ctl_uses P) (threads s) -> Forall (began_ok P) (trace s) -> Forall ctl_growing (threads s) ->
    Forall ctl_growing (threads s') /\ forall k, M (dfas s k) (dfas s' k).
  Proof.
    intros s s' H. induction H as [|s1 s2 s3 H IH St]; intros F B G; [auto|]. destruct (IH F B G) as (G2 & M2). destruct (steps_uses (dfas s1) P _ _ H F B) as (F2 & _).
    destruct St as [L d ts tr i c L' d' e c' E Mv]. cbn in *. rewrite Forall_forall in F2, G2.
    destruct (move_growing _ _ _ _ _ _ _ _ Mv) as (X & Y). { apply F2. eapply nth_error_In; eauto. } { apply G2. eapply nth_error_In; eauto. }
    split; [|intros k; eapply M_trans; [apply M2|apply Y]]. apply Forall_forall. intros x Ix. apply In_nth_error in Ix as [n Ix].
    destruct (put_inv _ _ _ _ _ _ _ E Ix) as [[-> ->]|[_ Q]]; auto. apply G2. eapply nth_error_In; eauto.
  Qed.
  (** from one time to a later one *)
  Lemma grows : forall d0 ts s s', Forall (uses P) ts -> steps (start d0 ts) s -> steps s s' -> forall k, M (dfas s k) (dfas s' k).
  Proof.
    intros d0 ts s s' F H H'. assert (F0 : Forall (ctl_uses P) (threads (start d0 ts))). { cbn. rewrite Forall_map. eapply Forall_impl; [|exact F]. cbn. auto. }
    assert (G0 : Forall ctl_growing (threads (start d0 ts))). { cbn. rewrite Forall_map. eapply Forall_impl; [|exact F]. cbn. auto. }
    destruct (steps_uses d0 P _ _ H F0 (Forall_nil _)) as (F1 & B1). destruct (steps_growing _ _ H F0 (Forall_nil _) G0) as (G1 & _).
    exact (proj2 (steps_growing _ _ H' F1 B1 G1)).
  Qed.
End Growth.

(** the run has passed through all that its trace tells *)
Lemma passed : forall {D R V} (d0 : nat -> D) (ts : list (thread D R V)) (s : sys D R V) k xs ys, steps (start d0 ts) s -> on k (trace s) = xs ++ ys -> exists s', steps (start d0 ts) s' /\ steps s' s /\ on k (trace s') = xs.
Proof.
  intros D R V d0 ts s k xs ys H. remember (start d0 ts) as s0 eqn:Es. revert ys. induction H as [s|s1 s2 s3 H IH St]; intros ys E; subst.
  - cbn in E. symmetry in E. apply app_eq_nil in E as (-> & ->). eexists. split; [constructor|]. split; [constructor|reflexivity].
  - destruct ys as [|y ys]. { rewrite app_nil_r in E. exists s3. split; [econstructor; eauto|]. split; [constructor|exact E]. }
    assert (X : exists zs, on k (trace s2) = xs ++ zs).
    { destruct St as [L d l tr x c L' d' e c' Ex M]. change (on k (tr ++ e) = xs ++ y :: ys) in E. change (exists zs, on k tr = xs ++ zs). rewrite on_app in E.
      assert (Le : on k e = [] \/ exists z, on k e = [z]).
      { destruct M; unfold on; cbn; auto; destruct (k0 =? k); eauto. }
      destruct Le as [Le|(z & Le)]; rewrite Le in E; [rewrite app_nil_r in E; eauto|]. destruct ys as [|w ys _] using rev_ind.
      - apply app_inj_tail in E as (-> & _). exists []. now rewrite app_nil_r.
      - change (xs ++ y :: ys ++ [w]) with (xs ++ (y :: ys) ++ [w]) in E. rewrite app_assoc in E. apply app_inj_tail in E as (-> & _). eauto. }
    destruct X as (zs & X). destruct (IH eq_refl zs X) as (s' & H1 & H2 & H3). exists s'. split; [exact H1|]. split; [|exact H3]. eapply steps_more; eauto.
Qed.
