(** Proofs for C104. *)
From Coq Require Import ZArith List Bool Lia.
From Verif Require Import Outcome TreeModel TreeSpec TreeProofs VisitorModel VisitorSpec.
Import ListNotations.
Local Open Scope outcome_scope.

Section Visits.
  Context {V R : Type}.
  Variable K : mvisitor V R.

  Scheme says_mut := Induction for says Sort Prop
  with does_mut := Induction for does Sort Prop
  with gathers_mut := Induction for gathers Sort Prop.
  Combined Scheme says_all from says_mut, does_mut, gathers_mut.

  (** from the code to the reference *)
  Definition sound (rec : node -> V * R -> outcome (V * R)) : Prop :=
    forall n v tmp v' r, rec n (v, tmp) = Val (v', r) -> says K n v v' r.

  Lemma loop_sound rec : sound rec -> forall cs v tmp a v' tmp' r,
    mloop K rec cs v tmp a = Val (v', tmp', r) -> gathers K cs v a v' r.
  Proof.
    intros S. induction cs as [|c cs IH]; intros v tmp a v' tmp' r H; cbn in H.
    - injection H as <- <- <-. constructor.
    - destruct (m_more K v c a) eqn:M.
      + destruct (rec c (v, tmp)) as [(v1, r1)| |] eqn:E; try discriminate. cbn in H.
        eapply Gathers_next; eauto.
      + injection H as <- <- <-. now constructor.
  Qed.

  Lemma run_sound rec : sound rec -> forall m tmp v' tmp' r,
    mrun K rec m tmp = Val (v', tmp', r) -> does K m v' r.
  Proof.
    intros S. induction m as [v r0|n v next IH|n v next IH|n v next IH]; intros tmp v' tmp' r H; cbn -[get_children] in H.
    - injection H as <- <- <-. constructor.
    - destruct (rec n (v, tmp)) as [(v1, r1)| |] eqn:E; try discriminate. cbn in H.
      eapply Does_visit; eauto.
    - rewrite get_children_kids in H.
      destruct (mloop K rec (kids n) v tmp (m_default K)) as [((v1, t1), r1)| |] eqn:E; try discriminate.
      cbn in H. eapply Does_children; eauto. eapply loop_sound; eauto.
    - destruct (rec n (v, tmp)) as [(v1, r1)| |] eqn:E; try discriminate. cbn in H.
      eapply Does_node; eauto.
  Qed.

  Lemma node_sound : forall fuel, sound (mvisit_node K fuel).
  Proof.
    induction fuel as [|fuel IH]; intros n v tmp v' r H; [discriminate|]. cbn in H.
    destruct (method_of K n v) as [m|] eqn:M; [|discriminate]. cbn in H.
    destruct (mrun K (mvisit_node K fuel) m tmp) as [((v1, t1), r1)| |] eqn:E; try discriminate.
    cbn in H. injection H as <- <-. apply run_sound in E; auto.
    destruct n as [i [|] ty s x|i [|] k x a cs]; cbn in M.
    - injection M as <-. now constructor.
    - injection M as <-. now constructor.
    - discriminate.
    - destruct (m_rule K (Rule i false k x a cs)) as [f|] eqn:F; injection M as <-.
      + eapply Says_rule; eauto.
      + apply Says_default; auto. inversion E; subst. cbn [kids] in *.
        match goal with H : does K (Return _ _) _ _ |- _ => inversion H; subst end. auto.
  Qed.

  (** from the reference to the code *)
  Lemma complete :
    (forall n v v' r, says K n v v' r ->
       exists N, forall fuel, (N <= fuel)%nat -> forall tmp, mvisit_node K fuel n (v, tmp) = Val (v', r)) /\
    (forall m v' r, does K m v' r ->
       exists N, forall fuel, (N <= fuel)%nat -> forall tmp, exists tmp',
         mrun K (mvisit_node K fuel) m tmp = Val (v', tmp', r)) /\
    (forall cs v a v' r, gathers K cs v a v' r ->
       exists N, forall fuel, (N <= fuel)%nat -> forall tmp, exists tmp',
         mloop K (mvisit_node K fuel) cs v tmp a = Val (v', tmp', r)).
  Proof.
    apply (says_all V R K
      (fun n v v' r _ => exists N, forall fuel, (N <= fuel)%nat -> forall tmp, mvisit_node K fuel n (v, tmp) = Val (v', r))
      (fun m v' r _ => exists N, forall fuel, (N <= fuel)%nat -> forall tmp, exists tmp',
         mrun K (mvisit_node K fuel) m tmp = Val (v', tmp', r))
      (fun cs v a v' r _ => exists N, forall fuel, (N <= fuel)%nat -> forall tmp, exists tmp',
         mloop K (mvisit_node K fuel) cs v tmp a = Val (v', tmp', r))).
    - intros i ty s x v v' r _ (N & H). exists (S N). intros [|fuel] L tmp; [lia|]. cbn.
      destruct (H fuel) with (tmp := tmp) as (t' & E); [lia|]. now rewrite E.
    - intros i ty s x v v' r _ (N & H). exists (S N). intros [|fuel] L tmp; [lia|]. cbn.
      destruct (H fuel) with (tmp := tmp) as (t' & E); [lia|]. now rewrite E.
    - intros i k x a cs v v' r f F _ (N & H). exists (S N). intros [|fuel] L tmp; [lia|]. cbn.
      destruct (H fuel) with (tmp := tmp) as (t' & E); [lia|]. rewrite F. cbn. now rewrite E.
    - intros i k x a cs v v' r F _ (N & H). exists (S N). intros [|fuel] L tmp; [lia|]. cbn -[get_children].
      destruct (H fuel) with (tmp := tmp) as (t' & E); [lia|]. rewrite F. cbn -[get_children].
      rewrite get_children_kids. cbn [kids]. now rewrite E.
    - intros v r. exists O. intros fuel _ tmp. now exists tmp.
    - intros n v next v1 r1 v' r _ (N1 & H1) _ (N2 & H2). exists (max N1 N2). intros fuel L tmp. cbn.
      rewrite H1 by lia. cbn. apply H2. lia.
    - intros n v next v1 r1 v' r _ (N1 & H1) _ (N2 & H2). exists (max N1 N2). intros fuel L tmp.
      cbn -[get_children]. rewrite get_children_kids.
      destruct (H1 fuel) with (tmp := tmp) as (t' & E); [lia|]. rewrite E. cbn. apply H2. lia.
    - intros n v next v1 r1 v' r _ (N1 & H1) _ (N2 & H2). exists (max N1 N2). intros fuel L tmp. cbn.
      rewrite H1 by lia. cbn. apply H2. lia.
    - intros v a. exists O. intros fuel _ tmp. now exists tmp.
    - intros c cs v a M. exists O. intros fuel _ tmp. exists tmp. cbn. now rewrite M.
    - intros c cs v a v1 r1 v' r M _ (N1 & H1) _ (N2 & H2). exists (max N1 N2). intros fuel L tmp. cbn.
      rewrite M, H1 by lia. cbn. apply H2. lia.
  Qed.

  Lemma visit_iff n v tmp v' tmp' r :
    (exists fuel, mvisit K fuel n (v, tmp) = Val ((v', tmp'), r)) <-> says K n v v' r /\ tmp' = m_default K.
  Proof.
    unfold mvisit. split.
    - intros (fuel & H). destruct (mvisit_node K fuel n (v, tmp)) as [(v1, r1)| |] eqn:E; try discriminate.
      cbn in H. injection H as <- <- <-. split; auto. eapply node_sound; eauto.
    - intros (H & ->). apply complete in H as (N & H). exists N. now rewrite H.
  Qed.

  Lemma says_determined n v v1 r1 v2 r2 : says K n v v1 r1 -> says K n v v2 r2 -> v1 = v2 /\ r1 = r2.
  Proof.
    intros H1 H2. apply complete in H1 as (N1 & H1), H2 as (N2 & H2).
    specialize (H1 (max N1 N2) ltac:(lia) (m_default K)). specialize (H2 (max N1 N2) ltac:(lia) (m_default K)).
    rewrite H1 in H2. injection H2 as <- <-. auto.
  Qed.

  (** coming back *)
  Lemma within_trans a b c : within a b -> within b c -> within a c.
  Proof. induction 1; auto. intros. eapply within_kid; eauto. Qed.

  Lemma kid_below c n : In c (kids n) -> below c n.
  Proof. intros I. exists c. split; auto. constructor. Qed.

  Lemma below_kid c d n : In c (kids d) -> d = n \/ below d n -> below c n.
  Proof.
    intros I [->|(k & Ik & W)].
    - now apply kid_below.
    - exists k. split; auto. eapply within_trans; eauto. eapply within_kid; eauto. constructor.
  Qed.

  Lemma gathers_total cs : (forall c, In c cs -> forall v, exists v' r, says K c v v' r) ->
    forall v a, exists v' r, gathers K cs v a v' r.
  Proof.
    induction cs as [|c cs IH]; intros H v a.
    - exists v, a. constructor.
    - destruct (m_more K v c a) eqn:M.
      + destruct (H c (or_introl eq_refl) v) as (v1 & r1 & S1).
        destruct (IH (fun c I => H c (or_intror I)) v1 (m_aggregate K v1 a r1)) as (v' & r & G).
        exists v', r. eapply Gathers_next; eauto.
      + exists v, a. now constructor.
  Qed.

  Lemma does_total n m : looks_down n m -> (forall c, below c n -> forall v, exists v' r, says K c v v' r) ->
    exists v' r, does K m v' r.
  Proof.
    intros L H. induction L as [v r|c v next B _ IH|c v next B _ IH|c v next B _ IH].
    - exists v, r. constructor.
    - destruct (H c B v) as (v1 & r1 & S1). destruct (IH v1 r1) as (v' & r & D).
      exists v', r. eapply Does_visit; eauto.
    - destruct (gathers_total (kids c)) with (v := v) (a := m_default K) as (v1 & r1 & G).
      { intros d I. apply H. eapply below_kid; eauto. }
      destruct (IH v1 r1) as (v' & r & D). exists v', r. eapply Does_children; eauto.
    - destruct (H c B v) as (v1 & r1 & S1). destruct (IH v1) as (v' & r & D).
      exists v', r. eapply Does_node; eauto.
  Qed.

  Lemma says_total : descends K -> forall n, (forall x, within n x -> ~ plain_rule x) ->
    forall v, exists v' r, says K n v v' r.
  Proof.
    intros (D1 & D2 & D3). 
    assert (G : forall n x, within n x -> (forall y, within n y -> ~ plain_rule y) ->
      forall v, exists v' r, says K x v v' r).
    { induction n as [i e ty s y|i p k y a cs IH] using node_ind'; intros x W NP v.
      - apply within_inv in W as [->|(c & [] & _)].
        destruct e.
        + destruct (does_total _ _ (D2 (Leaf i true ty s y) v)) as (v' & r & D).
          { intros c (k & [] & _). }
          exists v', r. now constructor.
        + destruct (does_total _ _ (D1 (Leaf i false ty s y) v)) as (v' & r & D).
          { intros c (k & [] & _). }
          exists v', r. now constructor.
      - rewrite Forall_forall in IH.
        assert (Down : forall c, below c (Rule i p k y a cs) -> forall v, exists v' r, says K c v v' r).
        { intros c (d & I & W'). apply (IH d I c W'). intros z Z. apply NP. eapply within_kid; eauto. }
        apply within_inv in W as [->|(c & I & W)].
        + destruct p. { exfalso. apply (NP (Rule i true k y a cs)); [constructor|]. red. eauto 10. }
          destruct (m_rule K (Rule i false k y a cs)) as [f|] eqn:F.
          * destruct (does_total _ _ (D3 _ f v F) Down) as (v' & r & D).
            exists v', r. eapply Says_rule; eauto.
          * destruct (gathers_total cs) with (v := v) (a := m_default K) as (v' & r & G).
            { intros c I. apply Down. now apply kid_below. }
            exists v', r. now apply Says_default.
        + apply Down. exists c. auto. }
    intros n NP. apply (G n n); auto. constructor.
  Qed.
End Visits.

(** values *)
Section Values.
  Context {R : Type}.
  Variable leaf : node -> R.
  Variable combine : node -> list R -> R.
  Variable K : mvisitor unit R.

  Lemma value_leaf i e ty s x v :
    m_terminal K = (fun n v => Return v (leaf n)) -> m_error K = (fun n v => Return v (leaf n)) ->
    says K (Leaf i e ty s x) v v (leaf (Leaf i e ty s x)).
  Proof. intros T E. destruct e; constructor; rewrite ?T, ?E; constructor. Qed.

  Lemma visiting_does g cs : forall l v, (forall c, In c cs -> forall v, says K c v v (value leaf combine c)) ->
    does K (visiting g cs l v) v (g (l ++ map (value leaf combine) cs)).
  Proof.
    induction cs as [|c cs IH]; intros l v H; cbn.
    - rewrite app_nil_r. constructor.
    - eapply Does_visit; [apply H; now left|].
      replace (l ++ value leaf combine c :: map (value leaf combine) cs)
        with ((l ++ [value leaf combine c]) ++ map (value leaf combine) cs) by now rewrite <- app_assoc.
      apply IH. intros d I. apply H. now right.
  Qed.

  Lemma value_visits :
    m_terminal K = (fun n v => Return v (leaf n)) -> m_error K = (fun n v => Return v (leaf n)) ->
    (forall n, m_rule K n = Some (visiting (combine n) (kids n) [])) ->
    forall n, (forall x, within n x -> ~ plain_rule x) -> forall v, says K n v v (value leaf combine n).
  Proof.
    intros T E M. induction n as [i e ty s y|i p k y a cs IH] using node_ind'; intros NP v.
    - now apply value_leaf.
    - destruct p. { exfalso. apply (NP (Rule i true k y a cs)); [constructor|]. red. eauto 10. }
      eapply Says_rule; [apply M|]. cbn [kids]. 
      apply (visiting_does (combine (Rule i false k y a cs)) cs []).
      intros c I v1. rewrite Forall_forall in IH. apply IH; auto. intros x W. apply NP. eapply within_kid; eauto.
  Qed.

  Lemma gathers_fold agg cs : m_more K = (fun _ _ _ => true) -> m_aggregate K = (fun _ => agg) ->
    (forall c, In c cs -> forall v, says K c v v (value leaf combine c)) ->
    forall v a, gathers K cs v a v (fold_left agg (map (value leaf combine) cs) a).
  Proof.
    intros M A. induction cs as [|c cs IH]; intros H v a; cbn.
    - constructor.
    - eapply Gathers_next; [now rewrite M|apply H; now left|]. rewrite A. apply IH. intros d I. apply H. now right.
  Qed.

  Lemma value_default agg :
    m_terminal K = (fun n v => Return v (leaf n)) -> m_error K = (fun n v => Return v (leaf n)) ->
    (forall n, m_rule K n = None) -> m_more K = (fun _ _ _ => true) -> m_aggregate K = (fun _ => agg) ->
    (forall n l, combine n l = fold_left agg l (m_default K)) ->
    forall n, (forall x, within n x -> ~ plain_rule x) -> forall v, says K n v v (value leaf combine n).
  Proof.
    intros T E M W A C. induction n as [i e ty s y|i p k y a cs IH] using node_ind'; intros NP v.
    - now apply value_leaf.
    - destruct p. { exfalso. apply (NP (Rule i true k y a cs)); [constructor|]. red. eauto 10. }
      apply Says_default; auto. cbn [value]. rewrite C. apply gathers_fold; auto.
      intros c I v1. rewrite Forall_forall in IH. apply IH; auto. intros x X. apply NP. eapply within_kid; eauto.
  Qed.
End Values.
