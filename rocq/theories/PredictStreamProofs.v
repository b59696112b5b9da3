(** The two token streams obey the laws prediction depends on. *)
From Coq Require Import ZArith List Bool Lia.
From Coq Require Import ZifyBool ZifyNat.
From Verif Require Import Outcome IntervalSetModel.
From Verif Require Import PredContextModel SemContextModel ConfigSetModel DfaModel AtnModel Ll1Model ParserModel PredictModel PredictSpec PredictFrameProofs.
From Verif Require Import CharStreamModel TokenStreamModel TokenStreamSpec TokenStreamProofs CommonTokenStreamProofs.
Import ListNotations.
Local Open Scope Z_scope.

Lemma of_out_val : forall A (o : out A) a, of_out o = Val a -> o = Done a.
Proof. intros A [x| |] a H; cbn in H; inversion H; auto. Qed.

Section Laws.
  Variable src : nat -> tok.

  Lemma fill_loop_frame k : forall i s s' j, fill_loop src k i s = (s', j) -> cur s' = cur s /\ p s' = p s /\ markers s' = markers s.
  Proof.
    induction k as [|k IH]; cbn [fill_loop]; intros i s s' j H; [inversion H; subst; auto|].
    destruct (ends_with_eof s); [inversion H; subst; auto|]. apply IH in H. exact H.
  Qed.
  Lemma sync_frame s w : cur (sync src s w) = cur s /\ p (sync src s w) = p s /\ markers (sync src s w) = markers s.
  Proof.
    unfold sync, fill. destruct (_ >? 0); [|auto]. destruct (fill_loop src _ 0 s) as [s' j] eqn:E. eapply fill_loop_frame; eauto.
  Qed.
  Lemma csync_frame s i : cur (fst (csync src s i)) = cur s /\ p (fst (csync src s i)) = p s /\ markers (fst (csync src s i)) = markers s.
  Proof.
    unfold csync, fill. destruct (_ >? 0); [|auto]. destruct (fill_loop src _ 0 s) as [s' j] eqn:E. apply fill_loop_frame in E. exact E.
  Qed.
  Lemma lt_frame s k s' t : lt src s k = Done (s', t) -> cur s' = cur s /\ p s' = p s /\ markers s' = markers s.
  Proof.
    unfold lt. destruct (k =? -1).
    - destruct (p s <=? 0); intros H; inversion H; subst; auto.
    - intros H; inversion H; subst. apply sync_frame.
  Qed.
  Lemma tseek_frame s i s' : tseek src s i = Done s' -> cur s' = i /\ markers s' = markers s.
  Proof.
    unfold tseek. destruct (Z.eqb_spec (cur s) i) as [He|Hne]; [intros H; inversion H; subst; auto|].
    destruct (i >? cur s) eqn:E.
    - cbv zeta. destruct (sync_frame s (i - cur s)) as (C & P & M).
      destruct (_ || _) eqn:E1; [discriminate|]. intros H; inversion H; subst. cbn. split; [|auto].
      unfold get_buffer_start_index, tsize in *. rewrite C, P in *. lia.
    - destruct (_ || _) eqn:E1; [discriminate|]. intros H; inversion H; subst. auto.
  Qed.
  Lemma consume_markers s s' : tconsume src s = Done s' -> markers s' = markers s.
  Proof.
    unfold tconsume, tla. destruct (lt src s 1) as [[s1 t]| |] eqn:E; cbn; try discriminate.
    apply lt_frame in E as (_ & _ & M). destruct (_ =? TOKEN_EOF); [discriminate|]. intros H; inversion H; subst. clear H.
    match goal with |- markers (sync src ?x 1) = _ => destruct (sync_frame x 1) as (_ & _ & ->) end. cbn.
    destruct (_ && _); cbn; auto.
  Qed.

  Variable ch : Z.
  Variable fuel : nat.

  Lemma chan_frame f : forall s i d s' j, chan_loop src ch f s i d = Done (s', j) -> cur s' = cur s /\ markers s' = markers s.
  Proof.
    induction f as [|f IH]; intros s i d s' j H; cbn [chan_loop] in H;
      (destruct (zget (tokens s) i); [|discriminate]); (destruct (_ =? ch); [inversion H; subst; auto|]);
      (destruct (_ || _); [inversion H; subst; auto|]); [discriminate|].
    apply IH in H. destruct (csync_frame s (i + d)) as (A & _ & C). split; [rewrite <- A | rewrite <- C]; apply H.
  Qed.
  Lemma next_frame s i d s' j : next_token_on_channel src ch fuel s i d = Done (s', j) -> cur s' = cur s /\ markers s' = markers s.
  Proof.
    unfold next_token_on_channel. cbv zeta. destruct (csync_frame s i) as (A & _ & C).
    destruct (_ >=? _); intros H; [inversion H; subst; auto|]. apply chan_frame in H. split; [rewrite <- A | rewrite <- C]; apply H.
  Qed.
  Lemma lt_loop_frame n : forall s i s' j, lt_loop src ch fuel n s i = Done (s', j) -> cur s' = cur s /\ markers s' = markers s.
  Proof.
    induction n as [|n IH]; cbn [lt_loop]; intros s i s' j H; [inversion H; subst; auto|].
    pose proof (csync_frame s (i + 1)) as (A & _ & C). destruct (csync src s (i + 1)) as [s1 ok]. cbn [fst] in A, C. destruct ok.
    - destruct (next_token_on_channel src ch fuel s1 (i + 1) 1) as [[s2 i2]| |] eqn:E; cbn in H; try discriminate.
      apply next_frame in E as [D F]. apply IH in H as [G K]. split; congruence.
    - apply IH in H as [G K]. split; congruence.
  Qed.
  Lemma lb_loop_frame n : forall s i s' j, lb_loop src ch fuel n s i = Done (s', j) -> cur s' = cur s /\ markers s' = markers s.
  Proof.
    induction n as [|n IH]; cbn [lb_loop]; intros s i s' j H; [inversion H; subst; auto|].
    destruct (i >? 0); [|inversion H; subst; auto].
    destruct (next_token_on_channel src ch fuel s (i - 1) (-1)) as [[s2 i2]| |] eqn:E; cbn in H; try discriminate.
    apply next_frame in E as [D F]. apply IH in H as [G K]. split; congruence.
  Qed.
  Lemma clt_frame s k s' t : clt src ch fuel s k = Done (s', t) -> cur s' = cur s /\ markers s' = markers s.
  Proof.
    unfold clt. destruct (k =? 1); [intros H; inversion H; subst; auto|]. destruct (k =? 0); [discriminate|]. destruct (k <? 0).
    - unfold lb. destruct (_ || _); [intros H; inversion H; subst; auto|].
      destruct (lb_loop src ch fuel _ s (p s)) as [[s1 i]| |] eqn:E; cbn; try discriminate. apply lb_loop_frame in E.
      destruct (i <? 0); intros H; inversion H; subst; auto.
    - unfold lt_inner. destruct (lt_loop src ch fuel _ s (p s)) as [[s1 i]| |] eqn:E; cbn; try discriminate. apply lt_loop_frame in E.
      intros H; inversion H; subst; auto.
  Qed.
  Lemma cconsume_markers s s' : cconsume src ch fuel s = Done s' -> markers s' = markers s.
  Proof.
    unfold cconsume. destruct (tconsume src s) as [s1| |] eqn:E; cbn; try discriminate. apply consume_markers in E.
    destruct (next_token_on_channel src ch fuel s1 (p s1) 1) as [[s2 i]| |] eqn:E2; cbn; try discriminate. apply next_frame in E2 as [_ E2].
    intros H. apply tseek_frame in H as [_ H]. congruence.
  Qed.

  Lemma common_laws : seek_laws (common_seek src ch fuel).
  Proof.
    constructor; cbn.
    - intros s i s' H. apply of_out_val in H. now apply tseek_frame in H.
    - intros s k s' t H. apply of_out_val in H. now apply clt_frame in H.
    - reflexivity.
    - intros s i s' H. now inversion H.
  Qed.
  Lemma unbuffered_laws : seek_laws (unbuffered_seek src).
  Proof.
    constructor; cbn.
    - intros s i s' H. apply of_out_val in H. now apply tseek_frame in H.
    - intros s k s' t H. apply of_out_val in H. now apply lt_frame in H.
    - reflexivity.
    - intros s i s' H. apply of_out_val in H. unfold trelease in H. destruct (negb _); [discriminate|].
      destruct (_ && _); [destruct (p s >? _); [discriminate|]|]; inversion H; subst; reflexivity.
  Qed.

  Lemma first_visible_fun i j j' : first_visible src ch i j -> first_visible src ch i j' -> j = j'.
  Proof.
    intros (A & B & C) (A' & B' & C'). destruct (lt_eq_lt_dec j j') as [[H|H]|H]; auto; exfalso; [apply (C' j) | apply (C j')]; auto; lia.
  Qed.
  Lemma kth_visible_pos c k j : kth_visible src ch c k j -> (1 <= k)%nat.
  Proof. induction 1; lia. Qed.
  Lemma kth_visible_fun c k : forall j j', kth_visible src ch c k j -> kth_visible src ch c k j' -> j = j'.
  Proof.
    induction k as [|k IH]; intros j j' H H'; [apply kth_visible_pos in H; lia|].
    inversion H; subst; inversion H'; subst; auto;
      try (match goal with K : kth_visible _ _ _ 0 _ |- _ => apply kth_visible_pos in K; lia end).
    - assert (j = j0) by (eapply IH; eauto). subst. contradiction.
    - assert (j' = j0) by (eapply IH; eauto). subst. contradiction.
    - assert (j0 = j1) by (eapply IH; eauto). subst. eapply first_visible_fun; eauto.
  Qed.

  Lemma common_same_ahead s s' n n' e : eof_number src e -> (e <= fuel)%nat -> crep src n s -> crep src n' s' -> cur s' = cur s ->
    same_ahead (common_stream src ch fuel) s s'.
  Proof.
    intros [He _] Hf C C' E. split; [exact E|]. intros k Hk. cbn.
    pose proof (crep_cur _ _ _ C) as Hp. destruct C as [R Hl] eqn:EC. pose proof (r_p _ _ _ _ R) as H0.
    destruct (clt_spec src ch fuel n s (Z.to_nat (cur s)) k e C ltac:(lia) Hk He ltac:(lia)) as (s1 & n1 & j & E1 & _ & _ & _ & _ & _ & K1).
    destruct (clt_spec src ch fuel n' s' (Z.to_nat (cur s)) k e C' ltac:(lia) Hk He ltac:(lia)) as (s2 & n2 & j2 & E2 & _ & _ & _ & _ & _ & K2).
    rewrite E1, E2. cbn. rewrite (kth_visible_fun _ _ _ _ K2 K1). eauto.
  Qed.
  Lemma unbuffered_same_ahead s s' b n b' n' : rep src b n s -> rep src b' n' s' -> cur s' = cur s ->
    same_ahead (unbuffered_stream src) s s'.
  Proof.
    intros R R' E. split; [exact E|]. intros k Hk. cbn.
    destruct (lt_same src b n s b' n' s' k R R' (eq_sym E) Hk) as (s1 & s1' & r & E1 & E2). rewrite E1, E2. cbn. eauto.
  Qed.
End Laws.
