(** Proofs about threads that share DFAs: runs end, and nobody is stuck. *)
From Coq Require Import List Arith Bool Lia.
From Verif Require Import ConcModel ConcSpec ConcProofs.
Import ListNotations.

Section Live.
  Context {D R V : Type}.
  Notation job := (job D R V). Notation thread := (thread D R V). Notation event := (event D R V).
  Notation ctl := (ctl D R V). Notation phase := (phase D R V). Notation sys := (sys D R V).

  (** ** Ranks *)
  Variable rank : nat -> nat.
  Definition bound (st : suspended D R V) : nat := match st with [] => 0 | (k, _, _) :: _ => S (rank k) end.
  Fixpoint ranked_st (st : suspended D R V) : Prop :=
    match st with
    | [] => True
    | (k, f, c) :: st => (forall v, ranked_job rank (S (rank k)) (f v)) /\ (forall r, ranked_thread rank (bound st) (c r)) /\ bound st <= rank k /\ ranked_st st
    end.
  Definition ranked_ph (b : nat) (ph : phase) : Prop :=
    match ph with
    | Held j | Written j => ranked_job rank b j
    | Reading f | Waiting _ f | Writing _ f => forall d, ranked_job rank b (f d)
    end.
  Definition ranked_ctl (c : ctl) : Prop :=
    match c with
    | Run t st | Dumping _ t st => ranked_thread rank (bound st) t /\ ranked_st st
    | Inside k ph c st => ranked_ph (S (rank k)) ph /\ (forall r, ranked_thread rank (bound st) (c r)) /\ bound st <= rank k /\ ranked_st st
    end.
  Lemma move_ranked : forall i L d c L' d' e c', move i L d c L' d' e c' -> ranked_ctl c -> ranked_ctl c'.
  Proof. intros i L d c L' d' e c' M. destruct M; cbn; intuition auto. Qed.
  Lemma steps_ranked : forall s s', steps s s' -> Forall ranked_ctl (threads s) -> Forall ranked_ctl (threads s').
  Proof.
    intros s s' H. induction H as [|s1 s2 s3 H IH St]; auto. intros F. specialize (IH F). destruct St as [L d ts tr i c L' d' e c' E M]. cbn in *.
    apply Forall_forall. intros x I. apply In_nth_error in I as [n I]. rewrite Forall_forall in IH.
    destruct (put_inv _ _ _ _ _ _ _ E I) as [[-> ->]|[_ P]].
    - eapply move_ranked; eauto. apply IH. eapply nth_error_In; eauto.
    - apply IH. eapply nth_error_In; eauto.
  Qed.
  Lemma bound_above : forall st k fr, ranked_st st -> In (k, fr) (map susp st) -> rank k < bound st.
  Proof.
    induction st as [|[[x f] c] st IH]; intros k fr H I; [destruct I|]. destruct H as (_ & _ & B & H). cbn.
    destruct I as [E|I]. { cbn in E. injection E as -> _. lia. } specialize (IH _ _ H I). lia.
  Qed.

  (** ** Nobody is stuck *)
  Variable d0 : nat -> D.
  Section State.
    Variables (L : nat -> lock) (d : nat -> D) (ts : list ctl) (tr : list event).
    Hypothesis O : ok d0 (Sys L d ts tr).
    Hypothesis Rk : Forall ranked_ctl ts.
    Let can := exists s', step (Sys L d ts tr) s'.
    Lemma can_move : forall i c L' d' e c', nth_error ts i = Some c -> move i L d c L' d' e c' -> can.
    Proof. intros. eexists. econstructor; eauto. Qed.
    Lemma can_drop : forall i k, In i (l_readers (L k)) -> exists l, l_drop_read i (L k) = Some l.
    Proof.
      intros i k H. unfold l_drop_read. destruct (existsb _ _) eqn:E; eauto. exfalso.
      assert (existsb (Nat.eqb i) (l_readers (L k)) = true); [|congruence]. apply existsb_exists. exists i. split; auto. apply Nat.eqb_refl.
    Qed.
    Lemma can_dumping : forall i k t st, nth_error ts i = Some (Dumping k t st) -> can.
    Proof.
      intros i k t st E. destruct (can_drop i k) as [l H]. { apply (ok_reads _ _ O _ _ _ E eq_refl). }
      eapply can_move; [exact E|]. econstructor. exact H.
    Qed.
    Lemma can_inside : forall i k ph c st, nth_error ts i = Some (Inside k ph c st) -> can.
    Proof.
      intros i k ph c st E. pose proof (ok_held _ _ O _ _ _ _ E (or_introl eq_refl)) as H. cbn [locks] in H.
      destruct ph as [j|f|g f|g f|j]; cbn in H.
      - destruct j as [r|f|f|g f|t f]; (eapply can_move; [exact E|]).
        + eapply m_release. unfold l_drop_upgradable. now rewrite H, Nat.eqb_refl.
        + apply m_peek.
        + eapply m_read. unfold l_read. now rewrite H.
        + eapply m_upgrade. unfold l_upgrade. now rewrite H, Nat.eqb_refl.
        + apply m_call.
      - destruct (can_drop i k) as [l P]. { apply (ok_reads _ _ O _ _ _ E eq_refl). } eapply can_move; [exact E|]. eapply m_read_done; eauto.
      - destruct (l_readers (L k)) as [|x rs] eqn:Q.
        + eapply can_move; [exact E|]. eapply m_upgraded. unfold l_upgraded. now rewrite H, Q, Nat.eqb_refl.
        + destruct (ok_reader _ _ O k x) as (cx & P & W). { cbn. rewrite Q. now left. }
          destruct cx as [| y [] ? ? |]; try discriminate; cbn in W; injection W as ->.
          * pose proof (ok_held _ _ O _ _ _ _ P (or_introl eq_refl)) as X. cbn in X. congruence.
          * eapply can_dumping; eauto.
      - eapply can_move; [exact E|]. apply m_write.
      - eapply can_move; [exact E|]. eapply m_downgrade. unfold l_downgrade. now rewrite H, Nat.eqb_refl.
    Qed.
    Lemma can_dump : forall i k t st, nth_error ts i = Some (Run (Dump k t) st) -> can.
    Proof.
      intros i k t st E.
      assert (Busy : forall h, owner (l_hold (L k)) = Some h -> (forall x, l_hold (L k) <> Upgradable x) -> can).
      { intros h H N. destruct (ok_holder _ _ O k h H) as (c & fr & P & I). cbn in P.
        pose proof (ok_held _ _ O _ _ _ _ P I) as Q. cbn in Q.
        assert (S : forall f, fr <> Susp f). { intros f ->. cbn in Q. apply (N _ Q). }
        assert (In (k, fr) (map susp (match c with Run _ st | Inside _ _ _ st | Dumping _ _ st => st end)) -> False) as T.
        { intros X. apply in_map_iff in X as ([[y f] z] & X & _). cbn in X. injection X as _ X. now apply (S f). }
        destruct c; try (destruct (T I)). eapply can_inside; eauto. }
      destruct (l_hold (L k)) eqn:H.
      1,2: eapply can_move; [exact E|]; eapply m_dump; unfold l_read; rewrite H; reflexivity.
      all: eapply (Busy _ eq_refl); intros x; discriminate.
    Qed.

    Definition held : list nat := flat_map (fun c => map fst (frames c)) ts.
    Definition top : nat := list_max (map rank held).
    Lemma below_top : forall k, owner (l_hold (L k)) <> None -> rank k <= top.
    Proof.
      intros k H. destruct (owner (l_hold (L k))) as [i|] eqn:E; [|congruence]. destruct (ok_holder _ _ O k i E) as (c & fr & P & I).
      assert (J : In (rank k) (map rank held)).
      { apply in_map. apply in_flat_map. exists c. split; [eapply nth_error_In; eauto|]. change k with (fst (k, fr)). now apply in_map. }
      pose proof (proj1 (list_max_le (map rank held) top) (le_n _)) as F. rewrite Forall_forall in F. auto.
    Qed.
    Lemma can_predict : forall n i k j c st, nth_error ts i = Some (Run (Predict k j c) st) -> top < rank k + n -> can.
    Proof.
      induction n as [|n IH]; intros i k j c st E B.
      - destruct (l_hold (L k)) eqn:H.
        { eapply can_move; [exact E|]. eapply m_acquire. unfold l_upgradable_read. now rewrite H. }
        all: exfalso; assert (rank k <= top) by (apply below_top; rewrite H; discriminate); lia.
      - destruct (owner (l_hold (L k))) as [h|] eqn:H.
        2: { destruct (l_hold (L k)) eqn:X; try discriminate. eapply can_move; [exact E|]. eapply m_acquire. unfold l_upgradable_read. now rewrite X. }
        destruct (ok_holder _ _ O k h H) as (x & fr & P & I). cbn in P.
        assert (Rx : ranked_ctl x). { rewrite Forall_forall in Rk. apply Rk. eapply nth_error_In; eauto. }
        destruct x as [[v|k' j' c'|k' t'] st'|k' ph' c' st'|k' t' st'].
        + destruct st' as [|[[y f] z] st']; [destruct I|]. eapply can_move; [exact P|]. apply m_return.
        + cbn in Rx. destruct Rx as ((B1 & _) & B2). pose proof (bound_above _ _ _ B2 I). apply (IH _ _ _ _ _ P). lia.
        + eapply can_dump; eauto.
        + eapply can_inside; eauto.
        + eapply can_dumping; eauto.
    Qed.
    Lemma never_stuck : finished (Sys L d ts tr) \/ can.
    Proof.
      assert (H : forall l, incl l ts -> (forall c, In c l -> exists v, c = Run (Stop v) []) \/ can).
      { induction l as [|c l IH]; intros Si. { left. intros c []. }
        destruct IH as [F|F]; auto. { intros x X. apply Si. now right. }
        destruct (In_nth_error _ _ (Si c (or_introl eq_refl))) as [i E].
        destruct c as [[v|k j c|k t] st|k ph c st|k t st].
        - destruct st as [|[[y f] z] st]. { left. intros x [<-|X]; eauto. } right. eapply can_move; [exact E|]. apply m_return.
        - right. apply (can_predict (S top) _ _ _ _ _ E). lia.
        - right. eapply can_dump; eauto.
        - right. eapply can_inside; eauto.
        - right. eapply can_dumping; eauto. }
      destruct (H ts (incl_refl _)); auto.
    Qed.
  End State.

  (** ** Runs end *)
  Definition goes (c' c : ctl) : Prop := exists i L d L' d' e, move i L d c L' d' e c'.
  Scheme job_both := Induction for ConcModel.job Sort Prop with thread_both := Induction for ConcModel.thread Sort Prop.
  Combined Scheme both from job_both, thread_both.
  Ltac one := constructor; intros ? (? & ? & ? & ? & ? & ? & M); inversion M; subst; clear M.
  Lemma ends : (forall (j : job) k c st, (forall r, Acc goes (Run (c r) st)) -> Acc goes (Inside k (Held j) c st)) /\
    (forall (t : thread) st, (forall v, Acc goes (Run (Stop v) st)) -> Acc goes (Run t st)).
  Proof.
    apply (both D R V (fun j => forall k c st, (forall r, Acc goes (Run (c r) st)) -> Acc goes (Inside k (Held j) c st))
      (fun t => forall st, (forall v, Acc goes (Run (Stop v) st)) -> Acc goes (Run t st))).
    - intros r k c st H. one. apply H.
    - intros f IH k c st H. one. apply IH, H.
    - intros f IH k c st H. one. one. apply IH, H.
    - intros g f IH k c st H. do 4 one. apply IH, H.
    - intros t IHt f IH k c st H. one. apply IHt. intros v. one. apply IH, H.
    - intros v st H. apply H.
    - intros k j IHj c IHc st H. one. apply IHj. intros r. apply IHc, H.
    - intros k t IH st H. do 2 one. apply IH, H.
  Qed.
  Lemma ends_stop : forall st v, Acc goes (Run (Stop v) st).
  Proof. induction st as [|[[k f] c] st IH]; intros v; one. apply (proj1 ends). intros r. apply (proj2 ends), IH. Qed.
  Lemma ends_all : forall c, Acc goes c.
  Proof.
    intros [t st|k ph c st|k t st].
    - apply (proj2 ends), ends_stop.
    - assert (H : forall r, Acc goes (Run (c r) st)) by (intros r; apply (proj2 ends), ends_stop).
      destruct ph; repeat (solve [apply (proj1 ends); exact H] || one).
    - one. apply (proj2 ends), ends_stop.
  Qed.
  Definition goes_one (ts' ts : list ctl) : Prop := exists i c c', nth_error ts i = Some c /\ goes c' c /\ ts' = put ts i c'.
  Lemma ends_list : forall ts, Acc goes_one ts.
  Proof.
    induction ts as [|c ts IH]. { constructor. intros ? ([] & ? & ? & H & _); discriminate. }
    revert ts IH. induction (ends_all c) as [c _ IHc]. intros ts IHts. induction IHts as [ts H IHts].
    constructor. intros ts' ([|i] & x & x' & E & G & ->); cbn in *.
    - injection E as <-. apply IHc; auto. constructor. exact H.
    - apply IHts. exists i, x, x'. auto.
  Qed.
  Lemma runs_end : forall s : sys, Acc (fun s' s => step s s') s.
  Proof.
    intros [L d ts tr]. revert L d tr. induction (ends_list ts) as [ts _ IH]. intros L d tr. constructor. intros s' St. inversion St; subst.
    apply IH. exists i, c, c'. repeat split; auto. repeat eexists. eassumption.
  Qed.
End Live.
