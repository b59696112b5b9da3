(** Proofs about threads that share DFAs: user code that comes back to the same DFA. *)
From Coq Require Import List Arith Bool Lia.
From Verif Require Import ConcModel ConcSpec ConcProofs ConcLiveProofs.
Import ListNotations.

Section Reentry.
  Context {D R V : Type}.
  Notation job := (job D R V). Notation thread := (thread D R V). Notation event := (event D R V).
  Notation ctl := (ctl D R V). Notation phase := (phase D R V). Notation sys := (sys D R V).

  (** ** The step of a thread, as a function *)
  Definition next (i : nat) (L : nat -> lock) (d : nat -> D) (c : ctl) : option ((nat -> lock) * (nat -> D) * list event * ctl) :=
    let with_lock k (o : option lock) e c' := match o with Some l => Some (upd L k l, d, e, c') | None => None end in
    match c with
    | Run (Stop v) [] => None
    | Run (Stop v) ((k, f, c) :: st) => Some (L, d, [], Inside k (Held (f v)) c st)
    | Run (Predict k j c) st => with_lock k (l_upgradable_read i (L k)) [Began i k j] (Inside k (Held j) c st)
    | Run (Dump k t) st => with_lock k (l_read i (L k)) [] (Dumping k t st)
    | Dumping k t st => with_lock k (l_drop_read i (L k)) [] (Run t st)
    | Inside k (Held (Answer r)) c st => with_lock k (l_drop_upgradable i (L k)) [Ended i k r] (Run (c r) st)
    | Inside k (Held (Peek f)) c st => Some (L, d, [], Inside k (Held (f (d k))) c st)
    | Inside k (Held (Shared f)) c st => with_lock k (l_read i (L k)) [] (Inside k (Reading f) c st)
    | Inside k (Held (Grow g f)) c st => with_lock k (l_upgrade i (L k)) [] (Inside k (Waiting g f) c st)
    | Inside k (Held (Callback t f)) c st => Some (L, d, [], Run t ((k, f, c) :: st))
    | Inside k (Reading f) c st => with_lock k (l_drop_read i (L k)) [] (Inside k (Held (f (d k))) c st)
    | Inside k (Waiting g f) c st => with_lock k (l_upgraded i (L k)) [] (Inside k (Writing g f) c st)
    | Inside k (Writing g f) c st => Some (L, upd d k (g (d k)), [], Inside k (Written (f (d k))) c st)
    | Inside k (Written j) c st => with_lock k (l_downgrade i (L k)) [] (Inside k (Held j) c st)
    end.
  Lemma next_move : forall i L d c L' d' e c', next i L d c = Some (L', d', e, c') <-> move i L d c L' d' e c'.
  Proof.
    intros. split.
    - destruct c as [[v|k j c|k t] st|k [[r|f|f|g f|t f]|f|g f|g f|j] c st|k t st]; cbn; intros H.
      { destruct st as [|[[k f] c] st]; inversion H; subst. apply m_return. }
      all: try (match goal with H : match ?o with Some _ => _ | None => _ end = _ |- _ => destruct o eqn:E; inversion H; subst end; econstructor; eassumption).
      all: inversion H; subst; constructor.
    - intros H. destruct H; cbn; try reflexivity.
      all: match goal with E : _ = Some _ |- _ => rewrite E end; reflexivity.
  Qed.
  (** whether any of the threads can go on *)
  Lemma step_or_not : forall s : sys, (exists s', step s s') \/ (forall s', ~ step s s').
  Proof.
    intros [L d ts tr].
    assert (X : forall l, (exists i c x, i < l /\ nth_error ts i = Some c /\ next i L d c = Some x) \/
      (forall i c, i < l -> nth_error ts i = Some c -> next i L d c = None)).
    { induction l as [|l IH]. { right. lia. } destruct IH as [(i & c & x & A & B & C)|N].
      - left. exists i, c, x. auto.
      - destruct (nth_error ts l) as [c|] eqn:E; [destruct (next l L d c) as [x|] eqn:F|].
        + left. exists l, c, x. auto.
        + right. intros i c' A B. destruct (Nat.eq_dec i l) as [->|]; [congruence|]. apply (N i); auto. lia.
        + right. intros i c' A B. destruct (Nat.eq_dec i l) as [->|]; [congruence|]. apply (N i); auto. lia. }
    destruct (X (length ts)) as [(i & c & [[[L' d'] e] c'] & A & B & C)|N].
    - left. eexists. econstructor; [exact B|]. apply next_move. exact C.
    - right. intros s' St. inversion St as [A B C E i c L' d' e c' Q M]; subst. apply next_move in M. rewrite (N i c) in M; auto; [discriminate|]. apply nth_error_Some. congruence.
  Qed.
  Lemma steps_trans : forall a b c : sys, steps a b -> steps b c -> steps a c.
  Proof. intros a b c H K. induction K as [|s1 s2 s3 K IH St]; auto. exact (steps_more _ _ _ _ _ _ (IH H) St). Qed.
  Lemma comes_to_rest : forall s : sys, exists s', steps s s' /\ forall s'', ~ step s' s''.
  Proof.
    intros s. induction (runs_end s) as [s _ IH]. destruct (step_or_not s) as [[s' St]|N].
    - destruct (IH s' St) as (s'' & A & B). exists s''. split; auto. eapply steps_trans; [|exact A]. econstructor; [constructor|exact St].
    - exists s. split; auto. constructor.
  Qed.

  (** ** Coming back to the same DFA *)
  Variable d0 : nat -> D.
  Variables (ts : list thread) (i k : nat) (j : job) (c : R -> thread).
  Hypothesis here : nth_error ts i = Some (Predict k j c).
  Variable P : nat -> job -> Prop.
  Hypothesis others : forall x t, nth_error ts x = Some t -> x <> i -> uses P t.
  Variable X : D -> Prop.
  Hypothesis new : X (d0 k).
  Hypothesis kept : forall j' d d' r, P k j' -> alone j' d d' r -> X d -> X d'.
  Hypothesis reenters : forall d, X d -> exists j' c', first_call j d = Some (Predict k j' c').

  Definition comes_back (d : D) (ph : phase) : Prop := exists j' c',
    match ph with
    | Held j | Written j => first_call j d
    | Reading f => first_call (f d) d
    | Waiting g f | Writing g f => first_call (f d) (g d)
    end = Some (Predict k j' c').
  Definition before (s : sys) : Prop := nth_error (threads s) i = Some (Run (Predict k j c) []) /\
    (forall x y, nth_error (threads s) x = Some y -> x <> i -> ctl_uses P y) /\ Forall (began_ok P) (trace s).
  Definition during (s : sys) : Prop := exists ph, nth_error (threads s) i = Some (Inside k ph c []) /\ comes_back (dfas s k) ph.
  Definition after (s : sys) : Prop := exists j' c' f, nth_error (threads s) i = Some (Run (Predict k j' c') [(k, f, c)]).

  Lemma X_serial : forall es d d', one_by_one k d es d' -> Forall (began_ok P) es -> X d -> X d'.
  Proof.
    intros es d d' W. induction W as [|d es d1 x y d2 r W IH A]; intros F Y; auto. apply Forall_app in F as [F1 F2]. apply Forall_inv in F2. cbn in F2.
    eapply kept; eauto.
  Qed.
  (** others leave the DFA alone while one has it *)
  Lemma others_leave : forall L d (l : list ctl) tr x y L' d' e y', ok d0 (Sys L d l tr) -> nth_error l x = Some y -> move x L d y L' d' e y' ->
    owner (l_hold (L k)) = Some i -> x <> i -> d' k = d k.
  Proof.
    intros L d l tr x y L' d' e y' O E M Ow N. destruct M; auto. destruct (Nat.eq_dec k k0) as [->|]; [|now rewrite upd_ne].
    pose proof (ok_held _ _ O _ _ _ _ E (or_introl eq_refl)) as Q. cbn in Q. rewrite Q in Ow. cbn in Ow. congruence.
  Qed.
  Lemma stuck_inv : forall s s', ok d0 s -> step s s' -> before s \/ during s \/ after s -> before s' \/ during s' \/ after s'.
  Proof.
    intros s s' O St I. destruct St as [L d l tr x y L' d' e y' E M]. destruct (Nat.eq_dec x i) as [->|N].
    - destruct I as [(H & Us & F)|[(ph & H & Cb)|(j' & c' & f & H)]]; cbn in H; assert (Ey := eq_trans (eq_sym E) H); injection Ey as ->.
      + right; left. inversion M; subst. exists (Held j). split; [apply (put_eq _ _ _ _ _ E)|]. cbn.
        assert (Xd : X (d' k)).
        { apply (X_serial (on k tr) (d0 k)); auto. 2: { apply Forall_forall. intros z Iz. apply filter_In in Iz as [Iz _]. rewrite Forall_forall in F. now apply F. }
          apply (ok_free _ _ O k). cbn. match goal with Q : l_upgradable_read _ _ = _ |- _ => unfold l_upgradable_read in Q; destruct (l_hold (L k)); try discriminate end. reflexivity. }
        apply (reenters _ Xd).
      + right. cbn in Cb. inversion M; subst; destruct Cb as (j' & c' & Cb); cbn in Cb.
        all: try (left; eexists; split; [apply (put_eq _ _ _ _ _ E)|]; exists j', c'; cbn; rewrite ?upd_eq; exact Cb).
        * right. injection Cb as ->. exists j', c', f. apply (put_eq _ _ _ _ _ E).
        * discriminate.
      + exfalso. pose proof (ok_held _ _ O _ _ k (Susp f) E (or_introl eq_refl)) as Q. cbn in Q. inversion M; subst.
        match goal with Q : l_upgradable_read _ _ = _ |- _ => unfold l_upgradable_read in Q end. rewrite Q in *. discriminate.
    - assert (Same : nth_error (put l x y') i = nth_error l i) by (apply put_ne; auto).
      destruct I as [(H & Us & F)|[(ph & H & Cb)|(j' & c' & f & H)]]; cbn in *.
      + left. destruct (move_uses d0 P _ _ _ _ _ _ _ _ M (Us _ _ E N)) as [Uy Ue]. split; [|split]; cbn.
        * now rewrite Same.
        * intros z w Q Nz. destruct (put_inv _ _ _ _ _ _ _ E Q) as [[-> ->]|[_ W]]; auto. eapply Us; eauto.
        * apply Forall_app. auto.
      + right; left. exists ph. cbn. rewrite Same. split; auto. rewrite (others_leave _ _ _ _ _ _ _ _ _ _ O E M); auto.
        pose proof (ok_held _ _ O _ _ _ _ H (or_introl eq_refl)) as Q. cbn in Q. rewrite Q. destruct ph; reflexivity.
      + right; right. exists j', c', f. cbn. now rewrite Same.
  Qed.
  Lemma never_returns : forall s, steps (start d0 ts) s -> forall v, nth_error (threads s) i <> Some (Run (Stop v) []).
  Proof.
    intros s H v. assert (I : ok d0 s /\ (before s \/ during s \/ after s)).
    { remember (start d0 ts) as s0 eqn:E0. induction H as [s|s1 s2 s3 H IH St]; subst.
      - split; [apply ok_start|]. left. split; [|split]; cbn.
        + rewrite nth_error_map, here. reflexivity.
        + intros x y Q N. rewrite nth_error_map in Q. destruct (nth_error ts x) eqn:E; inversion Q; subst. cbn. split; auto. eapply others; eauto.
        + constructor.
      - destruct (IH eq_refl) as [O J]. split; [|eapply stuck_inv; eauto]. eapply steps_ok; [|apply (ok_start d0 ts)]. econstructor; eauto. }
    destruct I as [_ [(Q & _)|[(ph & Q & _)|(j' & c' & f & Q)]]]; rewrite Q; discriminate.
  Qed.
  Lemma never_finishes : forall s, steps (start d0 ts) s -> ~ finished s.
  Proof.
    intros s H F. assert (N : nth_error (threads s) i <> None).
    { assert (E : length (threads s) = length ts).
      { remember (start d0 ts) as s0 eqn:E0. clear F. induction H as [s|s1 s2 s3 H IH St]; subst; [apply map_length|]. rewrite <- (IH eq_refl). destruct St. cbn.
        clear. revert i0. induction ts0; intros [|n]; cbn; auto. }
      apply nth_error_Some. rewrite E. apply nth_error_Some. congruence. }
    destruct (nth_error (threads s) i) as [y|] eqn:E; [|congruence]. destruct (F y) as [v ->]; [eapply nth_error_In; eauto|]. apply (never_returns s H v E).
  Qed.
  Lemma always_deadlocks : forall s, steps (start d0 ts) s -> exists s', steps s s' /\ deadlock s'.
  Proof.
    intros s H. destruct (comes_to_rest s) as (s' & A & B). exists s'. split; auto. split; auto. apply never_finishes. eapply steps_trans; eauto.
  Qed.
End Reentry.
