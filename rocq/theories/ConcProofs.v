(** Proofs about threads that share DFAs. *)
From Coq Require Import List Arith Bool Lia.
From Verif Require Import ConcModel ConcSpec.
Import ListNotations.

Lemma upd_eq : forall A (f : nat -> A) k x, upd f k x k = x.
Proof. intros. unfold upd. now rewrite Nat.eqb_refl. Qed.
Lemma upd_ne : forall A (f : nat -> A) k x n, n <> k -> upd f k x n = f n.
Proof. intros. unfold upd. now rewrite (proj2 (Nat.eqb_neq _ _) H). Qed.
Lemma put_eq : forall A (l : list A) i c x, nth_error l i = Some c -> nth_error (put l i x) i = Some x.
Proof. induction l; intros [|i] c x H; cbn in *; try discriminate; eauto. Qed.
Lemma put_ne : forall A (l : list A) i j x, i <> j -> nth_error (put l i x) j = nth_error l j.
Proof. induction l; intros [|i] [|j] x H; cbn; auto; try lia. Qed.
Lemma put_inv : forall A (l : list A) i c x j y, nth_error l i = Some c -> nth_error (put l i x) j = Some y ->
  j = i /\ y = x \/ j <> i /\ nth_error l j = Some y.
Proof.
  intros A l i c x j y H P. destruct (Nat.eq_dec i j) as [->|N].
  - rewrite (put_eq _ _ _ _ _ H) in P. injection P as <-. auto.
  - rewrite put_ne in P by auto. auto.
Qed.

Section Conc.
  Context {D R V : Type}.
  Notation job := (job D R V). Notation thread := (thread D R V). Notation event := (event D R V).
  Notation ctl := (ctl D R V). Notation phase := (phase D R V). Notation sys := (sys D R V).

  (** ** What a thread holds *)
  Inductive frame : Type := Top (ph : phase) | Susp (f : V -> job).
  Definition susp (x : nat * (V -> job) * (R -> thread)) : nat * frame := (fst (fst x), Susp (snd (fst x))).
  Definition frames (c : ctl) : list (nat * frame) :=
    match c with
    | Run _ st | Dumping _ _ st => map susp st
    | Inside k ph _ st => (k, Top ph) :: map susp st
    end.
  Definition hold_of (i : nat) (fr : frame) : hold :=
    match fr with
    | Top (Held _) | Top (Reading _) | Susp _ => Upgradable i
    | Top (Waiting _ _) => Upgrading i
    | Top (Writing _ _) | Top (Written _) => Writer i
    end.
  Definition owner (h : hold) : option nat :=
    match h with Free => None | Upgradable i | Upgrading i | Writer i => Some i end.
  Definition reads (c : ctl) : option nat :=
    match c with Inside k (Reading _) _ _ | Dumping k _ _ => Some k | _ => None end.
  Definition rest (fr : frame) (d d' : D) (r : R) : Prop :=
    match fr with
    | Top (Held j) | Top (Written j) => alone j d d' r
    | Top (Reading f) => alone (f d) d d' r
    | Top (Waiting g f) | Top (Writing g f) => alone (f d) (g d) d' r
    | Susp f => exists v, alone (f v) d d' r
    end.
  Arguments on {_ _ _} : simpl never.

  Variable d0 : nat -> D.
  Record ok (s : sys) : Prop := Ok {
    ok_held : forall i c k fr, nth_error (threads s) i = Some c -> In (k, fr) (frames c) -> l_hold (locks s k) = hold_of i fr;
    ok_holder : forall k i, owner (l_hold (locks s k)) = Some i -> exists c fr, nth_error (threads s) i = Some c /\ In (k, fr) (frames c);
    ok_once : forall i c, nth_error (threads s) i = Some c -> NoDup (map fst (frames c));
    ok_reads : forall i c k, nth_error (threads s) i = Some c -> reads c = Some k -> In i (l_readers (locks s k));
    ok_reader : forall k i, In i (l_readers (locks s k)) -> exists c, nth_error (threads s) i = Some c /\ reads c = Some k;
    ok_readers : forall k, NoDup (l_readers (locks s k));
    ok_free : forall k, owner (l_hold (locks s k)) = None -> one_by_one k (d0 k) (on k (trace s)) (dfas s k);
    ok_busy : forall i c k fr, nth_error (threads s) i = Some c -> In (k, fr) (frames c) ->
      exists tr d1 j, on k (trace s) = tr ++ [Began i k j] /\ one_by_one k (d0 k) tr d1 /\
        (forall d' r, rest fr (dfas s k) d' r -> alone j d1 d' r) }.

  Lemma ok_start : forall ts, ok (start d0 ts).
  Proof.
    intros ts. assert (F : forall i c, nth_error (map (fun t : thread => Run t []) ts) i = Some c -> frames c = [] /\ reads c = None).
    { intros i c H. rewrite nth_error_map in H. destruct (nth_error ts i); inversion H; subst; cbn; auto. }
    constructor; cbn; try discriminate; try contradiction.
    - intros i c k fr H P. destruct (F _ _ H) as [E _]. rewrite E in P. contradiction.
    - intros i c H. destruct (F _ _ H) as [E _]. rewrite E. constructor.
    - intros i c k H P. destruct (F _ _ H) as [_ E]. congruence.
    - intros; constructor.
    - intros; constructor.
    - intros i c k fr H P. destruct (F _ _ H) as [E _]. rewrite E in P. contradiction.
  Qed.

  Notation drop i := (fix drop r := match r with [] => [] | x :: r => if i =? x then r else x :: drop r end).
  Lemma drop_in : forall i l x, NoDup l -> In x (drop i l) <-> x <> i /\ In x l.
  Proof.
    intros i l x. induction l as [|a l IH]; intros N; cbn. { tauto. }
    inversion N as [|? ? P Q]; subst. destruct (Nat.eqb_spec i a) as [->|E].
    - split; [intros H|intros [H [|]]]; auto. { split; auto. intros ->. auto. } congruence.
    - cbn. rewrite IH by auto. split; [intros [->|[]]|intros (? & [|])]; auto.
  Qed.
  Lemma drop_nodup : forall i l, NoDup l -> NoDup (drop i l).
  Proof.
    intros i l. induction l as [|a l IH]; intros N; cbn; auto. inversion N as [|? ? P Q]; subst.
    destruct (i =? a); auto. constructor; auto. rewrite drop_in by auto. tauto.
  Qed.
  Lemma on_app : forall k (a b : list event), on k (a ++ b) = on k a ++ on k b.
  Proof. intros. apply filter_app. Qed.

  (** A step of thread [i] at the lock [k], described by what it does to what the
      thread holds. *)
  Lemma step_ok : forall L d ts tr i c c' k l dk e,
    ok (Sys L d ts tr) -> nth_error ts i = Some c ->
    (* other DFAs: what the thread holds stays *)
    (forall n fr, n <> k -> In (n, fr) (frames c') <-> In (n, fr) (frames c)) ->
    NoDup (map fst (frames c')) ->
    (* this one *)
    (forall fr, In (k, fr) (frames c') -> l_hold l = hold_of i fr) ->
    (forall x, owner (l_hold l) = Some x -> x = i -> exists fr, In (k, fr) (frames c')) ->
    (forall x, owner (l_hold l) = Some x -> x <> i -> l_hold l = l_hold (L k)) ->
    (forall x, owner (l_hold (L k)) = Some x -> x <> i -> l_hold l = l_hold (L k)) ->
    (forall n, n <> k -> reads c' = Some n <-> reads c = Some n) ->
    (forall x, x <> i -> In x (l_readers l) <-> In x (l_readers (L k))) ->
    (In i (l_readers l) <-> reads c' = Some k) ->
    NoDup (l_readers l) ->
    (forall n, n <> k -> on n e = []) ->
    (forall x, owner (l_hold (L k)) = Some x -> x <> i -> dk = d k /\ on k e = []) ->
    (owner (l_hold l) = None -> one_by_one k (d0 k) (on k tr ++ on k e) dk) ->
    (forall fr, In (k, fr) (frames c') -> exists t d1 j, on k tr ++ on k e = t ++ [Began i k j] /\ one_by_one k (d0 k) t d1 /\
        (forall d' r, rest fr dk d' r -> alone j d1 d' r)) ->
    ok (Sys (upd L k l) (upd d k dk) (put ts i c') (tr ++ e)).
  Proof.
    intros L d ts tr i c c' k l dk e O E Fo Nd Fk Ok1 Ok2 Ok3 Ro Rk Ri Rn Eo Ek Free Busy.
    constructor; cbn.
    - intros x cx n fr H I. destruct (put_inv _ _ _ _ _ _ _ E H) as [[-> ->]|[N P]]; destruct (Nat.eq_dec n k) as [->|M].
      + rewrite upd_eq. auto.
      + rewrite upd_ne by auto. apply (Fo n fr M) in I. apply (ok_held _ O _ _ _ _ E I).
      + rewrite upd_eq. pose proof (ok_held _ O _ _ _ _ P I) as Q. cbn in Q. rewrite (Ok3 x); auto. rewrite Q. destruct fr as [[]|]; reflexivity.
      + rewrite upd_ne by auto. apply (ok_held _ O _ _ _ _ P I).
    - intros n x H. destruct (Nat.eq_dec n k) as [->|M].
      + rewrite upd_eq in H. destruct (Nat.eq_dec x i) as [->|N].
        * destruct (Ok1 _ H eq_refl) as (fr & I). exists c', fr. split; auto. eapply put_eq; eauto.
        * rewrite (Ok2 _ H N) in H. destruct (ok_holder _ O k x H) as (cx & fr & P & I). exists cx, fr. split; auto.
          cbn in P. rewrite put_ne; auto.
      + rewrite upd_ne in H by auto. destruct (ok_holder _ O n x H) as (cx & fr & P & I). cbn in P. destruct (Nat.eq_dec x i) as [->|N].
        * assert (cx = c) as -> by congruence. exists c', fr. split; [eapply put_eq; eauto|]. apply Fo; auto.
        * exists cx, fr. split; auto. rewrite put_ne; auto.
    - intros x cx H. destruct (put_inv _ _ _ _ _ _ _ E H) as [[-> ->]|[N P]]; auto. apply (ok_once _ O _ _ P).
    - intros x cx n H I. destruct (put_inv _ _ _ _ _ _ _ E H) as [[-> ->]|[N P]]; destruct (Nat.eq_dec n k) as [->|M].
      + rewrite upd_eq. tauto.
      + rewrite upd_ne by auto. apply (Ro n M) in I. apply (ok_reads _ O _ _ _ E I).
      + rewrite upd_eq. apply Rk; auto. apply (ok_reads _ O _ _ _ P I).
      + rewrite upd_ne by auto. apply (ok_reads _ O _ _ _ P I).
    - intros n x H. destruct (Nat.eq_dec n k) as [->|M].
      + rewrite upd_eq in H. destruct (Nat.eq_dec x i) as [->|N].
        * exists c'. split; [eapply put_eq; eauto|tauto].
        * apply Rk in H; auto. destruct (ok_reader _ O k x H) as (cx & P & Q). exists cx. split; auto. rewrite put_ne; auto.
      + rewrite upd_ne in H by auto. destruct (ok_reader _ O n x H) as (cx & P & Q). cbn in P. destruct (Nat.eq_dec x i) as [->|N].
        * assert (cx = c) as -> by congruence. exists c'. split; [eapply put_eq; eauto|]. apply Ro; auto.
        * exists cx. split; auto. rewrite put_ne; auto.
    - intros n. destruct (Nat.eq_dec n k) as [->|M]. { now rewrite upd_eq. } rewrite upd_ne by auto. apply (ok_readers _ O n).
    - intros n H. rewrite on_app. destruct (Nat.eq_dec n k) as [->|M].
      + rewrite upd_eq in *. auto.
      + rewrite upd_ne in * by auto. rewrite Eo, app_nil_r by auto. apply (ok_free _ O n H).
    - intros x cx n fr H I. rewrite on_app. destruct (put_inv _ _ _ _ _ _ _ E H) as [[-> ->]|[N P]]; destruct (Nat.eq_dec n k) as [->|M].
      + rewrite upd_eq. auto.
      + rewrite upd_ne by auto. rewrite Eo, app_nil_r by auto. apply (Fo n fr M) in I. apply (ok_busy _ O _ _ _ _ E I).
      + rewrite upd_eq. pose proof (ok_held _ O _ _ _ _ P I) as Q. cbn in Q. destruct (Ek x) as [-> ->]; auto.
        { rewrite Q. destruct fr as [[]|]; reflexivity. }
        rewrite app_nil_r. apply (ok_busy _ O _ _ _ _ P I).
      + rewrite upd_ne by auto. rewrite Eo, app_nil_r by auto. apply (ok_busy _ O _ _ _ _ P I).
  Qed.

  Lemma ok_ext : forall L L' d d' ts tr, (forall n, L' n = L n) -> (forall n, d' n = d n) -> ok (Sys L d ts tr) -> ok (Sys L' d' ts tr).
  Proof.
    intros L L' d d' ts tr EL Ed O. constructor; cbn; intros *.
    - rewrite EL. apply (ok_held _ O).
    - rewrite EL. apply (ok_holder _ O).
    - apply (ok_once _ O).
    - rewrite EL. apply (ok_reads _ O).
    - rewrite EL. apply (ok_reader _ O).
    - rewrite EL. apply (ok_readers _ O).
    - rewrite EL, Ed. apply (ok_free _ O).
    - rewrite Ed. apply (ok_busy _ O).
  Qed.
  Lemma upd_same : forall A (f : nat -> A) k n, upd f k (f k) n = f n.
  Proof. intros. unfold upd. destruct (Nat.eqb_spec n k); congruence. Qed.

  (** a step inside a prediction *)
  Lemma inside_ok : forall L L' d d' ts tr i c c' st k ph ph' l dk (e : list event),
    ok (Sys L d ts tr) -> nth_error ts i = Some (Inside k ph c st) ->
    frames c' = (k, ph') :: map susp st ->
    (forall n, L' n = upd L k l n) -> (forall n, d' n = upd d k dk n) -> e = [] ->
    l_hold l = hold_of i ph' ->
    (forall n, n <> k -> reads c' = Some n <-> reads (Inside k ph c st) = Some n) ->
    (forall x, x <> i -> In x (l_readers l) <-> In x (l_readers (L k))) ->
    (In i (l_readers l) <-> reads c' = Some k) -> NoDup (l_readers l) ->
    (forall d' r, rest ph' dk d' r -> rest (Top ph) (d k) d' r) ->
    ok (Sys L' d' (put ts i c') (tr ++ e)).
  Proof.
    intros L L' d d' ts tr i c c' st k ph ph' l dk e O E F EL Ed -> H R1 R2 R3 R4 Rest.
    pose proof (ok_once _ O _ _ E) as N. cbn in N. inversion N as [|? ? Nk Ns]; subst.
    assert (U : forall fr, In (k, fr) ((k, ph') :: map susp st) -> fr = ph').
    { intros fr [X|X]. { now injection X as <-. } exfalso. apply Nk. apply in_map_iff. eexists (k, fr). auto. }
    assert (I : In (k, Top ph) (frames (Inside k ph c st))) by now left.
    pose proof (ok_held _ O _ _ _ _ E I) as Hold. cbn [locks] in Hold.
    assert (Hi : owner (l_hold l) = Some i) by (rewrite H; destruct ph' as [[]|]; reflexivity).
    assert (Hi' : owner (l_hold (L k)) = Some i) by (rewrite Hold; destruct ph; reflexivity).
    eapply ok_ext; [exact EL|exact Ed|]. apply (step_ok L d ts tr i (Inside k ph c st)); auto; try rewrite F.
    - intros n fr M. cbn. split; (intros [X|X]; [congruence|auto]).
    - exact N.
    - intros fr J. now rewrite (U _ J).
    - intros. eexists. left. reflexivity.
    - intros x X. rewrite Hi in X. congruence.
    - intros x X. rewrite Hi' in X. congruence.
    - intros x X. rewrite Hi' in X. congruence.
    - rewrite Hi. discriminate.
    - intros fr J. rewrite (U _ J). destruct (ok_busy _ O _ _ _ _ E I) as (t & d1 & j & P & Q & S). exists t, d1, j. cbn in *.
      rewrite app_nil_r. split; [exact P|split; [exact Q|]]. intros d2 r X. apply S, Rest, X.
  Qed.

  Lemma move_ok : forall L d ts tr i c L' d' e c', ok (Sys L d ts tr) -> nth_error ts i = Some c -> move i L d c L' d' e c' ->
    ok (Sys L' d' (put ts i c') (tr ++ e)).
  Proof.
    intros L d ts tr i c L' d' e c' O E M.
    assert (Rd : forall k, In i (l_readers (L k)) -> reads c = Some k).
    { intros k H. destruct (ok_reader _ O k i H) as (x & P & Q). cbn in P. congruence. }
    assert (Rn : forall k, NoDup (l_readers (L k))) by apply (ok_readers _ O).
    destruct M.
    - (* m_acquire *)
      unfold l_upgradable_read in H. destruct (l_hold (L k)) eqn:Hd; try discriminate. injection H as <-.
      assert (NF : forall fr, ~ In (k, fr) (map susp st)).
      { intros fr I. pose proof (ok_held _ O _ _ _ _ E I) as X. cbn in X. rewrite Hd in X. destruct fr as [[]|]; discriminate. }
      eapply ok_ext; [reflexivity|intros n; symmetry; apply (upd_same _ d k)|].
      apply (step_ok L d ts tr i (Run (Predict k j c) st)); auto.
      + intros n fr Q. cbn. split; auto. intros [X|X]; auto. congruence.
      + cbn. constructor; [|apply (ok_once _ O _ _ E)]. rewrite in_map_iff. intros ([x fr] & <- & I). apply (NF _ I).
      + intros fr [X|X]; [injection X as <-; reflexivity|]. destruct (NF _ X).
      + intros. eexists. left. reflexivity.
      + cbn. intros x X Y. congruence.
      + rewrite Hd. discriminate.
      + intros n _. cbn. split; discriminate.
      + intros x _. cbn. tauto.
      + cbn. split; [|discriminate]. intros X. apply Rd in X. discriminate.
      + apply Rn.
      + intros n Q. unfold on. cbn. now rewrite (proj2 (Nat.eqb_neq k n)) by auto.
      + rewrite Hd. discriminate.
      + cbn. discriminate.
      + intros fr [X|X]; [|destruct (NF _ X)]. injection X as <-. exists (on k tr), (d k), j. split; [|split].
        * unfold on at 2. cbn. now rewrite Nat.eqb_refl.
        * apply (ok_free _ O k). cbn. now rewrite Hd.
        * cbn. auto.
    - (* m_peek *)
      eapply (inside_ok L L d d) with (l := L k) (dk := d k); [exact O|exact E|reflexivity|try (intros; rewrite upd_same; reflexivity)..]; try reflexivity; auto; try tauto.
      + apply (ok_held _ O _ _ k (Top (Held (Peek f))) E (or_introl eq_refl)).
      + cbn. split; [|discriminate]. intros X. apply Rd in X. discriminate X.
      + cbn. intros. now constructor.
    - (* m_read *)
      unfold l_read in H. pose proof (ok_held _ O _ _ k (Top (Held (Shared f))) E (or_introl eq_refl)) as Hd. cbn in Hd. rewrite Hd in H.
      injection H as <-.
      assert (Ni : ~ In i (l_readers (L k))). { intros X. apply Rd in X. discriminate X. }
      eapply (inside_ok L) with (dk := d k); [exact O|exact E|reflexivity|try (intros; rewrite upd_same; reflexivity)..]; try reflexivity; auto.
      + intros n X. cbn. split; congruence.
      + intros x X. cbn. split; auto. intros [|]; auto. congruence.
      + cbn. tauto.
      + cbn. constructor; auto.
      + cbn. intros. now constructor.
    - (* m_read_done *)
      unfold l_drop_read in H. destruct (existsb _ _); [|discriminate]. injection H as <-.
      eapply (inside_ok L) with (dk := d k); [exact O|exact E|reflexivity|try (intros; rewrite upd_same; reflexivity)..]; try reflexivity; auto.
      + apply (ok_held _ O _ _ k (Top (Reading f)) E (or_introl eq_refl)).
      + intros n X. cbn. split; congruence.
      + intros x X. cbn [l_readers]. rewrite drop_in by auto. tauto.
      + cbn [l_readers]. rewrite drop_in by auto. cbn. split; [tauto|discriminate].
      + apply drop_nodup; auto.
    - (* m_upgrade *)
      unfold l_upgrade in H. pose proof (ok_held _ O _ _ k (Top (Held (Grow g f))) E (or_introl eq_refl)) as Hd. cbn in Hd. rewrite Hd, Nat.eqb_refl in H.
      injection H as <-.
      eapply (inside_ok L) with (dk := d k); [exact O|exact E|reflexivity|try (intros; rewrite upd_same; reflexivity)..]; try reflexivity; auto; try (cbn; tauto).
      + cbn. split; [|discriminate]. intros X. apply Rd in X. discriminate X.
      + exact (Rn k).
      + cbn. intros. now constructor.
    - (* m_upgraded *)
      unfold l_upgraded in H. destruct (l_hold (L k)); try discriminate. destruct (l_readers (L k)) eqn:Er; try discriminate.
      destruct (i =? i0); [|discriminate]. injection H as <-.
      eapply (inside_ok L) with (dk := d k); [exact O|exact E|reflexivity|try (intros; rewrite upd_same; reflexivity)..]; try reflexivity; auto; try (cbn; tauto).
      + rewrite Er. cbn. tauto.
      + cbn. split; [tauto|discriminate].
      + constructor.
    - (* m_write *)
      eapply (inside_ok L) with (l := L k) (dk := g (d k)); [exact O|exact E|reflexivity|try (intros; rewrite upd_same; reflexivity)..]; try reflexivity; auto; try (cbn; tauto).
      + apply (ok_held _ O _ _ k (Top (Writing g f)) E (or_introl eq_refl)).
      + cbn. split; [|discriminate]. intros X. apply Rd in X. discriminate X.
    - (* m_downgrade *)
      unfold l_downgrade in H. pose proof (ok_held _ O _ _ k (Top (Written j)) E (or_introl eq_refl)) as Hd. cbn in Hd. rewrite Hd, Nat.eqb_refl in H.
      injection H as <-.
      eapply (inside_ok L) with (dk := d k); [exact O|exact E|reflexivity|try (intros; rewrite upd_same; reflexivity)..]; try reflexivity; auto; try (cbn; tauto).
      + cbn. split; [|discriminate]. intros X. apply Rd in X. discriminate X.
      + exact (Rn k).
    - (* m_call *)
      eapply (inside_ok L L d d) with (l := L k) (dk := d k); [exact O|exact E|reflexivity|try (intros; rewrite upd_same; reflexivity)..]; try reflexivity; auto; try (cbn; tauto).
      + apply (ok_held _ O _ _ k (Top (Held (Callback t f))) E (or_introl eq_refl)).
      + cbn. split; [|discriminate]. intros X. apply Rd in X. discriminate X.
      + cbn. intros d' r [v X]. now apply (alone_callback _ _ v).
    - (* m_return *)
      pose proof (ok_once _ O _ _ E) as N. cbn in N. inversion N as [|? ? Nk Ns]; subst.
      assert (I : In (k, Susp f) (frames (Run (Stop v) ((k, f, c) :: st)))) by now left.
      assert (U : forall fr, ~ In (k, fr) (map susp st)).
      { intros fr X. apply Nk. apply in_map_iff. eexists (k, fr). auto. }
      pose proof (ok_held _ O _ _ _ _ E I) as Hd. cbn in Hd.
      eapply ok_ext; [intros n; symmetry; apply (upd_same _ L k)|intros n; symmetry; apply (upd_same _ d k)|].
      apply (step_ok L d ts tr i (Run (Stop v) ((k, f, c) :: st))); auto; try (cbn; tauto).
      + intros n fr M. cbn. split; (intros [X|X]; [unfold susp in X; cbn in X; congruence|auto]).
      + intros fr [X|X]; [injection X as <-; exact Hd|]. destruct (U _ X).
      + intros. eexists. left. reflexivity.
      + cbn. split; [|discriminate]. intros X. apply Rd in X. discriminate X.
      + rewrite Hd. cbn. discriminate.
      + intros fr [X|X]; [injection X as <-|destruct (U _ X)]. destruct (ok_busy _ O _ _ _ _ E I) as (t & d1 & j & P & Q & S).
        exists t, d1, j. cbn in *. rewrite app_nil_r. eauto.
    - (* m_release *)
      pose proof (ok_once _ O _ _ E) as N. cbn in N. inversion N as [|? ? Nk Ns]; subst.
      assert (I : In (k, Top (Held (Answer r))) (frames (Inside k (Held (Answer r)) c st))) by now left.
      assert (U : forall fr, ~ In (k, fr) (map susp st)).
      { intros fr X. apply Nk. apply in_map_iff. eexists (k, fr). auto. }
      pose proof (ok_held _ O _ _ _ _ E I) as Hd. cbn in Hd.
      unfold l_drop_upgradable in H. rewrite Hd, Nat.eqb_refl in H. injection H as <-.
      eapply ok_ext; [reflexivity|intros n; symmetry; apply (upd_same _ d k)|].
      apply (step_ok L d ts tr i (Inside k (Held (Answer r)) c st)); auto; try (cbn; tauto); try discriminate.
      + intros n fr M. cbn. split; auto. intros [X|X]; [congruence|auto].
      + intros fr X. destruct (U _ X).
      + rewrite Hd. cbn. congruence.
      + cbn. split; [|discriminate]. intros X. apply Rd in X. discriminate X.
      + exact (Rn k).
      + intros n Q. unfold on. cbn. now rewrite (proj2 (Nat.eqb_neq k n)) by auto.
      + rewrite Hd. cbn. congruence.
      + intros _. destruct (ok_busy _ O _ _ _ _ E I) as (t & d1 & j & P & Q & S). cbn in *. rewrite P. unfold on at 1. cbn. rewrite Nat.eqb_refl.
        rewrite <- app_assoc. cbn. econstructor; eauto. apply S. constructor.
      + intros fr X. destruct (U _ X).
    - (* m_dump *)
      assert (Ni : ~ In i (l_readers (L k))). { intros X. apply Rd in X. discriminate X. }
      assert (Hl : l = Lock (l_hold (L k)) (i :: l_readers (L k))).
      { unfold l_read in H. destruct (l_hold (L k)); congruence. }
      subst l.
      eapply ok_ext; [reflexivity|intros n; symmetry; apply (upd_same _ d k)|].
      apply (step_ok L d ts tr i (Run (Dump k t) st)); auto; try (cbn; tauto); try discriminate.
      + apply (ok_once _ O _ _ E).
      + intros fr X. apply (ok_held _ O _ _ _ _ E X).
      + intros x X ->. destruct (ok_holder _ O k _ X) as (x & fr & P & Q). cbn in P. assert (x = Run (Dump k t) st) as -> by congruence. eauto.
      + intros n X. cbn. split; congruence.
      + intros x X. cbn. split; auto. intros [|]; auto. congruence.
      + constructor; auto.
      + cbn. rewrite app_nil_r. apply (ok_free _ O k).
      + cbn. intros fr X. rewrite app_nil_r. apply (ok_busy _ O _ _ _ _ E X).
    - (* m_dumped *)
      unfold l_drop_read in H. destruct (existsb _ _); [|discriminate]. injection H as <-.
      eapply ok_ext; [reflexivity|intros n; symmetry; apply (upd_same _ d k)|].
      apply (step_ok L d ts tr i (Dumping k t st)); auto; try (cbn; tauto); try discriminate.
      + apply (ok_once _ O _ _ E).
      + intros fr X. apply (ok_held _ O _ _ _ _ E X).
      + intros x X ->. destruct (ok_holder _ O k _ X) as (x & fr & P & Q). cbn in P. assert (x = Dumping k t st) as -> by congruence. eauto.
      + intros n X. cbn. split; congruence.
      + intros x X. cbn [l_readers]. rewrite drop_in by auto. tauto.
      + cbn [l_readers]. rewrite drop_in by auto. cbn. split; [tauto|discriminate].
      + apply drop_nodup; auto.
      + cbn. rewrite app_nil_r. apply (ok_free _ O k).
      + cbn. intros fr X. rewrite app_nil_r. apply (ok_busy _ O _ _ _ _ E X).
  Qed.

  (** ** What has happened to one DFA *)
  Lemma split_last : forall A (x y z : A) a b c, a ++ x :: y :: b = c ++ [z] -> b = [] /\ y = z /\ c = a ++ [x] \/ exists b', b = b' ++ [z] /\ c = a ++ x :: y :: b'.
  Proof.
    intros A x y z a b c H. destruct b as [|e b _] using rev_ind.
    - left. change (a ++ [x; y]) with (a ++ [x] ++ [y]) in H. rewrite app_assoc in H. apply app_inj_tail in H as [<- <-]. auto.
    - right. exists b. change (a ++ x :: y :: b ++ [e]) with (a ++ (x :: y :: b) ++ [e]) in H. rewrite app_assoc in H.
      apply app_inj_tail in H as [<- <-]. auto.
  Qed.
  Lemma one_by_one_split : forall k d (es : list event) d', one_by_one k d es d' -> forall es1 i j i' r es2, es = es1 ++ Began i k j :: Ended i' k r :: es2 ->
    exists d1 d2, one_by_one k d es1 d1 /\ alone j d1 d2 r /\ i' = i.
  Proof.
    intros k d es d' H. induction H as [|d es d1 i j d2 r H IH A]; intros es1 i1 j1 i1' r1 es2 E. { destruct es1; discriminate. }
    change [Began i k j; Ended i k r] with ([Began i k j] ++ [Ended i k r] : list event) in E. rewrite app_assoc in E. symmetry in E.
    apply split_last in E as [(-> & E & F)|(b & -> & F)].
    - injection E as -> ->. apply app_inj_tail in F as [-> F]. injection F as -> ->. eauto.
    - symmetry in F. apply split_last in F as [(-> & F & _)|(b' & -> & ->)]; [discriminate|]. eapply IH; eauto.
  Qed.
  Lemma on_at : forall (s : sys) k, ok s -> exists es d1 last, on k (trace s) = es ++ last /\ one_by_one k (d0 k) es d1 /\
    (last = [] /\ dfas s k = d1 \/ exists i j, last = [Began i k j]).
  Proof.
    intros s k O. destruct (owner (l_hold (locks s k))) as [i|] eqn:E.
    - destruct (ok_holder _ O k i E) as (c & fr & P & I). destruct (ok_busy _ O _ _ _ _ P I) as (t & d1 & j & Q & W & _). exists t, d1, [Began i k j].
      split; auto. split; auto. right. eauto.
    - exists (on k (trace s)), (dfas s k), []. rewrite app_nil_r. split; auto. split; auto. apply (ok_free _ O k E).
  Qed.
  Lemma ended_alone : forall (s : sys) k es1 i j i' r es2, ok s -> on k (trace s) = es1 ++ Began i k j :: Ended i' k r :: es2 ->
    exists d1 d2, one_by_one k (d0 k) es1 d1 /\ alone j d1 d2 r /\ i' = i.
  Proof.
    intros s k es1 i j i' r es2 O E. destruct (on_at s k O) as (es & d1 & last & F & W & [[-> _]|(x & y & ->)]); rewrite F in E.
    - rewrite app_nil_r in E. eapply one_by_one_split; eauto.
    - symmetry in E. apply split_last in E as [(_ & E & _)|(b & _ & ->)]; [discriminate|]. eapply one_by_one_split; eauto.
  Qed.
  Lemma one_by_one_on : forall k d (es : list event) d' i r, one_by_one k d es d' -> In (Ended i k r) es -> exists es1 j es2, es = es1 ++ Began i k j :: Ended i k r :: es2.
  Proof.
    intros k d es d' i r H. induction H as [|d es d1 x j d2 r' H IH A]; intros I; [destruct I|].
    apply in_app_or in I as [I|I].
    - destruct (IH I) as (es1 & j' & es2 & ->). exists es1, j', (es2 ++ [Began x k j; Ended x k r']). now rewrite <- app_assoc.
    - destruct I as [I|[I|[]]]; [discriminate|]. injection I as -> ->. exists es, j, []. reflexivity.
  Qed.
  Lemma ended_began : forall (s : sys) k i r, ok s -> In (Ended i k r) (trace s) -> exists es1 j es2, on k (trace s) = es1 ++ Began i k j :: Ended i k r :: es2.
  Proof.
    intros s k i r O I. assert (J : In (Ended i k r) (on k (trace s))). { apply filter_In. split; auto. cbn. apply Nat.eqb_refl. }
    destruct (on_at s k O) as (es & d1 & last & F & W & X). rewrite F in *. apply in_app_or in J as [J|J].
    - destruct (one_by_one_on _ _ _ _ _ _ W J) as (es1 & j & es2 & ->). exists es1, j, (es2 ++ last). now rewrite <- app_assoc.
    - destruct X as [[-> _]|(x & y & ->)]; [destruct J|]. destruct J as [J|[]]; discriminate.
  Qed.

  Lemma steps_ok : forall s s', steps s s' -> ok s -> ok s'.
  Proof.
    intros s s' H. induction H as [|s1 s2 s3 H IH St]; auto. intros O. destruct St. eapply move_ok; eauto.
  Qed.

  (** ** A writer is alone *)
  Definition no_readers (l : lock) : Prop := forall i, l_hold l = Writer i -> l_readers l = [].
  Lemma move_no_readers : forall i L d (c : ctl) L' d' e c', move i L d c L' d' e c' -> (forall k, no_readers (L k)) -> forall k : nat, no_readers (L' k).
  Proof.
    intros i L d c L' d' e c' M N k.
    destruct M; try apply N; (destruct (Nat.eq_dec k k0) as [->|]; [rewrite upd_eq|rewrite upd_ne by auto; apply N]).
    all: specialize (N k0); unfold l_upgradable_read, l_read, l_drop_read, l_upgrade, l_upgraded, l_downgrade, l_drop_upgradable in H.
    all: destruct (L k0) as [h rs]; cbn in H; destruct h; try discriminate; repeat match type of H with (if ?b then _ else _) = _ => destruct b eqn:? | match ?b with _ => _ end = _ => destruct b end; try discriminate; injection H as <-; intros y Hy; cbn in *; try discriminate; auto.
    all: pose proof (N _ eq_refl) as Z; cbn in Z; subst rs; discriminate.
  Qed.
  Lemma writer_alone : forall (ts : list thread) s, steps (start d0 ts) s -> forall k, no_readers (locks s k).
  Proof.
    intros ts s H. remember (start d0 ts) as s0 eqn:E. induction H as [s|s1 s2 s3 H IH St]; subst. { intros k i. discriminate. }
    specialize (IH eq_refl). destruct St. eapply move_no_readers; eauto.
  Qed.
  Lemma looks_frames : forall k (c : ctl), may_look k c -> (exists fr, In (k, fr) (frames c)) \/ reads c = Some k.
  Proof.
    assert (St : forall k (st : suspended D R V), In k (map (fun s => fst (fst s)) st) -> exists fr, In (k, fr) (map susp st)).
    { intros k st I. apply in_map_iff in I as (s & <- & I). exists (Susp (snd (fst s))). apply in_map_iff. exists s. auto. }
    intros k [t st|x ph c st|x t st]; cbn; intros H.
    - left. now apply St.
    - left. destruct H as [->|H]; [eauto|]. destruct (St _ _ H) as [fr I]. eauto.
    - destruct H as [->|H]; [now right|]. left. now apply St.
  Qed.
  Lemma exclusive : forall (ts : list thread) s, steps (start d0 ts) s -> forall k i c x y, nth_error (threads s) i = Some c -> may_change k c ->
    nth_error (threads s) x = Some y -> may_look k y -> x = i.
  Proof.
    intros ts s H k i c x y E W F Lk. pose proof (steps_ok _ _ H (ok_start ts)) as O.
    assert (Hd : l_hold (locks s k) = Writer i).
    { destruct c as [|z [] ? ?|]; cbn in W; try contradiction; subst z; apply (ok_held _ O _ _ _ _ E (or_introl eq_refl)). }
    destruct (looks_frames _ _ Lk) as [[fr I]|Rd].
    - pose proof (ok_held _ O _ _ _ _ F I) as Q. rewrite Hd in Q. destruct fr as [[]|]; cbn in Q; congruence.
    - pose proof (ok_reads _ O _ _ _ F Rd) as Q. rewrite (writer_alone _ _ H k i Hd) in Q. destruct Q.
  Qed.
  Lemma finished_serial : forall (ts : list thread) s, steps (start d0 ts) s -> finished s -> forall k, one_by_one k (d0 k) (on k (trace s)) (dfas s k).
  Proof.
    intros ts s H F k. pose proof (steps_ok _ _ H (ok_start ts)) as O. apply (ok_free _ O). destruct (owner (l_hold (locks s k))) as [i|] eqn:E; auto.
    destruct (ok_holder _ O k i E) as (c & fr & P & I). destruct (F c) as [v ->]. { eapply nth_error_In; eauto. } destruct I.
  Qed.

  (** ** What threads do with DFAs *)
  Section Uses.
    Variable P : nat -> job -> Prop.
    Fixpoint st_uses (st : suspended D R V) : Prop :=
      match st with [] => True | (_, f, c) :: st => (forall v, job_uses P (f v)) /\ (forall r, uses P (c r)) /\ st_uses st end.
    Definition ph_uses (ph : phase) : Prop :=
      match ph with
      | Held j | Written j => job_uses P j
      | Reading f | Waiting _ f | Writing _ f => forall d, job_uses P (f d)
      end.
    Definition ctl_uses (c : ctl) : Prop :=
      match c with
      | Run t st | Dumping _ t st => uses P t /\ st_uses st
      | Inside _ ph c st => ph_uses ph /\ (forall r, uses P (c r)) /\ st_uses st
      end.
    Definition began_ok (e : event) : Prop := match e with Began _ k j => P k j | _ => True end.
    Lemma move_uses : forall i L d c L' d' e c', move i L d c L' d' e c' -> ctl_uses c -> ctl_uses c' /\ Forall began_ok e.
    Proof. intros i L d c L' d' e c' M. destruct M; cbn; intuition (auto; repeat constructor; cbn; auto). Qed.
    Lemma steps_uses : forall s s', steps s s' -> Forall ctl_uses (threads s) -> Forall began_ok (trace s) ->
      Forall ctl_uses (threads s') /\ Forall began_ok (trace s').
    Proof.
      intros s s' H. induction H as [|s1 s2 s3 H IH St]; auto. intros F G. specialize (IH F G) as [IH1 IH2]. destruct St as [L d ts tr i c L' d' e c' E M]. cbn in *.
      assert (X : ctl_uses c). { rewrite Forall_forall in IH1. apply IH1. eapply nth_error_In; eauto. }
      destruct (move_uses _ _ _ _ _ _ _ _ M X) as [Y Z]. split.
      - apply Forall_forall. intros x I. apply In_nth_error in I as [n I]. destruct (put_inv _ _ _ _ _ _ _ E I) as [[-> ->]|[_ Q]]; auto.
        rewrite Forall_forall in IH1. apply IH1. eapply nth_error_In; eauto.
      - apply Forall_app. auto.
    Qed.
    Lemma start_uses : forall ts s, Forall (uses P) ts -> steps (start d0 ts) s -> Forall began_ok (trace s).
    Proof.
      intros ts s F H. eapply (steps_uses _ _ H); [|constructor]. cbn. rewrite Forall_map. eapply Forall_impl; [|exact F]. cbn. auto.
    Qed.
  End Uses.
End Conc.
