(** Proofs about token streams. *)
From Coq Require Import ZArith List Bool Lia.
From Coq Require Import ZifyBool ZifyNat.
From Verif Require Import CharStreamModel CharStreamProofs TokenStreamModel TokenStreamSpec.
Import ListNotations.
Open Scope Z_scope.

Lemma zget_map_seq : forall {A} (f : nat -> A) b n i,
  zget (map f (seq b n)) i =
  if (0 <=? i) && (i <? Z.of_nat n) then Some (f (b + Z.to_nat i)%nat) else None.
Proof.
  intros A f b n i. unfold zget. destruct (i <? 0) eqn:E1.
  - destruct (0 <=? i) eqn:E; [lia|auto].
  - destruct (_ && _) eqn:E.
    + rewrite nth_error_map. rewrite (nth_error_nth' _ 0%nat) by (rewrite seq_length; lia).
      rewrite seq_nth by lia. reflexivity.
    + apply nth_error_None. rewrite map_length, seq_length. lia.
Qed.

Lemma zlen_map_seq : forall {A} (f : nat -> A) b n, zlen (map f (seq b n)) = Z.of_nat n.
Proof. intros. unfold zlen. rewrite map_length, seq_length. auto. Qed.

Lemma seq_snoc : forall b n, seq b n ++ [(b + n)%nat] = seq b (S n).
Proof. intros. rewrite seq_S. auto. Qed.

Lemma skipn_seq : forall k b n, (k <= n)%nat -> skipn k (seq b n) = seq (b + k) (n - k).
Proof.
  induction k as [|k IH]; intros b n H; [rewrite Nat.add_0_r, Nat.sub_0_r; auto|].
  destruct n as [|n]; [lia|]. cbn [seq skipn]. rewrite IH by lia. f_equal; lia.
Qed.

Lemma firstn_seq : forall k b n, (k <= n)%nat -> firstn k (seq b n) = seq b k.
Proof.
  induction k as [|k IH]; intros b n H; auto.
  destruct n as [|n]; [lia|]. cbn [seq firstn]. rewrite IH by lia. auto.
Qed.

Lemma skipn_map : forall {A B} (f : A -> B) k l, skipn k (map f l) = map f (skipn k l).
Proof. induction k; destruct l; cbn; auto. Qed.
Lemma firstn_map : forall {A B} (f : A -> B) k l, firstn k (map f l) = map f (firstn k l).
Proof. induction k; destruct l; cbn; auto. f_equal; auto. Qed.

Section Src.
  Variable src : nat -> tok.

  (** The buffer holds source tokens b .. b+n-1. *)
  Record rep (b n : nat) (s : uts) : Prop := {
    r_toks : tokens s = map (tok_at src) (seq b n);
    r_base : cur s - p s = Z.of_nat b;
    r_pull : pulled s = (b + n)%nat;
    r_noeof : no_eof_before src (b + pred n);
    r_p : 0 <= p s <= Z.of_nat n;
    r_eof : (0 < n)%nat -> is_eof src (b + pred n) -> p s < Z.of_nat n
  }.

  Lemma eof_dec : forall n, {is_eof src n} + {~ is_eof src n}.
  Proof. intros. unfold is_eof. apply Z.eq_dec. Qed.

  Lemma rep_new : rep 0 0 new_unbuffered.
  Proof. constructor; cbn; auto; try lia. intros m Hm; lia. Qed.

  Lemma rep_new_buffered : rep 0 0 new_buffered.
  Proof. constructor; cbn; auto; try lia. intros m Hm; lia. Qed.

  Lemma ends_spec : forall b n s, rep b n s ->
    (ends_with_eof s = true <-> (0 < n)%nat /\ is_eof src (b + pred n)).
  Proof.
    intros b n s R. unfold ends_with_eof. rewrite (r_toks _ _ _ R).
    destruct n as [|n].
    - cbn. split; [easy|lia].
    - rewrite <- seq_snoc, map_app, rev_app_distr. cbn [rev map app tok_at set_index t_type pred].
      unfold is_eof. split; intros; [split; [lia|]|]; lia.
  Qed.

  Lemma noeof_full : forall b n s, rep b n s -> ends_with_eof s = false -> no_eof_before src (b + n).
  Proof.
    intros b n s R E m Hm. destruct (Nat.eq_dec m (b + pred n)) as [->|Hne].
    - destruct n as [|n]; [lia|]. intros He. 
      assert (ends_with_eof s = true) by (apply (ends_spec _ _ _ R); split; [lia|auto]). congruence.
    - apply (r_noeof _ _ _ R). lia.
  Qed.

  Lemma fill_loop_spec : forall k i b n s, rep b n s ->
    exists m s', fill_loop src k i s = (s', i + Z.of_nat m) /\ rep b (n + m) s' /\
      cur s' = cur s /\ p s' = p s /\ markers s' = markers s /\ (m <= k)%nat /\
      (m = k \/ ((0 < n + m)%nat /\ is_eof src (b + pred (n + m)))).
  Proof.
    induction k as [|k IH]; intros i b n s R; cbn [fill_loop].
    - exists 0%nat, s. rewrite Z.add_0_r, Nat.add_0_r. intuition.
    - destruct (ends_with_eof s) eqn:E.
      + exists 0%nat, s. rewrite Z.add_0_r, Nat.add_0_r. apply (ends_spec _ _ _ R) in E. intuition lia.
      + pose proof (noeof_full _ _ _ R E) as Hne.
        set (s1 := Uts _ _ _ _ _).
        assert (R1 : rep b (S n) s1).
        { constructor; cbn [s1 tokens cur p pulled markers].
          - rewrite (r_toks _ _ _ R). rewrite <- seq_snoc, map_app. cbn [map]. do 2 f_equal.
            rewrite (r_pull _ _ _ R). unfold tok_at. f_equal.
            unfold get_buffer_start_index. rewrite (r_base _ _ _ R), zlen_map_seq. lia.
          - apply (r_base _ _ _ R).
          - rewrite (r_pull _ _ _ R). lia.
          - cbn [pred]. auto.
          - pose proof (r_p _ _ _ R). lia.
          - pose proof (r_p _ _ _ R). lia. }
        destruct (IH (i + 1) b (S n) s1 R1) as (m & s' & E1 & R' & Hc & Hp & Hm & Hle & Hor).
        exists (S m), s'. rewrite E1. 
        replace (n + S m)%nat with (S n + m)%nat by lia.
        split; [f_equal; lia|]. split; [auto|]. cbn [s1 cur p markers] in *. intuition lia.
  Qed.

  Lemma sync_spec : forall b n s want, rep b n s ->
    exists n', rep b n' (sync src s want) /\ (n <= n')%nat /\
      cur (sync src s want) = cur s /\ p (sync src s want) = p s /\
      markers (sync src s want) = markers s /\
      (p s + want <= Z.of_nat n -> sync src s want = s) /\
      Z.of_nat n' <= Z.max (Z.of_nat n) (p s + want) /\
      (p s + want <= Z.of_nat n' \/ ((0 < n')%nat /\ is_eof src (b + pred n'))).
  Proof.
    intros b n s want R. unfold sync. cbv zeta. rewrite (r_toks _ _ _ R), zlen_map_seq.
    destruct (p s + want - 1 - Z.of_nat n + 1 >? 0) eqn:E.
    - unfold fill. destruct (fill_loop_spec (Z.to_nat (p s + want - 1 - Z.of_nat n + 1)) 0 b n s R)
        as (m & s' & E1 & R' & Hc & Hp & Hm & Hle & Hor).
      rewrite E1. cbn [fst]. exists (n + m)%nat.
      split; [auto|]. split; [lia|]. split; [auto|]. split; [auto|]. split; [auto|].
      split; [lia|]. split; [lia|]. destruct Hor as [->|Hor]; [left; lia|right; auto].
    - exists n. intuition lia.
  Qed.

  Lemma rep_cur : forall b n s, rep b n s -> cur s = Z.of_nat b + p s.
  Proof. intros b n s R. pose proof (r_base _ _ _ R). lia. Qed.

  Lemma rep_n_le : forall b n s e, rep b n s -> is_eof src e -> (b + n <= S e)%nat.
  Proof.
    intros b n s e R He. pose proof (r_noeof _ _ _ R e) as H.
    destruct (le_lt_dec (b + n) (S e)); auto. exfalso. apply H; auto. lia.
  Qed.

  (** Lookahead, k >= 1. *)
  Lemma lt_spec : forall b n s k c, rep b n s -> 1 <= k -> cur s = Z.of_nat c ->
    exists s' n' r, lt src s k = Done (s', r) /\ rep b n' s' /\ (n <= n')%nat /\
      cur s' = cur s /\ p s' = p s /\ markers s' = markers s /\
      (no_eof_before src (c + Z.to_nat (k - 1)) -> r = Some (tok_at src (c + Z.to_nat (k - 1)))) /\
      (~ no_eof_before src (c + Z.to_nat (k - 1)) -> r = None) /\
      Z.of_nat n' <= Z.max (Z.of_nat n) (p s + k).
  Proof.
    intros b n s k c R Hk Hc. unfold lt. destruct (k =? -1) eqn:E; [lia|]. cbv zeta.
    destruct (sync_spec b n s k R) as (n' & R' & Hn & Hcur & Hp & Hm & _ & Hmax & Hor).
    eexists _, n', _. split; [reflexivity|]. split; [auto|]. split; [auto|].
    split; [auto|]. split; [auto|]. split; [auto|].
    rewrite Hp, (r_toks _ _ _ R'), zget_map_seq.
    pose proof (rep_cur _ _ _ R) as Hcb. pose proof (r_p _ _ _ R) as Hpn.
    split; [|split; [|auto]].
    - intros Hno. destruct Hor as [Hor|[Hn' He]].
      + destruct (_ && _) eqn:E1; [|lia]. f_equal. f_equal. lia.
      + destruct (_ && _) eqn:E1; [f_equal; f_equal; lia|].
        exfalso. apply (Hno (b + pred n')%nat); auto. lia.
    - intros Hno. destruct (_ && _) eqn:E1; auto.
      exfalso. apply Hno. intros m Hm'. apply (r_noeof _ _ _ R'). lia.
  Qed.

  Lemma no_eof_dec : forall n, {no_eof_before src n} + {~ no_eof_before src n}.
  Proof.
    induction n as [|n [IH|IH]].
    - left. intros m Hm; lia.
    - destruct (eof_dec n) as [He|He].
      + right. intros H. apply (H n); auto.
      + left. intros m Hm. destruct (Nat.eq_dec m n) as [->|]; auto. apply IH; lia.
    - right. intros H. apply IH. intros m Hm. apply H. lia.
  Qed.

  Lemma rep_noeof_cur : forall b n s c, rep b n s -> cur s = Z.of_nat c -> no_eof_before src c.
  Proof.
    intros b n s c R Hc m Hm. pose proof (rep_cur _ _ _ R). pose proof (r_p _ _ _ R).
    destruct (Nat.eq_dec m (b + pred n)) as [->|Hne].
    - destruct n as [|n].
      + cbn in *. lia.
      + intros He. pose proof (r_eof _ _ _ R ltac:(lia) He). cbn in *. lia.
    - apply (r_noeof _ _ _ R). lia.
  Qed.

  Lemma consume_spec : forall b n s c, rep b n s -> cur s = Z.of_nat c ->
    (is_eof src c -> tconsume src s = Crash) /\
    (~ is_eof src c -> exists s' n', tconsume src s = Done s' /\ rep b n' s' /\ (n <= n')%nat /\
       cur s' = cur s + 1 /\ markers s' = markers s /\ p s' < Z.of_nat n' /\ 
       (Z.of_nat n <= p s + 1 -> Z.of_nat n' = p s + 2)).
  Proof.
    intros b n s c R Hc. unfold tconsume, tla.
    destruct (lt_spec b n s 1 c R ltac:(lia) Hc) as (s1 & n1 & r & E & R1 & Hn & Hc1 & Hp1 & Hm1 & Hs & _ & Hmax).
    rewrite E. cbn [obind]. replace (c + Z.to_nat (1 - 1))%nat with c in * by lia.
    pose proof (rep_noeof_cur _ _ _ _ R Hc) as Hno. rewrite (Hs Hno). cbn [tok_at set_index t_type].
    pose proof (rep_cur _ _ _ R) as Hcb.
    split.
    - intros He. unfold is_eof in He. rewrite He. reflexivity.
    - intros He. unfold is_eof in He. destruct (_ =? TOKEN_EOF) eqn:E1; [lia|].
      (* the buffer holds the current token, so the discard branch is dead *)
      assert (Hlt : p s1 < Z.of_nat n1).
      { specialize (Hs Hno). unfold lt in E. cbn [Z.eqb] in E. cbv zeta in E. inversion E as [[Es Er]].
        rewrite <- Er, Es, (r_toks _ _ _ R1), zget_map_seq in Hs. destruct (_ && _) eqn:E2; [idtac|easy]. rewrite Es; lia. }
      rewrite (r_toks _ _ _ R1), zlen_map_seq.
      destruct (p s1 =? Z.of_nat n1) eqn:E2; [lia|]. cbn [andb]. cbv zeta.
      set (s2 := Uts _ _ _ _ _).
      assert (R2 : rep b n1 s2).
      { destruct R1 as [A1 A2 A3 A4 A5 A6]. constructor; cbn [s2 tokens cur p pulled markers]; auto; try lia.
        intros Hn0 He0. specialize (A6 Hn0 He0).
        assert ((b + pred n1)%nat <> c) by (intros Hx; apply He; rewrite <- Hx; exact He0). lia. }
      destruct (sync_spec b n1 s2 1 R2) as (n2 & R3 & Hn2 & Hc2 & Hp2 & Hm2 & _ & Hmax2 & Hor).
      exists (sync src s2 1), n2. cbn [s2 cur p markers] in *.
      assert (Hpn2 : p s1 + 1 < Z.of_nat n2).
      { destruct Hor as [Hor|[Hn0 He0]]; [lia|]. pose proof (r_eof _ _ _ R3 Hn0 He0). lia. }
      split; [reflexivity|]. split; [auto|]. split; [lia|]. split; [lia|]. split; [lia|].
      split; [lia|]. intros Hle. lia.
  Qed.

  Lemma mark_spec : forall b n s, rep b n s -> rep b n (fst (tmark s)).
  Proof. intros b n s []. constructor; cbn; auto. Qed.

  Lemma release_spec : forall b n s m s', rep b n s -> trelease s m = Done s' ->
    exists b' n', rep b' n' s' /\ cur s' = cur s /\ markers s' = markers s - 1 /\ m = - markers s /\
      (b' + n' = b + n)%nat /\
      (if (markers s =? 1) then Z.of_nat b' = cur s else b' = b).
  Proof.
    intros b n s m s' R H. unfold trelease in H.
    destruct (m =? - markers s) eqn:Em; [|easy]. cbn [negb] in H. cbv zeta in H.
    pose proof (r_p _ _ _ R) as Hp. pose proof (rep_cur _ _ _ R) as Hcb.
    rewrite (r_toks _ _ _ R), zlen_map_seq in H.
    destruct ((markers s - 1 =? 0) && (p s >? 0)) eqn:E.
    - destruct (p s >? Z.of_nat n) eqn:E1; [lia|]. inversion H; subst s'; clear H.
      rewrite skipn_map, skipn_seq by lia.
      exists (b + Z.to_nat (p s))%nat, (n - Z.to_nat (p s))%nat.
      split; [|cbn; destruct (markers s =? 1) eqn:E2; [|lia]; repeat split; lia].
      constructor; cbn [tokens cur p pulled markers]; auto; try lia.
      + pose proof (r_pull _ _ _ R). lia.
      + intros i Hi. destruct (Nat.eq_dec i (b + pred n)) as [->|Hne].
        * intros He. destruct n as [|n]; [cbn in *; lia|].
          pose proof (r_eof _ _ _ R ltac:(lia) He). lia.
        * apply (r_noeof _ _ _ R). lia.
    - inversion H; subst s'; clear H. exists b, n. destruct R as [A1 A2 A3 A4 A5 A6].
      split; [constructor; cbn; auto; congruence|].
      cbn. destruct (markers s =? 1) eqn:E2; repeat split; try lia.
  Qed.

  Lemma release_no_crash : forall b n s, rep b n s -> trelease s (- markers s) <> Crash.
  Proof.
    intros b n s R. unfold trelease. rewrite Z.eqb_refl. cbn [negb]. cbv zeta.
    rewrite (r_toks _ _ _ R), zlen_map_seq. pose proof (r_p _ _ _ R).
    destruct (_ && _); [|easy]. destruct (p s >? Z.of_nat n) eqn:E; [lia|easy].
  Qed.

  (** A seek succeeds exactly when the target is the current index or already buffered. *)
  Lemma seek_spec : forall b n s i, rep b n s ->
    (i = cur s /\ tseek src s i = Done s) \/
    (i <> cur s /\ Z.of_nat b <= i < Z.of_nat (b + n) /\
       tseek src s i = Done (Uts (tokens s) i (markers s) (i - Z.of_nat b) (pulled s)) /\
       rep b n (Uts (tokens s) i (markers s) (i - Z.of_nat b) (pulled s))) \/
    (i <> cur s /\ ~ (Z.of_nat b <= i < Z.of_nat (b + n)) /\ tseek src s i = Crash).
  Proof.
    intros b n s i R. unfold tseek. destruct (cur s =? i) eqn:E; [left; split; [lia|auto]|right].
    pose proof (rep_cur _ _ _ R) as Hcb. pose proof (r_p _ _ _ R) as Hp.
    destruct (Z_le_dec (Z.of_nat b) i) as [Hlo|Hlo]; [destruct (Z_lt_dec i (Z.of_nat (b + n))) as [Hhi|Hhi]|].
    - left. split; [lia|]. split; [lia|].
      assert (Rn : rep b n (Uts (tokens s) i (markers s) (i - Z.of_nat b) (pulled s))).
      { destruct R as [A1 A2 A3 A4 A5 A6]. constructor; cbn [tokens cur p pulled markers]; auto; lia. }
      split; [|auto].
      destruct (i >? cur s) eqn:E1.
      + destruct (sync_spec b n s (i - cur s) R) as (n' & R' & Hn & Hcur & Hpp & Hm & Hsame & _).
        rewrite Hsame by lia. cbv zeta. unfold get_buffer_start_index, tsize.
        rewrite (r_base _ _ _ R), (r_toks _ _ _ R), zlen_map_seq.
        replace (Z.min i _) with i by lia. destruct (_ || _) eqn:E2; [lia|]. auto.
      + cbv zeta. unfold get_buffer_start_index, tsize.
        rewrite (r_base _ _ _ R), (r_toks _ _ _ R), zlen_map_seq.
        destruct (_ || _) eqn:E2; [lia|]. auto.
    - right. split; [lia|]. split; [lia|].
      destruct (i >? cur s) eqn:E1; [|lia].
      destruct (sync_spec b n s (i - cur s) R) as (n' & R' & Hn & Hcur & Hpp & Hm & Hsame & Hmax & _).
      cbv zeta. unfold get_buffer_start_index, tsize.
      rewrite (r_base _ _ _ R'), (r_toks _ _ _ R'), zlen_map_seq.
      destruct (_ || _) eqn:E2; [auto|lia].
    - right. split; [lia|]. split; [lia|].
      destruct (i >? cur s) eqn:E1; [lia|]. cbv zeta. unfold get_buffer_start_index.
      rewrite (r_base _ _ _ R). destruct (_ || _) eqn:E2; [auto|lia].
  Qed.

  (** Every history that does not panic keeps the representation. *)
  Lemma lt_any_rep : forall b n s k s' r, rep b n s -> lt src s k = Done (s', r) ->
    exists n', rep b n' s' /\ (n <= n')%nat /\ cur s' = cur s /\ p s' = p s /\ markers s' = markers s.
  Proof.
    intros b n s k s' r R H. unfold lt in H. destruct (k =? -1).
    - destruct (p s <=? 0); inversion H; subst. exists n; auto.
    - cbv zeta in H. inversion H; subst.
      destruct (sync_spec b n s k R) as (n' & R' & Hn & Hcur & Hp & Hm & _). exists n'; auto.
  Qed.

  Local Ltac snug := let A := fresh in let B := fresh in
    intros A B; match type of A with (0 < ?n)%nat -> _ => destruct n; [|specialize (A ltac:(lia))] end; cbn in *; lia.

  Lemma tstep_rep : forall b n s o s', rep b n s -> tstep src s o = Done s' ->
    exists b' n', rep b' n' s' /\ (b <= b')%nat /\ (b + n <= b' + n')%nat /\
      (((0 < n)%nat -> p s < Z.of_nat n) -> (0 < n')%nat -> p s' < Z.of_nat n').
  Proof.
    intros b n s o s' R H. pose proof (r_p _ _ _ R) as Hrp. destruct o as [k| | |m|i]; cbn [tstep] in H.
    - destruct (lt src s k) as [[s1 r]| |] eqn:E; cbn in H; inversion H; subst.
      destruct (lt_any_rep _ _ _ _ _ _ R E) as (n' & R' & Hn & _ & Hpp & _). exists b, n'. split; [auto|]. split; [lia|]. split; [lia|snug].
    - destruct (Z_le_dec 0 (cur s)) as [Hc|Hc];
        [|pose proof (rep_cur _ _ _ R); pose proof (r_p _ _ _ R); lia].
      destruct (consume_spec b n s (Z.to_nat (cur s)) R ltac:(lia)) as [H1 H2].
      destruct (eof_dec (Z.to_nat (cur s))) as [He|He]; [rewrite H1 in H by auto; easy|].
      destruct (H2 He) as (s1 & n1 & E & R1 & Hn & _ & _ & Hpp & _). rewrite E in H. inversion H; subst.
      exists b, n1. split; [auto|]. split; [lia|]. split; [lia|snug].
    - inversion H; subst. exists b, n. split; [apply mark_spec; auto|]. cbn. split; [lia|]. split; [lia|auto].
    - destruct (release_spec _ _ _ _ _ R H) as (b' & n' & R' & Hc & Hm & _ & Hsum & Hb).
      pose proof (rep_cur _ _ _ R). pose proof (rep_cur _ _ _ R'). pose proof (r_p _ _ _ R').
      exists b', n'. split; [auto|]. destruct (markers s =? 1); (split; [lia|]); (split; [lia|snug]).
    - destruct (seek_spec b n s i R) as [[_ E]|[(_ & Hr & E & R')|(_ & _ & E)]]; rewrite E in H; inversion H; subst.
      + exists b, n. split; [auto|]. split; [lia|]. split; [lia|auto].
      + exists b, n. split; [auto|]. cbn. split; [lia|]. split; [lia|]. intros; lia.
  Qed.

  Lemma trun_rep : forall ops b n s s', rep b n s -> ((0 < n)%nat -> p s < Z.of_nat n) ->
    trun src s ops = Done s' ->
    exists b' n', rep b' n' s' /\ ((0 < n')%nat -> p s' < Z.of_nat n').
  Proof.
    induction ops as [|o ops IH]; intros b n s s' R Hs H; cbn in H.
    - inversion H; subst. eauto.
    - destruct (tstep src s o) as [s1| |] eqn:E; cbn in H; try easy.
      destruct (tstep_rep _ _ _ _ _ R E) as (b1 & n1 & R1 & _ & _ & Hs1). eapply IH; eauto.
  Qed.

  Lemma reach_rep : forall ops s, trun src new_unbuffered ops = Done s -> exists b n, rep b n s.
  Proof.
    intros. destruct (trun_rep ops 0 0 new_unbuffered s rep_new ltac:(lia) H) as (b & n & R & _). eauto.
  Qed.

  Lemma reach_snug : forall ops s, trun src new_unbuffered ops = Done s ->
    exists b n, rep b n s /\ ((0 < n)%nat -> p s < Z.of_nat n).
  Proof. intros. apply (trun_rep ops 0 0 new_unbuffered s rep_new ltac:(lia) H). Qed.

  Lemma get_spec : forall b n s i, rep b n s ->
    get s i = if (Z.of_nat b <=? i) && (i <? Z.of_nat (b + n)) then Done (tok_at src (Z.to_nat i)) else Crash.
  Proof.
    intros b n s i R. unfold get, get_buffer_start_index.
    rewrite (r_base _ _ _ R), (r_toks _ _ _ R), zget_map_seq.
    destruct ((0 <=? i - Z.of_nat b) && _) eqn:E1; destruct ((Z.of_nat b <=? i) && _) eqn:E2; try lia; auto.
    do 2 f_equal. lia.
  Qed.

  Lemma keeps_base : forall ops b n s s' lvl, rep b n s -> 1 <= lvl -> lvl <= markers s ->
    keeps src lvl s ops -> trun src s ops = Done s' -> exists n', rep b n' s' /\ (n <= n')%nat.
  Proof.
    induction ops as [|o ops IH]; intros b n s s' lvl R Hl Hm K H; cbn in H.
    - inversion H; subst. eauto.
    - cbn in K. destruct (tstep src s o) as [s1| |] eqn:E; cbn in H; try easy.
      destruct K as [Hm1 K].
      assert (exists n1, rep b n1 s1 /\ (n <= n1)%nat) as (n1 & R1 & Hn1).
      { destruct o as [k| | |m|i]; cbn [tstep] in E.
        - destruct (lt src s k) as [[s2 r]| |] eqn:E1; cbn in E; inversion E; subst.
          destruct (lt_any_rep _ _ _ _ _ _ R E1) as (n' & R' & Hn & _). eauto.
        - destruct (Z_le_dec 0 (cur s)) as [Hc|Hc];
            [|pose proof (rep_cur _ _ _ R); pose proof (r_p _ _ _ R); lia].
          destruct (consume_spec b n s (Z.to_nat (cur s)) R ltac:(lia)) as [H1 H2].
          destruct (eof_dec (Z.to_nat (cur s))) as [He|He]; [rewrite H1 in E by auto; easy|].
          destruct (H2 He) as (s2 & n2 & E2 & R2 & Hn & _). rewrite E2 in E. inversion E; subst. eauto.
        - inversion E; subst. exists n. split; [apply mark_spec; auto|lia].
        - destruct (release_spec _ _ _ _ _ R E) as (b' & n' & R' & Hc & Hm' & _ & Hsum & Hb).
          destruct (markers s =? 1) eqn:E1; [lia|]. subst b'. exists n'. split; [auto|lia].
        - destruct (seek_spec b n s i R) as [[_ E1]|[(_ & _ & E1 & R')|(_ & _ & E1)]]; rewrite E1 in E; inversion E; subst; eauto. }
      destruct (IH b n1 s1 s' lvl R1 Hl Hm1 K H) as (n' & R' & Hn'). exists n'. split; [auto|lia].
  Qed.

  (** Two states with the same buffer start and position see the same lookahead. *)
  Lemma lt_same : forall b n s b' n' s' k, rep b n s -> rep b' n' s' -> cur s = cur s' -> 1 <= k ->
    exists s1 s1' r, lt src s k = Done (s1, r) /\ lt src s' k = Done (s1', r).
  Proof.
    intros b n s b' n' s' k R R' Hc Hk.
    pose proof (rep_cur _ _ _ R). pose proof (r_p _ _ _ R).
    destruct (lt_spec b n s k (Z.to_nat (cur s)) R Hk ltac:(lia)) as (s1 & n1 & r & E & _ & _ & _ & _ & _ & Ha & Hb & _).
    destruct (lt_spec b' n' s' k (Z.to_nat (cur s)) R' Hk ltac:(lia)) as (s1' & n1' & r' & E' & _ & _ & _ & _ & _ & Ha' & Hb' & _).
    exists s1, s1', r. split; [auto|]. rewrite E'. do 2 f_equal.
    destruct (no_eof_dec (Z.to_nat (cur s) + Z.to_nat (k - 1))) as [D|D].
    - rewrite Ha, Ha'; auto.
    - rewrite Hb, Hb'; auto.
  Qed.

  (** Token iterator. *)
  Lemma titer_spec : forall k b n s c, rep b n s -> cur s = Z.of_nat c -> no_eof_before src (c + k) ->
    exists s' b' n', titer_take src k s false = Done (s', false, map (fun i => Some (tok_at src i)) (seq c k)) /\
      rep b' n' s' /\ cur s' = Z.of_nat (c + k).
  Proof.
    induction k as [|k IH]; intros b n s c R Hc Hno; cbn [titer_take].
    - exists s, b, n. rewrite Nat.add_0_r. auto.
    - unfold titer_next.
      destruct (lt_spec b n s 1 c R ltac:(lia) Hc) as (s1 & n1 & r & E & R1 & Hn & Hc1 & Hp1 & Hm1 & Hs & _).
      rewrite E. cbn [obind]. replace (c + Z.to_nat (1 - 1))%nat with c in * by lia.
      rewrite (Hs (rep_noeof_cur _ _ _ _ R Hc)). cbn [tok_at set_index t_type].
      assert (He : ~ is_eof src c) by (apply Hno; lia).
      destruct (_ =? TOKEN_EOF) eqn:E1; [unfold is_eof in He; lia|].
      destruct (consume_spec b n1 s1 c R1 ltac:(lia)) as [_ H2].
      destruct (H2 He) as (s2 & n2 & E2 & R2 & _ & Hc2 & _). rewrite E2. cbn [obind].
      destruct (IH b n2 s2 (S c) R2 ltac:(lia)) as (s3 & b3 & n3 & E3 & R3 & Hc3).
      { intros m Hm. apply Hno. lia. }
      rewrite E3. cbn [obind]. exists s3, b3, n3. split; [reflexivity|]. split; [auto|lia].
  Qed.

  Lemma titer_eof : forall b n s c, rep b n s -> cur s = Z.of_nat c -> is_eof src c ->
    exists s', titer_next src s false = Done (s', true, Some (tok_at src c)).
  Proof.
    intros b n s c R Hc He. unfold titer_next.
    destruct (lt_spec b n s 1 c R ltac:(lia) Hc) as (s1 & n1 & r & E & R1 & Hn & Hc1 & Hp1 & Hm1 & Hs & _).
    rewrite E. cbn [obind]. replace (c + Z.to_nat (1 - 1))%nat with c in * by lia.
    rewrite (Hs (rep_noeof_cur _ _ _ _ R Hc)). cbn [tok_at set_index t_type].
    unfold is_eof in He. rewrite He. eexists. reflexivity.
  Qed.

  (** Growth: without marks the buffer keeps every consumed token. *)
  Lemma consume_grow : forall k n s c, rep 0 n s -> cur s = Z.of_nat c -> no_eof_before src (c + k) ->
    exists s' n', trun src s (repeat TConsume k) = Done s' /\ rep 0 n' s' /\
      cur s' = Z.of_nat (c + k) /\ markers s' = markers s /\ (1 <= k -> (c + k < n'))%nat.
  Proof.
    induction k as [|k IH]; intros n s c R Hc Hno; cbn [repeat trun].
    - exists s, n. rewrite Nat.add_0_r. split; [auto|]. split; [auto|]. split; [auto|]. split; [auto|lia].
    - cbn [tstep]. destruct (consume_spec 0 n s c R Hc) as [_ H2].
      destruct (H2 (Hno c ltac:(lia))) as (s2 & n2 & E2 & R2 & Hn2 & Hc2 & Hm2 & Hp2 & _). rewrite E2. cbn [obind].
      destruct (IH n2 s2 (S c) R2 ltac:(lia)) as (s3 & n3 & E3 & R3 & Hc3 & Hm3 & Hlt).
      { intros m Hm. apply Hno. lia. }
      exists s3, n3. split; [auto|]. split; [auto|]. split; [lia|]. split; [congruence|].
      destruct k; [|lia]. intros _. cbn in E3. inversion E3; subst.
      pose proof (rep_cur _ _ _ R3). pose proof (rep_cur _ _ _ R2).
      assert (n3 = n2) by (pose proof (r_pull _ _ _ R2); pose proof (r_pull _ _ _ R3); lia). lia.
  Qed.
End Src.

(** Range text. *)
Lemma sub_list_map_seq : forall {A} (f : nat -> A) b n a e,
  0 <= a -> a <= e -> e <= Z.of_nat n ->
  sub_list (map f (seq b n)) a e = map f (seq (b + Z.to_nat a) (Z.to_nat (e - a))).
Proof.
  intros A f b n a e H1 H2 H3. unfold sub_list.
  rewrite skipn_map, skipn_seq by lia. rewrite firstn_map, firstn_seq by lia. auto.
Qed.
