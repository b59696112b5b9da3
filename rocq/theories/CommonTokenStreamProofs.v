(** Proofs about CommonTokenStream. *)
From Coq Require Import ZArith List Bool Lia.
From Coq Require Import ZifyBool ZifyNat.
From Verif Require Import CharStreamModel CharStreamProofs TokenStreamModel TokenStreamSpec TokenStreamProofs.
Import ListNotations.
Open Scope Z_scope.

Section Common.
  Variable src : nat -> tok.
  Variable ch : Z.
  Variable fuel : nat.

  Notation rep := (rep src).

  (** The stream points at a buffered token and the buffer starts at token 0. *)
  Definition crep (n : nat) (s : uts) : Prop := rep 0 n s /\ p s < Z.of_nat n.

  Lemma crep_cur : forall n s, crep n s -> p s = cur s.
  Proof. intros n s [R _]. pose proof (r_base _ _ _ _ R). lia. Qed.

  Lemma csync_spec : forall n s i, rep 0 n s ->
    exists s' ok n', csync src s i = (s', ok) /\ rep 0 n' s' /\ (n <= n')%nat /\
      cur s' = cur s /\ p s' = p s /\ markers s' = markers s /\
      (ok = true -> i < Z.of_nat n') /\
      (ok = false -> (0 < n')%nat /\ is_eof src (pred n') /\ Z.of_nat n' <= i) /\
      Z.of_nat n' <= Z.max (Z.of_nat n) (i + 1) /\
      (i < Z.of_nat n -> s' = s).
  Proof.
    intros n s i R. unfold csync, tsize. cbv zeta. rewrite (r_toks _ _ _ _ R), zlen_map_seq.
    destruct (i - Z.of_nat n + 1 >? 0) eqn:E.
    - unfold fill. destruct (fill_loop_spec src (Z.to_nat (i - Z.of_nat n + 1)) 0 0 n s R)
        as (m & s' & E1 & R' & Hc & Hp & Hm & Hle & Hor).
      rewrite E1. eexists _, _, (n + m)%nat. split; [reflexivity|]. split; [auto|]. split; [lia|].
      split; [auto|]. split; [auto|]. split; [auto|]. split; [lia|]. split; [|split; lia].
      intros Hf. destruct Hor as [->|[H1 H2]]; [lia|]. cbn in H2. split; [lia|]. split; [auto|lia].
    - exists s, true, n. intuition lia.
  Qed.

  Lemma csync_fst : forall n s i, rep 0 n s ->
    exists n', rep 0 n' (fst (csync src s i)) /\ (n <= n')%nat /\
      cur (fst (csync src s i)) = cur s /\ p (fst (csync src s i)) = p s /\
      markers (fst (csync src s i)) = markers s /\
      (i < Z.of_nat n' \/ ((0 < n')%nat /\ is_eof src (pred n') /\ Z.of_nat n' <= i)) /\
      (i < Z.of_nat n -> fst (csync src s i) = s).
  Proof.
    intros n s i R. destruct (csync_spec n s i R) as (s' & ok & n' & E & R' & Hn & Hc & Hp & Hm & Ht & Hf & _ & Hs).
    rewrite E. cbn [fst]. exists n'. split; [auto|]. split; [auto|]. split; [auto|]. split; [auto|].
    split; [auto|]. split; [|auto]. destruct ok; [left; auto|right; auto].
  Qed.

  Lemma rep_get : forall n s i, rep 0 n s -> (i < n)%nat -> zget (tokens s) (Z.of_nat i) = Some (tok_at src i).
  Proof.
    intros n s i R Hi. rewrite (r_toks _ _ _ _ R), zget_map_seq. destruct (_ && _) eqn:E; [|lia].
    rewrite Nat2Z.id. reflexivity.
  Qed.

  Lemma rep_get_inv : forall n s i t, rep 0 n s -> zget (tokens s) i = Some t ->
    0 <= i < Z.of_nat n /\ t = tok_at src (Z.to_nat i).
  Proof.
    intros n s i t R H. rewrite (r_toks _ _ _ _ R), zget_map_seq in H. destruct (_ && _) eqn:E; [|easy].
    inversion H. split; [lia|auto].
  Qed.

  Lemma rep_noeof_lt : forall n s i, rep 0 n s -> (i < n)%nat -> no_eof_before src i.
  Proof. intros n s i R Hi m Hm. apply (r_noeof _ _ _ _ R). cbn. lia. Qed.

  Lemma eof_le : forall n s e, rep 0 n s -> is_eof src e -> (n <= S e)%nat.
  Proof. intros. apply (rep_n_le src 0 n s e); auto. Qed.

  Lemma chan_fwd : forall f n s i e, rep 0 n s -> (i < n)%nat -> is_eof src e -> (e <= i + f)%nat ->
    exists s' n' j, chan_loop src ch f s (Z.of_nat i) 1 = Done (s', Z.of_nat j) /\ rep 0 n' s' /\ (n <= n')%nat /\
      cur s' = cur s /\ p s' = p s /\ markers s' = markers s /\ (j < n')%nat /\ first_visible src ch i j.
  Proof.
    induction f as [|f IH]; intros n s i e R Hi He Hf; cbn [chan_loop];
      rewrite (rep_get _ _ _ R Hi); cbn [tok_at set_index t_channel t_type];
      destruct (t_channel (src i) =? ch) eqn:Ec.
    1, 3: exists s, n, i; intuition; unfold first_visible, visible; intuition lia.
    all: destruct (t_type (src i) =? TOKEN_EOF) eqn:Et; cbn [orb].
    1, 3: exists s, n, i; intuition; unfold first_visible, visible, is_eof; intuition lia.
    - (* out of fuel is impossible: EOF at e <= i *)
      exfalso. pose proof (eof_le _ _ _ R He). assert (e = i) by lia. subst e. unfold is_eof in He. lia.
    - destruct (Z.of_nat i <? 0) eqn:E0; [lia|].
      destruct (csync_fst n s (Z.of_nat i + 1) R) as (n1 & R1 & Hn1 & Hc1 & Hp1 & Hm1 & Hor & _).
      destruct Hor as [Hor|(H1 & H2 & H3)].
      + replace (Z.of_nat i + 1) with (Z.of_nat (S i)) in * by lia.
        destruct (IH n1 _ (S i) e R1 ltac:(lia) He ltac:(lia)) as (s' & n' & j & E & R' & Hn' & Hc & Hp & Hm & Hj & Hv).
        exists s', n', j. rewrite E. split; [auto|]. split; [auto|]. split; [lia|].
        split; [congruence|]. split; [congruence|]. split; [congruence|]. split; [auto|].
        destruct Hv as (Ha & Hb & Hcc). split; [lia|]. split; [auto|].
        intros m Hm'. destruct (Nat.eq_dec m i) as [->|Hne]; [|apply Hcc; lia].
        unfold visible, is_eof. lia.
      + exfalso. assert (pred n1 = i) by lia. rewrite H in H2. unfold is_eof in H2. lia.
  Qed.

  Lemma next_fwd : forall n s i e, rep 0 n s -> no_eof_before src i -> is_eof src e -> (e <= i + fuel)%nat ->
    exists s' n' j, next_token_on_channel src ch fuel s (Z.of_nat i) 1 = Done (s', Z.of_nat j) /\
      rep 0 n' s' /\ (n <= n')%nat /\
      cur s' = cur s /\ p s' = p s /\ markers s' = markers s /\ (j < n')%nat /\ first_visible src ch i j.
  Proof.
    intros n s i e R Hno He Hf. unfold next_token_on_channel. cbv zeta.
    destruct (csync_fst n s (Z.of_nat i) R) as (n1 & R1 & Hn1 & Hc1 & Hp1 & Hm1 & Hor & _).
    unfold tsize. rewrite (r_toks _ _ _ _ R1), zlen_map_seq.
    destruct Hor as [Hor|(H1 & H2 & H3)].
    - destruct (Z.of_nat i >=? Z.of_nat n1) eqn:E; [lia|].
      destruct (chan_fwd fuel n1 _ i e R1 ltac:(lia) He Hf) as (s' & n' & j & E1 & R' & Hn' & Hc & Hp & Hm & Hj & Hv).
      exists s', n', j. rewrite E1. split; [auto|]. split; [auto|]. split; [lia|].
      split; [congruence|]. split; [congruence|]. split; [congruence|]. split; auto.
    - exfalso. apply (Hno (pred n1)); auto. lia.
  Qed.

  Lemma cconsume_spec : forall n s c, crep n s -> cur s = Z.of_nat c ->
    (is_eof src c -> cconsume src ch fuel s = Crash) /\
    (forall e, ~ is_eof src c -> is_eof src e -> (e <= S c + fuel)%nat ->
      exists s' n' j, cconsume src ch fuel s = Done s' /\ crep n' s' /\ (n <= n')%nat /\
        cur s' = Z.of_nat j /\ markers s' = markers s /\ first_visible src ch (S c) j).
  Proof.
    intros n s c [R Hp] Hc. destruct (consume_spec src 0 n s c R Hc) as [H1 H2]. unfold cconsume. split.
    - intros He. rewrite H1 by auto. auto.
    - intros e Hne He Hf. destruct (H2 Hne) as (s1 & n1 & E1 & R1 & Hn1 & Hc1 & Hm1 & Hp1 & _).
      rewrite E1. cbn [obind].
      pose proof (rep_cur _ _ _ _ R1) as Hcp. cbn in Hcp.
      replace (p s1) with (Z.of_nat (S c)) by lia.
      assert (Hno : no_eof_before src (S c)).
      { intros m Hm. destruct (Nat.eq_dec m c) as [->|]; auto. 
        apply (rep_noeof_cur _ _ _ _ _ R Hc). lia. }
      destruct (next_fwd n1 s1 (S c) e R1 Hno He ltac:(lia)) as (s2 & n2 & j & E2 & R2 & Hn2 & Hc2 & Hp2 & Hm2 & Hj & Hv).
      rewrite E2. cbn [obind].
      destruct (seek_spec src 0 n2 s2 (Z.of_nat j) R2) as [[Hs E3]|[(Hs & Hr & E3 & R3)|(Hs & Hr & E3)]]; rewrite E3.
      + exists s2, n2, j. pose proof (rep_cur _ _ _ _ R2). 
        split; [auto|]. split; [split; [auto|lia]|]. split; [lia|]. split; [auto|]. split; [congruence|auto].
      + eexists _, n2, j. split; [reflexivity|]. split; [split; [exact R3|cbn; lia]|]. cbn [cur markers].
        split; [lia|]. split; [auto|]. split; [congruence|auto].
      + cbn in Hr. lia.
  Qed.

  Lemma lt_loop_spec : forall m n s i k e, rep 0 n s -> (i < n)%nat -> is_eof src e -> (e <= i + fuel)%nat ->
    forall p0, kth_visible src ch p0 k i ->
    exists s' n' j, lt_loop src ch fuel m s (Z.of_nat i) = Done (s', Z.of_nat j) /\ rep 0 n' s' /\ (n <= n')%nat /\
      cur s' = cur s /\ p s' = p s /\ markers s' = markers s /\ (j < n')%nat /\ kth_visible src ch p0 (k + m) j.
  Proof.
    induction m as [|m IH]; intros n s i k e R Hi He Hf p0 Hk; cbn [lt_loop].
    - exists s, n, i. rewrite Nat.add_0_r. intuition.
    - destruct (csync_spec n s (Z.of_nat i + 1) R) as (s1 & ok & n1 & E1 & R1 & Hn1 & Hc1 & Hp1 & Hm1 & Ht & Hfl & _).
      rewrite E1. destruct (eof_dec src i) as [Hei|Hei].
      + pose proof (eof_le _ _ _ R1 Hei). destruct ok; [specialize (Ht eq_refl); lia|].
        destruct (IH n1 s1 i (S k) e R1 ltac:(lia) He Hf p0) as (s' & n' & j & E & R' & Hn & Hc & Hp & Hm & Hj & Hv).
        { apply kv_eof; auto. }
        exists s', n', j. rewrite E. split; [auto|]. split; [auto|]. split; [lia|].
        split; [congruence|]. split; [congruence|]. split; [congruence|]. split; [auto|].
        replace (k + S m)%nat with (S k + m)%nat by lia. auto.
      + destruct ok.
        2:{ destruct (Hfl eq_refl) as (H1 & H2 & H3). assert (H4 : pred n1 = i) by lia. rewrite H4 in H2. easy. }
        replace (Z.of_nat i + 1) with (Z.of_nat (S i)) by lia.
        assert (Hno : no_eof_before src (S i)).
        { intros x Hx. destruct (Nat.eq_dec x i) as [->|]; auto. apply (rep_noeof_lt _ _ _ R Hi). lia. }
        destruct (next_fwd n1 s1 (S i) e R1 Hno He ltac:(lia)) as (s2 & n2 & j2 & E2 & R2 & Hn2 & Hc2 & Hp2 & Hm2 & Hj2 & Hv2).
        rewrite E2. cbn [obind].
        assert (Hij : (i < j2)%nat) by (destruct Hv2; lia).
        destruct (IH n2 s2 j2 (S k) e R2 ltac:(lia) He ltac:(lia) p0) as (s' & n' & j & E & R' & Hn & Hc & Hp & Hm & Hj & Hv).
        { eapply kv_next; eauto. }
        exists s', n', j. rewrite E. split; [auto|]. split; [auto|]. split; [lia|].
        split; [congruence|]. split; [congruence|]. split; [congruence|]. split; [auto|].
        replace (k + S m)%nat with (S k + m)%nat by lia. auto.
  Qed.

  Lemma clt_spec : forall n s c k e, crep n s -> cur s = Z.of_nat c -> 1 <= k ->
    is_eof src e -> (e <= c + fuel)%nat ->
    exists s' n' j, clt src ch fuel s k = Done (s', Some (tok_at src j)) /\ crep n' s' /\ (n <= n')%nat /\
      cur s' = cur s /\ p s' = p s /\ markers s' = markers s /\ kth_visible src ch c (Z.to_nat k) j.
  Proof.
    intros n s c k e C Hc Hk He Hf. pose proof (crep_cur _ _ C) as Hpc. destruct C as [R Hp].
    pose proof (r_p _ _ _ _ R).
    unfold clt. destruct (k =? 1) eqn:E1.
    - exists s, n, c. replace (p s) with (Z.of_nat c) by lia. rewrite (rep_get n s c R) by lia.
      replace (Z.to_nat k) with 1%nat by lia. split; [auto|]. split; [split; [auto|lia]|].
      repeat split; auto. constructor.
    - destruct (k =? 0) eqn:E2; [lia|]. destruct (k <? 0) eqn:E3; [lia|].
      unfold lt_inner. replace (p s) with (Z.of_nat c) by lia.
      destruct (lt_loop_spec (Z.to_nat (k - 1)) n s c 1 e R ltac:(lia) He Hf c (kv_one _ _ _))
        as (s' & n' & j & E & R' & Hn & Hc' & Hp' & Hm & Hj & Hv).
      rewrite E. cbn [obind]. rewrite (rep_get n' s' j R' Hj). exists s', n', j.
      replace (1 + Z.to_nat (k - 1))%nat with (Z.to_nat k) in Hv by lia.
      split; [auto|]. split; [split; [auto|lia]|]. split; [auto|]. split; [auto|]. split; [congruence|auto].
  Qed.

  (** Backwards. *)
  Lemma chan_back_found : forall d f n s i j, rep 0 n s -> (i < n)%nat -> no_eof_before src (S i) ->
    d = (i - j)%nat -> (d <= f)%nat -> (j <= i)%nat -> t_channel (src j) = ch ->
    (forall m, (j < m <= i)%nat -> t_channel (src m) <> ch) ->
    chan_loop src ch f s (Z.of_nat i) (-1) = Done (s, Z.of_nat j).
  Proof.
    induction d as [|d IH]; intros f n s i j R Hi Hno Hd Hf Hji Hj Hbt;
      destruct f as [|f]; try lia; cbn [chan_loop]; rewrite (rep_get _ _ _ R Hi); cbn [tok_at set_index t_channel t_type].
    - assert (j = i) by lia; subst j. rewrite Hj, Z.eqb_refl. auto.
    - assert (j = i) by lia; subst j. rewrite Hj, Z.eqb_refl. auto.
    - specialize (Hbt i ltac:(lia)) as Hbi. destruct (t_channel (src i) =? ch) eqn:E; [lia|].
      specialize (Hno i ltac:(lia)) as Hni. unfold is_eof in Hni.
      destruct (t_type (src i) =? TOKEN_EOF) eqn:E1; [lia|]. destruct (Z.of_nat i <? 0) eqn:E2; [lia|]. cbn [orb].
      destruct (csync_fst n s (Z.of_nat i + -1) R) as (n1 & _ & _ & _ & _ & _ & _ & Hs). rewrite Hs by lia.
      replace (Z.of_nat i + -1) with (Z.of_nat (pred i)) by lia.
      apply (IH f n s (pred i) j); auto; try lia.
      + intros m Hm. apply Hno. lia.
      + intros m Hm. apply Hbt. lia.
  Qed.

  Lemma lb_loop_spec : forall m n s i c k, rep 0 n s -> (c < n)%nat -> cur s = Z.of_nat c -> (c <= fuel)%nat ->
    forall j, (i <= c)%nat -> kth_back src ch i m j -> k = m -> 
    lb_loop src ch fuel k s (Z.of_nat i) = Done (s, Z.of_nat j) /\ (j + m <= i)%nat.
  Proof.
    (* kth_back grows at the far end, so first turn it around *)
    assert (Hturn : forall m i j, kth_back src ch i (S (S m)) j ->
              exists x, prev_on_channel src ch i x /\ kth_back src ch x (S m) j).
    { induction m as [|m IH]; intros i j H; inversion H as [|k x y Hk Hp]; subst.
      - inversion Hk as [z Hz|k z w Hz Hz']; subst; [|inversion Hz].
        exists x. split; auto. constructor; auto.
      - destruct (IH _ _ Hk) as (z & Hz & Hz'). exists z. split; auto. econstructor; eauto. }
    assert (Hone : forall n s i c j, rep 0 n s -> (c < n)%nat -> cur s = Z.of_nat c -> (c <= fuel)%nat ->
               (i <= c)%nat -> prev_on_channel src ch i j ->
               next_token_on_channel src ch fuel s (Z.of_nat i - 1) (-1) = Done (s, Z.of_nat j)).
    { intros n s i c j R Hcn Hc Hf Hic (H1 & H2 & H3). unfold next_token_on_channel. cbv zeta.
      destruct (csync_fst n s (Z.of_nat i - 1) R) as (n1 & _ & _ & _ & _ & _ & _ & Hs). rewrite Hs by lia.
      unfold tsize. rewrite (r_toks _ _ _ _ R), zlen_map_seq.
      destruct (Z.of_nat i - 1 >=? Z.of_nat n) eqn:E; [lia|].
      replace (Z.of_nat i - 1) with (Z.of_nat (pred i)) by lia.
      eapply (chan_back_found _ fuel n s (pred i) j R); try reflexivity; auto; try lia.
      - intros m Hm. apply (rep_noeof_cur _ _ _ _ _ R Hc). lia.
      - intros m Hm. apply H3. lia. }
    induction m as [|m IH]; intros n s i c k R Hcn Hc Hf j Hic Hk ->; [inversion Hk|].
    destruct m as [|m].
    - inversion Hk as [x Hx|? ? ? Hbad]; subst; [|inversion Hbad].
      cbn [lb_loop]. assert (Hji : (j < i)%nat) by (destruct Hx; lia).
      destruct (Z.of_nat i >? 0) eqn:E; [|lia].
      rewrite (Hone n s i c j) by auto. cbn [obind]. split; [auto|lia].
    - destruct (Hturn _ _ _ Hk) as (x & Hx & Hx'). assert (Hji : (x < i)%nat) by (destruct Hx; lia).
      change (lb_loop src ch fuel (S (S m)) s (Z.of_nat i)) with
        (if Z.of_nat i >? 0 then
           do r <- next_token_on_channel src ch fuel s (Z.of_nat i - 1) (-1);
           let '(s, i) := r in lb_loop src ch fuel (S m) s i
         else Done (s, Z.of_nat i)).
      destruct (Z.of_nat i >? 0) eqn:E; [|lia].
      rewrite (Hone n s i c x) by auto. cbn [obind].
      destruct (IH n s x c (S m) R Hcn Hc Hf j ltac:(lia) Hx' eq_refl) as [E1 E2].
      split; [exact E1|lia].
  Qed.

  Lemma lb_found : forall n s c k j, crep n s -> cur s = Z.of_nat c -> (c <= fuel)%nat -> 1 <= k ->
    kth_back src ch c (Z.to_nat k) j -> clt src ch fuel s (- k) = Done (s, Some (tok_at src j)).
  Proof.
    intros n s c k j C Hc Hf Hk Hb. pose proof (crep_cur _ _ C) as Hpc. destruct C as [R Hp].
    unfold clt. destruct (- k =? 1) eqn:E1; [lia|]. destruct (- k =? 0) eqn:E2; [lia|].
    destruct (- k <? 0) eqn:E3; [|lia]. unfold lb. replace (- - k) with k by lia.
    replace (p s) with (Z.of_nat c) by lia.
    destruct (lb_loop_spec (Z.to_nat k) n s c c (Z.to_nat k) R ltac:(lia) Hc Hf j ltac:(lia) Hb eq_refl) as [E Hle].
    destruct ((k =? 0) || (Z.of_nat c - k <? 0)) eqn:E4; [lia|].
    rewrite E. cbn [obind]. destruct (Z.of_nat j <? 0) eqn:E5; [lia|].
    rewrite (rep_get n s j R) by lia. auto.
  Qed.

  (** Invariant over arbitrary histories. *)
  Lemma chan_loop_rep : forall f n s i d s' j, rep 0 n s -> chan_loop src ch f s i d = Done (s', j) ->
    exists n', rep 0 n' s' /\ (n <= n')%nat /\ cur s' = cur s /\ p s' = p s /\ markers s' = markers s /\
      0 <= j < Z.of_nat n'.
  Proof.
    induction f as [|f IH]; intros n s i d s' j R H; cbn [chan_loop] in H;
      destruct (zget (tokens s) i) as [t|] eqn:E; try easy;
      destruct (rep_get_inv _ _ _ _ R E) as [Hi _];
      destruct (t_channel t =? ch);
      try (inversion H; subst; exists n; intuition lia);
      destruct ((t_type t =? TOKEN_EOF) || (i <? 0)); try easy;
      try (inversion H; subst; exists n; intuition lia).
    destruct (csync_fst n s (i + d) R) as (n1 & R1 & Hn1 & Hc1 & Hp1 & Hm1 & _).
    destruct (IH _ _ _ _ _ _ R1 H) as (n' & R' & Hn' & Hc' & Hp' & Hm' & Hj).
    exists n'. intuition (congruence || lia).
  Qed.

  Lemma next_rep : forall n s i d s' j, rep 0 n s -> (0 < n)%nat ->
    next_token_on_channel src ch fuel s i d = Done (s', j) ->
    exists n', rep 0 n' s' /\ (n <= n')%nat /\ cur s' = cur s /\ p s' = p s /\ markers s' = markers s /\
      0 <= j < Z.of_nat n'.
  Proof.
    intros n s i d s' j R Hn0 H. unfold next_token_on_channel in H. cbv zeta in H.
    destruct (csync_fst n s i R) as (n1 & R1 & Hn1 & Hc1 & Hp1 & Hm1 & _).
    unfold tsize in H. rewrite (r_toks _ _ _ _ R1), zlen_map_seq in H.
    destruct (i >=? Z.of_nat n1).
    - inversion H; subst. exists n1. intuition (congruence || lia).
    - destruct (chan_loop_rep _ _ _ _ _ _ _ R1 H) as (n' & R' & Hn' & Hc' & Hp' & Hm' & Hj).
      exists n'. intuition (congruence || lia).
  Qed.

  Lemma lt_loop_rep : forall m n s i s' j, rep 0 n s -> (0 < n)%nat ->
    lt_loop src ch fuel m s i = Done (s', j) ->
    exists n', rep 0 n' s' /\ (n <= n')%nat /\ cur s' = cur s /\ p s' = p s /\ markers s' = markers s.
  Proof.
    induction m as [|m IH]; intros n s i s' j R Hn0 H; cbn [lt_loop] in H.
    - inversion H; subst. exists n; auto.
    - destruct (csync_spec n s (i + 1) R) as (s1 & ok & n1 & E1 & R1 & Hn1 & Hc1 & Hp1 & Hm1 & _).
      rewrite E1 in H. destruct ok.
      + destruct (next_token_on_channel src ch fuel s1 (i + 1) 1) as [[s2 i2]| |] eqn:E2; cbn in H; try easy.
        destruct (next_rep _ _ _ _ _ _ R1 ltac:(lia) E2) as (n2 & R2 & Hn2 & Hc2 & Hp2 & Hm2 & _).
        destruct (IH _ _ _ _ _ R2 ltac:(lia) H) as (n' & R' & Hn' & Hc' & Hp' & Hm').
        exists n'. intuition (congruence || lia).
      + destruct (IH _ _ _ _ _ R1 ltac:(lia) H) as (n' & R' & Hn' & Hc' & Hp' & Hm').
        exists n'. intuition (congruence || lia).
  Qed.

  Lemma lb_loop_rep : forall m n s i s' j, rep 0 n s -> (0 < n)%nat ->
    lb_loop src ch fuel m s i = Done (s', j) ->
    exists n', rep 0 n' s' /\ (n <= n')%nat /\ cur s' = cur s /\ p s' = p s /\ markers s' = markers s.
  Proof.
    induction m as [|m IH]; intros n s i s' j R Hn0 H; cbn [lb_loop] in H.
    - inversion H; subst. exists n; auto.
    - destruct (i >? 0).
      + destruct (next_token_on_channel src ch fuel s (i - 1) (-1)) as [[s2 i2]| |] eqn:E2; cbn in H; try easy.
        destruct (next_rep _ _ _ _ _ _ R ltac:(lia) E2) as (n2 & R2 & Hn2 & Hc2 & Hp2 & Hm2 & _).
        destruct (IH _ _ _ _ _ R2 ltac:(lia) H) as (n' & R' & Hn' & Hc' & Hp' & Hm').
        exists n'. intuition (congruence || lia).
      + inversion H; subst. exists n; auto.
  Qed.

  Lemma clt_rep : forall n s k s' r, crep n s -> clt src ch fuel s k = Done (s', r) ->
    exists n', crep n' s' /\ (n <= n')%nat /\ cur s' = cur s /\ p s' = p s /\ markers s' = markers s.
  Proof.
    intros n s k s' r [R Hp] H. pose proof (r_p _ _ _ _ R). unfold clt in H.
    destruct (k =? 1); [inversion H; subst; exists n; unfold crep; auto|].
    destruct (k =? 0); [easy|]. destruct (k <? 0).
    - unfold lb in H. destruct (_ || _); [inversion H; subst; exists n; unfold crep; auto|].
      destruct (lb_loop _ _ _ _ _ _) as [[s2 i2]| |] eqn:E; cbn in H; try easy.
      destruct (lb_loop_rep _ _ _ _ _ _ R ltac:(lia) E) as (n' & R' & Hn & Hc & Hp' & Hm).
      destruct (i2 <? 0); inversion H; subst; exists n'; unfold crep; intuition lia.
    - unfold lt_inner in H. destruct (lt_loop _ _ _ _ _ _) as [[s2 i2]| |] eqn:E; cbn in H; try easy.
      destruct (lt_loop_rep _ _ _ _ _ _ R ltac:(lia) E) as (n' & R' & Hn & Hc & Hp' & Hm).
      inversion H; subst; exists n'; unfold crep; intuition lia.
  Qed.

  Lemma cseek_rep : forall n s i s', crep n s -> tseek src s i = Done s' ->
    crep n s' /\ cur s' = i /\ markers s' = markers s.
  Proof.
    intros n s i s' [R Hp] H.
    destruct (seek_spec src 0 n s i R) as [[Hs E]|[(Hs & Hr & E & R')|(_ & _ & E)]]; rewrite E in H; inversion H; subst.
    - split; [split; auto|auto].
    - split; [split; [auto|cbn in *; lia]|auto].
  Qed.

  Lemma cconsume_rep : forall n s s', crep n s -> cconsume src ch fuel s = Done s' ->
    exists n', crep n' s' /\ (n <= n')%nat.
  Proof.
    intros n s s' [R Hp] H. unfold cconsume in H. pose proof (r_p _ _ _ _ R) as Hrp. pose proof (rep_cur _ _ _ _ R) as Hrc.
    destruct (consume_spec src 0 n s (Z.to_nat (cur s)) R ltac:(lia)) as [H1 H2].
    destruct (eof_dec src (Z.to_nat (cur s))) as [He|He]; [rewrite H1 in H by auto; easy|].
    destruct (H2 He) as (s1 & n1 & E1 & R1 & Hn1 & Hc1 & Hm1 & Hp1 & _). rewrite E1 in H. cbn [obind] in H.
    destruct (next_token_on_channel _ _ _ _ _ _) as [[s2 i2]| |] eqn:E2; cbn in H; try easy.
    destruct (next_rep _ _ _ _ _ _ R1 ltac:(lia) E2) as (n2 & R2 & Hn2 & Hc2 & Hp2 & Hm2 & _).
    destruct (cseek_rep n2 s2 i2 s') as (A & _); auto.
    - split; [auto|lia].
    - exists n2. split; [auto|lia].
  Qed.

  Lemma creset_rep : forall n s, crep n s -> crep n (creset s).
  Proof.
    intros n s [R Hp]. pose proof (r_p _ _ _ _ R). destruct R as [A1 A2 A3 A4 A5 A6].
    split; [constructor; cbn; auto; lia|cbn; lia].
  Qed.

  Lemma cstep_rep : forall n s o s', crep n s -> cstep src ch fuel s o = Done s' ->
    exists n', crep n' s' /\ (n <= n')%nat.
  Proof.
    intros n s o s' C H. destruct o as [k| | |m|i|]; cbn [cstep] in H.
    - destruct (clt src ch fuel s k) as [[s1 r]| |] eqn:E; cbn in H; inversion H; subst.
      destruct (clt_rep _ _ _ _ _ C E) as (n' & C' & Hn & _). eauto.
    - eapply cconsume_rep; eauto.
    - inversion H; subst. eauto.
    - inversion H; subst. eauto.
    - destruct (cseek_rep _ _ _ _ C H) as (C' & _). eauto.
    - inversion H; subst. exists n. split; [apply creset_rep; auto|lia].
  Qed.

  Lemma crun_rep : forall ops n s s', crep n s -> crun src ch fuel s ops = Done s' ->
    exists n', crep n' s' /\ (n <= n')%nat.
  Proof.
    induction ops as [|o ops IH]; intros n s s' C H; cbn in H.
    - inversion H; subst. eauto.
    - destruct (cstep src ch fuel s o) as [s1| |] eqn:E; cbn in H; try easy.
      destruct (cstep_rep _ _ _ _ C E) as (n1 & C1 & Hn1).
      destruct (IH _ _ _ C1 H) as (n' & C' & Hn'). exists n'. split; [auto|lia].
  Qed.

  Lemma with_channel_rep : crep 1 (with_channel src) /\ cur (with_channel src) = 0.
  Proof.
    unfold with_channel.
    destruct (csync_spec 0 new_buffered 0 (rep_new_buffered src)) as (s' & ok & n' & E & R & Hn & Hc & Hp & Hm & Ht & Hf & Hmax & _).
    rewrite E. cbn [fst]. cbn in Hmax, Hc, Hp.
    assert (n' = 1%nat). { destruct ok; [specialize (Ht eq_refl)|specialize (Hf eq_refl)]; lia. } subst n'.
    split; [split; [auto|lia]|auto].
  Qed.

  Lemma crun_reach : forall ops s, crun src ch fuel (with_channel src) ops = Done s ->
    exists n, crep n s /\ (1 <= n)%nat.
  Proof. intros. destruct with_channel_rep as [C _]. eapply crun_rep; eauto. Qed.
End Common.

(** Visiting all tokens. *)
Section Visit.
  Variable src : nat -> tok.
  Variable ch : Z.
  Variable fuel : nat.

  Lemma visit_spec : forall n m s c e, crep src m s -> cur s = Z.of_nat c -> eof_number src e ->
    (c <= e)%nat -> (e < c + n)%nat -> (e <= fuel)%nat -> visible src ch c ->
    visit src ch fuel n s = Done (map (tok_at src) (filter (fun i => t_channel (src i) =? ch) (seq c (e - c))) ++ [tok_at src e]).
  Proof.
    induction n as [|n IH]; intros m s c e C Hc He Hce Hn Hf Hv; [lia|]. cbn [visit].
    destruct He as [He Hno].
    destruct (clt_spec src ch fuel m s c 1 e C Hc ltac:(lia) He ltac:(lia)) as (s1 & m1 & j & E1 & C1 & Hm1 & Hc1 & Hp1 & _ & Hk).
    assert (j = c).
    { change (Z.to_nat 1) with 1%nat in Hk. inversion Hk as [|k x Hx|k x y Hx]; subst; auto; inversion Hx. }
    subst j. rewrite E1. cbn [obind tok_at set_index t_type].
    destruct (Nat.eq_dec c e) as [->|Hne].
    - unfold is_eof in He. rewrite He. rewrite Nat.sub_diag. reflexivity.
    - assert (Hnc : ~ is_eof src c) by (apply Hno; lia).
      destruct (t_type (src c) =? TOKEN_EOF) eqn:Et; [unfold is_eof in Hnc; lia|].
      destruct (cconsume_spec src ch fuel m1 s1 c C1 ltac:(lia)) as [_ H2].
      destruct (H2 e Hnc He ltac:(lia)) as (s2 & m2 & j & E2 & C2 & Hm2 & Hc2 & _ & Hfv).
      rewrite E2. cbn [obind]. destruct Hfv as (Ha & Hb & Hd).
      assert (Hje : (j <= e)%nat).
      { destruct (le_lt_dec j e); auto. exfalso. apply (Hd e); [lia|]. right; auto. }
      rewrite (IH m2 s2 j e C2 Hc2) by (auto; try lia; split; auto). cbn [obind].
      f_equal. rewrite app_comm_cons. f_equal.
      replace (e - c)%nat with (S (e - S c)) by lia. cbn [seq filter].
      destruct Hv as [Hv|Hv]; [|easy]. rewrite Hv, Z.eqb_refl. cbn [map]. f_equal. f_equal.
      replace (e - S c)%nat with ((j - S c) + (e - j))%nat by lia. rewrite seq_app, filter_app.
      replace (S c + (j - S c))%nat with j by lia.
      assert (Hnil : forall l, (forall x, In x l -> ~ visible src ch x) -> filter (fun i => t_channel (src i) =? ch) l = []).
      { induction l as [|x l IHl]; intros Hl; auto. cbn.
        destruct (t_channel (src x) =? ch) eqn:Ex; [|apply IHl; intros; apply Hl; right; auto].
        exfalso. apply (Hl x); [left; auto|]. left; lia. }
      rewrite (Hnil (seq (S c) (j - S c))); [reflexivity|]. intros x Hx. apply in_seq in Hx. apply Hd. lia.
  Qed.
End Visit.
