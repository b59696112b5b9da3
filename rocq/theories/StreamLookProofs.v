(** What a prediction does to a CommonTokenStream: the same as looking ahead some number
    of tokens.  (Looking ahead buffers tokens; which ones is observable, because some
    operations panic on tokens that are not buffered.) *)
From Coq Require Import ZArith List Bool Lia.
From Coq Require Import ZifyBool ZifyNat.
From Verif Require Import CharStreamModel CharStreamProofs TokenStreamModel TokenStreamSpec TokenStreamProofs CommonTokenStreamProofs.
From Verif Require Import Outcome IntervalSetModel PredContextModel SemContextModel ConfigSetModel DfaModel AtnModel Ll1Model ParserModel PredictModel PredictFrameProofs PredictStreamProofs.
Import ListNotations.
Local Open Scope Z_scope.

Section Look.
  Variable src : nat -> tok.
  Variable ch : Z.
  Variable fuel : nat.
  Notation rep := (rep src).
  Notation crep := (crep src).

  Lemma rep_unique n n' s : rep 0 n s -> rep 0 n' s -> n = n'.
  Proof. intros R R'. pose proof (r_pull _ _ _ _ R). pose proof (r_pull _ _ _ _ R'). cbn in *. lia. Qed.
  Lemma rep_same n s s' : rep 0 n s -> rep 0 n s' -> cur s' = cur s -> markers s' = markers s -> s' = s.
  Proof.
    intros [A1 A2 A3 _ _ _] [B1 B2 B3 _ _ _] C M. destruct s, s'; cbn in *. subst. f_equal; lia.
  Qed.

  (** exactly the tokens up to the one found are buffered *)
  Lemma chan_exact : forall f n s i s' j, rep 0 n s -> (i < n)%nat -> chan_loop src ch f s (Z.of_nat i) 1 = Done (s', j) ->
    exists n', rep 0 n' s' /\ (n <= n')%nat /\ Z.of_nat n' = Z.max (Z.of_nat n) (j + 1) /\ Z.of_nat i <= j /\ visible src ch (Z.to_nat j) /\
      cur s' = cur s /\ p s' = p s /\ markers s' = markers s.
  Proof.
    induction f as [|f IH]; intros n s i s' j R Hi H; cbn [chan_loop] in H;
      rewrite (rep_get src _ _ _ R Hi) in H; cbn [tok_at set_index t_channel t_type] in H;
      destruct (t_channel (src i) =? ch) eqn:Ec.
    1, 3: inversion H; subst; exists n; rewrite Nat2Z.id; unfold visible; repeat (split; [solve [auto|lia]|]); auto.
    all: destruct (t_type (src i) =? TokenStreamModel.TOKEN_EOF) eqn:Et; cbn [orb] in H.
    1, 3: inversion H; subst; exists n; rewrite Nat2Z.id; unfold visible, is_eof; repeat (split; [solve [auto|lia]|]); auto.
    1: destruct (Z.of_nat i <? 0) eqn:E0; [lia|discriminate].
    destruct (Z.of_nat i <? 0) eqn:E0; [lia|].
    destruct (csync_spec src n s (Z.of_nat i + 1) R) as (s1 & ok & n1 & E1 & R1 & Hn1 & Hc1 & Hp1 & Hm1 & Ht & Hf & Hb & _).
    rewrite E1 in H. cbn [fst] in H. replace (Z.of_nat i + 1) with (Z.of_nat (S i)) in * by lia.
    assert (S i < n1)%nat.
    { destruct ok; [specialize (Ht eq_refl); lia|]. destruct (Hf eq_refl) as (H1 & H2 & H3).
      assert (X : pred n1 = i) by lia. rewrite X in H2. unfold is_eof in H2. lia. }
    destruct (IH _ _ _ _ _ R1 H0 H) as (n' & R' & Hn' & Hx & Hj & Hv & Hc & Hp & Hm). exists n'.
    split; [auto|]. split; [lia|]. split; [lia|]. split; [lia|]. split; [auto|]. split; [congruence|]. split; congruence.
  Qed.
  Lemma next_exact n s i s' j : rep 0 n s -> (0 < i <= n)%nat -> ~ is_eof src (pred i) ->
    next_token_on_channel src ch fuel s (Z.of_nat i) 1 = Done (s', j) ->
    exists n', rep 0 n' s' /\ (n <= n')%nat /\ Z.of_nat n' = Z.max (Z.of_nat n) (j + 1) /\ Z.of_nat i <= j /\ visible src ch (Z.to_nat j) /\
      cur s' = cur s /\ p s' = p s /\ markers s' = markers s.
  Proof.
    intros R Hi Ne H. unfold next_token_on_channel in H. cbv zeta in H.
    destruct (csync_spec src n s (Z.of_nat i) R) as (s1 & ok & n1 & E1 & R1 & Hn1 & Hc1 & Hp1 & Hm1 & Ht & Hf & Hb & _).
    rewrite E1 in H. cbn [fst] in H. unfold tsize in H. rewrite (r_toks _ _ _ _ R1), zlen_map_seq in H.
    assert (i < n1)%nat.
    { destruct ok; [specialize (Ht eq_refl); lia|]. destruct (Hf eq_refl) as (H1 & H2 & H3).
      assert (X : n1 = i) by lia. subst n1. easy. }
    destruct (Z.of_nat i >=? Z.of_nat n1) eqn:E; [lia|].
    destruct (chan_exact _ _ _ _ _ _ R1 H0 H) as (n' & R' & Hn' & Hx & Hj & Hv & Hc & Hp & Hm). exists n'.
    split; [auto|]. split; [lia|]. split; [lia|]. split; [lia|]. split; [auto|]. split; [congruence|]. split; congruence.
  Qed.
  Lemma consume_exact n s s' : crep n s -> cconsume src ch fuel s = Done s' ->
    exists n' v, crep n' s' /\ (n <= n')%nat /\ markers s' = markers s /\ (n' = n \/ n' = S v /\ visible src ch v).
  Proof.
    intros [R Hp] H. unfold cconsume in H. pose proof (r_p _ _ _ _ R) as Hrp. pose proof (rep_cur _ _ _ _ R) as Hrc.
    destruct (consume_spec src 0 n s (Z.to_nat (cur s)) R ltac:(lia)) as [H1 H2].
    destruct (eof_dec src (Z.to_nat (cur s))) as [He|He]; [rewrite H1 in H by auto; easy|].
    destruct (H2 He) as (s1 & n1 & E1 & R1 & Hn1 & Hc1 & Hm1 & Hp1 & Hx1). rewrite E1 in H. cbn [obind] in H.
    pose proof (rep_cur _ _ _ _ R1) as Hrc1. cbn in Hrc, Hrc1.
    replace (p s1) with (Z.of_nat (S (Z.to_nat (cur s)))) in H by lia.
    destruct (next_token_on_channel _ _ _ _ _ _) as [[s2 i2]| |] eqn:E2; cbn in H; try easy.
    assert (Hi1 : (0 < S (Z.to_nat (cur s)) <= n1)%nat) by lia.
    destruct (next_exact _ _ _ _ _ R1 Hi1 He E2) as (n2 & R2 & Hn2 & Hx2 & Hj & Hv & Hc2 & Hp2 & Hm2).
    destruct (cseek_rep src n2 s2 i2 s') as (C' & _ & M'); auto; [split; [auto|lia]|].
    exists n2, (Z.to_nat i2). split; [auto|]. split; [lia|]. split; [congruence|].
    assert (X : n1 = n \/ Z.of_nat n1 = p s + 2); [|destruct (Z_lt_ge_dec (Z.of_nat n) (i2 + 1)); [right; split; [lia|auto]|left; lia]].
    destruct (Z_le_gt_dec (Z.of_nat n) (p s + 1)) as [L|L]; [right; auto|left].
    (* the token after the cursor was buffered already *)
    clear - R L E1 R1 Hp Hrp. unfold tconsume, tla, TokenStreamModel.lt in E1. cbn [obind Z.eqb] in E1.
    assert (Y : forall s0, tokens s0 = tokens s -> p s0 + 1 <= Z.of_nat n -> TokenStreamModel.sync src s0 1 = s0).
    { intros s0 Ht Hs. unfold TokenStreamModel.sync. rewrite Ht, (r_toks _ _ _ _ R), zlen_map_seq. destruct (_ >? 0) eqn:Q; [lia|auto]. }
    rewrite (Y s eq_refl ltac:(lia)) in E1. cbn [obind] in E1.
    match type of E1 with (if ?b then _ else _) = _ => destruct b; [discriminate|] end.
    assert (Q : (p s =? zlen (tokens s)) = false) by (rewrite (r_toks _ _ _ _ R), zlen_map_seq; lia). rewrite Q in E1. cbn [andb] in E1.
    rewrite Y in E1 by (cbn; auto; lia). inversion E1; subst.
    pose proof (r_pull _ _ _ _ R1); pose proof (r_pull _ _ _ _ R); cbn in *; lia.
  Qed.

  (** looking ahead buffers exactly the tokens up to the one looked at *)
  Lemma lt_loop_exact : forall m n s i s' j, rep 0 n s -> (i < n)%nat -> lt_loop src ch fuel m s (Z.of_nat i) = Done (s', j) ->
    exists n', rep 0 n' s' /\ (n <= n')%nat /\ Z.of_nat n' = Z.max (Z.of_nat n) (j + 1) /\ Z.of_nat i <= j /\
      cur s' = cur s /\ p s' = p s /\ markers s' = markers s.
  Proof.
    induction m as [|m IH]; intros n s i s' j R Hi H; cbn [lt_loop] in H.
    - inversion H; subst. exists n. repeat (split; [solve [auto|lia]|]); auto.
    - destruct (csync_spec src n s (Z.of_nat i + 1) R) as (s1 & ok & n1 & E1 & R1 & Hn1 & Hc1 & Hp1 & Hm1 & Ht & Hf & Hb & _).
      rewrite E1 in H. destruct ok.
      + specialize (Ht eq_refl). assert (Ne : ~ is_eof src i) by (intros X; pose proof (eof_le src _ _ _ R1 X); lia).
        replace (Z.of_nat i + 1) with (Z.of_nat (S i)) in * by lia.
        destruct (next_token_on_channel _ _ _ _ _ _) as [[s2 j2]| |] eqn:E2; cbn in H; try easy.
        assert (Hi1 : (0 < S i <= n1)%nat) by lia.
        destruct (next_exact _ _ _ _ _ R1 Hi1 Ne E2) as (n2 & R2 & Hn2 & Hx2 & Hj2 & Hv & Hc2 & Hp2 & Hm2).
        replace j2 with (Z.of_nat (Z.to_nat j2)) in H by lia.
        assert (Hi2 : (Z.to_nat j2 < n2)%nat) by lia.
        destruct (IH _ _ _ _ _ R2 Hi2 H) as (n' & R' & Hn' & Hx & Hj & Hc & Hp & Hm). exists n'.
        split; [auto|]. split; [lia|]. split; [lia|]. split; [lia|]. split; [congruence|]. split; congruence.
      + destruct (Hf eq_refl) as (H1 & H2 & H3).
        assert (Hi2 : (i < n1)%nat) by lia.
        destruct (IH _ _ _ _ _ R1 Hi2 H) as (n' & R' & Hn' & Hx & Hj & Hc & Hp & Hm). exists n'.
        split; [auto|]. split; [lia|]. split; [lia|]. split; [lia|]. split; [congruence|]. split; congruence.
  Qed.
  Lemma clt_exact n s c k j s' : crep n s -> cur s = Z.of_nat c -> 1 <= k -> clt src ch fuel s k = Done (s', Some (tok_at src j)) ->
    exists n', crep n' s' /\ n' = Nat.max n (S j) /\ cur s' = cur s /\ markers s' = markers s.
  Proof.
    intros C Hc Hk H. pose proof (crep_cur _ _ _ C) as Hpc. destruct C as [R Hp]. pose proof (r_p _ _ _ _ R) as Hrp. unfold clt in H.
    assert (Idx : forall n s i, rep 0 n s -> zget (tokens s) i = Some (tok_at src j) -> i = Z.of_nat j).
    { intros n0 s0 i R0 G. destruct (rep_get_inv src _ _ _ _ R0 G) as [B T]. apply (f_equal t_index) in T. cbn in T. lia. }
    destruct (k =? 1) eqn:E1.
    - inversion H; subst. assert (p s' = Z.of_nat j) by (eapply Idx; eauto). exists n. split; [split; auto|]. split; [lia|auto].
    - destruct (k =? 0) eqn:E2; [lia|]. destruct (k <? 0) eqn:E3; [lia|]. unfold lt_inner in H.
      destruct (lt_loop src ch fuel (Z.to_nat (k - 1)) s (p s)) as [[s1 i1]| |] eqn:E; cbn in H; try easy. inversion H; subst.
      replace (p s) with (Z.of_nat c) in E by lia.
      assert (Hi2 : (c < n)%nat) by lia.
      destruct (lt_loop_exact _ _ _ _ _ _ R Hi2 E) as (n' & R' & Hn' & Hx & Hj & Hc' & Hp' & Hm').
      assert (i1 = Z.of_nat j) by (eapply Idx; eauto). exists n'. split; [split; [auto|lia]|]. split; [lia|auto].
  Qed.

  (** every visible token ahead is the [k]-th one for some [k] *)
  Lemma first_at i v : visible src ch v -> (i <= v)%nat -> exists j, first_visible src ch i j /\ (j <= v)%nat.
  Proof.
    intros V. remember (v - i)%nat as d eqn:Hd. revert i Hd. induction d as [|d IH]; intros i Hd L.
    - exists v. assert (i = v) by lia. subst i. split; [|lia]. split; [lia|]. split; [auto|]. intros; lia.
    - assert (D : visible src ch i \/ ~ visible src ch i).
      { unfold visible, is_eof. destruct (Z.eq_dec (t_channel (src i)) ch); [auto|]. destruct (Z.eq_dec (t_type (src i)) TokenStreamModel.TOKEN_EOF); [auto|]. right. intuition. }
      destruct D as [D|D].
      + exists i. split; [|lia]. split; [lia|]. split; [auto|]. intros; lia.
      + destruct (IH (S i) ltac:(lia) ltac:(lia)) as (j & (F1 & F2 & F3) & Hj). exists j. split; [|lia]. split; [lia|]. split; [auto|].
        intros m Hm. destruct (Nat.eq_dec m i) as [->|]; [auto|]. apply F3. lia.
  Qed.
  Lemma kth_reaches c v : visible src ch v -> no_eof_before src v -> forall d i k, (v - i)%nat = d -> (i <= v)%nat -> kth_visible src ch c k i ->
    exists k', kth_visible src ch c k' v.
  Proof.
    intros V Ne. induction d as [d IH] using (well_founded_induction Wf_nat.lt_wf). intros i k Hd L K.
    destruct (Nat.eq_dec i v) as [->|D]; [eauto|].
    destruct (first_at (S i) v V ltac:(lia)) as (j & F & Hj). pose proof F as (F1 & _).
    eapply (IH (v - j)%nat ltac:(lia) j (S k)); auto. eapply kv_next; eauto. apply Ne. lia.
  Qed.

  Lemma predict_looks a ctx sempred order alt_order hash dhash share n mode precedence outer stack decision start d s clock m r e w :
    eof_number src e -> (e <= fuel)%nat -> crep w s ->
    adaptive_predict (common_seek src ch fuel) a ctx sempred order alt_order hash dhash share n mode precedence outer stack decision start d s clock = Val (m, r) ->
    exists k t, 1 <= k /\ clt src ch fuel s k = Done (m_input m, t).
  Proof.
    intros He Hf C E.
    set (Q := fun s' => exists n' v, crep n' s' /\ (w <= n')%nat /\ markers s' = markers s /\ (n' = w \/ n' = S v /\ visible src ch v)).
    destruct (@adaptive_frame uts _ (common_laws src ch fuel)) with (Q := Q) (5 := E) as (Ei & _ & K);
      cbn [common_seek k_base k_seek k_mark k_release common_stream s_lt s_consume s_index fst].
    - intros s1 s' t Hx H. apply of_out_val in H. inversion H; subst. auto.
    - intros s1 s' (n1 & v & C1 & L1 & M1 & V1) H. apply of_out_val in H. destruct (consume_exact _ _ _ C1 H) as (n2 & v2 & C2 & L2 & M2 & V2).
      destruct V2 as [->|V2]; [exists n1, v|exists n2, v2]; (split; [auto|]; split; [lia|]; split; [congruence|auto]).
    - intros s1 i s' (n1 & v & C1 & L1 & M1 & V1) H. apply of_out_val in H. destruct (cseek_rep src _ _ _ _ C1 H) as (C2 & _ & M2).
      exists n1, v. split; [auto|]. split; [lia|]. split; [congruence|auto].
    - exists w, 0%nat. auto.
    - cbn [common_seek k_base common_stream s_index] in Ei.
      assert (F : Q (m_input m)) by (destruct r; [destruct K as (s1 & K & Ks); inversion Ks; subst|]; auto).
      destruct F as (n' & v & C' & L' & M' & V').
      pose proof C as [R Hp]. pose proof (r_p _ _ _ _ R). pose proof (rep_cur _ _ _ _ R) as Hrc. cbn in Hrc.
      assert (Hc : cur s = Z.of_nat (Z.to_nat (cur s))) by lia.
      assert (One : n' = w -> exists k t, 1 <= k /\ clt src ch fuel s k = Done (m_input m, t)).
      { intros ->. exists 1, (zget (tokens s) (p s)). split; [lia|]. cbn. do 2 f_equal. symmetry. eapply rep_same; [exact R|apply C'|congruence|auto]. }
      destruct V' as [V'|[V' V]]; [auto|]. destruct (Nat.eq_dec n' w) as [D|D]; [auto|]. clear One. subst n'.
      assert (Lv : (Z.to_nat (cur s) <= v)%nat) by lia.
      assert (Ne : no_eof_before src v) by (destruct C' as [R' _]; apply (rep_noeof_lt src _ _ v R'); lia).
      destruct (kth_reaches (Z.to_nat (cur s)) v V Ne _ _ _ eq_refl Lv (kv_one _ _ _)) as (k & Kv).
      pose proof (kth_visible_pos src ch _ _ _ Kv) as Kp.
      destruct (clt_spec src ch fuel w s (Z.to_nat (cur s)) (Z.of_nat k) e C Hc ltac:(lia) (proj1 He) ltac:(lia)) as (s' & n2 & j & El & _ & _ & _ & _ & _ & Kj).
      rewrite Nat2Z.id in Kj. pose proof (kth_visible_fun src ch _ _ _ _ Kj Kv). subst j.
      assert (K1 : 1 <= Z.of_nat k) by lia.
      destruct (clt_exact _ _ _ _ _ _ C Hc K1 El) as (n3 & C3 & X3 & Cc & Cm).
      exists (Z.of_nat k), (Some (tok_at src v)). split; [lia|]. rewrite El. do 2 f_equal.
      assert (X : n3 = S v) by lia. rewrite X in C3. eapply rep_same; [apply C'|apply C3|congruence|congruence].
  Qed.
End Look.
