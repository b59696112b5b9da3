(** Proofs about the IntervalSet model. *)
From Coq Require Import ZArith List Bool Sorted Lia.
From Coq Require Import ZifyBool ZifyNat.
From Verif Require Import IntervalSetModel IntervalSetSpec.
Import ListNotations.
Open Scope Z_scope.

(** ** Basic facts *)

Lemma touches_false : forall x y, iv_a x <= iv_b x -> iv_a y <= iv_b y ->
  touches x y = false <-> (gap x y \/ gap y x).
Proof.
  intros [xa xb] [ya yb]; unfold touches, adjacent, disjoint, starts_before_disjoint,
    starts_after_disjoint, gap; cbn. lia.
Qed.

Lemma not_break_touches : forall x y,
  negb (adjacent x y) && disjoint x y = negb (touches x y).
Proof. intros; unfold touches; destruct (adjacent x y), (disjoint x y); reflexivity. Qed.

Lemma canonical_cons : forall r l,
  canonical (r :: l) <-> iv_a r <= iv_b r /\ Forall (gap r) l /\ canonical l.
Proof.
  intros r l; unfold canonical; split.
  - intros [H1 H2]. inversion H1; inversion H2; subst; auto.
  - intros (H1 & H2 & H3 & H4); split; constructor; auto.
Qed.

Lemma canonical_nil : canonical [].
Proof. split; constructor. Qed.

Lemma member_cons : forall x r l, member x (r :: l) <-> in_range x r \/ member x l.
Proof.
  intros x r l; unfold member; split.
  - intros (q & [->|Hin] & Hr); eauto.
  - intros [H|(q & Hin & Hr)]; [exists r | exists q]; cbn; auto.
Qed.

Lemma member_nil : forall x, ~ member x [].
Proof. intros x (q & [] & _). Qed.

Lemma member_app : forall x l m, member x (l ++ m) <-> member x l \/ member x m.
Proof.
  intros x l m; unfold member; split.
  - intros (q & Hin & Hr). apply in_app_or in Hin as [H|H]; eauto.
  - intros [(q & Hin & Hr)|(q & Hin & Hr)]; exists q; split; auto using in_or_app.
Qed.

Lemma gap_trans : forall r q s, iv_a q <= iv_b q -> gap r q -> gap q s -> gap r s.
Proof. unfold gap; intros; lia. Qed.

Lemma Forall_gap_le : forall r r' l, iv_b r' <= iv_b r -> Forall (gap r) l -> Forall (gap r') l.
Proof. intros r r' l Hle H; eapply Forall_impl; [|exact H]. unfold gap; cbn; intros; lia. Qed.

Lemma canonical_head_gap : forall r q l,
  canonical (q :: l) -> gap r q -> Forall (gap r) (q :: l).
Proof.
  intros r q l Hc Hg. apply canonical_cons in Hc as (H1 & H2 & H3).
  constructor; auto. eapply Forall_impl; [|exact H2]. intros s Hs; eapply gap_trans; eauto.
Qed.

Lemma merge_loop_stop : forall bigger cur rest,
  (forall next, hd_error rest = Some next -> touches bigger next = false) ->
  merge_loop bigger cur rest = cur :: rest.
Proof.
  intros bigger cur [|next rest'] H; cbn [merge_loop]; auto.
  rewrite not_break_touches, (H next); auto.
Qed.

(** ** add_interval on canonical sets touching at most two stored ranges *)

Lemma touched_zero : forall added l, touched added l = 0%nat ->
  forall q, In q l -> touches added q = false.
Proof.
  intros added l; unfold touched; induction l as [|r l IH]; cbn; intros H q Hin; [easy|].
  destruct (touches added r) eqn:E; cbn in H; [easy|].
  destruct Hin as [<-|Hin]; auto.
Qed.

Lemma untouched_gap : forall added q,
  iv_a added <= iv_b added -> iv_a q <= iv_b q -> touches added q = false ->
  iv_a added <= iv_a q -> gap added q.
Proof.
  intros added q Ha Hq Ht Hle. apply touches_false in Ht; auto. unfold gap in *; lia.
Qed.

Lemma add_loop_spec : forall added l,
  iv_a added <= iv_b added -> canonical l -> (touched added l <= 2)%nat ->
  canonical (add_loop added l) /\
  (forall x, member x (add_loop added l) <-> in_range x added \/ member x l) /\
  (forall p, iv_b p + 1 < iv_a added -> Forall (gap p) l -> Forall (gap p) (add_loop added l)).
Proof.
  intros added l Hadd; induction l as [|r tl IH]; intros Hc Ht.
  - cbn. repeat split.
    + constructor; auto.
    + repeat constructor.
    + rewrite member_cons; tauto.
    + rewrite member_cons; tauto.
    + intros p Hp _. constructor; auto.
  - pose proof Hc as Hc0.
    apply canonical_cons in Hc as (Hr & Hg & Hctl).
    cbn [add_loop].
    destruct (iv_eqb r added) eqn:Eeq.
    { assert (r = added) as ->.
      { destruct r, added; unfold iv_eqb in Eeq; cbn in Eeq; f_equal; lia. }
      split; [exact Hc0|split].
      - intros x; rewrite member_cons; tauto.
      - intros p Hp HF; exact HF. }
    change (adjacent added r || negb (disjoint added r)) with (touches added r).
    unfold touched in Ht; cbn [filter] in Ht.
    destruct (touches added r) eqn:Etr.
    + cbn [length] in Ht. cbv zeta.
      set (bigger := iv_union added r).
      assert (Hb : iv_a bigger = Z.min (iv_a added) (iv_a r) /\ iv_b bigger = Z.max (iv_b added) (iv_b r))
        by (subst bigger; destruct added, r; cbn; auto).
      destruct Hb as [Hba Hbb].
      assert (Hbig : forall x, in_range x bigger <-> in_range x added \/ in_range x r).
      { intros x. unfold in_range. rewrite Hba, Hbb.
        assert (Hnt : ~ (gap added r \/ gap r added)).
        { intros Hn. apply touches_false in Hn; auto. congruence. }
        unfold gap in Hnt. lia. }
      assert (Heqt : forall q, gap r q -> iv_a q <= iv_b q -> touches bigger q = touches added q).
      { intros q Hgq Hq. destruct (touches added q) eqn:E1.
        - destruct (touches bigger q) eqn:E2; auto.
          apply touches_false in E2; [|lia|auto].
          assert (touches added q = false); [|congruence].
          apply touches_false; auto. unfold gap in *. lia.
        - apply touches_false in E1; auto. apply touches_false; [lia|auto|].
          assert (Hnt : ~ (gap added r \/ gap r added)).
          { intros Hn. apply touches_false in Hn; auto. congruence. }
          unfold gap in *. lia. }
      destruct tl as [|next rest'].
      * cbn [merge_loop]. split; [|split].
        -- apply canonical_cons; split; [lia|split; [constructor|apply canonical_nil]].
        -- intros x. rewrite !member_cons, Hbig. pose proof (member_nil x). tauto.
        -- intros p Hp HF. inversion HF; subst. constructor; auto. unfold gap in *; lia.
      * apply canonical_cons in Hctl as (Hn & Hgn & Hcr).
        inversion Hg as [|? ? Hgrn Hgr']; subst.
        cbn [merge_loop]. rewrite not_break_touches, (Heqt next); auto.
        cbn [filter] in Ht.
        destruct (touches added next) eqn:Etn; cbn [negb].
        -- cbn [length] in Ht.
           assert (Hz : touched added rest' = 0%nat) by (unfold touched; lia).
           pose proof (touched_zero _ _ Hz) as Hun.
           set (cur' := iv_union bigger next).
           assert (Hcb : iv_a cur' = Z.min (iv_a bigger) (iv_a next) /\ iv_b cur' = Z.max (iv_b bigger) (iv_b next))
             by (subst cur'; destruct bigger, next; cbn; auto).
           destruct Hcb as [Hca Hcbb].
           assert (Hnt : ~ (gap added next \/ gap next added)).
           { intros Hx. apply touches_false in Hx; auto. congruence. }
           assert (Hcur : forall x, in_range x cur' <-> in_range x bigger \/ in_range x next).
           { intros x. unfold in_range. rewrite Hca, Hcbb. unfold gap in *. lia. }
           assert (Hres : match rest' with [] => [cur'] | n2 :: rest'' => cur' :: merge_loop bigger n2 rest'' end
                          = cur' :: rest').
           { destruct rest' as [|n2 rest'']; auto. f_equal. apply merge_loop_stop.
             intros n3 Hn3. destruct rest'' as [|n3' r3]; [easy|]. inversion Hn3; subst n3'.
             apply canonical_cons in Hcr as (Hn2 & Hgn2 & Hcr2).
             apply canonical_cons in Hcr2 as (Hn3' & _ & _).
             inversion Hgr' as [|? ? _ Hgr'']; subst. inversion Hgr'' as [|? ? Hrn3 _]; subst.
             rewrite Heqt; auto. apply Hun. cbn; auto. }
           rewrite Hres. split; [|split].
           ++ apply canonical_cons. split; [lia|]. split; [|exact Hcr].
              destruct rest' as [|n2 rest'']; [constructor|].
              apply canonical_head_gap; [exact Hcr|].
              apply canonical_cons in Hcr as (Hn2 & _ & _).
              assert (Hu2 : touches added n2 = false) by (apply Hun; cbn; auto).
              apply touches_false in Hu2; auto.
              inversion Hgn as [|? ? Hgnn2 _]; subst. unfold gap in *. lia.
           ++ intros x. rewrite !member_cons, Hcur, Hbig. tauto.
           ++ intros p Hp HF. inversion HF as [|? ? Hpr HF']; subst.
              inversion HF' as [|? ? Hpn HF'']; subst. constructor; auto. unfold gap in *; lia.
        -- split; [|split].
           ++ apply canonical_cons. split; [lia|]. split.
              ** apply canonical_head_gap; [apply canonical_cons; auto|].
                 assert (Hbn : touches bigger next = false) by (rewrite Heqt; auto).
                 apply touches_false in Hbn; [|lia|auto]. unfold gap in *. lia.
              ** apply canonical_cons; auto.
           ++ intros x. rewrite !member_cons, Hbig. tauto.
           ++ intros p Hp HF. inversion HF; subst. constructor; auto. unfold gap in *; lia.
    + destruct (starts_before_disjoint added r) eqn:Esb.
      * assert (Hgar : gap added r).
        { apply touches_false in Etr; auto. unfold starts_before_disjoint in Esb. unfold gap in *; lia. }
        split; [|split].
        -- apply canonical_cons. split; [auto|]. split; [|exact Hc0].
           apply canonical_head_gap; auto.
        -- intros x. rewrite (member_cons x added). tauto.
        -- intros p Hp HF. constructor; auto.
      * assert (Hgra : gap r added).
        { apply touches_false in Etr; auto. unfold starts_before_disjoint in Esb. unfold gap in *; lia. }
        destruct (IH Hctl) as (I1 & I2 & I3).
        { unfold touched; lia. }
        split; [|split].
        -- apply canonical_cons. split; auto.
        -- intros x. rewrite !member_cons, I2. tauto.
        -- intros p Hp HF. inversion HF; subst. constructor; auto.
Qed.

Lemma add_interval_l_spec : forall added l,
  canonical l -> (touched added l <= 2)%nat ->
  canonical (add_interval_l added l) /\
  (forall x, member x (add_interval_l added l) <-> in_range x added \/ member x l).
Proof.
  intros added l Hc Ht. unfold add_interval_l, iv_length.
  destruct (iv_b added - iv_a added <? 0) eqn:E.
  - split; auto. intros x; split; auto. intros [H|H]; auto. unfold in_range in H; lia.
  - destruct (add_loop_spec added l) as (H1 & H2 & _); auto; lia.
Qed.

(** A single integer touches at most two ranges of a canonical set. *)
Lemma touched_none_after : forall v r l, canonical l -> Forall (gap r) l -> v <= iv_b r ->
  touched (Iv v v) l = 0%nat.
Proof.
  intros v r l Hc HF Hv. unfold touched. induction l as [|q l IH]; auto.
  apply canonical_cons in Hc as (Hq & _ & Hc). inversion HF as [|? ? Hg HF']; subst. cbn [filter].
  assert (E : touches (Iv v v) q = false).
  { apply touches_false; cbn; try lia. unfold gap in *; cbn; lia. }
  rewrite E. auto.
Qed.

Lemma touched_one_adj : forall v r l, canonical l -> Forall (gap r) l -> v = iv_b r + 1 ->
  (touched (Iv v v) l <= 1)%nat.
Proof.
  intros v r l Hc HF Hv. unfold touched. destruct l as [|q l]; [cbn; lia|].
  apply canonical_cons in Hc as (Hq & Hgq & Hc). inversion HF as [|? ? Hg HF']; subst. cbn [filter].
  assert (E : touched (Iv (iv_b r + 1) (iv_b r + 1)) l = 0%nat).
  { apply touched_none_after with (r := q); auto. unfold gap in Hg; lia. }
  unfold touched in E. destruct (touches _ q); cbn [length]; lia.
Qed.

Lemma touched_one_le2 : forall v l, canonical l -> (touched (Iv v v) l <= 2)%nat.
Proof.
  intros v l; induction l as [|r l IH]; intros Hc; [cbn; lia|].
  apply canonical_cons in Hc as (Hr & Hg & Hc). unfold touched. cbn [filter].
  destruct (touches (Iv v v) r) eqn:E; [|apply IH; auto]. cbn [length].
  assert (Hv : v <= iv_b r \/ v = iv_b r + 1).
  { destruct (Z_lt_le_dec (iv_b r + 1) v); [|lia].
    assert (touches (Iv v v) r = false); [|congruence].
    apply touches_false; cbn; try lia. unfold gap; cbn; lia. }
  destruct Hv as [Hv|Hv].
  - pose proof (touched_none_after v r l Hc Hg Hv) as H0. unfold touched in H0. lia.
  - pose proof (touched_one_adj v r l Hc Hg Hv) as H0. unfold touched in H0. lia.
Qed.

(** ** contains = membership on canonical sets *)

(** Monotone comparator position facts. *)
Lemma canonical_nth_gap : forall l i j p q, canonical l -> (i < j)%nat ->
  nth_error l i = Some p -> nth_error l j = Some q -> gap p q.
Proof.
  induction l as [|r l IH]; intros i j p q Hc Hij Hp Hq; [destruct i; easy|].
  apply canonical_cons in Hc as (Hr & Hg & Hc). destruct j as [|j]; [lia|]. cbn in Hq.
  destruct i as [|i]; cbn in Hp.
  - inversion Hp; subst. rewrite Forall_forall in Hg. apply Hg. eapply nth_error_In; eauto.
  - eapply IH with (i := i) (j := j); eauto. lia.
Qed.

Lemma canonical_nth_le : forall l i p, canonical l -> nth_error l i = Some p -> iv_a p <= iv_b p.
Proof.
  intros l i p [H _] Hn. rewrite Forall_forall in H. apply H. eapply nth_error_In; eauto.
Qed.

Lemma bs_cmp_spec : forall item x, iv_a x <= iv_b x ->
  match bs_cmp item x with
  | Eq => in_range item x | Lt => iv_b x < item | Gt => item < iv_a x end.
Proof.
  intros item x Hx. unfold bs_cmp, in_range.
  destruct (item <? iv_a x) eqn:E1; [lia|]. destruct (item >? iv_b x) eqn:E2; lia.
Qed.

(** Position [i] of [l] holds a range containing [item]. *)
Definition hit (item : Z) (l : list interval) (i : nat) : Prop :=
  exists x, nth_error l i = Some x /\ in_range item x.

Lemma member_hit : forall item l, member item l <-> exists i, hit item l i.
Proof.
  intros; unfold member, hit; split.
  - intros (r & Hin & Hr). apply In_nth_error in Hin as [i Hi]. eauto.
  - intros (i & r & Hi & Hr). exists r; split; auto. eapply nth_error_In; eauto.
Qed.

Lemma hit_vs : forall item l i j x, canonical l -> nth_error l j = Some x -> hit item l i ->
  (item < iv_a x -> (i < j)%nat) /\ (iv_b x < item -> (j < i)%nat).
Proof.
  intros item l i j x Hc Hj (y & Hy & Hr). pose proof (canonical_nth_le _ _ _ Hc Hj) as Hx.
  unfold in_range in Hr.
  destruct (Nat.lt_trichotomy i j) as [H|[H|H]].
  - pose proof (canonical_nth_gap _ _ _ _ _ Hc H Hy Hj) as Hg. unfold gap in Hg. lia.
  - subst. rewrite Hj in Hy; inversion Hy; subst. lia.
  - pose proof (canonical_nth_gap _ _ _ _ _ Hc H Hj Hy) as Hg. unfold gap in Hg. lia.
Qed.

Lemma bs_base_spec : forall fuel item l base size, canonical l ->
  (1 <= size)%nat -> (base + size <= length l)%nat -> (size <= fuel)%nat ->
  (forall i, hit item l i -> (base <= i < base + size)%nat) ->
  bs_base fuel item l base size = true <-> member item l.
Proof.
  induction fuel as [|fuel IH]; intros item l base size Hc Hs Hl Hf Hin; [lia|].
  cbn [bs_base]. destruct (Nat.leb size 1) eqn:E.
  - apply Nat.leb_le in E. assert (size = 1)%nat by lia; subst.
    destruct (nth_error l base) as [x|] eqn:En.
    2:{ apply nth_error_None in En. lia. }
    pose proof (canonical_nth_le _ _ _ Hc En) as Hx.
    pose proof (bs_cmp_spec item x Hx) as Hcmp. rewrite member_hit. split.
    + intros Ht. destruct (bs_cmp item x); try easy. exists base, x; auto.
    + intros (i & Hi). specialize (Hin _ Hi). assert (i = base) by lia; subst.
      destruct Hi as (y & Hy & Hr). rewrite En in Hy; inversion Hy; subst.
      unfold in_range in Hr. destruct (bs_cmp item y); auto; lia.
  - apply Nat.leb_gt in E. cbv zeta.
    assert (Hhalf : (1 <= Nat.div2 size /\ Nat.div2 size < size)%nat).
    { rewrite Nat.div2_div. pose proof (Nat.div_lt size 2).
      pose proof (Nat.div_le_lower_bound size 2 1). lia. }
    set (half := Nat.div2 size) in *.
    destruct (nth_error l (base + half)) as [x|] eqn:En.
    2:{ apply nth_error_None in En. lia. }
    pose proof (canonical_nth_le _ _ _ Hc En) as Hx.
    pose proof (bs_cmp_spec item x Hx) as Hcmp.
    assert (Hge : (half <= size - half)%nat).
    { subst half. pose proof (Nat.div2_odd size). destruct (Nat.odd size); cbn [Nat.b2n] in *; lia. }
    destruct (bs_cmp item x) eqn:Ec.
    + apply IH; auto; try lia. intros i Hi. specialize (Hin _ Hi).
      destruct (Nat.le_gt_cases (base + half) i); [lia|].
      destruct Hi as (y & Hy & Hr). pose proof (canonical_nth_gap _ _ _ _ _ Hc H Hy En) as Hg.
      unfold gap, in_range in *. lia.
    + apply IH; auto; try lia. intros i Hi. pose proof (Hin _ Hi).
      destruct (hit_vs item l i (base + half) x Hc En Hi) as [_ H2]. specialize (H2 Hcmp). lia.
    + apply IH; auto; try lia. intros i Hi. pose proof (Hin _ Hi).
      destruct (hit_vs item l i (base + half) x Hc En Hi) as [H1 _]. specialize (H1 Hcmp). lia.
Qed.

Lemma contains_spec : forall s x, canonical (intervals s) ->
  contains s x = true <-> member x (intervals s).
Proof.
  intros [l ro] x Hc; unfold contains; cbn [intervals] in *. destruct l as [|r l].
  - cbn. split; [easy|]. intros H; destruct (member_nil _ H).
  - apply bs_base_spec; auto; cbn [length]; try lia.
    intros i (y & Hy & _). assert (nth_error (r :: l) i <> None) by congruence.
    apply nth_error_Some in H. cbn [length] in H. lia.
Qed.

Lemma bs_lr_spec : forall fuel item l left right, canonical l ->
  (right <= length l)%nat -> (right - left < fuel)%nat ->
  (forall i, hit item l i -> (left <= i < right)%nat) ->
  bs_lr fuel item l left right = true <-> member item l.
Proof.
  induction fuel as [|fuel IH]; intros item l left right Hc Hl Hf Hin; [lia|].
  cbn [bs_lr]. destruct (Nat.ltb left right) eqn:E.
  - apply Nat.ltb_lt in E. cbv zeta.
    assert (Hhalf : (Nat.div2 (right - left) < right - left)%nat) by (apply Nat.lt_div2; lia).
    set (half := Nat.div2 (right - left)) in *.
    destruct (nth_error l (left + half)) as [x|] eqn:En.
    2:{ apply nth_error_None in En. lia. }
    pose proof (canonical_nth_le _ _ _ Hc En) as Hx.
    pose proof (bs_cmp_spec item x Hx) as Hcmp.
    destruct (bs_cmp item x) eqn:Ec.
    + split; auto. intros _. apply member_hit. exists (left + half)%nat, x; auto.
    + apply IH; auto; try lia. intros i Hi. pose proof (Hin _ Hi).
      destruct (hit_vs item l i (left + half) x Hc En Hi) as [_ H2]. specialize (H2 Hcmp). lia.
    + apply IH; auto; try lia. intros i Hi. pose proof (Hin _ Hi).
      destruct (hit_vs item l i (left + half) x Hc En Hi) as [H1 _]. specialize (H1 Hcmp). lia.
  - apply Nat.ltb_ge in E. split; [easy|]. rewrite member_hit. intros (i & Hi).
    specialize (Hin _ Hi). lia.
Qed.

Lemma contains_lr_spec : forall s x, canonical (intervals s) ->
  contains_lr s x = true <-> member x (intervals s).
Proof.
  intros [l ro] x Hc; unfold contains_lr; cbn [intervals] in *.
  apply bs_lr_spec; auto; try lia.
  intros i (y & Hy & _). assert (nth_error l i <> None) by congruence.
  apply nth_error_Some in H. lia.
Qed.

(** ** length, minimum, uniqueness of canonical forms *)

Lemma zseq_length : forall n lo, length (zseq lo n) = n.
Proof. induction n as [|n IH]; intros lo; cbn; auto. Qed.

Lemma zseq_In : forall n lo x, In x (zseq lo n) <-> lo <= x < lo + Z.of_nat n.
Proof.
  induction n as [|n IH]; intros lo x; cbn [zseq In]; [lia|]. rewrite IH. lia.
Qed.

Lemma enum_member : forall l x, In x (enum l) <-> member x l.
Proof.
  intros l x. unfold enum. rewrite in_flat_map. unfold member, in_range.
  split; intros (r & Hin & Hr); exists r; split; auto.
  - apply zseq_In in Hr. lia.
  - apply zseq_In. lia.
Qed.

Lemma StronglySorted_app_lt : forall l m, StronglySorted Z.lt l -> StronglySorted Z.lt m ->
  (forall x y, In x l -> In y m -> x < y) -> StronglySorted Z.lt (l ++ m).
Proof.
  induction l as [|x l IH]; intros m Hl Hm Hlt; cbn; auto.
  inversion Hl; subst. constructor.
  - apply IH; auto. intros; apply Hlt; cbn; auto.
  - apply Forall_app; split; auto. apply Forall_forall. intros y Hy; apply Hlt; cbn; auto.
Qed.

Lemma zseq_sorted : forall n lo, StronglySorted Z.lt (zseq lo n).
Proof.
  induction n as [|n IH]; intros lo; cbn; constructor; auto.
  apply Forall_forall. intros y Hy. apply zseq_In in Hy. lia.
Qed.

Lemma enum_sorted : forall l, canonical l -> StronglySorted Z.lt (enum l).
Proof.
  induction l as [|r l IH]; intros Hc; [constructor|].
  apply canonical_cons in Hc as (Hr & Hg & Hc). unfold enum; cbn [flat_map].
  apply StronglySorted_app_lt; [apply zseq_sorted|apply IH; auto|].
  - intros x y Hx Hy. apply zseq_In in Hx. fold (enum l) in Hy. apply enum_member in Hy.
    destruct Hy as (q & Hq & Hy). rewrite Forall_forall in Hg. specialize (Hg _ Hq).
    unfold gap, in_range in *. lia.
Qed.

Lemma is_length_acc : forall l acc,
  fold_left (fun acc it => acc + iv_b it - iv_a it + 1) l acc =
  acc + fold_left (fun acc it => acc + iv_b it - iv_a it + 1) l 0.
Proof.
  induction l as [|r l IH]; intros acc; cbn [fold_left]; [lia|].
  rewrite IH. rewrite (IH (0 + _ - _ + _)). lia.
Qed.

Lemma is_length_enum : forall s, canonical (intervals s) ->
  is_length s = Z.of_nat (length (enum (intervals s))).
Proof.
  intros [l ro]; unfold is_length; cbn [intervals]. induction l as [|r l IH]; intros Hc; auto.
  apply canonical_cons in Hc as (Hr & Hg & Hc). cbn [fold_left]. rewrite is_length_acc.
  rewrite IH; auto. unfold enum; cbn [flat_map]. rewrite app_length, zseq_length. lia.
Qed.

Lemma get_min_spec : forall s, canonical (intervals s) ->
  match get_min s with
  | None => forall x, ~ member x (intervals s)
  | Some m => member m (intervals s) /\ forall x, member x (intervals s) -> m <= x
  end.
Proof.
  intros [[|r l] ro] Hc; unfold get_min; cbn [intervals] in *.
  - exact member_nil.
  - apply canonical_cons in Hc as (Hr & Hg & Hc). split.
    + apply member_cons; left. unfold in_range; lia.
    + intros x Hx. apply member_cons in Hx as [Hx|(q & Hq & Hx)].
      * unfold in_range in Hx; lia.
      * rewrite Forall_forall in Hg. specialize (Hg _ Hq). unfold gap, in_range in *; lia.
Qed.

Lemma canonical_unique : forall l m, canonical l -> canonical m ->
  (forall x, member x l <-> member x m) -> l = m.
Proof.
  induction l as [|r l IH]; intros [|q m] Hl Hm Heq; auto.
  - exfalso. apply canonical_cons in Hm as (Hq & _ & _). apply (member_nil (iv_a q)).
    apply Heq, member_cons. left; unfold in_range; lia.
  - exfalso. apply canonical_cons in Hl as (Hr & _ & _). apply (member_nil (iv_a r)).
    apply Heq, member_cons. left; unfold in_range; lia.
  - apply canonical_cons in Hl as (Hr & Hgr & Hcl). apply canonical_cons in Hm as (Hq & Hgq & Hcm).
    assert (Hlo : forall x, member x (r :: l) -> iv_a r <= x /\ (x <= iv_b r \/ iv_b r + 1 < x)).
    { intros x Hx. apply member_cons in Hx as [Hx|(s & Hs & Hx)]; unfold in_range in Hx; [lia|].
      rewrite Forall_forall in Hgr. specialize (Hgr _ Hs). unfold gap in Hgr; lia. }
    assert (Hlo' : forall x, member x (q :: m) -> iv_a q <= x /\ (x <= iv_b q \/ iv_b q + 1 < x)).
    { intros x Hx. apply member_cons in Hx as [Hx|(s & Hs & Hx)]; unfold in_range in Hx; [lia|].
      rewrite Forall_forall in Hgq. specialize (Hgq _ Hs). unfold gap in Hgq; lia. }
    assert (Hra : forall x, iv_a r <= x <= iv_b r -> member x (r :: l)).
    { intros x Hx. apply member_cons. left; auto. }
    assert (Hqa : forall x, iv_a q <= x <= iv_b q -> member x (q :: m)).
    { intros x Hx. apply member_cons. left; auto. }
    assert (Ea : iv_a r = iv_a q).
    { assert (H1 : member (iv_a q) (r :: l)) by (apply Heq, Hqa; lia).
      assert (H2 : member (iv_a r) (q :: m)) by (apply Heq, Hra; lia).
      apply Hlo in H1. apply Hlo' in H2. lia. }
    assert (Eb : iv_b r = iv_b q).
    { destruct (Z.lt_trichotomy (iv_b r) (iv_b q)) as [H|[H|H]]; auto.
      - assert (H1 : member (iv_b r + 1) (r :: l)) by (apply Heq, Hqa; lia). apply Hlo in H1. lia.
      - assert (H1 : member (iv_b q + 1) (q :: m)) by (apply Heq, Hra; lia). apply Hlo' in H1. lia. }
    assert (r = q) as -> by (destruct r, q; cbn in *; congruence).
    f_equal. apply IH; auto. intros x.
    assert (Hno : forall n, Forall (gap q) n -> in_range x q -> ~ member x n).
    { intros n Hgn Hx (s & Hs & Hxs). rewrite Forall_forall in Hgn. specialize (Hgn _ Hs).
      unfold gap, in_range in *; lia. }
    specialize (Heq x). rewrite !member_cons in Heq.
    pose proof (Hno _ Hgr). pose proof (Hno _ Hgq). tauto.
Qed.

(** ** Subtraction *)

Lemma sub_loop_nil_r : forall res, sub_loop [] res = res.
Proof. destruct res; auto. Qed.

Lemma sub_loop_nil_l : forall right, sub_loop right [] = [].
Proof. destruct right; auto. Qed.

Lemma sub_loop_cons : forall q right' r res',
  sub_loop (q :: right') (r :: res') =
            if iv_b q <? iv_a r then sub_loop right' (r :: res')
            else if iv_a q >? iv_b r then r :: sub_loop (q :: right') res'
            else
              match (if iv_a q >? iv_a r then Some (Iv (iv_a r) (iv_a q - 1)) else None),
                    (if iv_b q <? iv_b r then Some (Iv (iv_b q + 1) (iv_b r)) else None) with
              | Some before, Some after => before :: sub_loop right' (after :: res')
              | Some before, None => before :: sub_loop (q :: right') res'
              | None, Some after => sub_loop right' (after :: res')
              | None, None => sub_loop (q :: right') res'
              end.
Proof. reflexivity. Qed.

Lemma canonical_swap_head : forall r r' l, iv_b r' = iv_b r -> iv_a r' <= iv_b r' ->
  canonical (r :: l) -> canonical (r' :: l).
Proof.
  intros r r' l Hb Ha Hc. apply canonical_cons in Hc as (Hr & Hg & Hc).
  apply canonical_cons. split; [auto|split; [|auto]]. eapply Forall_gap_le; [|exact Hg]; lia.
Qed.

Lemma sub_loop_spec : forall right res, canonical right -> canonical res ->
  canonical (sub_loop right res) /\
  (forall x, member x (sub_loop right res) <-> member x res /\ ~ member x right) /\
  (forall p, Forall (gap p) res -> Forall (gap p) (sub_loop right res)).
Proof.
  induction right as [|q right' IHright]; intros res Hcq Hcr.
  { rewrite sub_loop_nil_r. split; [auto|split]; auto. intros x. pose proof (member_nil x). tauto. }
  pose proof Hcq as Hcq0. apply canonical_cons in Hcq as (Hq & Hgq & Hcq').
  induction res as [|r res' IHres].
  { rewrite sub_loop_nil_l. split; [auto|split]; auto. intros x. pose proof (member_nil x). tauto. }
  pose proof Hcr as Hcr0. apply canonical_cons in Hcr as (Hr & Hgr & Hcr').
  specialize (IHres Hcr'). destruct IHres as (IR1 & IR2 & IR3).
  assert (Hres_lo : forall x, member x res' -> iv_b r + 1 < x).
  { intros x (s & Hs & Hx). rewrite Forall_forall in Hgr. specialize (Hgr _ Hs).
    unfold gap, in_range in *; lia. }
  assert (Hright_lo : forall x, member x right' -> iv_b q + 1 < x).
  { intros x (s & Hs & Hx). rewrite Forall_forall in Hgq. specialize (Hgq _ Hs).
    unfold gap, in_range in *; lia. }
  rewrite sub_loop_cons.
  destruct (iv_b q <? iv_a r) eqn:E1.
  { destruct (IHright (r :: res') Hcq' Hcr0) as (I1 & I2 & I3).
    split; [auto|split; [|auto]].
    intros x. rewrite I2. rewrite (member_cons x q).
    assert (in_range x q -> ~ member x (r :: res')).
    { intros Hx Hm. apply member_cons in Hm as [Hm|Hm].
      - unfold in_range in *; lia.
      - apply Hres_lo in Hm. unfold in_range in *; lia. }
    tauto. }
  destruct (iv_a q >? iv_b r) eqn:E2.
  { split; [|split].
    - apply canonical_cons. split; auto.
    - intros x. rewrite !(member_cons x r), IR2.
      assert (in_range x r -> ~ member x (q :: right')).
      { intros Hx Hm. apply member_cons in Hm as [Hm|Hm].
        - unfold in_range in *; lia.
        - apply Hright_lo in Hm. unfold in_range in *; lia. }
      tauto.
    - intros p HF. inversion HF; subst. constructor; auto. }
  destruct (iv_a q >? iv_a r) eqn:E3; destruct (iv_b q <? iv_b r) eqn:E4; cbv beta iota.
  - set (after := Iv (iv_b q + 1) (iv_b r)). set (before := Iv (iv_a r) (iv_a q - 1)).
    assert (Hca : canonical (after :: res')).
    { eapply canonical_swap_head; [| |exact Hcr0]; cbn; lia. }
    destruct (IHright _ Hcq' Hca) as (I1 & I2 & I3).
    split; [|split].
    + apply canonical_cons. split; [cbn; lia|]. split; [|exact I1].
      apply I3. apply canonical_head_gap; [exact Hca|]. unfold gap; cbn; lia.
    + intros x. rewrite !member_cons, I2, member_cons.
      assert (Hx : in_range x r <-> in_range x before \/ in_range x after \/ (iv_a q <= x <= iv_b q)).
      { unfold in_range; cbn; lia. }
      unfold in_range in *; cbn [before after iv_a iv_b] in *.
      assert (member x right' -> iv_b q + 1 < x) by auto.
      assert (member x res' -> iv_b r + 1 < x) by auto. 
      split.
      * intros [Hb|[[Ha|Ha] Hn]].
        -- split; [left; lia|]. intros [H1|H1]; [lia|]. apply H in H1. lia.
        -- split; [left; lia|]. intros [H1|H1]; [lia|]. tauto.
        -- split; [right; auto|]. apply H0 in Ha. intros [H1|H1]; [lia|]. tauto.
      * intros [[Ha|Ha] Hn].
        -- destruct (Z_lt_le_dec x (iv_a q)); [left; lia|]. right. split; [left; lia|tauto].
        -- right. split; [right; auto|tauto].
    + intros p HF. inversion HF as [|? ? Hp HF']; subst. constructor; [unfold gap in *; cbn; lia|].
      apply I3. constructor; [unfold gap in *; cbn; lia|auto].
  - set (before := Iv (iv_a r) (iv_a q - 1)).
    split; [|split].
    + apply canonical_cons. split; [cbn; lia|]. split; [|exact IR1].
      apply IR3. eapply Forall_gap_le; [|exact Hgr]. cbn; lia.
    + intros x. rewrite !(member_cons x before), IR2, !member_cons.
      unfold in_range in *; cbn [before iv_a iv_b] in *.
      assert (member x right' -> iv_b q + 1 < x) by auto.
      assert (member x res' -> iv_b r + 1 < x) by auto.
      split.
      * intros [Hb|[Ha Hn]].
        -- split; [left; lia|]. intros [H1|H1]; [lia|]. apply H in H1. lia.
        -- split; [right; auto|tauto].
      * intros [[Ha|Ha] Hn].
        -- left. lia.
        -- right. split; [auto|tauto].
    + intros p HF. inversion HF as [|? ? Hp HF']; subst. constructor; auto.
  - set (after := Iv (iv_b q + 1) (iv_b r)).
    assert (Hca : canonical (after :: res')).
    { eapply canonical_swap_head; [| |exact Hcr0]; cbn; lia. }
    destruct (IHright _ Hcq' Hca) as (I1 & I2 & I3).
    split; [exact I1|split].
    + intros x. rewrite I2, !member_cons.
      unfold in_range in *; cbn [after iv_a iv_b] in *.
      assert (member x right' -> iv_b q + 1 < x) by auto.
      assert (member x res' -> iv_b r + 1 < x) by auto.
      split.
      * intros [[Ha|Ha] Hn].
        -- split; [left; lia|]. intros [H1|H1]; [lia|]. tauto.
        -- split; [right; auto|]. apply H0 in Ha. intros [H1|H1]; [lia|]. tauto.
      * intros [[Ha|Ha] Hn].
        -- split; [left; lia|tauto].
        -- split; [right; auto|tauto].
    + intros p HF. inversion HF as [|? ? Hp HF']; subst. apply I3.
      constructor; [unfold gap in *; cbn; lia|auto].
  - split; [exact IR1|split].
    + intros x. rewrite IR2, !member_cons. unfold in_range in *.
      assert (member x res' -> iv_b r + 1 < x) by auto.
      split.
      * intros [Ha Hn]. split; [auto|tauto].
      * intros [[Ha|Ha] Hn]; [|split; [auto|tauto]]. exfalso. apply Hn. left; lia.
    + intros p HF. inversion HF; auto.
Qed.

Lemma substract_spec : forall s right,
  canonical (intervals s) -> canonical (intervals right) ->
  canonical (intervals (substract s right)) /\
  (forall x, member x (intervals (substract s right)) <->
             member x (intervals s) /\ ~ member x (intervals right)).
Proof.
  intros s right Hs Hr. unfold substract; cbn [intervals].
  destruct (sub_loop_spec _ _ Hr Hs) as (H1 & H2 & _); auto.
Qed.

Lemma complement_spec : forall s lo hi, canonical (intervals s) ->
  canonical (intervals (complement s lo hi)) /\
  (forall x, member x (intervals (complement s lo hi)) <->
             lo <= x <= hi /\ ~ member x (intervals s)).
Proof.
  intros s lo hi Hs. unfold complement.
  assert (H0 : canonical (intervals (add_range is_new lo hi)) /\
     forall x, member x (intervals (add_range is_new lo hi)) <-> in_range x (Iv lo hi) \/ member x []).
  { apply (add_interval_l_spec (Iv lo hi) []); [apply canonical_nil|cbn; lia]. }
  destruct H0 as [Hc Hm].
  destruct (substract_spec (add_range is_new lo hi) s Hc Hs) as [H1 H2].
  split; auto. intros x. rewrite H2, Hm. unfold in_range; cbn [iv_a iv_b].
  pose proof (member_nil x). tauto.
Qed.

(** ** remove_one *)

Lemma canonical_app : forall l m, canonical (l ++ m) <->
  canonical l /\ canonical m /\ (forall r q, In r l -> In q m -> gap r q).
Proof.
  induction l as [|r l IH]; intros m; cbn [app].
  - split; [intros H; split; [apply canonical_nil|split; [auto|intros ? ? []]]|tauto].
  - rewrite !canonical_cons, IH, Forall_app. split.
    + intros (H1 & (H2 & H3) & H4 & H5 & H6). split; [auto|split; [auto|]].
      intros s q [<-|Hs] Hq; auto. rewrite Forall_forall in H3. auto.
    + intros ((H1 & H2 & H3) & H4 & H5). split; [auto|].
      split; [split; [auto|]|split; [auto|split; [auto|]]].
      * apply Forall_forall. intros q Hq. apply H5; cbn; auto.
      * intros s q Hs Hq. apply H5; cbn; auto.
Qed.

Lemma vec_set_app : forall {A} (pre : list A) x y post,
  vec_set (length pre) y (pre ++ x :: post) = pre ++ y :: post.
Proof. induction pre as [|p pre IH]; intros; cbn; auto. rewrite IH; auto. Qed.

Lemma vec_remove_app : forall {A} (pre : list A) x post,
  vec_remove (length pre) (pre ++ x :: post) = pre ++ post.
Proof. induction pre as [|p pre IH]; intros; cbn; auto. rewrite IH; auto. Qed.

Lemma nth_error_mid : forall {A} (pre : list A) x post,
  nth_error (pre ++ x :: post) (length pre) = Some x.
Proof. intros. rewrite nth_error_app2, Nat.sub_diag; auto. Qed.

(** Inserting the right half of a split range lands right behind the left half. *)
Lemma add_loop_after_split : forall pre r added post,
  canonical (pre ++ r :: post) -> gap r added -> iv_a added <= iv_b added ->
  Forall (gap added) post ->
  add_loop added (pre ++ r :: post) = pre ++ r :: added :: post.
Proof.
  induction pre as [|p pre IH]; intros r added post Hc Hg Ha HF.
  - cbn [app] in *. apply canonical_cons in Hc as (Hr & Hgr & Hc). cbn [add_loop].
    assert (E0 : iv_eqb r added = false).
    { unfold iv_eqb, gap in *. lia. }
    rewrite E0. change (adjacent added r || negb (disjoint added r)) with (touches added r).
    assert (E1 : touches added r = false) by (apply touches_false; auto).
    rewrite E1. assert (E2 : starts_before_disjoint added r = false).
    { unfold starts_before_disjoint, gap in *; lia. }
    rewrite E2. f_equal. destruct post as [|s post]; auto. cbn [add_loop].
    inversion HF as [|? ? Hs HF']; subst.
    apply canonical_cons in Hc as (Hs' & _ & _).
    assert (E3 : iv_eqb s added = false) by (unfold iv_eqb, gap in *; lia).
    rewrite E3. change (adjacent added s || negb (disjoint added s)) with (touches added s).
    assert (E4 : touches added s = false) by (apply touches_false; auto).
    rewrite E4. assert (E5 : starts_before_disjoint added s = true).
    { unfold starts_before_disjoint, gap in *; lia. }
    rewrite E5. auto.
  - cbn [app] in *. apply canonical_cons in Hc as (Hp & Hgp & Hc). cbn [add_loop].
    assert (Hpr : gap p added).
    { rewrite Forall_forall in Hgp. assert (gap p r) by (apply Hgp; apply in_or_app; cbn; auto).
      apply canonical_app in Hc as (_ & Hc & _). apply canonical_cons in Hc as (Hr & _ & _).
      apply (gap_trans p r added); auto. }
    assert (E0 : iv_eqb p added = false) by (unfold iv_eqb, gap in *; lia).
    rewrite E0. change (adjacent added p || negb (disjoint added p)) with (touches added p).
    assert (E1 : touches added p = false) by (apply touches_false; auto).
    rewrite E1. assert (E2 : starts_before_disjoint added p = false).
    { unfold starts_before_disjoint, gap in *; lia. }
    rewrite E2. f_equal. apply IH; auto.
Qed.

Lemma remove_loop_spec : forall n pre post el,
  canonical (pre ++ post) -> n = length post ->
  (forall x, member x pre -> x <> el) ->
  exists l', remove_loop n (length pre) el (pre ++ post) = Some l' /\
    canonical l' /\ (forall x, member x l' <-> member x (pre ++ post) /\ x <> el).
Proof.
  induction n as [|n IH]; intros pre post el Hc Hn Hpre.
  { destruct post; [|easy]. cbn [remove_loop]. exists (pre ++ []). rewrite app_nil_r in *.
    split; auto. split; auto. intros x. specialize (Hpre x). tauto. }
  destruct post as [|int post]; [easy|]. cbn [length] in Hn. injection Hn as Hn.
  cbn [remove_loop]. rewrite nth_error_mid.
  pose proof Hc as Hc0. apply canonical_app in Hc as (Hcp & Hcq & Hgg).
  apply canonical_cons in Hcq as (Hi & Hgi & Hcpost).
  assert (Hpost_lo : forall x, member x post -> iv_b int + 1 < x).
  { intros x (s & Hs & Hx). rewrite Forall_forall in Hgi. specialize (Hgi _ Hs).
    unfold gap, in_range in *; lia. }
  assert (Hpre_hi : forall x, member x pre -> x + 1 < iv_a int).
  { intros x (s & Hs & Hx). assert (gap s int) by (apply Hgg; cbn; auto).
    unfold gap, in_range in *; lia. }
  assert (Hrepl : forall r', iv_a int <= iv_a r' -> iv_b r' <= iv_b int -> iv_a r' <= iv_b r' ->
                   canonical (pre ++ r' :: post)).
  { intros r' H1 H2 H3. apply canonical_app. split; [auto|]. split.
    - apply canonical_cons. split; [auto|]. split; [|auto]. eapply Forall_gap_le; [|exact Hgi]; auto.
    - intros s q Hs [<-|Hq].
      + assert (gap s int) by (apply Hgg; cbn; auto). unfold gap in *; lia.
      + apply Hgg; cbn; auto. }
  destruct (el <? iv_a int) eqn:E1.
  { exists (pre ++ int :: post). split; auto. split; auto. intros x. split; [|tauto].
    intros Hm; split; auto. apply member_app in Hm as [Hm|Hm]; auto.
    apply member_cons in Hm as [Hm|Hm]; [unfold in_range in Hm; lia|apply Hpost_lo in Hm; lia]. }
  destruct ((el =? iv_a int) && (el =? iv_b int)) eqn:E2.
  { rewrite vec_remove_app. eexists; split; [reflexivity|]. split.
    - apply canonical_app. split; [auto|split; [auto|]]. intros; apply Hgg; cbn; auto.
    - intros x. rewrite !member_app, member_cons. specialize (Hpre x). specialize (Hpost_lo x).
      unfold in_range. split.
      + intros [H|H]; split; auto. apply Hpost_lo in H. lia.
      + intros [[H|[H|H]] Hx]; auto. lia. }
  destruct (el =? iv_a int) eqn:E3.
  { rewrite vec_set_app. eexists; split; [reflexivity|]. split.
    - apply Hrepl; cbn; lia.
    - intros x. rewrite !member_app, !member_cons. specialize (Hpre x). specialize (Hpost_lo x).
      unfold in_range; cbn [iv_a iv_b]. split.
      + intros [H|[H|H]]; split; auto; try (apply Hpost_lo in H); lia.
      + intros [[H|[H|H]] Hx]; auto. right; left; lia. }
  destruct (el =? iv_b int) eqn:E4.
  { rewrite vec_set_app. eexists; split; [reflexivity|]. split.
    - apply Hrepl; cbn; lia.
    - intros x. rewrite !member_app, !member_cons. specialize (Hpre x). specialize (Hpost_lo x).
      unfold in_range; cbn [iv_a iv_b]. split.
      + intros [H|[H|H]]; split; auto; try (apply Hpost_lo in H); lia.
      + intros [[H|[H|H]] Hx]; auto. right; left; lia. }
  destruct ((el >? iv_a int) && (el <? iv_b int)) eqn:E5.
  { rewrite vec_set_app. cbv zeta.
    set (lft := Iv (iv_a int) (el - 1)). set (rgt := Iv (el + 1) (iv_b int)).
    assert (Hcl : canonical (pre ++ lft :: post)) by (apply Hrepl; cbn; lia).
    assert (Hadd : add_interval_l rgt (pre ++ lft :: post) = pre ++ lft :: rgt :: post).
    { unfold add_interval_l, iv_length. cbn [rgt iv_a iv_b].
      destruct (iv_b int - (el + 1) <? 0) eqn:E6; [lia|].
      apply add_loop_after_split; auto; unfold gap; cbn; lia. }
    rewrite Hadd.
    assert (Hcn : canonical (pre ++ lft :: rgt :: post)).
    { apply canonical_app. split; [auto|]. split.
      - apply canonical_cons. split; [cbn; lia|]. split.
        + constructor; [unfold gap; cbn; lia|]. eapply Forall_gap_le; [|exact Hgi]; cbn; lia.
        + apply canonical_cons. split; [cbn; lia|]. split; auto.
      - intros s q Hs Hq. assert (gap s int) by (apply Hgg; cbn; auto).
        destruct Hq as [<-|[<-|Hq]]; [unfold gap in *; cbn; lia|unfold gap in *; cbn; lia|].
        apply Hgg; cbn; auto. }
    assert (Hfin : remove_loop n (S (length pre)) el (pre ++ lft :: rgt :: post)
                   = Some (pre ++ lft :: rgt :: post)).
    { destruct n as [|n']; [reflexivity|]. cbn [remove_loop].
      assert (En : nth_error (pre ++ lft :: rgt :: post) (S (length pre)) = Some rgt).
      { rewrite nth_error_app2 by lia. replace (S (length pre) - length pre)%nat with 1%nat by lia. auto. }
      rewrite En. assert (E7 : el <? iv_a rgt = true) by (cbn; lia). rewrite E7. auto. }
    rewrite Hfin. eexists; split; [reflexivity|]. split; [exact Hcn|].
    intros x. rewrite !member_app, !member_cons. specialize (Hpre x). specialize (Hpost_lo x).
    unfold in_range; cbn [lft rgt iv_a iv_b]. split.
    - intros [H|[H|[H|H]]]; split; auto; try (apply Hpost_lo in H); lia.
    - intros [[H|[H|H]] Hx]; auto.
      destruct (Z_lt_le_dec x el); right; [left; lia|right; left; lia]. }
  replace (pre ++ int :: post) with ((pre ++ [int]) ++ post) in * by (rewrite <- app_assoc; auto).
  replace (S (length pre)) with (length (pre ++ [int])) by (rewrite app_length; cbn; lia).
  apply IH; auto.
  intros x Hx. apply member_app in Hx as [Hx|Hx]; auto.
  apply member_cons in Hx as [Hx|Hx]; [unfold in_range in Hx; lia|destruct (member_nil _ Hx)].
Qed.

Lemma remove_one_spec : forall s el, read_only s = false -> canonical (intervals s) ->
  exists s', remove_one s el = Some s' /\ read_only s' = false /\ canonical (intervals s') /\
    (forall x, member x (intervals s') <-> member x (intervals s) /\ x <> el).
Proof.
  intros [l ro] el Hro Hc; cbn [read_only intervals] in *; subst. unfold remove_one; cbn [read_only intervals].
  destruct (remove_loop_spec (length l) [] l el) as (l' & H1 & H2 & H3); auto.
  { intros x Hx; destruct (member_nil _ Hx). }
  cbn [length app] in *. rewrite H1. exists (IS l' false). auto.
Qed.

(** ** Histories *)

Lemma fold_add_interval_intervals : forall rs s,
  intervals (fold_left add_interval rs s) = fold_left (fun l r => add_interval_l r l) rs (intervals s).
Proof. induction rs as [|r rs IH]; intros s; cbn; auto. rewrite IH. auto. Qed.

Lemma narrow_history_spec : forall rs l, canonical l -> narrow_history l rs ->
  canonical (fold_left (fun l r => add_interval_l r l) rs l) /\
  forall x, member x (fold_left (fun l r => add_interval_l r l) rs l) <-> member x l \/ member x rs.
Proof.
  induction rs as [|r rs IH]; intros l Hc Hn; cbn [fold_left].
  - split; auto. intros x. pose proof (member_nil x). tauto.
  - destruct Hn as [Ht Hn]. destruct (add_interval_l_spec r l Hc Ht) as [H1 H2].
    destruct (IH _ H1 Hn) as [H3 H4]. split; auto.
    intros x. rewrite H4, H2, (member_cons x r). tauto.
Qed.

Lemma ins_step_ranges : forall o s,
  intervals (ins_step s o) = fold_left (fun l r => add_interval_l r l) (op_ranges o) (intervals s).
Proof.
  intros [v|a b|o] s; cbn [ins_step op_ranges fold_left]; auto.
  unfold add_set. apply fold_add_interval_intervals.
Qed.

Lemma ins_history_ranges : forall ops s,
  intervals (fold_left ins_step ops s) =
  fold_left (fun l r => add_interval_l r l) (flat_map op_ranges ops) (intervals s).
Proof.
  induction ops as [|o ops IH]; intros s; cbn [fold_left flat_map]; auto.
  rewrite IH, ins_step_ranges, fold_left_app. auto.
Qed.

Lemma ones_narrow : forall vs l, canonical l -> narrow_history l (map (fun v => Iv v v) vs).
Proof.
  induction vs as [|v vs IH]; intros l Hc; cbn; auto.
  pose proof (touched_one_le2 v l Hc) as Ht. split; auto.
  apply IH. apply add_interval_l_spec; auto.
Qed.

(** Ascending insertion (each range starts at or after the end of everything stored). *)
Lemma fold_ascending : forall rs l, canonical (l ++ rs) ->
  fold_left (fun l r => add_interval_l r l) rs l = l ++ rs.
Proof.
  induction rs as [|r rs IH]; intros l Hc; cbn [fold_left]; [rewrite app_nil_r; auto|].
  assert (Hadd : add_interval_l r l = l ++ [r]).
  { replace (l ++ r :: rs) with ((l ++ [r]) ++ rs) in Hc by (rewrite <- app_assoc; auto).
    apply canonical_app in Hc as (Hc & _ & _). clear IH rs.
    pose proof Hc as Hc'. apply canonical_app in Hc' as (_ & Hr & _).
    apply canonical_cons in Hr as (Hr & _ & _).
    unfold add_interval_l, iv_length. destruct (iv_b r - iv_a r <? 0) eqn:E; [lia|].
    induction l as [|p l IH]; auto. cbn [app] in *.
    apply canonical_cons in Hc as (Hp & Hg & Hc). cbn [add_loop].
    rewrite Forall_forall in Hg. assert (Hpr : gap p r) by (apply Hg, in_or_app; cbn; auto).
    assert (E0 : iv_eqb p r = false) by (unfold iv_eqb, gap in *; lia).
    rewrite E0. change (adjacent r p || negb (disjoint r p)) with (touches r p).
    assert (E1 : touches r p = false) by (apply touches_false; auto).
    rewrite E1. assert (E2 : starts_before_disjoint r p = false).
    { unfold starts_before_disjoint, gap in *; lia. }
    rewrite E2. f_equal; auto. }
  rewrite Hadd, IH; rewrite <- app_assoc; auto.
Qed.

(** ** to_token_string *)

Lemma join_app : forall sep l m, l <> [] -> m <> [] ->
  join sep (l ++ m) = (join sep l ++ sep ++ join sep m).
Proof.
  induction l as [|x l IH]; intros m Hl Hm; [easy|].
  destruct l as [|y l].
  - cbn [app join]. destruct m; [easy|]. auto.
  - cbn [app]. change (join sep (x :: y :: l ++ m)) with (x ++ sep ++ join sep ((y :: l) ++ m)).
    rewrite IH; auto; [|easy]. cbn [join]. rewrite <- !app_assoc. auto.
Qed.

Section TokStr.
  Variable display_name : Z -> text.
  Local Notation nm := (element_name display_name).

  Lemma elements_from_later : forall n first i, first < i ->
    elements_from display_name n first i =
    match n with O => [] | S _ => (lit ", " ++ join (lit ", ") (map nm (zseq i n))) end.
  Proof.
    induction n as [|n IH]; intros first i Hi; auto. cbn [elements_from].
    destruct (i >? first) eqn:E; [|lia]. rewrite IH by lia.
    destruct n as [|n]; cbn [zseq map]; [rewrite app_nil_r|]; auto.
  Qed.

  Lemma elements_from_first : forall n first, (0 < n)%nat ->
    elements_from display_name n first first = join (lit ", ") (map nm (zseq first n)).
  Proof.
    intros [|n] first Hn; [lia|]. cbn [elements_from]. destruct (first >? first) eqn:E; [lia|].
    rewrite elements_from_later by lia.
    destruct n as [|n]; cbn [zseq map]; [cbn; rewrite app_nil_r|]; auto.
  Qed.

  Lemma intervals_string_spec : forall l, canonical l ->
    intervals_string display_name l = join (lit ", ") (map nm (enum l)).
  Proof.
    induction l as [|r l IH]; intros Hc; auto.
    apply canonical_cons in Hc as (Hr & Hg & Hc). cbn [intervals_string]. rewrite IH; auto.
    assert (Hone : (if iv_a r =? iv_b r then nm (iv_a r)
        else elements_from display_name (Z.to_nat (iv_b r + 1 - iv_a r)) (iv_a r) (iv_a r))
       = join (lit ", ") (map nm (zseq (iv_a r) (Z.to_nat (iv_b r - iv_a r + 1))))).
    { destruct (iv_a r =? iv_b r) eqn:E.
      - replace (Z.to_nat (iv_b r - iv_a r + 1)) with 1%nat by lia. auto.
      - rewrite elements_from_first by lia.
        replace (iv_b r + 1 - iv_a r) with (iv_b r - iv_a r + 1) by lia. auto. }
    rewrite Hone. unfold enum; cbn [flat_map]. fold (enum l). rewrite map_app.
    destruct l as [|q l].
    - cbn. rewrite app_nil_r, app_nil_r. auto.
    - rewrite join_app; auto.
      + intros H. apply map_eq_nil in H.
        destruct (Z.to_nat (iv_b r - iv_a r + 1)) eqn:En; [lia|easy].
      + apply canonical_cons in Hc as (Hq & _ & _). intros H. apply map_eq_nil in H.
        unfold enum in H; cbn [flat_map] in H.
        destruct (Z.to_nat (iv_b q - iv_a q + 1)) eqn:En; [lia|easy].
  Qed.
End TokStr.

(** ** Nothing is invented, whatever the history *)
Definition all_valid (l : list interval) : Prop := Forall (fun r => iv_a r <= iv_b r) l.
Lemma bs_base_sound : forall f item l base size, bs_base f item l base size = true -> member item l.
Proof.
  induction f as [|f IH]; intros item l base size H; cbn [bs_base] in H; [discriminate|].
  destruct (Nat.leb size 1).
  - destruct (nth_error l base) as [x|] eqn:E; [|discriminate]. exists x. split; [eapply nth_error_In; eauto|].
    unfold bs_cmp in H. unfold in_range. destruct (Z.ltb_spec item (iv_a x)); [discriminate|].
    destruct (item >? iv_b x) eqn:E2; [discriminate|]. rewrite Z.gtb_ltb in E2. apply Z.ltb_ge in E2. lia.
  - eapply IH; eauto.
Qed.
Lemma bs_lr_sound : forall f item l left right, bs_lr f item l left right = true -> member item l.
Proof.
  induction f as [|f IH]; intros item l left right H; cbn [bs_lr] in H; [discriminate|].
  destruct (Nat.ltb left right); [|discriminate].
  destruct (nth_error l (left + Nat.div2 (right - left))) as [x|] eqn:E; [|discriminate].
  destruct (bs_cmp item x) eqn:C; [|eapply IH; eauto|eapply IH; eauto].
  exists x. split; [eapply nth_error_In; eauto|]. unfold bs_cmp in C. unfold in_range.
  destruct (Z.ltb_spec item (iv_a x)); [discriminate|].
  destruct (item >? iv_b x) eqn:E2; [discriminate|]. rewrite Z.gtb_ltb in E2. apply Z.ltb_ge in E2. lia.
Qed.
Lemma contains_sound : forall s x, contains s x = true -> member x (intervals s).
Proof. intros s x H. eapply bs_base_sound; eauto. Qed.
Lemma contains_lr_sound : forall s x, contains_lr s x = true -> member x (intervals s).
Proof. intros s x H. eapply bs_lr_sound; eauto. Qed.

Lemma union_touching : forall r q x, iv_a r <= iv_b r -> iv_a q <= iv_b q -> touches r q = true ->
  in_range x (iv_union r q) -> in_range x r \/ in_range x q.
Proof.
  intros [a b] [c d] x. unfold touches, adjacent, disjoint, starts_before_disjoint, starts_after_disjoint, iv_union, in_range.
  cbn [iv_a iv_b]. intros H1 H2 T H. rewrite !Z.gtb_ltb in T.
  destruct (Z.eqb_spec a (d + 1)), (Z.eqb_spec b (c - 1)), (Z.ltb_spec a c), (Z.ltb_spec b c), (Z.ltb_spec d a);
    cbn in T; try discriminate; lia.
Qed.
Lemma union_valid : forall r q, iv_a r <= iv_b r -> iv_a q <= iv_b q -> iv_a (iv_union r q) <= iv_b (iv_union r q).
Proof. intros [a b] [c d]. unfold iv_union. cbn. lia. Qed.
Lemma merge_loop_sound : forall n rest bigger cur, (length rest <= n)%nat ->
  iv_a bigger <= iv_b bigger -> iv_a cur <= iv_b cur -> all_valid rest ->
  all_valid (merge_loop bigger cur rest) /\
  (forall x, member x (merge_loop bigger cur rest) -> in_range x bigger \/ in_range x cur \/ member x rest).
Proof.
  induction n as [|n IH]; intros [|next rest] bigger cur L HB HC HV; cbn in L; try lia; cbn [merge_loop].
  - split; [repeat constructor; auto|]. intros x (r & [<-|[]] & H). auto.
  - split; [repeat constructor; auto|]. intros x (r & [<-|[]] & H). auto.
  - inversion HV as [|? ? HN HR]; subst.
    destruct (negb (adjacent bigger next) && disjoint bigger next) eqn:T.
    + split; [constructor; auto|]. intros x H. apply member_cons in H. tauto.
    + assert (TT : touches bigger next = true).
      { unfold touches. destruct (adjacent bigger next), (disjoint bigger next); cbn in *; congruence. }
      destruct rest as [|n2 rest].
      * split; [repeat constructor; apply union_valid; auto|]. intros x (r & [<-|[]] & H).
        rewrite member_cons. destruct (union_touching bigger next x); auto.
      * inversion HR as [|? ? H2 H3]; subst. cbn in L. destruct (IH rest bigger n2) as [V M]; auto; try lia.
        split; [constructor; auto; apply union_valid; auto|]. intros x H. apply member_cons in H. rewrite !member_cons. destruct H as [H|H].
        -- destruct (union_touching bigger next x); auto.
        -- apply M in H. tauto.
Qed.
Lemma add_loop_sound : forall added l, iv_a added <= iv_b added -> all_valid l ->
  all_valid (add_loop added l) /\ (forall x, member x (add_loop added l) -> in_range x added \/ member x l).
Proof.
  intros added l HA. induction l as [|r tl IH]; intros HV; cbn [add_loop].
  - split; [repeat constructor; auto|]. intros x (q & [<-|[]] & H). auto.
  - inversion HV as [|? ? HR HT]; subst. destruct (iv_eqb r added); [auto|].
    destruct (adjacent added r || negb (disjoint added r)) eqn:T.
    + assert (U : iv_a (iv_union added r) <= iv_b (iv_union added r)) by (apply union_valid; auto).
      destruct (merge_loop_sound (length tl) tl (iv_union added r) (iv_union added r)) as [V M]; auto.
      split; auto. intros x H. rewrite member_cons. apply M in H.
      assert (X : in_range x (iv_union added r) -> in_range x added \/ in_range x r) by (apply union_touching; auto). tauto.
    + destruct (starts_before_disjoint added r).
      * split; [constructor; auto|]. intros x H. apply member_cons in H. auto.
      * destruct (IH HT) as [V M]. split; [constructor; auto|]. intros x H. apply member_cons in H. rewrite member_cons.
        destruct H as [H|H]; auto. apply M in H. tauto.
Qed.
Lemma insertions_sound : forall rs l, all_valid l ->
  all_valid (fold_left (fun l r => add_interval_l r l) rs l) /\
  (forall x, member x (fold_left (fun l r => add_interval_l r l) rs l) -> member x l \/ member x rs).
Proof.
  induction rs as [|r rs IH]; intros l HV; cbn [fold_left]; [auto|].
  assert (X : all_valid (add_interval_l r l) /\ (forall x, member x (add_interval_l r l) -> in_range x r \/ member x l)).
  { unfold add_interval_l. destruct (Z.ltb_spec (iv_length r) 0) as [H|H]; [auto|]. apply add_loop_sound; auto. unfold iv_length in H. lia. }
  destruct X as [X1 X2]. destruct (IH _ X1) as [Y1 Y2]. split; auto. intros x H. apply Y2 in H. rewrite member_cons.
  destruct H as [H|H]; auto. apply X2 in H. tauto.
Qed.

(** ** Ranges of at most two integers never touch more than two stored ranges *)
Lemma filter_sorted : forall (f : interval -> bool) l, StronglySorted gap l -> StronglySorted gap (filter f l).
Proof.
  intros f l H. induction H as [|r l H IH HF]; cbn; [constructor|]. destruct (f r); auto. constructor; auto.
  apply Forall_forall. intros q Hq. apply filter_In in Hq. rewrite Forall_forall in HF. apply HF. tauto.
Qed.
Lemma touches_bounds : forall r q, iv_a r <= iv_b r -> iv_a q <= iv_b q -> touches r q = true ->
  iv_a r - 1 <= iv_b q /\ iv_a q <= iv_b r + 1.
Proof.
  intros [a b] [c d]. unfold touches, adjacent, disjoint, starts_before_disjoint, starts_after_disjoint.
  cbn [iv_a iv_b]. intros H1 H2 T. rewrite !Z.gtb_ltb in T.
  destruct (Z.eqb_spec a (d + 1)), (Z.eqb_spec b (c - 1)), (Z.ltb_spec a c), (Z.ltb_spec b c), (Z.ltb_spec d a);
    cbn in T; try discriminate; lia.
Qed.
Lemma touched_thin : forall r l, canonical l -> iv_a r <= iv_b r <= iv_a r + 1 -> (touched r l <= 2)%nat.
Proof.
  intros r l [HV HS] T. unfold touched. pose proof (filter_sorted (touches r) l HS) as FS.
  assert (FV : forall q, In q (filter (touches r) l) -> iv_a q <= iv_b q /\ touches r q = true).
  { intros q Hq. apply filter_In in Hq. rewrite Forall_forall in HV. split; [apply HV|]; tauto. }
  destruct (filter (touches r) l) as [|q1 [|q2 [|q3 m]]]; cbn [length]; try lia. exfalso.
  destruct (FV q1) as [V1 T1]; [cbn; auto|]. destruct (FV q2) as [V2 _]; [cbn; auto|]. destruct (FV q3) as [V3 T3]; [cbn; auto|].
  apply touches_bounds in T1; [|lia|lia]. apply touches_bounds in T3; [|lia|lia].
  inversion FS as [|? ? FS2 F1]; subst. inversion F1 as [|? ? G12 _]; subst.
  inversion FS2 as [|? ? _ F2]; subst. inversion F2 as [|? ? G23 _]; subst. unfold gap in *. lia.
Qed.
Lemma thin_narrow : forall rs l, canonical l -> Forall (fun r => iv_b r <= iv_a r + 1) rs -> narrow_history l rs.
Proof.
  induction rs as [|r rs IH]; intros l HC HF; cbn; auto. inversion HF as [|? ? H1 H2]; subst.
  destruct (Z.le_gt_cases (iv_a r) (iv_b r)) as [H|H].
  - assert (T : (touched r l <= 2)%nat) by (apply touched_thin; auto).
    split; auto. apply IH; auto. apply add_interval_l_spec; auto.
  - split.
    + (* an empty range *)
      unfold touched. destruct HC as [HV HS]. pose proof (filter_sorted (touches r) l HS) as FS.
      assert (FV : forall q, In q (filter (touches r) l) -> iv_a q <= iv_b q /\ touches r q = true).
      { intros q Hq. apply filter_In in Hq. rewrite Forall_forall in HV. split; [apply HV|]; tauto. }
      destruct (filter (touches r) l) as [|q1 [|q2 [|q3 m]]]; cbn [length]; try lia. exfalso.
      destruct (FV q1) as [V1 T1]; [cbn; auto|]. destruct (FV q2) as [V2 T2]; [cbn; auto|]. destruct (FV q3) as [V3 T3]; [cbn; auto|].
      inversion FS as [|? ? FS2 F1]; subst. inversion F1 as [|? ? G12 _]; subst.
      inversion FS2 as [|? ? _ F2]; subst. inversion F2 as [|? ? G23 _]; subst. unfold gap in *.
      destruct r as [a b], q1 as [a1 b1], q2 as [a2 b2], q3 as [a3 b3].
      unfold touches, adjacent, disjoint, starts_before_disjoint, starts_after_disjoint in *. cbn [iv_a iv_b] in *.
      rewrite !Z.gtb_ltb in *. clear - V1 V2 V3 T1 T2 T3 G12 G23 H H1.
      destruct (Z.eqb_spec a (b1 + 1)), (Z.eqb_spec b (a1 - 1)), (Z.ltb_spec a a1), (Z.ltb_spec b a1), (Z.ltb_spec b1 a); cbn in T1; try discriminate T1; try lia;
      destruct (Z.eqb_spec a (b2 + 1)), (Z.eqb_spec b (a2 - 1)), (Z.ltb_spec a a2), (Z.ltb_spec b a2), (Z.ltb_spec b2 a); cbn in T2; try discriminate T2; try lia;
      destruct (Z.eqb_spec a (b3 + 1)), (Z.eqb_spec b (a3 - 1)), (Z.ltb_spec a a3), (Z.ltb_spec b a3), (Z.ltb_spec b3 a); cbn in T3; try discriminate T3; try lia.
    + unfold add_interval_l, iv_length. replace (iv_b r - iv_a r <? 0) with true by (symmetry; apply Z.ltb_lt; lia). auto.
Qed.

(** ** Removing a value no stored range starts below *)
Lemma remove_low : forall l el, all_valid l -> Forall (fun r => el <= iv_a r) l ->
  exists l', remove_one (IS l false) el = Some (IS l' false) /\ all_valid l' /\ Forall (fun r => el <= iv_a r) l' /\
    (forall x, member x l' -> member x l).
Proof.
  intros [|r l] el HV HL; unfold remove_one; cbn [read_only intervals length remove_loop nth_error].
  - exists []. auto.
  - inversion HV as [|? ? V1 V2]; inversion HL as [|? ? L1 L2]; subst.
    destruct (Z.ltb_spec el (iv_a r)); [exists (r :: l); auto|]. assert (el = iv_a r) by lia. subst el. rewrite Z.eqb_refl. cbn [andb].
    destruct (Z.eqb_spec (iv_a r) (iv_b r)); cbn [vec_remove vec_set].
    + exists l. repeat split; auto. intros x M. apply member_cons; auto.
    + exists (Iv (iv_a r + 1) (iv_b r) :: l). split; auto. split; [constructor; cbn; auto; lia|]. split; [constructor; cbn; auto; lia|].
      intros x M. apply member_cons in M. apply member_cons. unfold in_range in *. cbn in *. destruct M; auto. left; lia.
Qed.
