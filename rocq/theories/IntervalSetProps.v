(** Property theorems C01 - C05 (src/interval_set.rs). *)
From Coq Require Import ZArith List Bool Sorted Lia.
From Verif Require Import IntervalSetModel IntervalSetSpec IntervalSetProofs.
Import ListNotations.
Open Scope Z_scope.

(** ** C01: membership after insertions *)

(** Full statement: for every history [ops], contains (fold_left ins_step ops is_new) x = true
    <-> member x (flat_map op_ranges ops).  It is false of the code:  *)

(** x was inserted, but [contains] (both std binary-search variants) denies it. *)
Theorem C01_insertion_membership_refuted : exists ops x,
  member x (flat_map op_ranges ops) /\
  contains (fold_left ins_step ops is_new) x = false /\
  contains_lr (fold_left ins_step ops is_new) x = false.
Proof.
  exists [InsOne 1; InsOne 3; InsOne 5; InsRange 0 10], 7.
  split; [exists (Iv 0 10); cbn; unfold in_range; cbn; intuition lia|].
  split; vm_compute; reflexivity.
Qed.
Print Assumptions C01_insertion_membership_refuted.

(** Worse: an inserted element can be lost altogether (no stored range covers it any more). *)
Theorem C01_insertion_loses_members_refuted : exists ops x,
  member x (flat_map op_ranges ops) /\
  ~ member x (intervals (fold_left ins_step ops is_new)).
Proof.
  exists [InsOne 25; InsOne 20; InsOne 17; InsOne 21; InsOne 14; InsRange 3 5; InsRange 18 31; InsRange 0 25], 30.
  split; [exists (Iv 18 31); cbn; unfold in_range; cbn; intuition lia|].
  vm_compute. intros (r & [<-|[<-|[]]] & _ & H); apply H; reflexivity.
Qed.
Print Assumptions C01_insertion_loses_members_refuted.

(** What does hold: exact membership as long as no inserted range touches more than two of the
    ranges stored at that moment.  Missing for the full property: ranges touching three or more. *)
Theorem C01_insertion_membership_partial : forall ops x,
  narrow_history [] (flat_map op_ranges ops) ->
  (contains (fold_left ins_step ops is_new) x = true <-> member x (flat_map op_ranges ops)) /\
  (contains_lr (fold_left ins_step ops is_new) x = true <-> member x (flat_map op_ranges ops)).
Proof.
  intros ops x Hn.
  assert (E : intervals (fold_left ins_step ops is_new) =
              fold_left (fun l r => add_interval_l r l) (flat_map op_ranges ops) [])
    by exact (ins_history_ranges ops is_new).
  destruct (narrow_history_spec _ _ canonical_nil Hn) as [Hc Hm].
  rewrite <- E in Hc, Hm.
  rewrite contains_spec, contains_lr_spec by auto. rewrite Hm.
  pose proof (member_nil x); tauto.
Qed.
Print Assumptions C01_insertion_membership_partial.

Example C01_partial_nonvacuous :
  narrow_history [] (flat_map op_ranges [InsRange 5 9; InsOne 3; InsOne 4; InsSet (IS [Iv 20 25; Iv 30 31] false); InsRange 26 29]).
Proof. vm_compute. repeat split; repeat constructor. Qed.

(** Element-wise insertion is always exact, in any order and with repetitions. *)
Theorem C01_single_insertions_exact : forall vs x,
  contains (fold_left add_one vs is_new) x = true <-> In x vs.
Proof.
  intros vs x.
  assert (E : forall s, intervals (fold_left add_one vs s) =
            fold_left (fun l r => add_interval_l r l) (map (fun v => Iv v v) vs) (intervals s)).
  { induction vs as [|v vs IH]; intros s; cbn; auto. rewrite IH; auto. }
  destruct (narrow_history_spec _ _ canonical_nil (ones_narrow vs [] canonical_nil)) as [Hc Hm].
  change (@nil interval) with (intervals is_new) in Hc, Hm. rewrite <- E in Hc, Hm.
  rewrite contains_spec, Hm by auto. split.
  - intros [H|(r & Hr & Hx)]; [destruct (member_nil _ H)|].
    apply in_map_iff in Hr as (v & <- & Hv). unfold in_range in Hx; cbn in Hx.
    replace x with v by lia; auto.
  - intros H; right. exists (Iv x x). split; [apply in_map_iff; eauto|unfold in_range; cbn; lia].
Qed.
Print Assumptions C01_single_insertions_exact.

(** One direction holds without any restriction: whatever was inserted, [contains] never reports
    an integer outside the inserted ranges (the defect of C01 only loses members). *)
Theorem C01_nothing_invented : forall ops x,
  (contains (fold_left ins_step ops is_new) x = true -> member x (flat_map op_ranges ops)) /\
  (contains_lr (fold_left ins_step ops is_new) x = true -> member x (flat_map op_ranges ops)).
Proof.
  intros ops x.
  assert (E : intervals (fold_left ins_step ops is_new) =
              fold_left (fun l r => add_interval_l r l) (flat_map op_ranges ops) [])
    by exact (ins_history_ranges ops is_new).
  destruct (insertions_sound (flat_map op_ranges ops) [] (Forall_nil _)) as [_ M]. rewrite <- E in M.
  split; intros H; [apply contains_sound in H|apply contains_lr_sound in H]; apply M in H;
    destruct H as [H|H]; auto; destruct (member_nil _ H).
Qed.
Print Assumptions C01_nothing_invented.

(** Insertions of at most two consecutive integers at a time are always exact. *)
Theorem C01_thin_insertions_exact : forall ops x,
  Forall (fun r => iv_b r <= iv_a r + 1) (flat_map op_ranges ops) ->
  (contains (fold_left ins_step ops is_new) x = true <-> member x (flat_map op_ranges ops)) /\
  (contains_lr (fold_left ins_step ops is_new) x = true <-> member x (flat_map op_ranges ops)).
Proof. intros ops x H. apply C01_insertion_membership_partial. apply thin_narrow; auto. apply canonical_nil. Qed.
Print Assumptions C01_thin_insertions_exact.
Example C01_thin_nonvacuous :
  Forall (fun r => iv_b r <= iv_a r + 1) (flat_map op_ranges [InsOne 1; InsOne 3; InsOne 5; InsRange 3 4; InsSet (IS [Iv 7 8] false)]) /\
  intervals (fold_left ins_step [InsOne 1; InsOne 3; InsOne 5; InsRange 3 4; InsSet (IS [Iv 7 8] false)] is_new) = [Iv 1 1; Iv 3 5; Iv 7 8].
Proof. split; [repeat constructor; discriminate|reflexivity]. Qed.

(** One insertion into a canonical set, at full generality in the set: exact when at most two
    ranges are touched. *)
Theorem C01_add_range_exact_partial : forall s l h x, canonical (intervals s) ->
  (touched (Iv l h) (intervals s) <= 2)%nat ->
  contains (add_range s l h) x = true <-> (l <= x <= h \/ contains s x = true).
Proof.
  intros s l h x Hc Ht. destruct (add_interval_l_spec (Iv l h) _ Hc Ht) as [H1 H2].
  rewrite (contains_spec (add_range s l h)) by exact H1.
  rewrite (contains_spec s) by exact Hc. apply H2.
Qed.
Print Assumptions C01_add_range_exact_partial.

Example C01_add_range_nonvacuous :
  canonical [Iv 1 2; Iv 5 8; Iv 12 12] /\ (touched (Iv 3 4) [Iv 1 2; Iv 5 8; Iv 12 12] <= 2)%nat /\
  intervals (add_range (IS [Iv 1 2; Iv 5 8; Iv 12 12] false) 3 4) = [Iv 1 8; Iv 12 12].
Proof.
  split; [|split; [vm_compute; lia|reflexivity]].
  split; repeat constructor; unfold gap; cbn; lia.
Qed.

(** ** C02: canonical form *)

(** {1,3,5} plus 1..=5 is stored as [1..5, 5..5] and counts six members. *)
Theorem C02_canonical_refuted : exists ops,
  ~ canonical (intervals (fold_left ins_step ops is_new)) /\
  is_length (fold_left ins_step ops is_new) = 6 /\
  (forall x, member x (flat_map op_ranges ops) <-> 1 <= x <= 5).
Proof.
  exists [InsOne 1; InsOne 3; InsOne 5; InsRange 1 5]. split; [|split; [reflexivity|]].
  - vm_compute. intros [_ H]. inversion H as [|? ? _ HF]; subst. inversion HF as [|? ? Hg _]; subst.
    unfold gap in Hg; cbn in Hg. discriminate Hg.
  - intros x. cbn [flat_map op_ranges app]. rewrite !member_cons. unfold in_range; cbn [iv_a iv_b].
    pose proof (member_nil x). intuition lia.
Qed.
Print Assumptions C02_canonical_refuted.

(** Two sets with the same members can compare unequal. *)
Theorem C02_equality_refuted : exists ops ops',
  (forall x, member x (flat_map op_ranges ops) <-> member x (flat_map op_ranges ops')) /\
  fold_left ins_step ops is_new <> fold_left ins_step ops' is_new.
Proof.
  exists [InsOne 1; InsOne 3; InsOne 5; InsRange 1 5], [InsRange 1 5]. split.
  - intros x. cbn [flat_map op_ranges app]. rewrite !member_cons. unfold in_range; cbn [iv_a iv_b].
    pose proof (member_nil x). intuition lia.
  - vm_compute. discriminate.
Qed.
Print Assumptions C02_equality_refuted.

Theorem C02_canonical_partial : forall ops,
  narrow_history [] (flat_map op_ranges ops) ->
  canonical (intervals (fold_left ins_step ops is_new)).
Proof.
  intros ops Hn.
  assert (E : intervals (fold_left ins_step ops is_new) =
              fold_left (fun l r => add_interval_l r l) (flat_map op_ranges ops) [])
    by exact (ins_history_ranges ops is_new).
  rewrite E. apply (narrow_history_spec _ _ canonical_nil Hn).
Qed.
Print Assumptions C02_canonical_partial.

(** Consequences of canonical form: length counts members, get_min is the minimum, equal
    membership means equal representation. *)
Theorem C02_length_counts_members : forall s, canonical (intervals s) ->
  exists elems, NoDup elems /\ (forall x, In x elems <-> contains s x = true) /\
    is_length s = Z.of_nat (length elems).
Proof.
  intros s Hc. exists (enum (intervals s)). split; [|split].
  - pose proof (enum_sorted _ Hc) as Hs. induction Hs as [|x l Hs IH HF]; constructor; auto.
    intros Hin. rewrite Forall_forall in HF. specialize (HF _ Hin). lia.
  - intros x. rewrite enum_member, contains_spec; auto. tauto.
  - apply is_length_enum; auto.
Qed.
Print Assumptions C02_length_counts_members.

Theorem C02_get_min_is_minimum : forall s, canonical (intervals s) ->
  match get_min s with
  | None => forall x, contains s x = false
  | Some m => contains s m = true /\ forall x, contains s x = true -> m <= x
  end.
Proof.
  intros s Hc. pose proof (get_min_spec s Hc) as H. destruct (get_min s) as [m|].
  - rewrite contains_spec by auto. destruct H as [H1 H2]. split; auto.
    intros x Hx. apply H2. apply contains_spec; auto.
  - intros x. destruct (contains s x) eqn:E; auto. apply contains_spec in E; auto. destruct (H x E).
Qed.
Print Assumptions C02_get_min_is_minimum.

Theorem C02_canonical_equality : forall s t,
  canonical (intervals s) -> canonical (intervals t) -> read_only s = read_only t ->
  (forall x, contains s x = contains t x) -> s = t.
Proof.
  intros [l ro] [m ro'] Hs Ht Hro Heq; cbn [intervals read_only] in *; subst. f_equal. apply canonical_unique; auto.
  intros x. rewrite <- (contains_spec (IS l ro')), <- (contains_spec (IS m ro')) by auto.
  rewrite Heq. tauto.
Qed.
Print Assumptions C02_canonical_equality.

Example C02_nonvacuous : canonical (intervals (fold_left add_one [7; 3; 5; 4; 9] is_new)) /\
  intervals (fold_left add_one [7; 3; 5; 4; 9] is_new) = [Iv 3 5; Iv 7 7; Iv 9 9].
Proof.
  split; [|reflexivity].
  replace (intervals _) with [Iv 3 5; Iv 7 7; Iv 9 9] by reflexivity.
  split; repeat constructor; unfold gap; cbn; lia.
Qed.

(** ** C03: difference and complement *)
Theorem C03_substract_exact : forall a b x,
  canonical (intervals a) -> canonical (intervals b) ->
  canonical (intervals (substract a b)) /\
  contains (substract a b) x = contains a x && negb (contains b x).
Proof.
  intros a b x Ha Hb. destruct (substract_spec a b Ha Hb) as [H1 H2]. split; auto.
  specialize (H2 x). rewrite <- !contains_spec in H2 by auto.
  destruct (contains (substract a b) x), (contains a x), (contains b x); cbn; auto;
    exfalso; intuition congruence.
Qed.
Print Assumptions C03_substract_exact.

Theorem C03_complement_exact : forall s lo hi x, canonical (intervals s) ->
  canonical (intervals (complement s lo hi)) /\
  contains (complement s lo hi) x = (lo <=? x) && (x <=? hi) && negb (contains s x).
Proof.
  intros s lo hi x Hs. destruct (complement_spec s lo hi Hs) as [H1 H2]. split; auto.
  specialize (H2 x). rewrite <- !contains_spec in H2 by auto.
  destruct (Z.leb_spec lo x), (Z.leb_spec x hi);
  destruct (contains (complement s lo hi) x), (contains s x); cbn; auto;
    exfalso; intuition (try congruence; try lia).
Qed.
Print Assumptions C03_complement_exact.

Example C03_nonvacuous :
  let a := IS [Iv 1 10; Iv 15 20] false in let b := IS [Iv 3 4; Iv 8 16; Iv 19 30] false in
  canonical (intervals a) /\ canonical (intervals b) /\
  intervals (substract a b) = [Iv 1 2; Iv 5 7; Iv 17 18].
Proof.
  cbv zeta. split; [|split; [|reflexivity]]; split; repeat constructor; unfold gap; cbn; lia.
Qed.

(** ** C04: remove_one *)
Theorem C04_remove_one_exact : forall s el,
  read_only s = false -> canonical (intervals s) ->
  exists s', remove_one s el = Some s' /\ read_only s' = false /\ canonical (intervals s') /\
    (forall x, contains s' x = contains s x && negb (x =? el)).
Proof.
  intros s el Hro Hc. destruct (remove_one_spec s el Hro Hc) as (s' & H1 & H2 & H3 & H4).
  exists s'. split; [auto|split; [auto|split; [auto|]]]. intros x. specialize (H4 x).
  rewrite <- !contains_spec in H4 by auto.
  destruct (Z.eqb_spec x el); destruct (contains s' x), (contains s x); cbn; auto;
    exfalso; intuition congruence.
Qed.
Print Assumptions C04_remove_one_exact.

Theorem C04_remove_one_read_only_panics : forall l el, remove_one (IS l true) el = None.
Proof. intros; reflexivity. Qed.
Print Assumptions C04_remove_one_read_only_panics.

Example C04_nonvacuous :
  remove_one (IS [Iv 1 2; Iv 5 8; Iv 12 12] false) 6 = Some (IS [Iv 1 2; Iv 5 5; Iv 7 8; Iv 12 12] false).
Proof. reflexivity. Qed.

(** ** C05: rendering *)
Theorem C05_to_token_string : forall display s, canonical (intervals s) ->
  exists elems, StronglySorted Z.lt elems /\ (forall x, In x elems <-> contains s x = true) /\
    to_token_string display s =
      match elems with
      | [] => lit "{}"
      | [x] => element_name display x
      | _ => lit "{" ++ join (lit ", ") (map (element_name display) elems) ++ lit "}"
      end.
Proof.
  intros display s Hc. exists (enum (intervals s)). split; [apply enum_sorted; auto|]. split.
  - intros x. rewrite enum_member, contains_spec; auto. tauto.
  - unfold to_token_string. pose proof (is_length_enum s Hc) as HL.
    rewrite (intervals_string_spec display _ Hc).
    destruct (intervals s) as [|r l] eqn:El; auto.
    destruct (enum (r :: l)) as [|x [|y tl]] eqn:Ee.
    + exfalso. unfold enum in Ee; cbn [flat_map] in Ee. apply canonical_cons in Hc as (Hr & _ & _).
      destruct (Z.to_nat (iv_b r - iv_a r + 1)) eqn:En; [lia|easy].
    + rewrite HL. cbn. rewrite app_nil_r. auto.
    + rewrite HL. replace (Z.of_nat (length (x :: y :: tl)) >? 1) with true; auto.
      symmetry. cbn [length]. apply Z.gtb_lt. lia.
Qed.
Print Assumptions C05_to_token_string.

Example C05_nonvacuous :
  to_token_string (fun z => if z =? 3 then lit "A" else if z =? 4 then lit "B" else lit "C")
    (IS [Iv (-1) (-1); Iv 3 4; Iv 9 9] false) = lit "{<EOF>, A, B, C}".
Proof. reflexivity. Qed.
