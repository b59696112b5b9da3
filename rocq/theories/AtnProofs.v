(** Proofs about ATN transitions. *)
From Coq Require Import ZArith List Bool Sorted Lia Arith.
From Verif Require Import Outcome IntervalSetModel IntervalSetSpec IntervalSetProofs AtnModel AtnSpec.
Import ListNotations.
Local Open Scope Z_scope.

Lemma Forall2_impl : forall A B (P Q : A -> B -> Prop) l m, (forall a b, P a b -> Q a b) -> Forall2 P l m -> Forall2 Q l m.
Proof. intros A B P Q l m H F. induction F; constructor; auto. Qed.

Lemma iv_eqb_eq : forall a b, iv_eqb a b = true <-> a = b.
Proof.
  intros [a1 a2] [b1 b2]. unfold iv_eqb; cbn. rewrite andb_true_iff, !Z.eqb_eq.
  split; [intros [-> ->]; reflexivity | intros E; inversion E; auto].
Qed.
Lemma ivs_eqb_eq : forall x y, ivs_eqb x y = true <-> x = y.
Proof.
  induction x as [|a x IH]; intros [|b y]; cbn; split; intros E; try discriminate; auto.
  - apply andb_true_iff in E. destruct E as [E1 E2]. apply iv_eqb_eq in E1. apply IH in E2. congruence.
  - inversion E; subst. apply andb_true_iff. split; [apply iv_eqb_eq | apply IH]; reflexivity.
Qed.
Lemma is_eqb_eq : forall s t, is_eqb s t = true <-> s = t.
Proof.
  intros [l r] [m q]. unfold is_eqb; cbn. rewrite andb_true_iff, ivs_eqb_eq, eqb_true_iff.
  split; [intros [-> ->]; reflexivity | intros E; inversion E; auto].
Qed.

Lemma label_ok : forall t, get_label t = label t.
Proof.
  intros [g l| | |g start stop| | | | | |]; try reflexivity; cbn; unfold add_one, add_range, add_interval, add_interval_l, iv_length; cbn.
  - replace (l - l <? 0) with false by (symmetry; apply Z.ltb_ge; lia). reflexivity.
  - destruct (Z.ltb_spec (stop - start) 0), (Z.leb_spec start stop); try lia; reflexivity.
Qed.

Lemma eps_consuming : forall t, is_epsilon t = true <-> ~ consuming t.
Proof. intros []; cbn; split; intros; auto; try discriminate; exfalso; auto. Qed.

Lemma same_equal : forall a b, same_transition a b = true <-> equal a b.
Proof.
  intros a b. unfold same_transition, equal. rewrite !label_ok, andb_true_iff, orb_true_iff, Z.eqb_eq.
  rewrite andb_true_iff, !eps_consuming.
  assert (match label a with Some a0 => match label b with Some b0 => is_eqb a0 b0 | None => false end | None => false end = true
          <-> label a <> None /\ label a = label b) as ->; [|tauto].
  destruct (label a), (label b); try rewrite is_eqb_eq; intuition congruence.
Qed.

Lemma equal_sym : forall a b, equal a b -> equal b a.
Proof.
  intros a b (E & [[N L]|[H1 H2]]); split; auto; left; split; congruence.
Qed.
Lemma label_consuming : forall t, label t <> None -> consuming t.
Proof. intros []; cbn; auto. Qed.
Lemma equal_trans : forall a b c, equal a b -> equal b c -> equal a c.
Proof.
  intros a b c (E & H) (E' & H'). split; [congruence|].
  destruct H as [[N L]|[H1 H2]], H' as [[N' L']|[H1' H2']].
  - left. split; congruence.
  - exfalso. apply H1', label_consuming. congruence.
  - exfalso. apply H2, label_consuming. auto.
  - right; auto.
Qed.

Definition add_all_transitions (s : atn_state) (ts : list transition) : atn_state := fold_left add_transition ts s.

(** deduplicated list computed alongside *)
Definition inv (s0 s : atn_state) (ts : list transition) : Prop :=
  without_repetitions ts (st_trans s) /\
  (forall t, In t ts -> exists u, In u (st_trans s) /\ (u = t \/ equal u t)) /\
  (st_eps_only s = true <-> (st_trans s = [] /\ st_eps_only s0 = true) \/ (st_trans s <> [] /\ forall t, In t (st_trans s) -> ~ consuming t)) /\
  st_rule s = st_rule s0 /\ st_number s = st_number s0 /\ st_type_id s = st_type_id s0 /\ st_type s = st_type s0.

Lemma first_at_app : forall ts t n, (n < length ts)%nat -> first_at (ts ++ [t]) n <-> first_at ts n.
Proof.
  intros ts t n Hn. unfold first_at. split; intros (u & E & H); exists u; split.
  - rewrite nth_error_app1 in E by auto. auto.
  - intros m v Hm Em. apply (H m v Hm). rewrite nth_error_app1 by lia. auto.
  - rewrite nth_error_app1 by auto. auto.
  - intros m v Hm Em. apply (H m v Hm). rewrite nth_error_app1 in Em by lia. auto.
Qed.
Lemma first_at_lt : forall ts n, first_at ts n -> (n < length ts)%nat.
Proof. intros ts n (t & E & _). apply nth_error_Some. congruence. Qed.

Lemma SS_app1 : forall (l : list nat) x, StronglySorted lt l -> Forall (fun y => (y < x)%nat) l -> StronglySorted lt (l ++ [x]).
Proof.
  induction l as [|y l IH]; intros x H F; cbn; [repeat constructor|].
  inversion H; subst; inversion F; subst. constructor; [apply IH; auto|].
  apply Forall_app. split; auto.
Qed.

Lemma equal_eps_same : forall a b, equal a b -> consuming a -> consuming b.
Proof.
  intros a b (_ & [[N L]|[H1 H2]]) Ha; [|contradiction].
  apply label_consuming. congruence.
Qed.

Lemma add_inv : forall s0 s ts t, inv s0 s ts -> inv s0 (add_transition s t) (ts ++ [t]).
Proof.
  intros s0 s ts t ((ns & Sns & Hns & Fns) & Cov & Flag & R1 & R2 & R3 & R4).
  assert (exists_eq : existsb (fun e => same_transition e t) (st_trans s) = true <-> exists u, In u (st_trans s) /\ equal u t).
  { rewrite existsb_exists. split; intros (u & I1 & I2); exists u; split; auto; apply same_equal; auto. }
  assert (last_first : first_at (ts ++ [t]) (length ts) <-> ~ exists u, In u (st_trans s) /\ equal u t).
  { unfold first_at. split.
    - intros (t' & E & H) (u & I & Q). rewrite nth_error_app2, Nat.sub_diag in E by lia. injection E as <-.
      apply In_nth_error in I. destruct I as [i Ei].
      assert (exists n, nth_error ns i = Some n /\ nth_error ts n = Some u) as (n & _ & En).
      { clear - Fns Ei. revert i Ei. induction Fns as [|n v ns l E F IH]; intros [|i] Ei; try discriminate; cbn in *.
        - injection Ei as <-. exists n; auto.
        - apply IH; auto. }
      assert (n < length ts)%nat by (apply nth_error_Some; congruence).
      apply (H n u); auto. rewrite nth_error_app1; auto.
    - intros H. exists t. split; [rewrite nth_error_app2, Nat.sub_diag by lia; reflexivity|].
      intros m u Hm Em Q. rewrite nth_error_app1 in Em by lia. apply nth_error_In in Em.
      destruct (Cov u Em) as (v & Iv & [->|Ev]); apply H; [exists u; auto|exists v; split; eauto using equal_trans]. }
  unfold add_transition, inv; cbn [st_trans st_rule st_number st_type_id st_type st_eps_only].
  assert (split4 : forall A B C D : Prop, A -> B -> C -> D -> A /\ B /\ C /\ D) by tauto.
  apply split4; [| | |auto].
  - (* without repetitions *)
    destruct (existsb (fun e => same_transition e t) (st_trans s)) eqn:Ex.
    + exists ns. split; [auto|split].
      * intros n. rewrite Hns. split; intros H.
        -- pose proof (first_at_lt _ _ H). apply first_at_app; auto.
        -- pose proof (first_at_lt _ _ H) as L. rewrite app_length in L; cbn in L.
           destruct (Nat.eq_dec n (length ts)) as [->|Ne].
           ++ exfalso. apply last_first in H. apply H, exists_eq, eq_refl.
           ++ eapply first_at_app; eauto. lia.
      * eapply Forall2_impl; [|exact Fns]. cbn. intros n u E. rewrite nth_error_app1; auto. apply nth_error_Some; congruence.
    + exists (ns ++ [length ts]). assert (Hl : Forall (fun y => (y < length ts)%nat) ns).
      { apply Forall_forall. intros n Hn. apply Hns in Hn. eauto using first_at_lt. }
      split; [apply SS_app1; auto|split].
      * intros n. rewrite in_app_iff. cbn. split.
        -- intros [H|[<-|[]]].
           ++ apply first_at_app; [|apply Hns; auto]. apply Hns in H. eauto using first_at_lt.
           ++ apply last_first. intros H. apply exists_eq in H. congruence.
        -- intros H. pose proof (first_at_lt _ _ H) as L. rewrite app_length in L; cbn in L.
           destruct (Nat.eq_dec n (length ts)) as [->|Ne]; [auto|]. left. apply Hns. eapply first_at_app; eauto. lia.
      * apply Forall2_app.
        -- eapply Forall2_impl; [|exact Fns]. cbn. intros n u E. rewrite nth_error_app1; auto. apply nth_error_Some; congruence.
        -- constructor; [|constructor]. rewrite nth_error_app2, Nat.sub_diag by lia. reflexivity.
  - (* covered *)
    intros u Hu. apply in_app_iff in Hu. destruct Hu as [Hu|[<-|[]]].
    + destruct (Cov u Hu) as (v & Iv & Q). exists v. split; auto.
      destruct (existsb _ _); [auto|apply in_app_iff; auto].
    + destruct (existsb (fun e => same_transition e t) (st_trans s)) eqn:Ex.
      * destruct ((proj1 exists_eq) eq_refl) as (v & Iv & Q). exists v; auto.
      * exists t. split; [apply in_app_iff; cbn; auto|auto].
  - (* flag *)
    assert (E : (if match st_trans s with [] => is_epsilon t | _ :: _ => st_eps_only s && is_epsilon t end then True else False)
                <-> (~ consuming t /\ (st_trans s = [] \/ forall u, In u (st_trans s) -> ~ consuming u))).
    { destruct (st_trans s) as [|u0 l] eqn:El.
      - rewrite <- eps_consuming. destruct (is_epsilon t); intuition congruence.
      - rewrite <- eps_consuming. destruct (is_epsilon t); cbn; rewrite ?andb_true_r, ?andb_false_r.
        + destruct (st_eps_only s) eqn:Es.
          * split; auto. intros _. split; auto. right. destruct Flag as [Flag _]. destruct (Flag eq_refl) as [[? _]|[_ F]]; [discriminate|auto].
          * split; [tauto|]. intros (_ & [H|H]); [discriminate|]. destruct Flag as [_ Flag]. assert (false = true); [|discriminate].
            apply Flag. right. split; [discriminate|auto].
        + split; [tauto|]. intros [? _]; discriminate. }
    set (f := match st_trans s with [] => is_epsilon t | _ :: _ => st_eps_only s && is_epsilon t end) in *.
    assert (Ef : f = true <-> ~ consuming t /\ (st_trans s = [] \/ forall u, In u (st_trans s) -> ~ consuming u)).
    { rewrite <- E. destruct f; intuition discriminate. }
    rewrite Ef. clear E Ef f.
    destruct (existsb (fun e => same_transition e t) (st_trans s)) eqn:Ex.
    + destruct ((proj1 exists_eq) eq_refl) as (v & Iv & Q).
      assert (st_trans s <> []) by (intros Z; rewrite Z in Iv; destruct Iv).
      split.
      * intros (Ht & [Hn|H2]); [contradiction|]. right; auto.
      * intros [[Hn _]|[_ H2]]; [contradiction|]. split; auto. intros Ct. apply (H2 v Iv). eapply equal_eps_same; [apply equal_sym; eauto|auto].
    + split.
      * intros (Ht & H2). right. split; [destruct (st_trans s); discriminate|].
        intros u Hu. apply in_app_iff in Hu. destruct Hu as [Hu|[<-|[]]]; auto.
        destruct H2 as [H2|H2]; [rewrite H2 in Hu; destruct Hu|auto].
      * intros [[Hn _]|[_ H2]]; [destruct (st_trans s); discriminate|].
        split; [apply H2, in_app_iff; cbn; auto|]. right. intros u Hu. apply H2, in_app_iff; auto.
Qed.

Lemma add_all_inv : forall ts s0 s done, inv s0 s done -> inv s0 (fold_left add_transition ts s) (done ++ ts).
Proof.
  induction ts as [|t ts IH]; intros s0 s done H; cbn.
  - rewrite app_nil_r. auto.
  - replace (done ++ t :: ts) with ((done ++ [t]) ++ ts) by (rewrite <- app_assoc; reflexivity).
    apply IH, add_inv, H.
Qed.

Lemma inv_start : forall s, st_trans s = [] -> inv s s [].
Proof.
  intros s E. split; [|split; [|split; [|auto]]].
  - rewrite E. exists []. split; [constructor|split; [|constructor]]. intros n; split; [intros []|]. intros (t & E' & _). destruct n; discriminate.
  - intros t [].
  - rewrite E. split; auto. intros [[_ H]|[H _]]; [auto|contradiction].
Qed.

Lemma without_repetitions_pairs : forall ts l, without_repetitions ts l -> ForallOrdPairs (fun a b => ~ equal a b) l.
Proof.
  intros ts l (ns & S & H & F).
  assert (forall n, In n ns -> first_at ts n) as H' by (intros; apply H; auto). clear H.
  induction F as [|n t ns l E F IH]; constructor.
  - inversion S; subst. apply Forall_forall. intros u Hu.
    apply In_nth_error in Hu. destruct Hu as [i Ei].
    assert (exists m, In m ns /\ nth_error ts m = Some u) as (m & Im & Em).
    { clear - F Ei. revert i Ei. induction F as [|n v ns l E F IH]; intros [|i] Ei; try discriminate; cbn in *.
      - injection Ei as <-. exists n; auto.
      - destruct (IH i Ei) as (m & ? & ?). exists m; auto. }
    destruct (H' m (or_intror Im)) as (u' & Eu & Hf). rewrite Em in Eu. injection Eu as <-.
    apply (Hf n t); auto. rewrite Forall_forall in H2. auto.
  - inversion S; subst. apply IH; auto. intros; apply H'; right; auto.
Qed.

Lemma matches_ok : forall t lo hi x, set_ok t ->
  match t with Wildcard _ | RuleTr _ _ _ _ => True | _ =>
    exists b, matches t x lo hi = Val b /\ (b = true <-> symbols t lo hi x) end.
Proof.
  intros t lo hi x Hok.
  destruct t; auto; cbn -[contains] in *; eexists; (split; [reflexivity|]);
    rewrite ?andb_true_iff, ?negb_true_iff, ?Z.eqb_eq, ?Z.geb_le, ?Z.leb_le; try (split; [discriminate|tauto]); try tauto; try lia.
  - apply contains_spec; auto.
  - rewrite <- (contains_spec set x) by auto. destruct (contains set x); intuition congruence.
Qed.
