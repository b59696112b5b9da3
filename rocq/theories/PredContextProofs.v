(** Lemmas about prediction contexts. *)
From Coq Require Import ZArith List Bool Lia Sorted ZifyBool ZifyNat.
From Verif Require Import Outcome PredContextModel PredContextSpec.
Import ListNotations.
Local Open Scope Z_scope.
Local Open Scope outcome_scope.

Lemma pctx_ind' (P : pctx -> Prop) :
  (forall r, P (Singleton r None)) ->
  (forall r q, P q -> P (Singleton r (Some q))) ->
  (forall rs ps, (forall q, In (Some q) ps -> P q) -> P (Array rs ps)) ->
  forall c, P c.
Proof.
  intros H0 H1 H2. fix IH 1. intros [r [q|] | rs ps].
  - apply H1, IH.
  - apply H0.
  - apply H2. induction ps as [|p ps IHps]; cbn [In].
    + intros q [].
    + intros q [Hq | Hq]; [|apply (IHps q Hq)].
      destruct p as [q'|]; [|discriminate Hq]. injection Hq as <-. apply IH.
Qed.

Definition zip_all : list (option pctx) -> list (option pctx) -> bool :=
  fix zip_all (x y : list (option pctx)) {struct x} : bool :=
    match x, y with
    | u :: x', v :: y' => opt_pctx_eqb u v && zip_all x' y'
    | _, _ => true
    end.

Lemma pctx_eqb_array rs ps rs' ps' :
  pctx_eqb (Array rs ps) (Array rs' ps') = zlist_eqb rs rs' && zip_all ps ps'.
Proof. reflexivity. Qed.
Lemma pctx_eqb_single r p r' p' :
  pctx_eqb (Singleton r p) (Singleton r' p') = (r =? r') && opt_pctx_eqb p p'.
Proof. reflexivity. Qed.

Lemma zlist_eqb_eq x : forall y, zlist_eqb x y = true <-> x = y.
Proof.
  induction x as [|u x IH]; intros [|v y]; cbn [zlist_eqb]; try (split; congruence).
  rewrite andb_true_iff, Z.eqb_eq, IH. split; [intros [-> ->]; reflexivity | intros E; inversion E; auto].
Qed.

Lemma opt_pctx_eqb_refl_in p : (forall q, p = Some q -> pctx_eqb q q = true) -> opt_pctx_eqb p p = true.
Proof. destruct p as [q|]; cbn; auto. Qed.

Lemma pctx_eqb_refl : forall c, pctx_eqb c c = true.
Proof.
  induction c as [r | r q IH | rs ps IH] using pctx_ind'.
  - rewrite pctx_eqb_single, Z.eqb_refl. reflexivity.
  - rewrite pctx_eqb_single, Z.eqb_refl. cbn. exact IH.
  - rewrite pctx_eqb_array. rewrite (proj2 (zlist_eqb_eq rs rs) eq_refl). cbn [andb].
    induction ps as [|p ps IHps]; cbn [zip_all]; [reflexivity|].
    rewrite opt_pctx_eqb_refl_in.
    + apply IHps. intros q Hq. apply IH. right. exact Hq.
    + intros q ->. apply IH. left. reflexivity.
Qed.
Lemma opt_pctx_eqb_refl p : opt_pctx_eqb p p = true.
Proof. apply opt_pctx_eqb_refl_in. intros; apply pctx_eqb_refl. Qed.

Definition ent_wf (l : list (Z * option pctx)) : Prop :=
  (forall r, In (r, None) l -> r = EMPTY_RETURN_STATE) /\
  (forall r q, In (r, Some q) l -> r < EMPTY_RETURN_STATE) /\
  (forall r q, In (r, Some q) l -> wf q).

Ltac conj := repeat match goal with |- True => exact I | |- shape (Array _ _) => cbn [shape] | |- ent_wf _ => unfold ent_wf | |- _ /\ _ => split end.

Lemma wf_iff c : wf c <-> shape c /\ ent_wf (entries c).
Proof.
  split.
  - intros H. inversion H; subst. split; [assumption|]. conj; assumption.
  - intros (H & H1 & H2 & H3). constructor; assumption.
Qed.

Lemma ent_wf_cons x l : ent_wf (x :: l) <-> ent_wf [x] /\ ent_wf l.
Proof.
  unfold ent_wf. cbn [In]. split.
  - intros (A & B & C). conj; intros; first [eapply A | eapply B | eapply C]; intuition eauto.
  - intros ((A & B & C) & A' & B' & C').
    conj; intros r; [intros [H|H] | intros q [H|H] | intros q [H|H]]; eauto.
Qed.

Lemma in_combine_map {A B} (x : list A) : forall (y : list B) b,
  length x = length y -> In b y -> exists a, In (a, b) (combine x y).
Proof.
  induction x as [|a x IH]; intros [|c y] b; cbn; try discriminate; [tauto|].
  intros L [-> | H]; [eauto|]. destruct (IH y b) as [a' H']; [lia | exact H |]. eauto.
Qed.

Lemma eqb_eq_wf : forall a, wf a -> forall b, wf b -> pctx_eqb a b = true -> a = b.
Proof.
  induction a as [r | r q IH | rs ps IH] using pctx_ind'; intros Ha b Hb E.
  - destruct b as [r' [q'|] | rs' ps']; try discriminate E.
    + rewrite pctx_eqb_single in E. cbn in E. rewrite andb_false_r in E. discriminate.
    + rewrite pctx_eqb_single in E. cbn in E. rewrite andb_true_r in E. f_equal. lia.
  - destruct b as [r' [q'|] | rs' ps']; try discriminate E; rewrite pctx_eqb_single in E; cbn [opt_pctx_eqb] in E.
    + apply andb_true_iff in E. destruct E as [E1 E2]. apply wf_iff in Ha, Hb.
      destruct Ha as (_ & _ & _ & Ha). destruct Hb as (_ & _ & _ & Hb). cbn [entries In] in Ha, Hb.
      f_equal; [lia|]. f_equal. apply IH; [eapply Ha; left; reflexivity | eapply Hb; left; reflexivity | exact E2].
    + rewrite andb_false_r in E. discriminate.
  - destruct b as [r' q' | rs' ps']; [discriminate E|]. rewrite pctx_eqb_array in E.
    apply andb_true_iff in E. destruct E as [E1 E2]. apply zlist_eqb_eq in E1. subst rs'.
    apply wf_iff in Ha, Hb. destruct Ha as ((_ & La & _) & _ & _ & Ha). destruct Hb as ((_ & Lb & _) & _ & _ & Hb).
    f_equal. cbn [entries] in Ha, Hb.
    assert (Wa : forall q, In (Some q) ps -> wf q).
    { intros q Hq. destruct (in_combine_map rs ps _ La Hq) as [r Hr]. eauto. }
    assert (Wb : forall q, In (Some q) ps' -> wf q).
    { intros q Hq. destruct (in_combine_map rs ps' _ Lb Hq) as [r Hr]. eauto. }
    assert (L : length ps = length ps') by congruence.
    clear - IH Wa Wb L E2. revert ps' Wb L E2.
    induction ps as [|p ps IHps]; intros [|p' ps'] Wb L E2; try discriminate L; [reflexivity|].
    cbn [zip_all] in E2. apply andb_true_iff in E2. destruct E2 as [E2 E3]. f_equal.
    + destruct p as [q|], p' as [q'|]; try discriminate E2; [|reflexivity]. f_equal.
      apply IH; [left; reflexivity | apply Wa; left; reflexivity | apply Wb; left; reflexivity | exact E2].
    + apply IHps.
      * intros q Hq. apply IH. right. exact Hq.
      * intros q Hq. apply Wa. right. exact Hq.
      * intros q Hq. apply Wb. right. exact Hq.
      * cbn in L. lia.
      * exact E3.
Qed.

Definition opt_wf (p : option pctx) : Prop := forall q, p = Some q -> wf q.
Lemma opt_eqb_eq_wf p p' : opt_wf p -> opt_wf p' -> opt_pctx_eqb p p' = true -> p = p'.
Proof.
  destruct p as [q|], p' as [q'|]; cbn; intros H H' E; try discriminate; [|reflexivity].
  f_equal. apply eqb_eq_wf; auto.
Qed.

Lemma wf_EMPTY : wf EMPTY.
Proof.
  apply wf_iff. split; [exact I|]. conj; cbn [entries EMPTY In].
  - intros r [E | []]. congruence.
  - intros r q [E | []]. congruence.
  - intros r q [E | []]. congruence.
Qed.

Lemma singleton_is_empty_wf r p : wf (Singleton r p) ->
  singleton_is_empty r p = match p with None => true | Some _ => false end.
Proof.
  intros H. apply wf_iff in H. destruct H as (_ & H & _). unfold singleton_is_empty. cbn [entries In] in H.
  destruct p; [apply andb_false_r|]. rewrite (H r) by auto. reflexivity.
Qed.
Lemma wf_none_EMPTY r : wf (Singleton r None) -> Singleton r None = EMPTY.
Proof.
  intros H. apply wf_iff in H. destruct H as (_ & H & _). cbn [entries In] in H.
  rewrite (H r) by auto. reflexivity.
Qed.
Lemma wf_single_some r q : wf (Singleton r (Some q)) <-> r < EMPTY_RETURN_STATE /\ wf q.
Proof.
  rewrite wf_iff. unfold ent_wf. cbn [shape entries In]. split.
  - intros (_ & _ & H2 & H3). split; [eapply H2 | eapply H3]; left; reflexivity.
  - intros [H1 H2]. conj; [intros r' | intros r' q' | intros r' q']; intros [E | []]; inversion E; subst; auto.
Qed.

(** denotation of an entry list *)
Definition dent (wild : bool) (l : list (Z * option pctx)) (s : list Z) : Prop :=
  In (EMPTY_RETURN_STATE, None) l /\ (s = [] \/ wild = true) \/
  exists r q s', s = r :: s' /\ In (r, Some q) l /\ stands wild q s'.

Lemma stands_dent wild c s : stands wild c s <-> dent wild (entries c) s.
Proof.
  split.
  - intros H. inversion H; subst; [left; auto | right; eauto 10].
  - intros [[H1 H2] | (r & q & s' & -> & H1 & H2)]; [apply Bottom | eapply Frame]; eauto.
Qed.
Lemma dent_app wild l l' s : dent wild (l ++ l') s <-> dent wild l s \/ dent wild l' s.
Proof.
  unfold dent. split.
  - intros [[H1 H2] | (r & q & s' & -> & H1 & H2)]; apply in_app_iff in H1; destruct H1; eauto 15.
  - intros [[[H1 H2] | (r & q & s' & -> & H1 & H2)] | [[H1 H2] | (r & q & s' & -> & H1 & H2)]].
    + left. split; [apply in_app_iff; auto | assumption].
    + right. exists r, q, s'. split; [reflexivity|]. split; [apply in_app_iff; auto | assumption].
    + left. split; [apply in_app_iff; auto | assumption].
    + right. exists r, q, s'. split; [reflexivity|]. split; [apply in_app_iff; auto | assumption].
Qed.
Lemma dent_cons wild x l s : dent wild (x :: l) s <-> dent wild [x] s \/ dent wild l s.
Proof. apply (dent_app wild [x] l). Qed.
Lemma dent_single wild r q s : dent wild [(r, Some q)] s <-> exists s', s = r :: s' /\ stands wild q s'.
Proof.
  unfold dent. cbn [In]. split.
  - intros [[[E | []] _] | (r' & q' & s' & -> & [E | []] & H)]; [discriminate|]. inversion E; subst. eauto.
  - intros (s' & -> & H). right. eauto 10.
Qed.

Lemma height_entry c r q : In (r, Some q) (entries c) -> (height q < height c)%nat.
Proof.
  destruct c as [r' p | rs ps]; cbn [entries].
  - intros [E | []]. inversion E; subst. cbn. lia.
  - intros H. apply in_combine_r in H. cbn [height].
    assert (M : (height q <= list_max (map (fun p => match p with None => 0%nat | Some q => height q end) ps))%nat).
    { assert (F : Forall (fun k => (k <= list_max (map (fun p => match p with None => 0%nat | Some q => height q end) ps))%nat)
        (map (fun p => match p with None => 0%nat | Some q => height q end) ps)).
      { apply list_max_le. lia. }
      rewrite Forall_forall in F. apply F. apply in_map_iff. exists (Some q). auto. }
    lia.
Qed.

(** ** combine_common_parents is the identity on values *)
Lemma uniq_get_hit u p : In p u -> exists x, uniq_get u p = Some x.
Proof.
  induction u as [|y u IH]; [intros []|]. cbn [uniq_get In]. intros H.
  destruct (opt_pctx_eqb y p) eqn:E; [eauto|]. destruct H as [-> | H]; [|auto].
  rewrite opt_pctx_eqb_refl in E. discriminate.
Qed.
Lemma uniq_get_eq u p x : uniq_get u p = Some x -> In x u /\ opt_pctx_eqb x p = true.
Proof.
  induction u as [|y u IH]; cbn [uniq_get]; [discriminate|].
  destruct (opt_pctx_eqb y p) eqn:E.
  - intros H. inversion H; subst. split; [left; reflexivity | assumption].
  - intros H. destruct (IH H). split; [right; assumption | assumption].
Qed.
Lemma uniq_get_mono u p q x : uniq_get u p = Some x -> uniq_get (u ++ [q]) p = Some x.
Proof.
  induction u as [|y u IH]; cbn [uniq_get app]; [discriminate|].
  destruct (opt_pctx_eqb y p); auto.
Qed.
Lemma uniq_fold ps : forall u,
  let u' := fold_left (fun u p => match uniq_get u p with Some _ => u | None => u ++ [p] end) ps u in
  (forall x, In x u' -> In x u \/ In x ps) /\
  (forall p, In p ps \/ (exists x, uniq_get u p = Some x) -> exists x, uniq_get u' p = Some x).
Proof.
  induction ps as [|p ps IH]; intros u; cbn [fold_left].
  - split; [auto|]. intros q [[] | H]; exact H.
  - specialize (IH (match uniq_get u p with Some _ => u | None => u ++ [p] end)). cbv zeta in IH.
    destruct IH as [A B]. split.
    + intros x Hx. apply A in Hx. destruct Hx as [Hx | Hx]; [|right; right; exact Hx].
      destruct (uniq_get u p); [auto|]. apply in_app_iff in Hx. cbn [In] in Hx |- *. intuition auto.
    + intros q Hq. apply B. destruct Hq as [[-> | Hq] | [x Hx]]; [right | left; exact Hq | right].
      * destruct (uniq_get u q) eqn:E; [eauto|]. apply uniq_get_hit. apply in_app_iff. right. left. reflexivity.
      * destruct (uniq_get u p); [eauto|]. exists x. apply uniq_get_mono. exact Hx.
Qed.
Lemma combine_common_parents_id ps : (forall p, In p ps -> opt_wf p) -> combine_common_parents ps = Val ps.
Proof.
  intros H. unfold combine_common_parents.
  assert (K : forall p, In p ps -> uniq_get (uniq_parents ps) p = Some p).
  { intros p Hp. destruct (uniq_fold ps []) as [A B]. fold (uniq_parents ps) in A, B.
    destruct (B p (or_introl Hp)) as [x Hx]. rewrite Hx. f_equal.
    apply uniq_get_eq in Hx. destruct Hx as [Hx E]. apply A in Hx. destruct Hx as [[] | Hx].
    apply opt_eqb_eq_wf; auto. }
  generalize (uniq_parents ps) K. clear H K. intros u K.
  induction ps as [|p ps IH]; cbn [map_unwrap]; [reflexivity|].
  rewrite (K p (or_introl eq_refl)). cbn [unwrap obindo]. rewrite IH; [reflexivity|].
  intros q Hq. apply K. right. exact Hq.
Qed.

(** ** append_rest *)
Lemma append_rest_ok rs : forall ps, length rs = length ps -> append_rest rs ps = Val (rs, ps).
Proof.
  induction rs as [|r rs IH]; intros [|p ps] L; try discriminate L; cbn [append_rest]; [reflexivity|].
  rewrite IH by (cbn in L; lia). reflexivity.
Qed.

Section Merge.
  Variable hash : pctx -> Z.
  Variable wild : bool.

  (** what a correct result for [a], [b] is *)
  Definition good (a b r : pctx) : Prop :=
    wf r /\ (forall s, stands wild r s <-> stands wild a s \/ stands wild b s) /\
    (wild = true -> a = EMPTY \/ b = EMPTY -> r = EMPTY).
  Definition cache_ok (k : option cache) : Prop :=
    forall c, k = Some c -> forall x y r, In ((x, y), r) c -> wf x /\ wf y /\ good x y r.
  Definition zero_hash : Prop := exists c, wf c /\ hash c = 0.
  Definition ok_result (a b : pctx) (o : outcome (pctx * option cache)) : Prop :=
    match o with
    | Val (r, k) => good a b r /\ cache_ok k
    | Panics => zero_hash
    | NoFuel => False
    end.

  Lemma good_refl a : wf a -> good a a a.
  Proof. intros H. split; [exact H|]. split; [intros s; tauto | intros _ [E | E]; exact E]. Qed.
  Lemma good_sym a b r : good a b r -> good b a r.
  Proof.
    intros (A & B & C). split; [exact A|]. split.
    - intros s. rewrite B. tauto.
    - intros Hw [E | E]; apply C; auto.
  Qed.

  Lemma cache_get_ok k c a b r : cache_ok k -> k = Some c -> wf a -> wf b -> cache_get c a b = Some r -> good a b r.
  Proof.
    intros Hk -> Ha Hb. specialize (Hk c eq_refl).
    induction c as [|[[x y] r'] c IH]; cbn [cache_get]; [discriminate|].
    destruct (pctx_eqb x a && pctx_eqb y b) eqn:E.
    - apply andb_true_iff in E. destruct E as [E1 E2]. intros H. inversion H; subst r'.
      destruct (Hk x y r (or_introl eq_refl)) as (Hx & Hy & G).
      apply eqb_eq_wf in E1, E2; auto. subst. exact G.
    - apply IH. intros. apply Hk. right. assumption.
  Qed.

  (** every stack is represented by a context containing the empty marker *)
  Lemma stands_EMPTY s : stands wild EMPTY s <-> s = [] \/ wild = true.
  Proof.
    split.
    - intros H. inversion H; subst; [assumption|]. cbn [entries EMPTY In] in *. destruct H0 as [E | []]. discriminate.
    - intros H. apply Bottom; [left; reflexivity | exact H].
  Qed.

  Definition rec_ok (h : nat) (rec : rec_merge) : Prop :=
    forall a b k, (height a < h)%nat -> wf a -> wf b -> cache_ok k -> ok_result a b (rec a b k).

  Lemma wf_array rs ps : StronglySorted Z.lt rs -> length rs = length ps -> (2 <= length rs)%nat ->
    ent_wf (combine rs ps) -> wf (Array rs ps).
  Proof. intros. apply wf_iff. split; [conj; assumption | assumption]. Qed.

  Lemma array2 ra pa rb pb : ra < rb -> ent_wf [(ra, pa)] -> ent_wf [(rb, pb)] -> wf (Array [ra; rb] [pa; pb]).
  Proof.
    intros H Ha Hb. apply wf_array.
    - constructor; [constructor; [constructor | constructor] | constructor; [exact H | constructor]].
    - reflexivity.
    - cbn. lia.
    - cbn [combine]. apply ent_wf_cons. auto.
  Qed.

  Lemma ent_single c r p : c = Singleton r p -> wf c -> ent_wf [(r, p)].
  Proof. intros -> H. apply wf_iff in H. exact (proj2 H). Qed.

  Lemma merge_singletons_ok h rec ra pa rb pb k :
    rec_ok h rec -> (height (Singleton ra pa) <= h)%nat ->
    wf (Singleton ra pa) -> wf (Singleton rb pb) -> cache_ok k ->
    ok_result (Singleton ra pa) (Singleton rb pb) (merge_singletons rec ra pa rb pb wild k).
  Proof.
    intros Hrec Hh Ha Hb Hk. unfold merge_singletons, merge_root.
    rewrite (singleton_is_empty_wf _ _ Ha), (singleton_is_empty_wf _ _ Hb).
    pose proof (ent_single _ _ _ eq_refl Ha) as Ea. pose proof (ent_single _ _ _ eq_refl Hb) as Eb.
    destruct pa as [qa|], pb as [qb|]; cbn [orb andb].
    - (* both have parents *)
      replace (if wild then None else None) with (@None pctx) by (destruct wild; reflexivity).
      pose proof (proj1 (wf_single_some _ _) Ha) as [La Wa]. pose proof (proj1 (wf_single_some _ _) Hb) as [Lb Wb].
      destruct (ra =? rb) eqn:E; cbn [unwrap obindo].
      + assert (ra = rb) by lia. subst rb.
        assert (Hq : (height qa < h)%nat) by (cbn in Hh; lia).
        specialize (Hrec qa qb k Hq Wa Wb Hk). destruct (rec qa qb k) as [[r k'] | | ]; cbn [obindo ok_result] in *; auto.
        destruct Hrec as ((G1 & G2 & G3) & Hk'). split; [|exact Hk']. split.
        { apply wf_single_some. auto. }
        split; [|intros _ [? | ?]; discriminate].
        intros s. rewrite !stands_dent. cbn [entries]. rewrite !dent_single. split.
        * intros (s' & -> & H). apply G2 in H. destruct H as [H | H]; [left | right]; eauto.
        * intros [(s' & -> & H) | (s' & -> & H)]; exists s'; split; try reflexivity; apply G2; auto.
      + assert (P : (if opt_pctx_eqb (Some qa) (Some qb) then (Some qa, Some qa) else (Some qa, Some qb))
                    = (Some qa, Some qb)).
        { destruct (opt_pctx_eqb (Some qa) (Some qb)) eqn:C; [|reflexivity].
          apply opt_eqb_eq_wf in C; [congruence | |]; intros q Eq; inversion Eq; subst; assumption. }
        rewrite P.
        destruct (ra <=? rb) eqn:C; cbn [ok_result].
        * split; [|exact Hk]. split; [apply array2; [lia | assumption | assumption]|].
          split; [|intros _ [? | ?]; discriminate].
          intros s. rewrite !stands_dent. cbn [entries combine]. apply dent_cons.
        * split; [|exact Hk]. split; [apply array2; [lia | assumption | assumption]|].
          split; [|intros _ [? | ?]; discriminate].
          intros s. rewrite !stands_dent. cbn [entries combine]. rewrite dent_cons. tauto.
    - (* b is empty *)
      pose proof (wf_none_EMPTY _ Hb) as EE. inversion EE; subst rb.
      pose proof (proj1 (wf_single_some _ _) Ha) as [La Wa].
      destruct wild eqn:W; cbn [ok_result].
      + split; [|exact Hk]. split; [apply wf_EMPTY|]. split; [|reflexivity].
        intros s. fold EMPTY. rewrite !stands_EMPTY, W. tauto.
      + split; [|exact Hk]. split; [apply array2; [exact La | exact Ea | exact Eb]|].
        split; [|intros Q; congruence].
        intros s. rewrite !stands_dent. cbn [entries combine]. apply dent_cons.
    - pose proof (wf_none_EMPTY _ Ha) as EE. inversion EE; subst ra.
      pose proof (proj1 (wf_single_some _ _) Hb) as [Lb Wb].
      destruct wild eqn:W; cbn [ok_result].
      + split; [|exact Hk]. split; [apply wf_EMPTY|]. split; [|reflexivity].
        intros s. fold EMPTY. rewrite !stands_EMPTY, W. tauto.
      + split; [|exact Hk]. split; [apply array2; [exact Lb | exact Eb | exact Ea]|].
        split; [|intros Q; congruence].
        intros s. rewrite !stands_dent. cbn [entries combine]. rewrite dent_cons. tauto.
    - pose proof (wf_none_EMPTY _ Ha) as EE. inversion EE; subst ra.
      pose proof (wf_none_EMPTY _ Hb) as EE'. inversion EE'; subst rb. fold EMPTY.
      destruct wild; cbn [ok_result]; (split; [|exact Hk]); apply good_refl, wf_EMPTY.
  Qed.

  Definition loop_ok (ars : list Z) aps (brs : list Z) bps
      (o : outcome (list Z * list (option pctx) * option cache)) : Prop :=
    match o with
    | Val (rs, ps, k) =>
        length rs = length ps /\ StronglySorted Z.lt rs /\
        (forall r, In r rs -> In r ars \/ In r brs) /\
        ent_wf (combine rs ps) /\
        (forall s, dent wild (combine rs ps) s <-> dent wild (combine ars aps) s \/ dent wild (combine brs bps) s) /\
        (length ars <= length rs)%nat /\ (length brs <= length rs)%nat /\ cache_ok k
    | Panics => zero_hash
    | NoFuel => False
    end.

  Lemma ssorted_cons r rs : (forall x, In x rs -> r < x) -> StronglySorted Z.lt rs -> StronglySorted Z.lt (r :: rs).
  Proof. intros H S. constructor; [exact S|]. apply Forall_forall. exact H. Qed.
  Lemma ssorted_inv r rs : StronglySorted Z.lt (r :: rs) -> StronglySorted Z.lt rs /\ forall x, In x rs -> r < x.
  Proof. intros H. apply StronglySorted_inv in H. destruct H as [H F]. split; [exact H|]. apply Forall_forall. exact F. Qed.

  Lemma merge_loop_ok h rec : rec_ok h rec -> forall fuel ars aps brs bps k,
    (length aps + length bps < fuel)%nat ->
    length ars = length aps -> length brs = length bps ->
    StronglySorted Z.lt ars -> StronglySorted Z.lt brs ->
    ent_wf (combine ars aps) -> ent_wf (combine brs bps) ->
    (forall r q, In (r, Some q) (combine ars aps) -> (height q < h)%nat) ->
    cache_ok k ->
    loop_ok ars aps brs bps (merge_arrays_loop fuel rec ars aps brs bps k).
  Proof.
    intros Hrec. induction fuel as [|fuel IH]; intros ars aps brs bps k Hf La Lb Sa Sb Wa Wb Hh Hk; [lia|].
    cbn [merge_arrays_loop].
    destruct aps as [|ap aps].
    { destruct ars; [|discriminate La]. cbn [append_rest obindo]. rewrite append_rest_ok by exact Lb. cbn [obindo app].
      cbn [loop_ok combine length In]. split; [exact Lb|]. split; [exact Sb|]. split; [auto|]. split; [exact Wb|].
      split; [|conj; try lia; exact Hk].
      intros s. split; [auto|]. intros [[[[] _] | (r & q & s' & _ & [] & _)] | H]; exact H. }
    destruct ars as [|ra ars]; [discriminate La|].
    destruct bps as [|bp bps].
    { destruct brs; [|discriminate Lb]. rewrite append_rest_ok by exact La. cbn [append_rest obindo]. rewrite !app_nil_r.
      cbn [loop_ok combine]. split; [exact La|]. split; [exact Sa|]. split; [auto|]. split; [exact Wa|].
      split; [|cbn [length]; conj; try lia; exact Hk].
      intros s. split; [auto|]. intros [H | [[[] _] | (r & q & s' & _ & [] & _)]]; exact H. }
    destruct brs as [|rb brs]; [discriminate Lb|].
    cbn [length] in La, Lb, Hf. cbn [combine] in Wa, Wb, Hh.
    pose proof (ssorted_inv _ _ Sa) as [Sa' Fa]. pose proof (ssorted_inv _ _ Sb) as [Sb' Fb].
    pose proof (proj1 (ent_wf_cons _ _) Wa) as [Wa1 Wa']. pose proof (proj1 (ent_wf_cons _ _) Wb) as [Wb1 Wb'].
    assert (Hh' : forall r q, In (r, Some q) (combine ars aps) -> (height q < h)%nat)
      by (intros; eapply Hh; right; eassumption).
    destruct (ra =? rb) eqn:E.
    - assert (ra = rb) by lia. subst rb.
      (* the merged head entry *)
      assert (Head : forall m k0, cache_ok k0 -> ent_wf [(ra, m)] ->
        (forall s, dent wild [(ra, m)] s <-> dent wild [(ra, ap)] s \/ dent wild [(ra, bp)] s) ->
        loop_ok (ra :: ars) (ap :: aps) (ra :: brs) (bp :: bps)
          (let! (rs, ps, k) := merge_arrays_loop fuel rec ars aps brs bps k0 in Val (ra :: rs, m :: ps, k))).
      { intros m k0 Hk0 Wm Dm.
        assert (R : loop_ok ars aps brs bps (merge_arrays_loop fuel rec ars aps brs bps k0)) by (apply IH; auto; lia).
        destruct (merge_arrays_loop fuel rec ars aps brs bps k0) as [[[rs ps] k'] | | ]; cbn [obindo loop_ok] in *; auto.
        destruct R as (L & S & I & W & D & LA & LB & K). cbn [length combine In].
        split; [lia|]. split; [apply ssorted_cons; [|exact S]; intros x Hx; apply I in Hx; destruct Hx; auto|].
        split; [intros x [-> | Hx]; [auto|]; apply I in Hx; tauto|].
        split; [apply ent_wf_cons; auto|].
        split; [|conj; try lia; exact K].
        intros s. rewrite (dent_cons wild (ra, m) (combine rs ps)), (dent_cons wild (ra, ap) (combine ars aps)), (dent_cons wild (ra, bp) (combine brs bps)), Dm, D. tauto. }
      destruct ap as [qa|], bp as [qb|].
      + rewrite andb_false_r. cbn [orb].
        destruct Wa1 as (_ & Ra & Qa). destruct Wb1 as (_ & Rb & Qb). cbn [In] in *.
        assert (Wqa : wf qa) by (eapply Qa; eauto). assert (Wqb : wf qb) by (eapply Qb; eauto).
        assert (Lra : ra < EMPTY_RETURN_STATE) by (eapply Ra; eauto).
        destruct (pctx_eqb qa qb) eqn:C.
        * apply eqb_eq_wf in C; auto. subst qb. apply Head; [exact Hk | |].
          -- conj; cbn [In]; intros r'; [intros [Q | []] | intros q' [Q | []] | intros q' [Q | []]]; inversion Q; subst; auto.
          -- intros s. tauto.
        * cbn [unwrap obindo].
          assert (R : ok_result qa qb (rec qa qb k)) by (apply Hrec; auto; eapply Hh; left; reflexivity).
          destruct (rec qa qb k) as [[m k'] | | ]; cbn [obindo ok_result] in *; auto.
          destruct R as ((G1 & G2 & _) & Hk'). apply Head; [exact Hk' | |].
          -- conj; cbn [In]; intros r'; [intros [Q | []] | intros q' [Q | []] | intros q' [Q | []]]; inversion Q; subst; auto.
          -- intros s. rewrite !dent_single. split.
             ++ intros (s' & -> & H). apply G2 in H. destruct H; [left | right]; eauto.
             ++ intros [(s' & -> & H) | (s' & -> & H)]; exists s'; split; auto; apply G2; auto.
      + destruct Wa1 as (_ & Ra & _). destruct Wb1 as (Rb & _). cbn [In] in *.
        assert (ra < EMPTY_RETURN_STATE) by (eapply Ra; eauto). assert (ra = EMPTY_RETURN_STATE) by (eapply Rb; eauto). lia.
      + destruct Wa1 as (Ra & _). destruct Wb1 as (_ & Rb & _). cbn [In] in *.
        assert (ra = EMPTY_RETURN_STATE) by (eapply Ra; eauto). assert (ra < EMPTY_RETURN_STATE) by (eapply Rb; eauto). lia.
      + assert (ra = EMPTY_RETURN_STATE) by (destruct Wa1 as (Ra & _); apply Ra; left; reflexivity).
        replace (ra =? EMPTY_RETURN_STATE) with true by lia. cbn [andb orb]. apply Head; [exact Hk | exact Wa1|].
        intros s. tauto.
    - destruct (ra <? rb) eqn:C.
      + assert (R : loop_ok ars aps (rb :: brs) (bp :: bps) (merge_arrays_loop fuel rec ars aps (rb :: brs) (bp :: bps) k)).
        { apply IH; auto; cbn [length]; lia. }
        destruct (merge_arrays_loop fuel rec ars aps (rb :: brs) (bp :: bps) k) as [[[rs ps] k'] | | ]; cbn [obindo loop_ok] in *; auto.
        destruct R as (L & S & I & W & D & LA & LB & K). cbn [length combine In] in *.
        split; [lia|]. split.
        { apply ssorted_cons; [|exact S]. intros x Hx. apply I in Hx. destruct Hx as [Hx | [<- | Hx]]; [auto | lia |].
          apply Fb in Hx. lia. }
        split; [intros x [-> | Hx]; [auto|]; apply I in Hx; tauto|].
        split; [apply ent_wf_cons; auto|].
        split; [|conj; try lia; exact K].
        intros s. rewrite (dent_cons wild (ra, ap) (combine rs ps)), (dent_cons wild (ra, ap) (combine ars aps)), D. tauto.
      + assert (R : loop_ok (ra :: ars) (ap :: aps) brs bps (merge_arrays_loop fuel rec (ra :: ars) (ap :: aps) brs bps k)).
        { apply IH; auto; cbn [length]; lia. }
        destruct (merge_arrays_loop fuel rec (ra :: ars) (ap :: aps) brs bps k) as [[[rs ps] k'] | | ]; cbn [obindo loop_ok] in *; auto.
        destruct R as (L & S & I & W & D & LA & LB & K). cbn [length combine In] in *.
        split; [lia|]. split.
        { apply ssorted_cons; [|exact S]. intros x Hx. apply I in Hx. destruct Hx as [[<- | Hx] | Hx]; [lia | | auto].
          apply Fa in Hx. lia. }
        split; [intros x [-> | Hx]; [auto|]; apply I in Hx; tauto|].
        split; [apply ent_wf_cons; auto|].
        split; [|conj; try lia; exact K].
        intros s. rewrite (dent_cons wild (rb, bp) (combine rs ps)), (dent_cons wild (rb, bp) (combine brs bps)), D. tauto.
  Qed.

  Lemma to_array_ok c : wf c -> let '(rs, ps) := to_array c in
    length rs = length ps /\ StronglySorted Z.lt rs /\ combine rs ps = entries c /\
    length rs = pc_length c.
  Proof.
    intros H. apply wf_iff in H. destruct H as [H _]. destruct c as [r p | rs ps]; cbn [to_array entries combine length pc_length].
    - split; [reflexivity|]. split; [constructor; constructor|]. auto.
    - destruct H as (S & L & _). auto.
  Qed.

  Lemma merge_arrays_ok h rec a b k :
    rec_ok h rec -> (height a <= h)%nat -> wf a -> wf b -> cache_ok k ->
    (2 <= pc_length a \/ 2 <= pc_length b)%nat ->
    (wild = true -> a <> EMPTY /\ b <> EMPTY) ->
    ok_result a b (merge_arrays rec (to_array a) (to_array b) k).
  Proof.
    intros Hrec Hh Ha Hb Hk Hl Hw. unfold merge_arrays.
    pose proof (to_array_ok a Ha) as Ta. pose proof (to_array_ok b Hb) as Tb.
    destruct (to_array a) as [ars aps], (to_array b) as [brs bps].
    destruct Ta as (La & Sa & Ea & Pa). destruct Tb as (Lb & Sb & Eb & Pb).
    pose proof (proj2 (proj1 (wf_iff a) Ha)) as Wa. pose proof (proj2 (proj1 (wf_iff b) Hb)) as Wb.
    rewrite <- Ea in Wa. rewrite <- Eb in Wb.
    assert (R : loop_ok ars aps brs bps (merge_arrays_loop (S (length aps + length bps)) rec ars aps brs bps k)).
    { apply (merge_loop_ok h); auto; try lia. intros r q Hq. rewrite Ea in Hq. apply height_entry in Hq. lia. }
    destruct (merge_arrays_loop (S (length aps + length bps)) rec ars aps brs bps k) as [[[rs ps] k'] | | ];
      cbn [obindo loop_ok ok_result] in *; auto.
    destruct R as (L & S & I & W & D & LA & LB & K).
    rewrite combine_common_parents_id.
    - cbn [obindo ok_result]. split; [|exact K]. split.
      + apply wf_array; auto. lia.
      + split.
        * intros s. rewrite !stands_dent. cbn [entries]. rewrite D, Ea, Eb. reflexivity.
        * intros W1 [E | E]; destruct (Hw W1); contradiction.
    - intros p Hp q ->. destruct (in_combine_map rs ps _ L Hp) as [r Hr]. destruct W as (_ & _ & W). eauto.
  Qed.

  Lemma pc_is_empty_wf c : wf c -> exists e, pc_is_empty c = Val e /\ (e = true <-> c = EMPTY).
  Proof.
    intros H. destruct c as [r p | rs ps].
    - exists (singleton_is_empty r p). split; [reflexivity|].
      rewrite (singleton_is_empty_wf _ _ H). destruct p; [split; discriminate|].
      split; [intros _; apply wf_none_EMPTY, H | reflexivity].
    - apply wf_iff in H. destruct H as ((S & L & N) & W). destruct rs as [|r [|r' rs]]; cbn in N; try lia.
      destruct ps as [|p [|p' ps]]; try discriminate L.
      exists (r =? EMPTY_RETURN_STATE). split; [reflexivity|]. split; [|discriminate].
      intros E. exfalso. apply ssorted_inv in S. destruct S as [_ F]. specialize (F r' (or_introl eq_refl)).
      destruct W as (W1 & W2 & _). cbn [entries combine In] in W1, W2.
      destruct p' as [q'|].
      + specialize (W2 r' q' (or_intror (or_introl eq_refl))). lia.
      + specialize (W1 r' (or_intror (or_introl eq_refl))). lia.
  Qed.

  Lemma finish_ok a b o : ok_result a b o -> wf a -> wf b ->
    ok_result a b (let! (r, k) := o in
      if hash r =? 0 then Panics
      else Val (r, match k with None => None | Some c => Some (((a, b), r) :: c) end)).
  Proof.
    intros H Ha Hb. destruct o as [[r k] | | ]; cbn [obindo ok_result] in *; auto.
    destruct H as [G K]. destruct (hash r =? 0) eqn:E.
    - exists r. split; [apply G | lia].
    - cbn [ok_result]. split; [exact G|]. intros c Hc x y z. destruct k as [c0|]; [|discriminate Hc].
      inversion Hc; subst c. intros [Q | Q]; [inversion Q; subst; auto | eapply K; eauto].
  Qed.

  Lemma merge_ok : forall fuel a b k, (height a < fuel)%nat -> wf a -> wf b -> cache_ok k ->
    ok_result a b (merge hash fuel wild a b k).
  Proof.
    induction fuel as [|fuel IH]; intros a b k Hf Ha Hb Hk; [lia|]. cbn [merge].
    destruct (pctx_eqb a b) eqn:E.
    { apply eqb_eq_wf in E; auto. subst b. split; [apply good_refl; auto | exact Hk]. }
    assert (Old : forall r, (match k with
                     | None => None
                     | Some c => match cache_get c a b with Some r => Some r | None => cache_get c b a end
                     end) = Some r -> good a b r).
    { intros r. destruct k as [c|]; [|discriminate].
      destruct (cache_get c a b) eqn:C1.
      - intros H. inversion H; subst. eapply cache_get_ok; eauto.
      - intros H. apply good_sym. eapply cache_get_ok; eauto. }
    destruct (match k with
              | None => None
              | Some c => match cache_get c a b with Some r => Some r | None => cache_get c b a end
              end) as [r|].
    { split; [apply Old; reflexivity | exact Hk]. }
    assert (Hrec : rec_ok fuel (merge hash fuel wild)) by (intros x y k0 ? ? ? ?; apply IH; auto).
    assert (Arr : (2 <= pc_length a \/ 2 <= pc_length b)%nat ->
      ok_result a b (if wild
       then
        let! ea := pc_is_empty a in
        if ea then Val (EMPTY, k)
        else
         let! eb := pc_is_empty b in
         if eb then Val (EMPTY, k)
         else
          let! (r, k0) := merge_arrays (merge hash fuel wild) (to_array a) (to_array b) k in
          if hash r =? 0 then Panics
          else Val (r, match k0 with Some c => Some ((a, b, r) :: c) | None => None end)
       else
        let! (r, k0) := merge_arrays (merge hash fuel wild) (to_array a) (to_array b) k in
        if hash r =? 0 then Panics
        else Val (r, match k0 with Some c => Some ((a, b, r) :: c) | None => None end))).
    { intros Hl. destruct (pc_is_empty_wf a Ha) as (ea & Eea & Ia). destruct (pc_is_empty_wf b Hb) as (eb & Eeb & Ib).
      destruct (bool_dec wild true) as [W | W].
      - rewrite W at 1. rewrite Eea, Eeb. cbn [obindo]. destruct ea.
        { cbn [ok_result]. split; [|exact Hk]. split; [apply wf_EMPTY|]. split; [|reflexivity].
          rewrite (proj1 Ia eq_refl). intros s. rewrite !stands_EMPTY, W. tauto. }
        destruct eb.
        { cbn [ok_result]. split; [|exact Hk]. split; [apply wf_EMPTY|]. split; [|reflexivity].
          rewrite (proj1 Ib eq_refl). intros s. rewrite !stands_EMPTY, W. tauto. }
        apply finish_ok; auto. apply (merge_arrays_ok fuel); auto; [lia|].
        intros _. split; intros Q; [apply Ia in Q | apply Ib in Q]; discriminate.
      - apply not_true_is_false in W. rewrite W at 1. apply finish_ok; auto.
        apply (merge_arrays_ok fuel); auto; [lia|]. rewrite W. discriminate. }
    assert (N : forall rs ps, wf (Array rs ps) -> (2 <= length rs)%nat).
    { intros rs ps H. apply wf_iff in H. destruct H as ((_ & _ & H) & _). exact H. }
    destruct a as [ra pa | ars aps].
    - destruct b as [rb pb | brs bps].
      + apply finish_ok; auto. apply (merge_singletons_ok fuel); auto. lia.
      + apply Arr. right. eapply N; eauto.
    - apply Arr. left. eapply N; eauto.
  Qed.

  Lemma merge_fuel_val : forall fuel a b k r k', merge hash fuel wild a b k = Val (r, k') ->
    wf a -> wf b -> cache_ok k -> good a b r /\ cache_ok k'.
  Proof.
    (* a value obtained with little fuel is also obtained with enough fuel *)
    assert (Mono : forall fuel a b k v, merge hash fuel wild a b k = Val v ->
              forall fuel', (fuel <= fuel')%nat -> merge hash fuel' wild a b k = Val v).
    { induction fuel as [|fuel IH]; intros a b k v H fuel' Hf; [discriminate H|].
      destruct fuel' as [|fuel']; [lia|]. cbn [merge] in *.
      destruct (pctx_eqb a b); [exact H|].
      destruct (match k with
                | None => None
                | Some c => match cache_get c a b with Some r => Some r | None => cache_get c b a end
                end) as [r|]; [exact H|].
      assert (Rec : forall x y k0 w, merge hash fuel wild x y k0 = Val w -> merge hash fuel' wild x y k0 = Val w)
        by (intros; eapply IH; eauto; lia).
      assert (Sing : forall ra pa rb pb k0 w,
        merge_singletons (merge hash fuel wild) ra pa rb pb wild k0 = Val w ->
        merge_singletons (merge hash fuel' wild) ra pa rb pb wild k0 = Val w).
      { intros ra pa rb pb k0 w. unfold merge_singletons. destruct (merge_root ra pa rb pb wild); [auto|].
        destruct (ra =? rb); [|auto]. destruct pa as [qa|]; [|discriminate]. destruct pb as [qb|]; [|discriminate].
        cbn [unwrap obindo]. destruct (merge hash fuel wild qa qb k0) eqn:Q; try discriminate.
        rewrite (Rec _ _ _ _ Q). auto. }
      assert (Loop : forall n ars aps brs bps k0 w,
        merge_arrays_loop n (merge hash fuel wild) ars aps brs bps k0 = Val w ->
        merge_arrays_loop n (merge hash fuel' wild) ars aps brs bps k0 = Val w).
      { induction n as [|n IHn]; intros ars aps brs bps k0 w; cbn [merge_arrays_loop]; [discriminate|].
        destruct aps as [|ap aps]; [auto|]. destruct bps as [|bp bps]; [auto|].
        destruct ars as [|ra ars]; [auto|]. destruct brs as [|rb brs]; [auto|].
        assert (Tail : forall ars aps brs bps k0 (f : list Z * list (option pctx) * option cache -> outcome (list Z * list (option pctx) * option cache)) w,
          obindo (merge_arrays_loop n (merge hash fuel wild) ars aps brs bps k0) f = Val w ->
          obindo (merge_arrays_loop n (merge hash fuel' wild) ars aps brs bps k0) f = Val w).
        { intros ars' aps' brs' bps' k1 f w'. destruct (merge_arrays_loop n (merge hash fuel wild) ars' aps' brs' bps' k1) eqn:Q; try discriminate.
          rewrite (IHn _ _ _ _ _ _ Q). auto. }
        destruct (ra =? rb).
        - match goal with |- context [if ?c then _ else _] => destruct c end; [apply Tail|].
          destruct ap as [qa|]; [|discriminate]. destruct bp as [qb|]; [|discriminate]. cbn [unwrap obindo].
          destruct (merge hash fuel wild qa qb k0) as [[m k1] | | ] eqn:Q; try discriminate.
          rewrite (Rec _ _ _ _ Q). cbn [obindo]. apply Tail.
        - destruct (ra <? rb); apply Tail. }
      assert (Arrs : forall x y k0 w, merge_arrays (merge hash fuel wild) x y k0 = Val w ->
                                      merge_arrays (merge hash fuel' wild) x y k0 = Val w).
      { intros [ars aps] [brs bps] k0 w. unfold merge_arrays.
        destruct (merge_arrays_loop _ (merge hash fuel wild) ars aps brs bps k0) eqn:Q; try discriminate.
        rewrite (Loop _ _ _ _ _ _ _ Q). auto. }
      assert (FinA : forall x y k0 (f : pctx * option cache -> outcome (pctx * option cache)) w,
        obindo (merge_arrays (merge hash fuel wild) x y k0) f = Val w ->
        obindo (merge_arrays (merge hash fuel' wild) x y k0) f = Val w).
      { intros x y k0 f w. destruct (merge_arrays (merge hash fuel wild) x y k0) eqn:Q; try discriminate.
        rewrite (Arrs _ _ _ _ Q). auto. }
      assert (FinS : forall ra pa rb pb k0 (f : pctx * option cache -> outcome (pctx * option cache)) w,
        obindo (merge_singletons (merge hash fuel wild) ra pa rb pb wild k0) f = Val w ->
        obindo (merge_singletons (merge hash fuel' wild) ra pa rb pb wild k0) f = Val w).
      { intros ra pa rb pb k0 f w. destruct (merge_singletons (merge hash fuel wild) ra pa rb pb wild k0) eqn:Q; try discriminate.
        rewrite (Sing _ _ _ _ _ _ Q). auto. }
      assert (Wild : forall (w0 : bool) (f : pctx * option cache -> outcome (pctx * option cache)),
        (if w0 then let! ea := pc_is_empty a in if ea then Val (EMPTY, k) else
            let! eb := pc_is_empty b in if eb then Val (EMPTY, k) else
            obindo (merge_arrays (merge hash fuel wild) (to_array a) (to_array b) k) f
         else obindo (merge_arrays (merge hash fuel wild) (to_array a) (to_array b) k) f) = Val v ->
        (if w0 then let! ea := pc_is_empty a in if ea then Val (EMPTY, k) else
            let! eb := pc_is_empty b in if eb then Val (EMPTY, k) else
            obindo (merge_arrays (merge hash fuel' wild) (to_array a) (to_array b) k) f
         else obindo (merge_arrays (merge hash fuel' wild) (to_array a) (to_array b) k) f) = Val v).
      { intros w0 f. case w0.
        - destruct (pc_is_empty a) as [[|] | | ]; cbn [obindo]; auto.
          destruct (pc_is_empty b) as [[|] | | ]; cbn [obindo]; auto; apply FinA.
        - apply FinA. }
      destruct a as [ra pa | ars aps]; [destruct b as [rb pb | brs bps]|].
      - apply FinS. exact H.
      - apply Wild. exact H.
      - apply Wild. exact H. }
    intros fuel a b k r k' H Ha Hb Hk.
    pose proof (merge_ok (S (Nat.max fuel (height a))) a b k) as M.
    rewrite (Mono _ _ _ _ _ H) in M by lia. apply M; auto. lia.
  Qed.

  Lemma reach_cache_ok k : reach_cache hash wild k -> cache_ok k.
  Proof.
    induction 1 as [| | k fuel a b r k' Hr IH Ha Hb E].
    - intros c Hc. discriminate.
    - intros c Hc. inversion Hc; subst. intros x y z [].
    - eapply merge_fuel_val in E; eauto. apply E.
  Qed.
End Merge.

(** ** from_rule_context *)
Lemma from_rule_ok (fo : Z -> option Z) (follow : Z -> Z) stack :
  (forall s, In s stack -> s <> -1 -> fo s = Some (follow s) /\ follow s < EMPTY_RETURN_STATE) ->
  exists c, from_rule_context fo stack = Val c /\ wf c /\
    forall st, stands false c st <-> st = return_chain stack follow.
Proof.
  assert (Base : exists c, Val EMPTY = Val c /\ wf c /\ forall st, stands false c st <-> st = []).
  { exists EMPTY. split; [reflexivity|]. split; [apply wf_EMPTY|].
    intros st. rewrite stands_EMPTY. intuition congruence. }
  induction stack as [|s rest IH]; intros H; cbn [from_rule_context return_chain]; [exact Base|].
  destruct rest as [|s' rest]; [exact Base|].
  destruct (s =? -1) eqn:E; [exact Base|].
  destruct IH as (p & -> & Wp & Sp); [intros; apply H; [right|]; assumption|].
  destruct (H s (or_introl eq_refl)) as [-> Hf]; [lia|]. cbn [obindo unwrap].
  exists (Singleton (follow s) (Some p)). split; [reflexivity|]. split; [apply wf_single_some; auto|].
  intros st. rewrite stands_dent. cbn [entries]. rewrite dent_single. split.
  - intros (s0 & -> & Hs). apply Sp in Hs. subst s0. reflexivity.
  - intros ->. eexists. split; [reflexivity|]. apply Sp. reflexivity.
Qed.

(** ** get_shared_context *)
Section Shared.
  Variable deref : Z -> pctx.
  Hypothesis Hwf : forall a, wf (deref a).

  Definition sh_inv (st : shared) : Prop :=
    (forall k v, In (k, v) (sh_cache st) -> k = v) /\
    (forall k v k' v', In (k, v) (sh_cache st) -> In (k', v') (sh_cache st) -> deref k = deref k' -> k = k') /\
    (forall k v, In (k, v) (sh_visited st) -> k = v /\ In (k, v) (sh_cache st)).

  Lemma find_value_some l c v : (forall k w, In (k, w) l -> k = w) -> wf c ->
    find_value deref l c = Some v -> In (v, v) l /\ deref v = c.
  Proof.
    intros H Hc. induction l as [|[k w] l IH]; cbn [find_value]; [discriminate|].
    destruct (pctx_eqb (deref k) c) eqn:E.
    - intros Q. inversion Q; subst w. apply eqb_eq_wf in E; auto. subst c.
      pose proof (H k v (or_introl eq_refl)). subst v. split; [left|]; reflexivity.
    - intros Q. destruct IH as [A B]; [intros; apply H; right; assumption | exact Q |].
      split; [right; exact A | exact B].
  Qed.
  Lemma find_value_none l c : find_value deref l c = None -> forall k w, In (k, w) l -> deref k <> c.
  Proof.
    induction l as [|[k w] l IH]; cbn [find_value]; [intros _ k w []|].
    destruct (pctx_eqb (deref k) c) eqn:E; [discriminate|]. intros Q k' w' [Eq | Hin].
    - injection Eq as E1 E2. intros Q2. rewrite E1, Q2, pctx_eqb_refl in E. discriminate.
    - eapply IH; eauto.
  Qed.
  Lemma find_addr_some l a v : find_addr l a = Some v -> In (a, v) l.
  Proof.
    induction l as [|[k w] l IH]; cbn [find_addr]; [discriminate|].
    destruct (k =? a) eqn:E.
    - intros Q. inversion Q; subst. left. f_equal. lia.
    - intros Q. right. auto.
  Qed.

  Lemma shared_step st a : sh_inv st -> exists st' r, get_shared_context deref st a = Val (st', r) /\
    sh_inv st' /\ deref r = deref a /\ (deref a <> EMPTY -> In (r, r) (sh_cache st')) /\
    (forall k v, In (k, v) (sh_cache st) -> In (k, v) (sh_cache st')).
  Proof.
    intros (I1 & I2 & I3). unfold get_shared_context.
    destruct (pc_is_empty_wf (fun _ => 0) (deref a) (Hwf a)) as (e & -> & He). cbn [obindo].
    destruct e.
    { exists st, a. split; [reflexivity|]. split; [split; [|split]; assumption|]. split; [reflexivity|].
      split; [|auto]. intros N. destruct N. apply He. reflexivity. }
    destruct (find_addr (sh_visited st) a) as [old|] eqn:E1.
    { apply find_addr_some in E1. destruct (I3 _ _ E1) as [<- Hc].
      exists st, a. split; [reflexivity|]. split; [split; [|split]; assumption|]. auto. }
    destruct (find_value deref (sh_cache st) (deref a)) as [old|] eqn:E2.
    { apply find_value_some in E2; auto. destruct E2 as [A B].
      exists st, old. split; [reflexivity|]. split; [split; [|split]; assumption|]. auto. }
    eexists. exists a. split; [reflexivity|]. cbn [sh_cache sh_visited].
    pose proof (find_value_none _ _ E2) as N.
    split; [split; [|split]; cbn [In sh_cache sh_visited]|].
    - intros k v [Q | Q]; [congruence | eauto].
    - intros k v k' v' [Q | Q] [Q' | Q'] D.
      + congruence.
      + inversion Q; subst. destruct (N _ _ Q'). auto.
      + inversion Q'; subst. destruct (N _ _ Q). auto.
      + eauto.
    - intros k v [Q | Q].
      + inversion Q; subst. auto.
      + destruct (I3 _ _ Q). auto.
    - split; [reflexivity|]. split; [intros _; left; reflexivity|]. intros k v Hk. right. exact Hk.
  Qed.

  Lemma run_shared_ok calls : forall st, sh_inv st -> exists st' rs, run_shared deref st calls = Val (st', rs) /\
    sh_inv st' /\ (forall k v, In (k, v) (sh_cache st) -> In (k, v) (sh_cache st')) /\
    Forall2 (fun c r => deref r = deref (snd c) /\ (deref (snd c) <> EMPTY -> In (r, r) (sh_cache st'))) calls rs.
  Proof.
    induction calls as [|[fresh a] calls IH]; intros st Hst; cbn [run_shared].
    { exists st, []. split; [reflexivity|]. split; [exact Hst|]. split; [auto|constructor]. }
    set (st0 := if fresh then _ else st).
    assert (Hst0 : sh_inv st0).
    { subst st0. destruct fresh; [|exact Hst]. destruct Hst as (I1 & I2 & I3). split; [|split]; cbn; auto. intros k v []. }
    assert (Ec : sh_cache st0 = sh_cache st) by (subst st0; destruct fresh; reflexivity).
    clearbody st0. destruct (shared_step st0 a Hst0) as (st1 & r & -> & H1 & D & M & G). cbn [obindo].
    destruct (IH st1 H1) as (st2 & rs & -> & H2 & G2 & F). cbn [obindo].
    exists st2, (r :: rs). split; [reflexivity|]. split; [exact H2|]. split.
    - intros k v Hk. apply G2, G. rewrite Ec. exact Hk.
    - constructor; [|exact F]. cbn [snd]. split; [exact D|]. intros N. apply G2. auto.
  Qed.
End Shared.

Lemma nth_error_combine {A B} (x : list A) : forall (y : list B) i a b,
  nth_error x i = Some a -> nth_error y i = Some b -> nth_error (combine x y) i = Some (a, b).
Proof.
  induction x as [|u x IH]; intros [|v y] [|i] a b; cbn; try discriminate.
  - intros E1 E2. congruence.
  - apply IH.
Qed.

Lemma lookups_in_range c : wf c ->
  (forall i, (i < pc_length c)%nat ->
     exists r p, get_return_state c i = Val r /\ get_parent c i = Val p /\ nth_error (entries c) i = Some (r, p)) /\
  (exists e, pc_is_empty c = Val e /\ (e = true <-> c = EMPTY)) /\
  (exists e, has_empty_path c = Val e /\ (e = true <-> stands false c [])).
Proof.
  intros H.
  assert (P1 : forall i, (i < pc_length c)%nat ->
     exists r p, get_return_state c i = Val r /\ get_parent c i = Val p /\ nth_error (entries c) i = Some (r, p)).
  { intros i Hi. destruct c as [r p | rs ps]; cbn [pc_length get_return_state get_parent entries] in *.
    - exists r, p. split; [reflexivity|]. split; [reflexivity|]. replace i with 0%nat by lia. reflexivity.
    - apply wf_iff in H. destruct H as ((_ & L & _) & _).
      destruct (nth_error rs i) as [r|] eqn:E1; [|apply nth_error_None in E1; lia].
      destruct (nth_error ps i) as [p|] eqn:E2; [|apply nth_error_None in E2; lia].
      exists r, p. split; [reflexivity|]. split; [reflexivity|]. apply nth_error_combine; assumption. }
  split; [exact P1|]. split; [apply (pc_is_empty_wf (fun _ => 0)), H|].
  unfold has_empty_path.
  destruct (pc_length c) as [|n] eqn:L.
  { apply wf_iff in H. destruct c; [discriminate L|]. cbn in L. destruct H as ((_ & _ & N) & _). lia. }
  destruct (P1 n) as (r & p & E1 & E2 & E3); [lia|]. rewrite E1. cbn [obindo].
  exists (r =? EMPTY_RETURN_STATE). split; [reflexivity|].
  assert (W := proj2 (proj1 (wf_iff c) H)). destruct W as (W1 & W2 & W3).
  pose proof (nth_error_In _ _ E3) as Hin.
  split.
  - intros E. assert (r = EMPTY_RETURN_STATE) by lia. subst r. destruct p as [q|].
    + apply W2 in Hin. lia.
    + apply Bottom; auto.
  - intros Sd. inversion Sd as [c' s' Hb _ |]; subst.
    (* the marker is the largest return state, and the last one is the largest *)
    destruct c as [r' p' | rs ps]; cbn [entries] in *.
    + destruct Hb as [Q | []]. inversion Q; subst. cbn in E1. inversion E1. apply Z.eqb_refl.
    + apply wf_iff in H. destruct H as ((St & Ln & _) & _). cbn in E1, L.
      destruct (nth_error rs n) eqn:En; [|discriminate E1]. cbn in E1. inversion E1; subst z.
      apply in_combine_l in Hb.
      assert (Last : forall l m x, StronglySorted Z.lt l -> length l = S m -> nth_error l m = Some x ->
                forall y, In y l -> y <= x).
      { clear. induction l as [|u l IH]; intros m x St L E y Hy; [destruct Hy|].
        apply ssorted_inv in St. destruct St as [St F]. destruct m as [|m].
        - destruct l; [|discriminate L]. cbn in E. inversion E; subst. destruct Hy as [-> | []]. lia.
        - cbn in L, E. destruct Hy as [-> | Hy].
          + apply nth_error_In in E. apply F in E. lia.
          + apply (IH m); auto. }
      pose proof (Last rs n r St L En _ Hb).
      destruct p as [q|]; [apply W2 in Hin; lia | apply W1 in Hin; lia].
Qed.

Lemma forall2_nth {A B} (P : A -> B -> Prop) l l' : Forall2 P l l' ->
  forall i a b, nth_error l i = Some a -> nth_error l' i = Some b -> P a b.
Proof.
  induction 1 as [|x y l l' Hxy F IH]; intros [|i] a b; cbn; try discriminate.
  - intros E1 E2. congruence.
  - apply IH.
Qed.

Lemma shared_history deref calls : (forall a, wf (deref a)) ->
  exists st rs,
    run_shared deref {| sh_cache := []; sh_visited := [] |} calls = Val (st, rs) /\
    length rs = length calls /\
    (forall i f a r, nth_error calls i = Some (f, a) -> nth_error rs i = Some r -> deref r = deref a) /\
    (forall i j f a r g b t, nth_error calls i = Some (f, a) -> nth_error rs i = Some r ->
       nth_error calls j = Some (g, b) -> nth_error rs j = Some t ->
       deref a = deref b -> deref a <> EMPTY -> r = t) /\
    (forall key v, In (key, v) (sh_cache st) -> deref v = deref key).
Proof.
  intros H. destruct (run_shared_ok deref H calls {| sh_cache := []; sh_visited := [] |}) as (st & rs & E & I & _ & F).
  { split; [|split]; cbn; [intros k v [] | intros k v k' v' [] | intros k v []]. }
  exists st, rs. split; [exact E|]. split; [clear - F; induction F; cbn; congruence|].
  destruct I as (I1 & I2 & I3). split; [|split].
  - intros i f a r Ea Er. exact (proj1 (forall2_nth _ _ _ F _ _ _ Ea Er)).
  - intros i j f a r g b t Ea Er Eb Et D N.
    pose proof (forall2_nth _ _ _ F _ _ _ Ea Er) as [D1 M1]. pose proof (forall2_nth _ _ _ F _ _ _ Eb Et) as [D2 M2].
    cbn [snd] in *. eapply I2; [apply M1; exact N | apply M2; congruence | congruence].
  - intros k v Hk. rewrite (I1 _ _ Hk). reflexivity.
Qed.
