(** Merging never fails, and keeps what is known about the return states in contexts. *)
From Coq Require Import ZArith List Bool Lia Sorted ZifyBool ZifyNat.
From Verif Require Import Outcome PredContextModel PredContextSpec PredContextProofs AtnModel AtnSpec Ll1Model Ll1Spec.
Import ListNotations.
Local Open Scope Z_scope.
Local Open Scope outcome_scope.

Section Fits.
  Variable a : atn.
  (** the rule in which stacks end, in full-context mode *)
  Variable main : Z.

  (** the contexts of rule [R]: [k = true], as they are without the caller's stack: the
      empty stack stands for all; [k = false], with it: stacks end in rule [main] *)
  Inductive fits (k : bool) : Z -> pctx -> Prop :=
  | Fits : forall R c, wf c ->
      (forall r, In (r, None) (entries c) -> (k = true -> c = EMPTY) /\ (k = false -> R = main)) ->
      (forall r q, In (r, Some q) (entries c) -> exists_state a r) ->
      (forall r q, In (r, Some q) (entries c) -> fits k (rule_of a r) q) ->
      fits k R c.

  Lemma fits_wf k R c : fits k R c -> wf c.
  Proof. destruct 1; assumption. Qed.

  Definition efits (k : bool) (R : Z) (l : list (Z * option pctx)) : Prop :=
    (forall r, In (r, None) l -> k = false -> R = main) /\
    (forall r q, In (r, Some q) l -> exists_state a r /\ fits k (rule_of a r) q).
  Lemma fits_iff k R c : fits k R c <->
    wf c /\ efits k R (entries c) /\ (k = true -> forall r, In (r, None) (entries c) -> c = EMPTY).
  Proof.
    split.
    - destruct 1 as [R c W N X Q]. split; [exact W|]. split; [split|].
      + intros r I. apply (N r I).
      + intros r q I. split; eauto.
      + intros K r I. apply (N r I), K.
    - intros (W & (N & X) & T). constructor; [exact W| | |].
      + intros r I. split; [intros K; eapply T; eauto | intros K; eapply N; eauto].
      + intros r q I. eapply X; eauto.
      + intros r q I. eapply X; eauto.
  Qed.
  Lemma efits_cons k R x l : efits k R (x :: l) <-> efits k R [x] /\ efits k R l.
  Proof.
    unfold efits. cbn [In]. split.
    - intros (A & B). split; split.
      + intros r [E|[]]. apply (A r). auto.
      + intros r q [E|[]]. apply (B r q). auto.
      + intros r E. apply (A r). auto.
      + intros r q E. apply (B r q). auto.
    - intros ((A & B) & (A' & B')). split.
      + intros r [E|E]; eauto.
      + intros r q [E|E]; eauto.
  Qed.

  Lemma fits_EMPTY k R : (k = false -> R = main) -> fits k R EMPTY.
  Proof.
    intros H. apply fits_iff. split; [apply wf_EMPTY|]. split; [split|].
    - intros r _. exact H.
    - intros r q [E|[]]. discriminate.
    - reflexivity.
  Qed.
  Lemma fits_empty_main R : fits false R EMPTY -> R = main.
  Proof. intros H. apply fits_iff in H as (_ & (H & _) & _). apply (H EMPTY_RETURN_STATE); [left; reflexivity | reflexivity]. Qed.
  Lemma fits_push k R f c : fits k R c -> exists_state a f -> rule_of a f = R -> f < EMPTY_RETURN_STATE -> forall R', fits k R' (Singleton f (Some c)).
  Proof.
    intros H X E L R'. apply fits_iff. split; [apply wf_single_some; split; [exact L | eapply fits_wf; eauto]|]. split; [split|].
    - intros r [I|[]]. discriminate.
    - intros r q [I|[]]. inversion I; subst. auto.
    - intros _ r [I|[]]. discriminate.
  Qed.
  Lemma fits_pop k R c r q : fits k R c -> In (r, Some q) (entries c) -> exists_state a r /\ fits k (rule_of a r) q.
  Proof. intros H I. apply fits_iff in H as (_ & (_ & H) & _). eauto. Qed.

  (** [sll]: merges are made without the caller's stack only *)
  Variable sll : bool.
  Variable wild : bool.
  Hypothesis Hw : sll = true -> wild = true.
  Variable hash : pctx -> Z.
  Hypothesis Hh : forall x, wf x -> hash x <> 0.

  Definition keeps (x y r : pctx) : Prop :=
    wf r /\ forall k, (k = true -> sll = true) -> forall R, fits k R x -> fits k R y -> fits k R r.
  Definition kept (k : option cache) : Prop :=
    forall c, k = Some c -> forall x y r, In ((x, y), r) c -> wf x /\ wf y /\ keeps x y r.
  Definition merges (x y : pctx) (o : outcome (pctx * option cache)) : Prop :=
    exists r k, o = Val (r, k) /\ keeps x y r /\ kept k.

  Lemma keeps_refl x : wf x -> keeps x x x.
  Proof. intros W. split; [exact W|]. auto. Qed.
  Lemma keeps_sym x y r : keeps x y r -> keeps y x r.
  Proof. intros (W & H). split; [exact W|]. intros k K R F G. apply H; assumption. Qed.

  Lemma kept_get k c x y r : kept k -> k = Some c -> wf x -> wf y -> cache_get c x y = Some r -> keeps x y r.
  Proof.
    intros Hk -> Wx Wy. specialize (Hk c eq_refl).
    induction c as [|[[x' y'] r'] c IH]; cbn [cache_get]; [discriminate|].
    destruct (pctx_eqb x' x && pctx_eqb y' y) eqn:E.
    - apply andb_true_iff in E. destruct E as [E1 E2]. intros H. inversion H; subst r'.
      destruct (Hk x' y' r (or_introl eq_refl)) as (Wx' & Wy' & G).
      apply eqb_eq_wf in E1, E2; auto. subst. exact G.
    - apply IH. intros. apply Hk. right. assumption.
  Qed.

  Definition rec_total (h : nat) (rec : rec_merge) : Prop :=
    forall x y k, (height x < h)%nat -> wf x -> wf y -> kept k -> merges x y (rec x y k).

  Lemma fits_single k R r p : fits k R (Singleton r p) -> efits k R [(r, p)].
  Proof. intros H. apply fits_iff in H. apply H. Qed.
  (** contexts with at least one return state, built from entries that fit *)
  Lemma fits_array k R rs ps : wf (Array rs ps) -> efits k R (combine rs ps) -> (k = true -> forall r, ~ In (r, None) (combine rs ps)) -> fits k R (Array rs ps).
  Proof. intros W E N. apply fits_iff. split; [exact W|]. split; [exact E|]. intros K r I. destruct (N K r I). Qed.
  Lemma fits_no_bottom k R c : fits k R c -> k = true -> c <> EMPTY -> forall r, ~ In (r, None) (entries c).
  Proof. intros H K N r I. apply fits_iff in H as (_ & _ & H). apply N. eapply H; eauto. Qed.

  Lemma merge_singletons_total h rec ra pa rb pb k :
    rec_total h rec -> (height (Singleton ra pa) <= h)%nat ->
    wf (Singleton ra pa) -> wf (Singleton rb pb) -> kept k ->
    merges (Singleton ra pa) (Singleton rb pb) (merge_singletons rec ra pa rb pb wild k).
  Proof.
    intros Hrec Hhe Wa Wb Hk. unfold merge_singletons, merge_root.
    rewrite (singleton_is_empty_wf _ _ Wa), (singleton_is_empty_wf _ _ Wb).
    pose proof (ent_single _ _ _ eq_refl Wa) as Ea. pose proof (ent_single _ _ _ eq_refl Wb) as Eb.
    destruct pa as [qa|], pb as [qb|]; cbn [orb andb].
    - replace (if wild then None else None) with (@None pctx) by (destruct wild; reflexivity).
      pose proof (proj1 (wf_single_some _ _) Wa) as [La Wqa]. pose proof (proj1 (wf_single_some _ _) Wb) as [Lb Wqb].
      destruct (ra =? rb) eqn:E; cbn [unwrap obindo].
      + assert (ra = rb) by lia. subst rb.
        assert (Hq : (height qa < h)%nat) by (cbn in Hhe; lia).
        destruct (Hrec qa qb k Hq Wqa Wqb Hk) as (r & k' & -> & (Wr & Hr) & Hk'). cbn [obindo].
        exists (Singleton ra (Some r)), k'. split; [reflexivity|]. split; [|exact Hk'].
        split; [apply wf_single_some; auto|]. intros kd Kd R Fa Fb.
        apply fits_pop with (r := ra) (q := qa) in Fa as (Xa & Fa); [|left; reflexivity].
        apply fits_pop with (r := ra) (q := qb) in Fb as (Xb & Fb); [|left; reflexivity].
        eapply fits_push; [apply Hr; eassumption | exact Xa | reflexivity | exact La].
      + assert (P : (if opt_pctx_eqb (Some qa) (Some qb) then (Some qa, Some qa) else (Some qa, Some qb)) = (Some qa, Some qb)).
        { destruct (opt_pctx_eqb (Some qa) (Some qb)) eqn:C; [|reflexivity].
          apply opt_eqb_eq_wf in C; [congruence | |]; intros q Eq; inversion Eq; subst; assumption. }
        rewrite P.
        assert (Nb : forall r, ~ In (r, None) [(ra, Some qa); (rb, Some qb)]) by (intros r [Q|[Q|[]]]; discriminate).
        assert (Nb' : forall r, ~ In (r, None) [(rb, Some qb); (ra, Some qa)]) by (intros r [Q|[Q|[]]]; discriminate).
        destruct (ra <=? rb) eqn:C; eexists _, k; (split; [reflexivity|]); (split; [|exact Hk]).
        * assert (W : wf (Array [ra; rb] [Some qa; Some qb])) by (apply array2; [lia | assumption | assumption]). split; [exact W|].
          intros kd Kd R Fa Fb. apply fits_array; [exact W | | intros _; exact Nb]. cbn [combine]. apply efits_cons. split; apply fits_single; assumption.
        * assert (W : wf (Array [rb; ra] [Some qb; Some qa])) by (apply array2; [lia | assumption | assumption]). split; [exact W|].
          intros kd Kd R Fa Fb. apply fits_array; [exact W | | intros _; exact Nb']. cbn [combine]. apply efits_cons. split; apply fits_single; assumption.
    - pose proof (wf_none_EMPTY _ Wb) as EE. inversion EE; subst rb. pose proof (proj1 (wf_single_some _ _) Wa) as [La Wqa].
      destruct wild eqn:Ew; eexists _, k; (split; [reflexivity|]); (split; [|exact Hk]).
      + apply keeps_sym. split; [apply wf_EMPTY|]. intros kd Kd R F _. exact F.
      + assert (W : wf (Array [ra; EMPTY_RETURN_STATE] [Some qa; None])) by (apply array2; [exact La | exact Ea | exact Eb]). split; [exact W|].
        intros kd Kd R Fa Fb. apply fits_array; [exact W | | intros K; apply Kd in K; apply Hw in K; congruence].
        cbn [combine]. apply efits_cons. split; apply fits_single; assumption.
    - pose proof (wf_none_EMPTY _ Wa) as EE. inversion EE; subst ra. pose proof (proj1 (wf_single_some _ _) Wb) as [Lb Wqb].
      destruct wild eqn:Ew; eexists _, k; (split; [reflexivity|]); (split; [|exact Hk]).
      + split; [apply wf_EMPTY|]. intros kd Kd R F _. exact F.
      + assert (W : wf (Array [rb; EMPTY_RETURN_STATE] [Some qb; None])) by (apply array2; [exact Lb | exact Eb | exact Ea]). split; [exact W|].
        intros kd Kd R Fa Fb. apply fits_array; [exact W | | intros K; apply Kd in K; apply Hw in K; congruence].
        cbn [combine]. apply efits_cons. split; apply fits_single; assumption.
    - pose proof (wf_none_EMPTY _ Wa) as EE. inversion EE; subst ra. pose proof (wf_none_EMPTY _ Wb) as EE'. inversion EE'; subst rb. fold EMPTY.
      exists EMPTY, k. split; [destruct wild; reflexivity|]. split; [apply keeps_refl, wf_EMPTY | exact Hk].
  Qed.

  Definition loops (ars : list Z) aps (brs : list Z) bps (o : outcome (list Z * list (option pctx) * option cache)) : Prop :=
    exists rs ps k, o = Val (rs, ps, k) /\
      length rs = length ps /\ StronglySorted Z.lt rs /\
      (forall r, In r rs -> In r ars \/ In r brs) /\
      ent_wf (combine rs ps) /\
      (forall r, In (r, None) (combine rs ps) -> In (r, None) (combine ars aps) \/ In (r, None) (combine brs bps)) /\
      (forall kd, (kd = true -> sll = true) -> forall R, efits kd R (combine ars aps) -> efits kd R (combine brs bps) -> efits kd R (combine rs ps)) /\
      (length ars <= length rs)%nat /\ (length brs <= length rs)%nat /\ kept k.

  Lemma merge_loop_total h rec : rec_total h rec -> forall fuel ars aps brs bps k,
    (length aps + length bps < fuel)%nat ->
    length ars = length aps -> length brs = length bps ->
    StronglySorted Z.lt ars -> StronglySorted Z.lt brs ->
    ent_wf (combine ars aps) -> ent_wf (combine brs bps) ->
    (forall r q, In (r, Some q) (combine ars aps) -> (height q < h)%nat) ->
    kept k ->
    loops ars aps brs bps (merge_arrays_loop fuel rec ars aps brs bps k).
  Proof.
    intros Hrec. induction fuel as [|fuel IH]; intros ars aps brs bps k Hf La Lb Sa Sb Wa Wb Hhe Hk; [lia|].
    cbn [merge_arrays_loop].
    destruct aps as [|ap aps].
    { destruct ars; [|discriminate La]. cbn [append_rest obindo]. rewrite append_rest_ok by exact Lb. cbn [obindo app].
      exists brs, bps, k. split; [reflexivity|]. split; [exact Lb|]. split; [exact Sb|]. split; [auto|]. split; [exact Wb|]. split; [auto|].
      split; [auto|]. cbn [length]. split; [lia|]. split; [lia | exact Hk]. }
    destruct ars as [|ra ars]; [discriminate La|].
    destruct bps as [|bp bps].
    { destruct brs; [|discriminate Lb]. rewrite append_rest_ok by exact La. cbn [append_rest obindo]. rewrite !app_nil_r.
      eexists _, _, k. split; [reflexivity|]. split; [exact La|]. split; [exact Sa|]. split; [auto|]. split; [exact Wa|]. split; [auto|].
      split; [auto|]. cbn [length]. split; [lia|]. split; [lia | exact Hk]. }
    destruct brs as [|rb brs]; [discriminate Lb|].
    cbn [length] in La, Lb, Hf. cbn [combine] in Wa, Wb, Hhe.
    pose proof (ssorted_inv _ _ Sa) as [Sa' Fa]. pose proof (ssorted_inv _ _ Sb) as [Sb' Fb].
    pose proof (proj1 (ent_wf_cons _ _) Wa) as [Wa1 Wa']. pose proof (proj1 (ent_wf_cons _ _) Wb) as [Wb1 Wb'].
    assert (Hhe' : forall r q, In (r, Some q) (combine ars aps) -> (height q < h)%nat) by (intros; eapply Hhe; right; eassumption).
    destruct (ra =? rb) eqn:E.
    - assert (ra = rb) by lia. subst rb.
      assert (Head : forall m k0, kept k0 -> ent_wf [(ra, m)] -> (m = None -> ap = None) ->
        (forall kd, (kd = true -> sll = true) -> forall R, efits kd R [(ra, ap)] -> efits kd R [(ra, bp)] -> efits kd R [(ra, m)]) ->
        loops (ra :: ars) (ap :: aps) (ra :: brs) (bp :: bps)
          (let! (rs, ps, k) := merge_arrays_loop fuel rec ars aps brs bps k0 in Val (ra :: rs, m :: ps, k))).
      { intros m k0 Hk0 Wm Nm Fm.
        assert (Rr : loops ars aps brs bps (merge_arrays_loop fuel rec ars aps brs bps k0)) by (apply IH; auto; lia).
        destruct Rr as (rs & ps & k' & -> & L & S & I & W & N & F & LA & LB & K). cbn [obindo].
        exists (ra :: rs), (m :: ps), k'. split; [reflexivity|]. cbn [length combine In].
        split; [lia|]. split; [apply ssorted_cons; [|exact S]; intros x Hx; apply I in Hx; destruct Hx; auto|].
        split; [intros x [-> | Hx]; [auto|]; apply I in Hx; clear - Hx; tauto|].
        split; [apply ent_wf_cons; auto|].
        split; [intros x [Hx|Hx]; [inversion Hx; subst; rewrite Nm by reflexivity; auto | apply N in Hx; clear - Hx; tauto]|].
        split; [|split; [lia|]; split; [lia | exact K]].
        intros kd Kd R A B. apply efits_cons in A as (A1 & A2), B as (B1 & B2). apply efits_cons. split; auto. }
      destruct ap as [qa|], bp as [qb|].
      + rewrite andb_false_r. cbn [orb].
        destruct Wa1 as (_ & Ra & Qa). destruct Wb1 as (_ & Rb & Qb). cbn [In] in *.
        assert (Wqa : wf qa) by (eapply Qa; eauto). assert (Wqb : wf qb) by (eapply Qb; eauto).
        assert (Lra : ra < EMPTY_RETURN_STATE) by (eapply Ra; eauto).
        destruct (pctx_eqb qa qb) eqn:C.
        * apply Head; [exact Hk | | discriminate | auto].
          split; [|split]; cbn [In]; intros r'; [intros [Q | []] | intros q' [Q | []] | intros q' [Q | []]]; inversion Q; subst; auto.
        * cbn [unwrap obindo].
          destruct (Hrec qa qb k) as (m & k' & -> & (Wm & Hm) & Hk'); auto. { eapply Hhe; left; reflexivity. } cbn [obindo].
          apply Head; [exact Hk' | | discriminate |].
          -- split; [|split]; cbn [In]; intros r'; [intros [Q | []] | intros q' [Q | []] | intros q' [Q | []]]; inversion Q; subst; auto.
          -- intros kd Kd R (_ & A) (_ & B). destruct (A ra qa) as (X & A'); [left; reflexivity|]. destruct (B ra qb) as (_ & B'); [left; reflexivity|].
             split; [intros r' [Q|[]]; discriminate|]. intros r' q' [Q|[]]. inversion Q; subst. split; [exact X | apply Hm; auto].
      + destruct Wa1 as (_ & Ra & _). destruct Wb1 as (Rb & _). cbn [In] in *.
        assert (ra < EMPTY_RETURN_STATE) by (eapply Ra; eauto). assert (ra = EMPTY_RETURN_STATE) by (eapply Rb; eauto). lia.
      + destruct Wa1 as (Ra & _). destruct Wb1 as (_ & Rb & _). cbn [In] in *.
        assert (ra = EMPTY_RETURN_STATE) by (eapply Ra; eauto). assert (ra < EMPTY_RETURN_STATE) by (eapply Rb; eauto). lia.
      + assert (ra = EMPTY_RETURN_STATE) by (destruct Wa1 as (Ra & _); apply Ra; left; reflexivity).
        replace (ra =? EMPTY_RETURN_STATE) with true by lia. cbn [andb orb]. apply Head; auto.
    - destruct (ra <? rb) eqn:C.
      + assert (Rr : loops ars aps (rb :: brs) (bp :: bps) (merge_arrays_loop fuel rec ars aps (rb :: brs) (bp :: bps) k)).
        { apply IH; auto; cbn [length]; lia. }
        destruct Rr as (rs & ps & k' & -> & L & S & I & W & N & F & LA & LB & K). cbn [obindo].
        exists (ra :: rs), (ap :: ps), k'. split; [reflexivity|]. cbn [length combine In] in *.
        split; [lia|]. split.
        { apply ssorted_cons; [|exact S]. intros x Hx. apply I in Hx. destruct Hx as [Hx | [<- | Hx]]; [auto | lia |]. apply Fb in Hx. lia. }
        split; [intros x [-> | Hx]; [auto|]; apply I in Hx; clear - Hx; tauto|].
        split; [apply ent_wf_cons; auto|].
        split; [intros x [Hx|Hx]; [auto | apply N in Hx; clear - Hx; tauto]|].
        split; [|split; [lia|]; split; [lia | exact K]].
        intros kd Kd R A B. apply efits_cons in A as (A1 & A2). apply efits_cons. split; auto.
      + assert (Rr : loops (ra :: ars) (ap :: aps) brs bps (merge_arrays_loop fuel rec (ra :: ars) (ap :: aps) brs bps k)).
        { apply IH; auto; cbn [length]; lia. }
        destruct Rr as (rs & ps & k' & -> & L & S & I & W & N & F & LA & LB & K). cbn [obindo].
        exists (rb :: rs), (bp :: ps), k'. split; [reflexivity|]. cbn [length combine In] in *.
        split; [lia|]. split.
        { apply ssorted_cons; [|exact S]. intros x Hx. apply I in Hx. destruct Hx as [[<- | Hx] | Hx]; [lia | | auto]. apply Fa in Hx. lia. }
        split; [intros x [-> | Hx]; [auto|]; apply I in Hx; clear - Hx; tauto|].
        split; [apply ent_wf_cons; auto|].
        split; [intros x [Hx|Hx]; [auto | apply N in Hx; clear - Hx; tauto]|].
        split; [|split; [lia|]; split; [lia | exact K]].
        intros kd Kd R A B. apply efits_cons in B as (B1 & B2). apply efits_cons. split; auto.
  Qed.

  Lemma merge_arrays_total h rec x y k :
    rec_total h rec -> (height x <= h)%nat -> wf x -> wf y -> kept k ->
    (2 <= pc_length x \/ 2 <= pc_length y)%nat ->
    (wild = true -> x <> EMPTY /\ y <> EMPTY) ->
    merges x y (merge_arrays rec (to_array x) (to_array y) k).
  Proof.
    intros Hrec Hhe Wx Wy Hk Hl Hn. unfold merge_arrays.
    pose proof (to_array_ok x Wx) as Tx. pose proof (to_array_ok y Wy) as Ty.
    destruct (to_array x) as [ars aps], (to_array y) as [brs bps].
    destruct Tx as (La & Sa & Ea & Pa). destruct Ty as (Lb & Sb & Eb & Pb).
    pose proof (proj2 (proj1 (wf_iff x) Wx)) as Wa. pose proof (proj2 (proj1 (wf_iff y) Wy)) as Wb.
    rewrite <- Ea in Wa. rewrite <- Eb in Wb.
    assert (Rr : loops ars aps brs bps (merge_arrays_loop (S (length aps + length bps)) rec ars aps brs bps k)).
    { apply (merge_loop_total h); auto; try lia. intros r q Hq. rewrite Ea in Hq. apply height_entry in Hq. lia. }
    destruct Rr as (rs & ps & k' & -> & L & S & I & W & N & F & LA & LB & K). cbn [obindo].
    rewrite combine_common_parents_id.
    2:{ intros p Hp q ->. destruct (in_combine_map rs ps _ L Hp) as [r Hr]. destruct W as (_ & _ & W). eauto. }
    cbn [obindo]. exists (Array rs ps), k'. split; [reflexivity|]. split; [|exact K].
    assert (WA : wf (Array rs ps)) by (apply wf_array; auto; lia). split; [exact WA|].
    intros kd Kd R Fx Fy. apply fits_array; [exact WA | |].
    - apply F; auto; [rewrite Ea | rewrite Eb]; eapply fits_iff; eassumption.
    - intros Kt r In0. destruct (Hn (Hw (Kd Kt))) as (Nx & Ny). apply N in In0. rewrite Ea, Eb in In0. destruct In0 as [In0|In0].
      + exact (fits_no_bottom _ _ _ Fx Kt Nx _ In0).
      + exact (fits_no_bottom _ _ _ Fy Kt Ny _ In0).
  Qed.

  Lemma finish_total x y o : merges x y o -> wf x -> wf y ->
    merges x y (let! (r, k) := o in
      if hash r =? 0 then Panics
      else Val (r, match k with None => None | Some c => Some (((x, y), r) :: c) end)).
  Proof.
    intros (r & k & -> & G & K) Wx Wy. cbn [obindo].
    assert (E : hash r =? 0 = false) by (apply Z.eqb_neq, Hh, G). rewrite E.
    eexists r, _. split; [reflexivity|]. split; [exact G|]. intros c Hc x' y' z. destruct k as [c0|]; [|discriminate Hc].
    inversion Hc; subst c. intros [Q | Q]; [inversion Q; subst; auto | eapply K; eauto].
  Qed.

  Lemma merge_total : forall fuel x y k, (height x < fuel)%nat -> wf x -> wf y -> kept k -> merges x y (merge hash fuel wild x y k).
  Proof.
    induction fuel as [|fuel IH]; intros x y k Hf Wx Wy Hk; [lia|]. cbn [merge].
    destruct (pctx_eqb x y) eqn:E.
    { apply eqb_eq_wf in E; auto. subst y. exists x, k. split; [reflexivity|]. split; [apply keeps_refl; auto | exact Hk]. }
    assert (Old : forall r, (match k with
                     | None => None
                     | Some c => match cache_get c x y with Some r => Some r | None => cache_get c y x end
                     end) = Some r -> keeps x y r).
    { intros r. destruct k as [c|]; [|discriminate]. destruct (cache_get c x y) eqn:C1.
      - intros H. inversion H; subst. eapply kept_get; eauto.
      - intros H. apply keeps_sym. eapply kept_get; eauto. }
    destruct (match k with
              | None => None
              | Some c => match cache_get c x y with Some r => Some r | None => cache_get c y x end
              end) as [r|].
    { exists r, k. split; [reflexivity|]. split; [apply Old; reflexivity | exact Hk]. }
    assert (Hrec : rec_total fuel (merge hash fuel wild)) by (intros x' y' k0 ? ? ? ?; apply IH; auto).
    assert (Arr : (2 <= pc_length x \/ 2 <= pc_length y)%nat ->
      merges x y (if wild
       then
        let! ea := pc_is_empty x in
        if ea then Val (EMPTY, k)
        else
         let! eb := pc_is_empty y in
         if eb then Val (EMPTY, k)
         else
          let! (r, k0) := merge_arrays (merge hash fuel wild) (to_array x) (to_array y) k in
          if hash r =? 0 then Panics
          else Val (r, match k0 with Some c => Some ((x, y, r) :: c) | None => None end)
       else
        let! (r, k0) := merge_arrays (merge hash fuel wild) (to_array x) (to_array y) k in
        if hash r =? 0 then Panics
        else Val (r, match k0 with Some c => Some ((x, y, r) :: c) | None => None end))).
    { intros Hl. destruct (pc_is_empty_wf hash x Wx) as (ea & Eea & Ia). destruct (pc_is_empty_wf hash y Wy) as (eb & Eeb & Ib).
      destruct (bool_dec wild true) as [W | W].
      - rewrite W at 1. rewrite Eea, Eeb. cbn [obindo]. destruct ea.
        { exists EMPTY, k. split; [reflexivity|]. split; [|exact Hk]. rewrite (proj1 Ia eq_refl). split; [apply wf_EMPTY|]. intros kd Kd R F _. exact F. }
        destruct eb.
        { exists EMPTY, k. split; [reflexivity|]. split; [|exact Hk]. rewrite (proj1 Ib eq_refl). split; [apply wf_EMPTY|]. intros kd Kd R _ F. exact F. }
        apply finish_total; auto. apply (merge_arrays_total fuel); auto; [lia|].
        intros _. split; intros Q; [apply Ia in Q | apply Ib in Q]; discriminate.
      - apply not_true_is_false in W. rewrite W at 1. apply finish_total; auto.
        apply (merge_arrays_total fuel); auto; [lia|]. rewrite W. discriminate. }
    assert (N : forall rs ps, wf (Array rs ps) -> (2 <= length rs)%nat).
    { intros rs ps H. apply wf_iff in H. destruct H as ((_ & _ & H) & _). exact H. }
    destruct x as [ra pa | ars aps].
    - destruct y as [rb pb | brs bps].
      + apply finish_total; auto. apply (merge_singletons_total fuel); auto. lia.
      + apply Arr. right. eapply N; eauto.
    - apply Arr. left. eapply N; eauto.
  Qed.
End Fits.

Lemma kept_full a main sll k : kept a main sll k -> kept a main false k.
Proof. intros H c E x y r I. destruct (H c E x y r I) as (A & B & C & D). split; [exact A|]. split; [exact B|]. split; [exact C|]. intros kd Kd. apply D. intros K. apply Kd in K. discriminate. Qed.
Lemma kept_empty a main sll : kept a main sll (Some []).
Proof. intros c E x y r I. inversion E; subst. destruct I. Qed.
Lemma kept_none a main sll : kept a main sll None.
Proof. intros c E. discriminate. Qed.
