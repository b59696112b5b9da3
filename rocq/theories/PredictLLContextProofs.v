(** Merging of call stacks that belong to the same rule does not depend on the root
    mode, so a merge cache filled in either mode stays right for them. *)
From Coq Require Import ZArith List Bool Lia Sorted ZifyBool ZifyNat.
From Verif Require Import Outcome PredContextModel PredContextSpec PredContextProofs PredictFrameProofs.
Import ListNotations.
Local Open Scope Z_scope.
Local Open Scope outcome_scope.

Section Typed.
  (** the rule of a return state, and the outermost rule *)
  Variable rule : Z -> Z.
  Variable main : Z.

  (** the stacks of rule [R]: a stack ends exactly in the outermost rule *)
  Inductive typed : Z -> pctx -> Prop :=
  | Typed : forall R c, wf c ->
      (forall r, In (r, None) (entries c) -> R = main) ->
      (forall r q, In (r, Some q) (entries c) -> R <> main) ->
      (forall r q, In (r, Some q) (entries c) -> typed (rule r) q) ->
      typed R c.

  Lemma typed_wf R c : typed R c -> wf c.
  Proof. destruct 1; assumption. Qed.

  (** typed lists of entries *)
  Definition ent_typed (R : Z) (l : list (Z * option pctx)) : Prop :=
    (forall r, In (r, None) l -> R = main) /\
    (forall r q, In (r, Some q) l -> R <> main) /\
    (forall r q, In (r, Some q) l -> typed (rule r) q).
  Lemma typed_iff R c : typed R c <-> wf c /\ ent_typed R (entries c).
  Proof.
    split.
    - destruct 1. split; [assumption|]. split; [assumption|]. split; assumption.
    - intros (A & B & C & D). constructor; assumption.
  Qed.
  Lemma ent_typed_cons R x l : ent_typed R (x :: l) <-> ent_typed R [x] /\ ent_typed R l.
  Proof.
    unfold ent_typed. cbn [In]. split.
    - intros (A & B & C). split; (split; [|split]).
      + intros r [E|[]]. apply (A r). left. exact E.
      + intros r q [E|[]]. apply (B r q). left. exact E.
      + intros r q [E|[]]. apply (C r q). left. exact E.
      + intros r E. apply (A r). right. exact E.
      + intros r q E. apply (B r q). right. exact E.
      + intros r q E. apply (C r q). right. exact E.
    - intros ((A & B & C) & (A' & B' & C')). split; [|split].
      + intros r [E|E]; [apply (A r); left; exact E | apply (A' r); exact E].
      + intros r q [E|E]; [apply (B r q); left; exact E | apply (B' r q); exact E].
      + intros r q [E|E]; [apply (C r q); left; exact E | apply (C' r q); exact E].
  Qed.

  Lemma typed_main c : typed main c -> c = EMPTY.
  Proof.
    intros H. apply typed_iff in H as (W & _ & H & _). apply wf_iff in W as (Sh & W1 & W2 & W3).
    destruct c as [r [q|] | rs ps].
    - exfalso. apply (H r q); [left; reflexivity | reflexivity].
    - unfold EMPTY. f_equal. apply W1. left. reflexivity.
    - exfalso. destruct Sh as (Sd & L & N). cbn [entries] in *. destruct rs as [|r [|r' rs]]; cbn in N; try lia.
      destruct ps as [|p [|p' ps]]; cbn in L; try lia. cbn [combine] in *.
      destruct p as [q|]; [apply (H r q); [left|]; reflexivity|]. destruct p' as [q|]; [apply (H r' q); [right; left|]; reflexivity|].
      assert (E : r = EMPTY_RETURN_STATE) by (apply W1; left; reflexivity).
      assert (E' : r' = EMPTY_RETURN_STATE) by (apply W1; right; left; reflexivity).
      inversion Sd as [|? ? _ F]; subst. inversion F; subst. lia.
  Qed.
  Lemma typed_EMPTY : typed main EMPTY.
  Proof.
    apply typed_iff. split; [apply wf_EMPTY|]. split; [|split]; cbn; intros; [reflexivity| |];
      destruct H as [H|[]]; discriminate.
  Qed.
  Lemma typed_not_main R c : typed R c -> R <> main -> c <> EMPTY.
  Proof.
    intros H N ->. apply typed_iff in H as (_ & H & _). apply N. apply (H EMPTY_RETURN_STATE). left. reflexivity.
  Qed.
  Lemma typed_push R f c : typed R c -> rule f = R -> f < EMPTY_RETURN_STATE -> forall R', R' <> main -> typed R' (Singleton f (Some c)).
  Proof.
    intros H Er Hf R' N. apply typed_iff. split; [apply wf_single_some; split; [exact Hf | eapply typed_wf; eauto]|].
    cbn [entries]. split; [|split]; cbn [In]; intros.
    - destruct H0 as [H0|[]]. discriminate.
    - exact N.
    - destruct H0 as [H0|[]]. inversion H0; subst. exact H.
  Qed.

  (** the stacks of typed contexts do not depend on the root mode, for stacks ending in the outermost rule *)
  Definition texact (a b r : pctx) : Prop := forall R, typed R a -> typed R b ->
    typed R r /\ forall s, stands false r s <-> stands false a s \/ stands false b s.
  Definition tcache (k : option cache) : Prop :=
    forall c, k = Some c -> forall x y r, In ((x, y), r) c -> wf x /\ wf y /\ texact x y r.

  Lemma texact_sym a b r : texact a b r -> texact b a r.
  Proof. intros H R Hb Ha. destruct (H R Ha Hb) as (A & B). split; [exact A|]. intros s. rewrite B. tauto. Qed.
  Lemma tcache_get c a b r : tcache (Some c) -> wf a -> wf b -> cache_get c a b = Some r -> texact a b r.
  Proof.
    intros Hk Ha Hb. specialize (Hk c eq_refl).
    induction c as [|[[x y] r'] c IH]; cbn [cache_get]; [discriminate|].
    destruct (pctx_eqb x a && pctx_eqb y b) eqn:E.
    - apply andb_true_iff in E. destruct E as [E1 E2]. intros H. inversion H; subst r'.
      destruct (Hk x y r (or_introl eq_refl)) as (Hx & Hy & G).
      apply eqb_eq_wf in E1, E2; auto. subst. exact G.
    - apply IH. intros. apply Hk. right. assumption.
  Qed.

  Variable hash : pctx -> Z.
  Definition trec (rec : rec_merge) : Prop := forall a b k r k', wf a -> wf b -> tcache k -> rec a b k = Val (r, k') ->
    tcache k' /\ texact a b r.

  Lemma single_typed R r p : typed R (Singleton r p) -> ent_typed R [(r, p)].
  Proof. intros H. apply typed_iff in H. apply H. Qed.

  Lemma array2_typed R ra qa rb qb : ra < rb -> typed R (Singleton ra (Some qa)) -> typed R (Singleton rb (Some qb)) ->
    typed R (Array [ra; rb] [Some qa; Some qb]).
  Proof.
    intros H Ha Hb. apply typed_iff. split.
    - apply array2; [exact H | |]; eapply ent_single; try reflexivity; eapply typed_wf; eauto.
    - cbn [entries combine]. apply ent_typed_cons. split; apply single_typed; assumption.
  Qed.

  Lemma merge_singletons_typed rec wild ra pa rb pb k r k' : trec rec ->
    wf (Singleton ra pa) -> wf (Singleton rb pb) -> tcache k -> pctx_eqb (Singleton ra pa) (Singleton rb pb) = false ->
    merge_singletons rec ra pa rb pb wild k = Val (r, k') ->
    tcache k' /\ texact (Singleton ra pa) (Singleton rb pb) r.
  Proof.
    intros Hrec Wa Wb Hk Ne H. unfold merge_singletons in H.
    destruct (merge_root ra pa rb pb wild) as [r0|] eqn:Er.
    - inversion H; subst. split; [exact Hk|]. intros R Ha Hb. exfalso.
      destruct (Z.eq_dec R main) as [-> |N].
      { apply typed_main in Ha, Hb. rewrite Ha, Hb in Ne. discriminate. }
      unfold merge_root in Er. rewrite (singleton_is_empty_wf _ _ Wa), (singleton_is_empty_wf _ _ Wb) in Er.
      destruct pa as [qa|].
      2:{ apply (typed_not_main _ _ Ha N). apply wf_none_EMPTY. exact Wa. }
      destruct pb as [qb|].
      2:{ apply (typed_not_main _ _ Hb N). apply wf_none_EMPTY. exact Wb. }
      destruct wild; discriminate.
    - destruct (ra =? rb) eqn:E.
      + assert (ra = rb) by lia. subst rb. bind H qa Ea. bind H qb Eb.
        destruct pa as [qa'|]; inversion Ea; subst qa'. destruct pb as [qb'|]; inversion Eb; subst qb'.
        bind2 H p k1 E1. inversion H; subst.
        pose proof (proj1 (wf_single_some _ _) Wa) as [La Wqa]. pose proof (proj1 (wf_single_some _ _) Wb) as [Lb Wqb].
        destruct (Hrec _ _ _ _ _ Wqa Wqb Hk E1) as (Hk1 & X). split; [exact Hk1|]. intros R Ha Hb.
        apply single_typed in Ha as (_ & N & Ta). apply single_typed in Hb as (_ & _ & Tb).
        specialize (N ra qa (or_introl eq_refl)). specialize (Ta ra qa (or_introl eq_refl)). specialize (Tb ra qb (or_introl eq_refl)).
        destruct (X _ Ta Tb) as (Tp & Sp). split; [eapply typed_push; eauto|].
        intros s. rewrite !stands_dent. cbn [entries]. rewrite !dent_single. split.
        * intros (s' & -> & Hs). apply Sp in Hs. destruct Hs; [left | right]; eauto.
        * intros [(s' & -> & Hs) | (s' & -> & Hs)]; exists s'; split; auto; apply Sp; auto.
      + (* no rewriting of parents: equal parents are the same *)
        destruct pa as [qa|], pb as [qb|].
        2:{ cbn [opt_pctx_eqb] in H. split.
            - destruct (ra <=? rb); inversion H; subst; exact Hk.
            - intros R Ha Hb. exfalso. pose proof (wf_none_EMPTY _ Wb) as EE. rewrite EE in Hb.
              apply typed_iff in Hb as (_ & Hb & _). specialize (Hb _ (or_introl eq_refl)). subst R.
              apply single_typed in Ha as (_ & N & _). apply (N ra qa (or_introl eq_refl)). reflexivity. }
        2:{ cbn [opt_pctx_eqb] in H. split.
            - destruct (ra <=? rb); inversion H; subst; exact Hk.
            - intros R Ha Hb. exfalso. pose proof (wf_none_EMPTY _ Wa) as EE. rewrite EE in Ha.
              apply typed_iff in Ha as (_ & Ha & _). specialize (Ha _ (or_introl eq_refl)). subst R.
              apply single_typed in Hb as (_ & N & _). apply (N rb qb (or_introl eq_refl)). reflexivity. }
        2:{ exfalso. pose proof (wf_none_EMPTY _ Wa) as EE. pose proof (wf_none_EMPTY _ Wb) as EE'. rewrite EE, EE' in Ne. discriminate. }
        pose proof (proj1 (wf_single_some _ _) Wa) as [La Wqa]. pose proof (proj1 (wf_single_some _ _) Wb) as [Lb Wqb].
        assert (P : (if opt_pctx_eqb (Some qa) (Some qb) then (Some qa, Some qa) else (Some qa, Some qb)) = (Some qa, Some qb)).
        { destruct (opt_pctx_eqb (Some qa) (Some qb)) eqn:C; [|reflexivity].
          apply opt_eqb_eq_wf in C; [congruence | |]; intros q Eq; inversion Eq; subst; assumption. }
        rewrite P in H. destruct (ra <=? rb) eqn:C; inversion H; subst; (split; [exact Hk|]); intros R Ha Hb.
        * split; [apply array2_typed; auto; lia|].
          intros s. rewrite !stands_dent. cbn [entries combine]. apply dent_cons.
        * split; [apply array2_typed; auto; lia|].
          intros s. rewrite !stands_dent. cbn [entries combine]. rewrite dent_cons. tauto.
  Qed.

  Definition loop_typed ars aps brs bps (rs : list Z) (ps : list (option pctx)) : Prop :=
    forall R, ent_typed R (combine ars aps) -> ent_typed R (combine brs bps) ->
      length rs = length ps /\ StronglySorted Z.lt rs /\
      (forall r, In r rs -> In r ars \/ In r brs) /\
      ent_wf (combine rs ps) /\ ent_typed R (combine rs ps) /\
      (forall s, dent false (combine rs ps) s <-> dent false (combine ars aps) s \/ dent false (combine brs bps) s) /\
      (length ars <= length rs)%nat /\ (length brs <= length rs)%nat.

  Lemma dent_nil wild s : ~ dent wild [] s.
  Proof. intros [[[] _] | (r & q & s' & _ & [] & _)]. Qed.

  Lemma merge_loop_typed rec : trec rec -> forall fuel ars aps brs bps k rs ps k',
    length ars = length aps -> length brs = length bps ->
    StronglySorted Z.lt ars -> StronglySorted Z.lt brs ->
    ent_wf (combine ars aps) -> ent_wf (combine brs bps) -> tcache k ->
    merge_arrays_loop fuel rec ars aps brs bps k = Val (rs, ps, k') ->
    tcache k' /\ loop_typed ars aps brs bps rs ps.
  Proof.
    intros Hrec. induction fuel as [|fuel IH]; intros ars aps brs bps k rs ps k' La Lb Sa Sb Wa Wb Hk H; [discriminate|].
    cbn [merge_arrays_loop] in H.
    destruct aps as [|ap aps].
    { destruct ars; [|discriminate La]. cbn [append_rest obindo] in H. rewrite append_rest_ok in H by exact Lb. cbn [obindo app] in H.
      inversion H; subst. split; [exact Hk|]. intros R Ta Tb. split; [exact Lb|]. split; [exact Sb|]. split; [auto|]. split; [exact Wb|].
      split; [exact Tb|]. split; [|cbn [length]; lia]. intros s. split; [auto|]. intros [Q|Q]; [destruct (dent_nil _ _ Q) | exact Q]. }
    destruct ars as [|ra ars]; [discriminate La|].
    destruct bps as [|bp bps].
    { destruct brs; [|discriminate Lb]. rewrite append_rest_ok in H by exact La. cbn [append_rest obindo] in H. rewrite !app_nil_r in H.
      inversion H; subst. split; [exact Hk|]. intros R Ta Tb. split; [exact La|]. split; [exact Sa|]. split; [auto|]. split; [exact Wa|].
      split; [exact Ta|]. split; [|cbn [length]; lia]. intros s. split; [auto|]. intros [Q|Q]; [exact Q | destruct (dent_nil _ _ Q)]. }
    destruct brs as [|rb brs]; [discriminate Lb|].
    pose proof (eq_add_S _ _ La) as La'. pose proof (eq_add_S _ _ Lb) as Lb'. cbn [combine] in Wa, Wb.
    pose proof (ssorted_inv _ _ Sa) as [Sa' Fa]. pose proof (ssorted_inv _ _ Sb) as [Sb' Fb].
    pose proof (proj1 (ent_wf_cons _ _) Wa) as [Wa1 Wa']. pose proof (proj1 (ent_wf_cons _ _) Wb) as [Wb1 Wb'].
    destruct (ra =? rb) eqn:E.
    - assert (ra = rb) by lia. subst rb.
      assert (Head : forall m k0, tcache k0 ->
        (forall R, ent_typed R [(ra, ap)] -> ent_typed R [(ra, bp)] ->
           ent_wf [(ra, m)] /\ ent_typed R [(ra, m)] /\
           forall s, dent false [(ra, m)] s <-> dent false [(ra, ap)] s \/ dent false [(ra, bp)] s) ->
        (let! (rs, ps, k) := merge_arrays_loop fuel rec ars aps brs bps k0 in Val (ra :: rs, m :: ps, k)) = Val (rs, ps, k') ->
        tcache k' /\ loop_typed (ra :: ars) (ap :: aps) (ra :: brs) (bp :: bps) rs ps).
      { intros m k0 Hk0 Hm H0. bind3 H0 rs1 ps1 k1 E1. inversion H0; subst.
        destruct (IH _ _ _ _ _ _ _ _ La' Lb' Sa' Sb' Wa' Wb' Hk0 E1) as (Hk1 & X). split; [exact Hk1|].
        intros R Ta Tb. cbn [combine] in Ta, Tb. apply ent_typed_cons in Ta as (Ta1 & Ta'), Tb as (Tb1 & Tb').
        destruct (Hm R Ta1 Tb1) as (Wm & Tm & Dm). destruct (X R Ta' Tb') as (L & S & I & W & T & D & LA & LB).
        cbn [length combine In]. split; [lia|].
        split; [apply ssorted_cons; [|exact S]; intros x Hx; apply I in Hx; destruct Hx; auto|].
        split; [intros x [-> | Hx]; [auto|]; apply I in Hx; clear - Hx; tauto|].
        split; [apply ent_wf_cons; auto|]. split; [apply ent_typed_cons; auto|]. split; [|lia].
        intros s. rewrite (dent_cons false (ra, m) (combine rs1 ps1)), (dent_cons false (ra, ap) (combine ars aps)), (dent_cons false (ra, bp) (combine brs bps)), Dm, D. clear. tauto. }
      cbv zeta in H.
      match type of H with (if ?c then _ else _) = _ => destruct c eqn:C end.
      + eapply Head; [exact Hk | | exact H]. intros R T1 T2. split; [exact Wa1|]. split; [exact T1|].
        apply orb_true_iff in C as [C|C].
        * apply andb_true_iff in C as [_ C]. destruct ap; [discriminate|]. destruct bp; [discriminate|]. intros s. clear. tauto.
        * destruct ap as [x|]; [|discriminate]. destruct bp as [y|]; [|discriminate].
          apply eqb_eq_wf in C; [subst y; intros s; clear; tauto | |]; [destruct Wa1 as (_ & _ & Q) | destruct Wb1 as (_ & _ & Q)]; apply (Q ra); left; reflexivity.
      + bind H qa Ea. bind H qb Eb. destruct ap as [qa'|]; inversion Ea; subst qa'. destruct bp as [qb'|]; inversion Eb; subst qb'.
        bind2 H m k1 E1.
        assert (Wqa : wf qa) by (destruct Wa1 as (_ & _ & Q); apply (Q ra); left; reflexivity). assert (Wqb : wf qb) by (destruct Wb1 as (_ & _ & Q); apply (Q ra); left; reflexivity).
        assert (Lra : ra < EMPTY_RETURN_STATE) by (destruct Wa1 as (_ & Q & _); apply (Q ra qa); left; reflexivity).
        destruct (Hrec _ _ _ _ _ Wqa Wqb Hk E1) as (Hk1 & X).
        eapply Head; [exact Hk1 | | exact H]. intros R (_ & N & T1) (_ & _ & T2).
        specialize (N ra qa (or_introl eq_refl)). specialize (T1 ra qa (or_introl eq_refl)). specialize (T2 ra qb (or_introl eq_refl)).
        destruct (X _ T1 T2) as (Tp & Sp).
        pose proof (typed_push _ ra _ Tp eq_refl Lra R N) as TT. apply typed_iff in TT as (WW & TT). cbn [entries] in TT.
        split; [eapply ent_single; [reflexivity | exact WW]|]. split; [exact TT|].
        intros s. rewrite !dent_single. split.
        * intros (s' & -> & Hs). apply Sp in Hs. destruct Hs; [left | right]; eauto.
        * intros [(s' & -> & Hs) | (s' & -> & Hs)]; exists s'; split; auto; apply Sp; auto.
    - destruct (ra <? rb) eqn:C.
      + bind3 H rs1 ps1 k1 E1. inversion H; subst.
        destruct (IH _ _ _ _ _ _ _ _ La' Lb Sa' Sb Wa' Wb Hk E1) as (Hk1 & X). split; [exact Hk1|].
        intros R Ta Tb. cbn [combine] in Ta. apply ent_typed_cons in Ta as (Ta1 & Ta').
        destruct (X R Ta' Tb) as (L & S & I & W & T & D & LA & LB). cbn [length combine In] in *.
        split; [lia|]. split.
        { apply ssorted_cons; [|exact S]. intros x Hx. apply I in Hx. destruct Hx as [Hx | [<- | Hx]]; [auto | lia |].
          apply Fb in Hx. lia. }
        split; [intros x [-> | Hx]; [auto|]; apply I in Hx; clear - Hx; tauto|].
        split; [apply ent_wf_cons; auto|]. split; [apply ent_typed_cons; auto|]. split; [|lia].
        intros s. rewrite (dent_cons false (ra, ap) (combine rs1 ps1)), (dent_cons false (ra, ap) (combine ars aps)), D. clear. tauto.
      + bind3 H rs1 ps1 k1 E1. inversion H; subst.
        destruct (IH _ _ _ _ _ _ _ _ La Lb' Sa Sb' Wa Wb' Hk E1) as (Hk1 & X). split; [exact Hk1|].
        intros R Ta Tb. cbn [combine] in Tb. apply ent_typed_cons in Tb as (Tb1 & Tb').
        destruct (X R Ta Tb') as (L & S & I & W & T & D & LA & LB). cbn [length combine In] in *.
        split; [lia|]. split.
        { apply ssorted_cons; [|exact S]. intros x Hx. apply I in Hx. destruct Hx as [[<- | Hx] | Hx]; [lia | | auto].
          apply Fa in Hx. lia. }
        split; [intros x [-> | Hx]; [auto|]; apply I in Hx; clear - Hx; tauto|].
        split; [apply ent_wf_cons; auto|]. split; [apply ent_typed_cons; auto|]. split; [|lia].
        intros s. rewrite (dent_cons false (rb, bp) (combine rs1 ps1)), (dent_cons false (rb, bp) (combine brs bps)), D. clear. tauto.
  Qed.

  Lemma merge_arrays_typed rec a b k r k' : trec rec -> wf a -> wf b -> tcache k ->
    (2 <= pc_length a \/ 2 <= pc_length b)%nat ->
    merge_arrays rec (to_array a) (to_array b) k = Val (r, k') -> tcache k' /\ texact a b r.
  Proof.
    intros Hrec Ha Hb Hk Hl H. unfold merge_arrays in H.
    pose proof (to_array_ok a Ha) as Ta. pose proof (to_array_ok b Hb) as Tb.
    destruct (to_array a) as [ars aps], (to_array b) as [brs bps].
    destruct Ta as (La & Sa & Ea & Pa). destruct Tb as (Lb & Sb & Eb & Pb).
    pose proof (proj2 (proj1 (wf_iff a) Ha)) as Wa. pose proof (proj2 (proj1 (wf_iff b) Hb)) as Wb.
    rewrite <- Ea in Wa. rewrite <- Eb in Wb.
    bind3 H rs ps k1 E1. bind H ps' E2. inversion H; subst.
    destruct (merge_loop_typed rec Hrec _ _ _ _ _ _ _ _ _ La Lb Sa Sb Wa Wb Hk E1) as (Hk1 & X). split; [exact Hk1|].
    intros R Ta Tb. apply typed_iff in Ta as (_ & Ta), Tb as (_ & Tb). rewrite <- Ea in Ta. rewrite <- Eb in Tb.
    destruct (X R Ta Tb) as (L & S & I & W & T & D & LA & LB).
    rewrite combine_common_parents_id in E2.
    - inversion E2; subst ps'. split.
      + apply typed_iff. split; [apply wf_array; auto; lia | exact T].
      + intros s. rewrite !stands_dent. cbn [entries]. rewrite D, Ea, Eb. reflexivity.
    - intros p Hp q ->. destruct (in_combine_map rs ps _ L Hp) as [r Hr]. destruct W as (_ & _ & W). eauto.
  Qed.

  Lemma finish_typed a b o r k : (forall r0 k0, o = Val (r0, k0) -> tcache k0 /\ texact a b r0) -> wf a -> wf b ->
    (let! (r, k) := o in
      if hash r =? 0 then Panics
      else Val (r, match k with None => None | Some c => Some (((a, b), r) :: c) end)) = Val (r, k) ->
    tcache k /\ texact a b r.
  Proof.
    intros Ho Ha Hb H. bind2 H r0 k0 E. destruct (Ho _ _ E) as (Hk & X). destruct (hash r0 =? 0); [discriminate|].
    inversion H; subst. split; [|exact X]. intros c Hc x y z. destruct k0 as [c0|]; [|discriminate Hc].
    inversion Hc; subst c. intros [Q|Q]; [inversion Q; subst; auto | eapply Hk; eauto].
  Qed.

  Lemma merge_typed : forall fuel wild, trec (merge hash fuel wild).
  Proof.
    induction fuel as [|fuel IH]; intros wild a b k r k' Ha Hb Hk H; [discriminate|]. cbn [merge] in H.
    destruct (pctx_eqb a b) eqn:E.
    { apply eqb_eq_wf in E; auto. subst b. inversion H; subst. split; [exact Hk|]. intros R T _. split; [exact T|]. tauto. }
    assert (Old : forall r, (match k with
                     | None => None
                     | Some c => match cache_get c a b with Some r => Some r | None => cache_get c b a end
                     end) = Some r -> texact a b r).
    { intros r0. destruct k as [c|]; [|discriminate]. destruct (cache_get c a b) eqn:C1.
      - intros Q. inversion Q; subst. eapply tcache_get; eauto.
      - intros Q. apply texact_sym. eapply tcache_get; eauto. }
    destruct (match k with
              | None => None
              | Some c => match cache_get c a b with Some r => Some r | None => cache_get c b a end
              end) as [r0|].
    { inversion H; subst. split; [exact Hk | apply Old; reflexivity]. }
    cbv zeta in H.
    assert (Arr : (2 <= pc_length a \/ 2 <= pc_length b)%nat ->
      (if wild
       then
        let! ea := pc_is_empty a in
        if ea then Val (EMPTY, k)
        else
         let! eb := pc_is_empty b in
         if eb then Val (EMPTY, k)
         else
          let! (r, k0) := merge_arrays (merge hash fuel wild) (to_array a) (to_array b) k in
          if hash r =? 0 then Panics
          else Val (r, match k0 with Some c => Some ((a, b, r) :: c) | None => None end)
       else
        let! (r, k0) := merge_arrays (merge hash fuel wild) (to_array a) (to_array b) k in
        if hash r =? 0 then Panics
        else Val (r, match k0 with Some c => Some ((a, b, r) :: c) | None => None end)) = Val (r, k') -> tcache k' /\ texact a b r).
    { intros Hl H0.
      assert (Fin : forall r k', (let! (r, k0) := merge_arrays (merge hash fuel wild) (to_array a) (to_array b) k in
          if hash r =? 0 then Panics
          else Val (r, match k0 with Some c => Some ((a, b, r) :: c) | None => None end)) = Val (r, k') -> tcache k' /\ texact a b r).
      { intros r1 k1 H1. eapply finish_typed; [|exact Ha|exact Hb|exact H1]. intros r2 k2 E2. eapply merge_arrays_typed; eauto. }
      assert (NE : forall R, typed R a -> typed R b -> R <> main).
      { intros R Ta Tb ->. apply typed_main in Ta, Tb. subst. discriminate. }
      destruct wild; [|apply Fin; exact H0].
      destruct (pc_is_empty_wf hash a Ha) as (ea & Eea & Ia). destruct (pc_is_empty_wf hash b Hb) as (eb & Eeb & Ib).
      rewrite Eea, Eeb in H0. cbn [obindo] in H0. destruct ea; [|destruct eb; [|apply Fin; exact H0]].
      - inversion H0; subst. split; [exact Hk|]. intros R Ta Tb. exfalso.
        apply (typed_not_main _ _ Ta (NE _ Ta Tb)). apply Ia. reflexivity.
      - inversion H0; subst. split; [exact Hk|]. intros R Ta Tb. exfalso.
        apply (typed_not_main _ _ Tb (NE _ Ta Tb)). apply Ib. reflexivity. }
    assert (N : forall rs ps, wf (Array rs ps) -> (2 <= length rs)%nat).
    { intros rs ps Q. apply wf_iff in Q. destruct Q as ((_ & _ & Q) & _). exact Q. }
    destruct a as [ra pa | ars aps].
    - destruct b as [rb pb | brs bps].
      + eapply finish_typed; [|exact Ha|exact Hb|exact H]. intros r2 k2 E2.
        eapply merge_singletons_typed; eauto.
      + apply Arr; [right; eapply N; eauto | exact H].
    - apply Arr; [left; eapply N; eauto | exact H].
  Qed.
End Typed.
