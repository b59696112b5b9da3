(** Lemmas about configuration sets and conflict analysis. *)
From Coq Require Import ZArith List Bool Lia Sorted Permutation.
From Verif Require Import Outcome PredContextModel PredContextSpec PredContextProofs.
From Verif Require Import SemContextModel SemContextProofs ConfigSetModel ConfigSetSpec.
Import ListNotations.
Local Open Scope Z_scope.

Lemma first_occ_in {K} (l f : list K) : first_occ l f -> forall x, In x f <-> In x l.
Proof.
  induction 1 as [| l f x H IH Hx | l f x H IH Hx]; intros y.
  - reflexivity.
  - rewrite IH, in_app_iff. cbn. intuition congruence.
  - rewrite !in_app_iff, IH. reflexivity.
Qed.

Lemma nodup_app_one {K} (l : list K) x : NoDup l -> ~ In x l -> NoDup (l ++ [x]).
Proof.
  induction 1 as [|y l N H IH]; intros Hx; cbn; constructor; [auto | constructor | |].
  - rewrite in_app_iff. cbn in *. intuition.
  - apply IH. intros Q. apply Hx. right. exact Q.
Qed.

Lemma first_occ_nodup {K} (l f : list K) : first_occ l f -> NoDup f.
Proof.
  induction 1 as [| l f x H IH Hx | l f x H IH Hx]; [constructor | exact IH |].
  apply nodup_app_one; auto. rewrite (first_occ_in _ _ H). exact Hx.
Qed.

Lemma nth_set_nth {A} (l : list A) : forall n x m,
  nth_error (set_nth n x l) m = if Nat.eqb n m then (if Nat.ltb n (length l) then Some x else None) else nth_error l m.
Proof.
  induction l as [|y l IH]; intros n x m.
  - destruct n, m; cbn; try reflexivity. now destruct (Nat.eqb n m).
  - destruct n, m; cbn [set_nth nth_error Nat.eqb length]; try reflexivity.
    rewrite IH. destruct (Nat.eqb n m); reflexivity.
Qed.

Lemma set_nth_app {A} (l : list A) : forall n x y, nth_error l n = Some y ->
  exists l1 l2, l = l1 ++ y :: l2 /\ set_nth n x l = l1 ++ x :: l2 /\ length l1 = n.
Proof.
  induction l as [|z l IH]; intros n x y H; destruct n; cbn in *; try discriminate.
  - inversion H; subst. exists [], l. auto.
  - destruct (IH n x y H) as (l1 & l2 & -> & E & L). exists (z :: l1), l2. cbn. rewrite E, L. auto.
Qed.

Section Sets.
  Variable X : Type.
  Variable x_eqb : X -> X -> bool.
  Variable hash : pctx -> Z.
  Variable K : Type.
  Variable key : config X -> K.
  Variable h : hasher.
  Hypothesis Hkey : forall a b, good_config a -> good_config b -> (key_eqb X x_eqb h a b = true <-> key a = key b).
  Hypothesis Hkdec : forall a b : K, a = b \/ a <> b.

  Definition upd (e c : config X) (m : pctx) : config X :=
    Config (c_state e) (c_alt e) (Some m) (c_sem e) (Z.max (c_reach e) (c_reach c))
           (if c_pfs c then true else c_pfs e) (c_type e).

  Hypothesis Hupd : forall e c ea cb m wild k k', good_config e -> good_config c -> key e = key c ->
    c_ctx e = Some ea -> c_ctx c = Some cb -> merge hash (S (height ea)) wild ea cb k = Val (m, k') ->
    key (upd e c m) = key e.

  Variable full : bool.
  Let wild := negb full.

  Definition lk_ok (lk : list (config X * nat)) (es : list (config X)) : Prop :=
    (forall c i, In (c, i) lk -> good_config c /\ exists e, nth_error es i = Some e /\ key e = key c) /\
    (forall e, In e es -> exists c i, In (c, i) lk /\ key c = key e).

  Record inv (cs : list (config X)) (s : config_set X) : Prop := {
    i_lk : lk_ok (config_lookup s) (configs s);
    i_fo : first_occ (map key cs) (map key (configs s));
    i_ent : forall e, In e (configs s) -> entry_for wild (fun c => key c = key e) cs e;
    i_first : forall e, In e (configs s) -> exists c, In c cs /\ key c = key e /\ c_type c = c_type e;
    i_sem : has_semantic_context s = true <-> exists c, In c cs /\ c_sem c <> NONE;
    i_dips : dips_into_outer_context s = true <-> exists c, In c cs /\ c_reach c > 0;
    i_rest : conflicting_alts s = [] /\ full_ctx s = full /\ read_only s = false /\ unique_alt s = 0 /\ set_hasher s = h
  }.

  Lemma lookup_some lk c i : lookup X x_eqb h lk c = Some i -> exists c', In (c', i) lk /\ key_eqb X x_eqb h c' c = true.
  Proof.
    induction lk as [|[k j] lk IH]; cbn [lookup]; [discriminate|].
    destruct (key_eqb X x_eqb h k c) eqn:E.
    - intros H. inversion H; subst. exists k. split; [left; reflexivity | exact E].
    - intros H. destruct (IH H) as (c' & Hin & E'). exists c'. split; [right; exact Hin | exact E'].
  Qed.
  Lemma lookup_none lk c : lookup X x_eqb h lk c = None -> forall c' i, In (c', i) lk -> key_eqb X x_eqb h c' c = false.
  Proof.
    induction lk as [|[k j] lk IH]; cbn [lookup]; intros H c' i Hin; [destruct Hin|].
    destruct (key_eqb X x_eqb h k c) eqn:E; [discriminate|].
    destruct Hin as [Q | Hin]; [inversion Q; subst; exact E | eapply IH; eauto].
  Qed.

  Lemma sem_none_dec s : sem_eqb s NONE = true <-> s = NONE.
  Proof. apply sem_eqb_eq. Qed.

  Lemma add_ok cs s c k : Forall good_config cs -> good_config c -> inv cs s -> cache_ok wild k ->
    match add_cached X x_eqb hash s c k with
    | Val (s', k') => inv (cs ++ [c]) s' /\ cache_ok wild k'
    | Panics => exists x, wf x /\ hash x = 0
    | NoFuel => False
    end.
  Proof.
    intros Gcs Gc V Ck. destruct V as [[L1 L2] FO En Fi Se Di (R1 & R2 & R3 & R4 & R5)].
    unfold add_cached. rewrite R3, R5, R2.
    assert (HS : (if sem_eqb (c_sem c) NONE then has_semantic_context s else true) = true <->
                 exists c0, In c0 (cs ++ [c]) /\ c_sem c0 <> NONE).
    { destruct (sem_eqb (c_sem c) NONE) eqn:E.
      - apply sem_none_dec in E. rewrite Se. split; intros (c0 & I0 & N0).
        + exists c0. rewrite in_app_iff. auto.
        + rewrite in_app_iff in I0. destruct I0 as [I0 | [<- | []]]; [exists c0; auto | contradiction].
      - split; [|auto]. intros _. exists c. rewrite in_app_iff. split; [right; left; auto|].
        intros Q. apply sem_none_dec in Q. congruence. }
    assert (HD : (if c_reach c >? 0 then true else dips_into_outer_context s) = true <->
                 exists c0, In c0 (cs ++ [c]) /\ c_reach c0 > 0).
    { destruct (Z.gtb_spec (c_reach c) 0) as [E|E].
      - split; [|auto]. intros _. exists c. rewrite in_app_iff. split; [right; left; auto | lia].
      - rewrite Di. split; intros (c0 & I0 & N0).
        + exists c0. rewrite in_app_iff. auto.
        + rewrite in_app_iff in I0. destruct I0 as [I0 | [<- | []]]; [exists c0; auto | lia]. }
    assert (Gent : forall e, In e (configs s) -> good_config e).
    { intros e He. destruct (En e He) as ((x & A & B & _) & _). exists x. auto. }
    destruct (lookup X x_eqb h (config_lookup s) c) as [i|] eqn:LK.
    - apply lookup_some in LK. destruct LK as (c' & Hin & KE).
      destruct (L1 _ _ Hin) as (Gc' & e & Ne & Ke).
      apply Hkey in KE; auto. rewrite Ne. cbn [unwrap obindo].
      pose proof (nth_error_In _ _ Ne) as He.
      destruct (En e He) as ((ea & Cea & Wea & Sea) & Mx & (cm & Icm & Kcm & Rcm) & Pf).
      destruct Gc as (cb & Ccb & Wcb). rewrite Cea, Ccb. cbn [unwrap obindo].
      pose proof (merge_ok hash wild (S (height ea)) ea cb k (Nat.lt_succ_diag_r _) Wea Wcb Ck) as M.
      fold wild.
      destruct (merge hash (S (height ea)) wild ea cb k) as [[m k']| |] eqn:EM; cbn [ok_result obindo] in M |- *; [|exact M|exact M].
      destruct M as ((Wm & Sm & _) & Ck'). split; [|exact Ck'].
      fold (upd e c m).
      assert (KU : key (upd e c m) = key e).
      { eapply Hupd; eauto; [exists cb; auto | congruence]. }
      destruct (set_nth_app _ _ (upd e c m) _ Ne) as (l1 & l2 & El & Es & Ll).
      assert (NE : forall e0, In e0 l1 \/ In e0 l2 -> key e0 <> key c).
      { pose proof (first_occ_nodup _ _ FO) as ND. rewrite El, map_app in ND. cbn [map] in ND.
        apply NoDup_remove_2 in ND. intros e0 H0 Q. apply ND. rewrite Ke, KE, <- Q, in_app_iff.
        destruct H0; [left | right]; apply in_map; auto. }
      constructor; cbn [config_lookup configs conflicting_alts dips_into_outer_context full_ctx has_semantic_context read_only unique_alt set_hasher].
      + split.
        * intros c0 j H0. destruct (L1 _ _ H0) as (G0 & e0 & N0 & K0). split; [exact G0|].
          rewrite nth_set_nth. destruct (Nat.eqb i j) eqn:Eij.
          -- apply Nat.eqb_eq in Eij. subst j. exists (upd e c m).
             assert (Hlt : (i < length (configs s))%nat) by (apply nth_error_Some; congruence).
             apply Nat.ltb_lt in Hlt. rewrite Hlt. split; [reflexivity|]. rewrite KU. congruence.
          -- exists e0. auto.
        * intros e0 H0. rewrite Es, in_app_iff in H0. cbn in H0.
          assert (D : In e0 (configs s) \/ e0 = upd e c m).
          { rewrite El, in_app_iff. cbn. intuition. }
          destruct D as [D | ->]; [apply L2; exact D|].
          destruct (L2 e He) as (c1 & j1 & I1 & K1). exists c1, j1. split; [exact I1|]. congruence.
      + rewrite map_app. cbn [map].
        replace (map key (set_nth i (upd e c m) (configs s))) with (map key (configs s)).
        * apply FO_seen; [exact FO|]. rewrite <- (first_occ_in _ _ FO), <- KE, <- Ke. apply in_map. exact He.
        * rewrite Es, El, !map_app. cbn [map]. rewrite KU. reflexivity.
      + intros e0 H0. rewrite Es, in_app_iff in H0. cbn in H0.
        assert (D : (In e0 l1 \/ In e0 l2) \/ e0 = upd e c m) by intuition.
        destruct D as [D | ->].
        * assert (I0 : In e0 (configs s)) by (rewrite El, in_app_iff; cbn; intuition).
          pose proof (NE _ D) as NK.
          destruct (En e0 I0) as ((x0 & C0 & W0 & S0) & M0 & (cm0 & A0 & B0 & D0) & P0).
          split; [|split; [|split]].
          -- exists x0. split; [exact C0|]. split; [exact W0|]. intros st. rewrite S0. split.
             ++ intros (c1 & y & Hy). exists c1, y. rewrite in_app_iff. intuition.
             ++ intros (c1 & y & I1 & K1 & Hy). rewrite in_app_iff in I1. destruct I1 as [I1 | [<- | []]]; [|congruence].
                exists c1, y. auto.
          -- intros c1 I1 K1. rewrite in_app_iff in I1. destruct I1 as [I1 | [<- | []]]; [auto | congruence].
          -- exists cm0. rewrite in_app_iff. auto.
          -- rewrite P0. split; intros (c1 & I1 & K1 & P1).
             ++ exists c1. rewrite in_app_iff. auto.
             ++ rewrite in_app_iff in I1. destruct I1 as [I1 | [<- | []]]; [|congruence]. exists c1. auto.
        * unfold entry_for. rewrite KU. cbn [upd c_ctx c_reach c_pfs]. split; [|split; [|split]].
          -- exists m. split; [reflexivity|]. split; [exact Wm|]. intros st. rewrite Sm, Sea. split.
             ++ intros [(c1 & y & I1 & K1 & Hy) | Hs].
                ** exists c1, y. rewrite in_app_iff. auto.
                ** exists c, cb. rewrite in_app_iff. cbn. repeat split; auto. congruence.
             ++ intros (c1 & y & I1 & K1 & Cy & Hy). rewrite in_app_iff in I1. destruct I1 as [I1 | [<- | []]].
                ** left. exists c1, y. auto.
                ** right. congruence.
          -- intros c1 I1 K1. rewrite in_app_iff in I1. destruct I1 as [I1 | [<- | []]]; [|lia].
             pose proof (Mx c1 I1 K1). lia.
          -- destruct (Z_le_gt_dec (c_reach c) (c_reach e)).
             ++ exists cm. rewrite in_app_iff. repeat split; auto. lia.
             ++ exists c. rewrite in_app_iff. cbn. repeat split; auto; [congruence | lia].
          -- destruct (c_pfs c) eqn:Pc.
             ++ split; [|auto]. intros _. exists c. rewrite in_app_iff. cbn. repeat split; auto. congruence.
             ++ rewrite Pf. split; intros (c1 & I1 & K1 & P1).
                ** exists c1. rewrite in_app_iff. auto.
                ** rewrite in_app_iff in I1. destruct I1 as [I1 | [<- | []]]; [|congruence]. exists c1. auto.
      + intros e0 H0. rewrite Es, in_app_iff in H0. cbn in H0.
        assert (D : In e0 (configs s) \/ e0 = upd e c m).
        { rewrite El, in_app_iff. cbn. intuition. }
        destruct D as [D | ->].
        * destruct (Fi _ D) as (c1 & I1 & K1 & T1). exists c1. rewrite in_app_iff. auto.
        * destruct (Fi _ He) as (c1 & I1 & K1 & T1). exists c1. rewrite in_app_iff, KU. auto.
      + exact HS.
      + exact HD.
      + auto.
    - pose proof (lookup_none _ _ LK) as LN.
      assert (NK : ~ In (key c) (map key (configs s))).
      { intros Q. apply in_map_iff in Q. destruct Q as (e & Ke & He). destruct (L2 e He) as (c1 & j & I1 & K1).
        pose proof (LN _ _ I1) as F. destruct (L1 _ _ I1) as (G1 & _).
        assert (T : key_eqb X x_eqb h c1 c = true) by (apply Hkey; auto; congruence). congruence. }
      assert (NC : ~ In (key c) (map key cs)) by (rewrite <- (first_occ_in _ _ FO); exact NK).
      split; [|exact Ck].
      constructor; cbn [config_lookup configs conflicting_alts dips_into_outer_context full_ctx has_semantic_context read_only unique_alt set_hasher].
      + split.
        * intros c0 j [Q | Hin].
          -- inversion Q; subst. split; [exact Gc|]. exists c0. rewrite nth_error_app2 by lia.
             rewrite Nat.sub_diag. auto.
          -- destruct (L1 _ _ Hin) as (G0 & e & N0 & K0). split; [exact G0|]. exists e.
             rewrite nth_error_app1; [auto|]. apply nth_error_Some. congruence.
        * intros e He. rewrite in_app_iff in He. destruct He as [He | [<- | []]].
          -- destruct (L2 e He) as (c1 & j & I1 & K1). exists c1, j. split; [right; exact I1 | exact K1].
          -- exists c, (length (configs s)). split; [left; reflexivity | reflexivity].
      + rewrite !map_app. cbn [map]. apply FO_new; auto.
      + intros e He. rewrite in_app_iff in He. destruct He as [He | [<- | []]].
        * assert (NKe : key c <> key e) by (intros Q; apply NK; rewrite Q; apply in_map; auto).
          destruct (En e He) as ((x0 & C0 & W0 & S0) & M0 & (cm0 & A0 & B0 & D0) & P0).
          split; [|split; [|split]].
          -- exists x0. split; [exact C0|]. split; [exact W0|]. intros st. rewrite S0. split.
             ++ intros (c1 & y & Hy). exists c1, y. rewrite in_app_iff. intuition.
             ++ intros (c1 & y & I1 & K1 & Hy). rewrite in_app_iff in I1. destruct I1 as [I1 | [<- | []]]; [|congruence].
                exists c1, y. auto.
          -- intros c1 I1 K1. rewrite in_app_iff in I1. destruct I1 as [I1 | [<- | []]]; [auto | congruence].
          -- exists cm0. rewrite in_app_iff. auto.
          -- rewrite P0. split; intros (c1 & I1 & K1 & P1).
             ++ exists c1. rewrite in_app_iff. auto.
             ++ rewrite in_app_iff in I1. destruct I1 as [I1 | [<- | []]]; [|congruence]. exists c1. auto.
        * assert (ON : forall c1, In c1 (cs ++ [c]) -> key c1 = key c -> c1 = c).
          { intros c1 I1 K1. rewrite in_app_iff in I1. destruct I1 as [I1 | [<- | []]]; [|reflexivity].
            exfalso. apply NC. rewrite <- K1. apply in_map. exact I1. }
          destruct Gc as (cb & Ccb & Wcb).
          assert (Ic : In c (cs ++ [c])) by (rewrite in_app_iff; cbn; auto).
          split; [|split; [|split]].
          -- exists cb. split; [exact Ccb|]. split; [exact Wcb|]. intros st. split.
             ++ intros Hs. exists c, cb. auto.
             ++ intros (c1 & y & I1 & K1 & Cy & Hy). rewrite (ON _ I1 K1) in Cy. congruence.
          -- intros c1 I1 K1. rewrite (ON _ I1 K1). lia.
          -- exists c. auto.
          -- split; [intros P1; exists c; auto|]. intros (c1 & I1 & K1 & P1). rewrite (ON _ I1 K1) in P1. exact P1.
      + intros e He. rewrite in_app_iff in He. destruct He as [He | [<- | []]].
        * destruct (Fi _ He) as (c1 & I1 & K1 & T1). exists c1. rewrite in_app_iff. auto.
        * exists c. rewrite in_app_iff. cbn. auto.
      + exact HS.
      + exact HD.
      + auto.
  Qed.

  Lemma add_all_ok l : forall cs s k, Forall good_config cs -> Forall good_config l -> inv cs s -> cache_ok wild k ->
    match add_all X x_eqb hash s l k with
    | Val (s', k') => inv (cs ++ l) s' /\ cache_ok wild k'
    | Panics => exists x, wf x /\ hash x = 0
    | NoFuel => False
    end.
  Proof.
    induction l as [|c l IH]; intros cs s k Gcs Gl V Ck; cbn [add_all].
    - rewrite app_nil_r. auto.
    - inversion Gl as [|c' l' Gc Gl']; subst c' l'. pose proof (add_ok cs s c k Gcs Gc V Ck) as A.
      destruct (add_cached X x_eqb hash s c k) as [[s' k']| |]; cbn [obindo]; [|exact A|exact A].
      destruct A as (V' & Ck'). specialize (IH (cs ++ [c]) s' k').
      rewrite <- app_assoc in IH. apply IH; auto. apply Forall_app. split; [exact Gcs | constructor; [exact Gc | constructor]].
  Qed.

  Lemma inv_empty : inv [] (ConfigSet X [] [] [] false full false false 0 h).
  Proof.
    constructor; cbn [config_lookup configs conflicting_alts dips_into_outer_context full_ctx has_semantic_context read_only unique_alt set_hasher].
    - split; [intros c i [] | intros e []].
    - constructor.
    - intros e [].
    - intros e [].
    - split; [discriminate | intros (c & [] & _)].
    - split; [discriminate | intros (c & [] & _)].
    - auto.
  Qed.
End Sets.

(** ** The two key kinds *)
Lemma parser_key_ok X (x_eqb : X -> X -> bool) a b :
  key_eqb X x_eqb LocalKey a b = true <-> parser_key a = parser_key b.
Proof.
  cbn [key_eqb]. unfold parser_key. rewrite !andb_true_iff, !Z.eqb_eq, sem_eqb_eq. split.
  - intros ((A & B) & C). congruence.
  - intros H. inversion H. auto.
Qed.

Lemma lexer_key_ok X (x_eqb : X -> X -> bool) a b : (forall x y, x_eqb x y = true <-> x = y) ->
  good_config a -> good_config b -> (key_eqb X x_eqb FullKey a b = true <-> lexer_key a = lexer_key b).
Proof.
  intros Hx (ca & Ca & Wa) (cb & Cb & Wb). cbn [key_eqb]. unfold config_eqb, lexer_key.
  rewrite !andb_true_iff, !Z.eqb_eq, sem_eqb_eq, Hx, Bool.eqb_true_iff, Ca, Cb. cbn [opt_pctx_eqb]. split.
  - intros (((((A & B) & C) & D) & E) & F). apply eqb_eq_wf in C; auto. congruence.
  - intros H. inversion H. subst. rewrite pctx_eqb_refl. auto 10.
Qed.

Lemma merge_same hash f wild a k m k' : wf a -> merge hash (S f) wild a a k = Val (m, k') -> m = a /\ k' = k.
Proof. intros W. cbn [merge]. rewrite pctx_eqb_refl. intros H. inversion H. auto. Qed.

(** ** Bit sets *)
Section Bits.
  Lemma bs_in x l a : In a (bs_insert x l) <-> a = x \/ In a l.
  Proof.
    induction l as [|y l IH]; cbn [bs_insert]; [cbn; intuition|].
    destruct (Z.ltb_spec x y); [cbn; intuition|]. destruct (Z.eqb_spec x y); [subst; cbn; intuition|].
    cbn. rewrite IH. intuition.
  Qed.
  Lemma bs_sorted x l : StronglySorted Z.lt l -> StronglySorted Z.lt (bs_insert x l).
  Proof.
    induction 1 as [|y l S IH F]; cbn [bs_insert]; [constructor; constructor|].
    destruct (Z.ltb_spec x y).
    - constructor; [constructor; auto|]. constructor; [auto|]. rewrite Forall_forall in *. intros z Hz. specialize (F z Hz). lia.
    - destruct (Z.eqb_spec x y); [constructor; auto|]. constructor; [exact IH|].
      rewrite Forall_forall in *. intros z Hz. rewrite bs_in in Hz. destruct Hz as [-> | Hz]; [lia | auto].
  Qed.

  Lemma is_set_ext l P Q : (forall a, P a <-> Q a) -> is_set l P -> is_set l Q.
  Proof. intros H (S & I). split; [exact S|]. intros a. rewrite I. apply H. Qed.
  Lemma is_set_insert x l P : is_set l P -> is_set (bs_insert x l) (fun a => a = x \/ P a).
  Proof. intros (S & I). split; [apply bs_sorted; exact S|]. intros a. rewrite bs_in, I. reflexivity. Qed.
  Lemma is_set_nil : is_set [] (fun _ => False).
  Proof. split; [constructor | intros a; cbn; reflexivity]. Qed.
  Lemma is_set_extend xs : forall l P, is_set l P -> is_set (bs_extend l xs) (fun a => P a \/ In a xs).
  Proof.
    unfold bs_extend. induction xs as [|x xs IH]; intros l P H; cbn [fold_left].
    - eapply is_set_ext; [|exact H]. cbn. intuition.
    - eapply is_set_ext; [|apply IH, (is_set_insert x), H]. cbn. intuition.
  Qed.
  Lemma is_set_unique l : forall l' P, is_set l P -> is_set l' P -> l = l'.
  Proof.
    intros l' P (S & I) (S' & I').
    assert (E : forall a, In a l <-> In a l') by (intros a; rewrite I, I'; reflexivity). clear I I' P.
    revert l' S' E. induction S as [|x l S IH F]; intros l' S' E.
    - destruct l' as [|y l']; [reflexivity|]. exfalso. apply (E y). left. reflexivity.
    - destruct l' as [|y l']; [exfalso; apply (E x); left; reflexivity|].
      inversion S' as [|y' l'' S2 F']; subst. rewrite Forall_forall in F, F'.
      assert (x = y).
      { destruct (proj1 (E x) (or_introl eq_refl)) as [|H1]; [auto|].
        destruct (proj2 (E y) (or_introl eq_refl)) as [|H2]; [auto|].
        specialize (F _ H2). specialize (F' _ H1). lia. }
      subst y. f_equal. apply IH; [exact S2|]. intros a. split; intros Ha.
      + destruct (proj1 (E a) (or_intror Ha)) as [<-|]; [|assumption]. specialize (F _ Ha). lia.
      + destruct (proj2 (E a) (or_intror Ha)) as [<-|]; [|assumption]. specialize (F' _ Ha). lia.
  Qed.
  Lemma is_set_len1 l P : is_set l P -> (length l = 1%nat <-> exists a, P a /\ forall b, P b -> b = a).
  Proof.
    intros (S & I). split.
    - destruct l as [|a [|b l]]; try discriminate. intros _. exists a. split; [apply I; left; reflexivity|].
      intros b Hb. apply I in Hb. cbn in Hb. intuition.
    - intros (a & Pa & U). assert (E : l = [a]).
      { apply (is_set_unique l [a] P); [split; auto|]. split; [constructor; constructor|].
        intros b. cbn. split; [intros [<-|[]]; exact Pa | intros Hb; left; symmetry; auto]. }
      subst. reflexivity.
  Qed.
  Lemma is_set_len2 l P : is_set l P -> (Nat.ltb 1 (length l) = true <-> ambiguous P).
  Proof.
    intros (S & I). split.
    - destruct l as [|a [|b l]]; try discriminate. intros _. exists a, b. split; [apply I; left; auto|].
      split; [apply I; right; left; auto|]. inversion S as [|? ? _ F]; subst. rewrite Forall_forall in F.
      specialize (F b (or_introl eq_refl)). lia.
    - intros (a & b & Pa & Pb & N). apply I in Pa, Pb. destruct l as [|x [|y l]]; cbn in *; [tauto | | reflexivity].
      exfalso. intuition congruence.
  Qed.
  Lemma is_set_hd l P a : is_set l P -> hd_error l = Some a -> least P a.
  Proof.
    intros (S & I) H. destruct l as [|x l]; [discriminate|]. cbn in H. inversion H; subst.
    split; [apply I; left; auto|]. intros b Hb. apply I in Hb. destruct Hb as [<-|Hb]; [lia|].
    inversion S as [|? ? _ F]; subst. rewrite Forall_forall in F. specialize (F b Hb). lia.
  Qed.
  Lemma is_set_nonempty l P : is_set l P -> (exists a, P a) -> exists a, hd_error l = Some a.
  Proof. intros (S & I) (a & Pa). apply I in Pa. destruct l as [|x l]; [destruct Pa|]. exists x. reflexivity. Qed.
End Bits.

(** ** Grouping *)
Section Groups.
  Variable X : Type.
  Notation cfg := (config X).

  Definition grp_inv (cs : list cfg) (m : list (Z * pctx * list Z)) : Prop :=
    NoDup (map fst m) /\
    (forall st x, In (st, x) (map fst m) <-> group cs (st, x)) /\
    (forall g l, In (g, l) m -> is_set l (alt_of cs g)).

  Lemma alts_entry_in m st x a : (forall g l, In (g, l) m -> wf (snd g)) -> wf x ->
    NoDup (map fst m) ->
    (map fst (alts_entry m st x a) = map fst m /\ In (st, x) (map fst m) \/
     map fst (alts_entry m st x a) = map fst m ++ [(st, x)] /\ ~ In (st, x) (map fst m)) /\
    (forall g l, In (g, l) (alts_entry m st x a) <->
       (g <> (st, x) /\ In (g, l) m) \/
       (g = (st, x) /\ exists l0, l = bs_insert a l0 /\
          (In (g, l0) m \/ (l0 = [] /\ ~ In (st, x) (map fst m))))).
  Proof.
    intros Wm Wx ND. induction m as [|[[st' x'] l'] m IH]; cbn [alts_entry map fst].
    - split; [right; split; [reflexivity | tauto]|]. intros g l. split.
      + intros [Q | []]. inversion Q; subst. right. split; [reflexivity|]. exists []. auto.
      + intros [(_ & []) | (-> & l0 & -> & [[] | (-> & _)])]. left. reflexivity.
    - cbn [map fst] in ND. inversion ND as [|? ? N1 N2]; subst.
      assert (Wx' : wf x') by (apply (Wm (st', x') l'); left; reflexivity).
      destruct ((st' =? st) && pctx_eqb x' x) eqn:E.
      + apply andb_true_iff in E. destruct E as (E1 & E2). apply Z.eqb_eq in E1. apply eqb_eq_wf in E2; auto. subst st' x'.
        split; [left; split; [reflexivity | left; reflexivity]|]. intros g l. split.
        * intros [Q | Hin]; [inversion Q; subst; right; split; [reflexivity|]; exists l'; split; [reflexivity | left; left; reflexivity]|].
          left. split; [|right; exact Hin]. intros ->. apply N1. apply (in_map fst) in Hin. exact Hin.
        * intros [(Ng & [Q | Hin]) | (-> & l0 & -> & [[Q | Hin] | (_ & Q)])].
          -- inversion Q; subst. congruence.
          -- right. exact Hin.
          -- inversion Q; subst. left. reflexivity.
          -- exfalso. apply N1. apply (in_map fst) in Hin. exact Hin.
          -- exfalso. apply Q. left. reflexivity.
      + assert (NE : (st', x') <> (st, x)).
        { intros Q. inversion Q; subst. rewrite Z.eqb_refl, pctx_eqb_refl in E. discriminate. }
        destruct IH as (IH1 & IH2); [intros g l Hg; apply (Wm g l); right; exact Hg | exact N2|].
        split.
        * cbn [map fst]. destruct IH1 as [(-> & I1) | (-> & I1)]; [left | right]; (split; [reflexivity|]); cbn; intuition.
        * intros g l. cbn [In]. rewrite IH2. split.
          -- intros [Q | [(Ng & Hin) | (-> & l0 & -> & [Hin | (-> & Nn)])]].
             ++ inversion Q; subst. left. auto.
             ++ left. auto.
             ++ right. split; [reflexivity|]. exists l0. auto.
             ++ right. split; [reflexivity|]. exists []. split; [reflexivity|]. right. split; [reflexivity|]. cbn. intuition.
          -- intros [(Ng & [Q | Hin]) | (-> & l0 & -> & [[Q | Hin] | (-> & Nn)])].
             ++ auto.
             ++ right. left. auto.
             ++ inversion Q; subst. congruence.
             ++ right. right. split; [reflexivity|]. exists l0. auto.
             ++ right. right. split; [reflexivity|]. exists []. split; [reflexivity|]. right. split; [reflexivity|]. cbn in Nn. intuition.
  Qed.

  Lemma alt_of_app cs (c : cfg) (g : Z * pctx) a : alt_of (cs ++ [c]) g a <->
    alt_of cs g a \/ (c_state c = fst g /\ c_ctx c = Some (snd g) /\ a = c_alt c).
  Proof.
    unfold alt_of. split.
    - intros (c0 & I0 & A & B & D). rewrite in_app_iff in I0. destruct I0 as [I0 | [<- | []]]; [left; exists c0; auto | right; auto].
    - intros [(c0 & I0 & R) | (A & B & ->)].
      + exists c0. rewrite in_app_iff. auto.
      + exists c. rewrite in_app_iff. cbn. auto.
  Qed.

  Lemma configs_to_alts_ok l : forall cs m, Forall good_config (cs ++ l) -> grp_inv cs m ->
    exists m', configs_to_alts X m l = Val m' /\ grp_inv (cs ++ l) m'.
  Proof.
    induction l as [|c l IH]; intros cs m G V; cbn [configs_to_alts].
    - exists m. rewrite app_nil_r. auto.
    - assert (Gc : good_config c) by (rewrite Forall_forall in G; apply G; rewrite in_app_iff; cbn; auto).
      destruct Gc as (x & Cx & Wx). rewrite Cx. cbn [unwrap obindo].
      specialize (IH (cs ++ [c]) (alts_entry m (c_state c) x (c_alt c))). rewrite <- app_assoc in IH. apply IH; [exact G|].
      destruct V as (ND & Gr & Al).
      destruct (alts_entry_in m (c_state c) x (c_alt c)) as (F & I); [|exact Wx|exact ND|].
      { intros [st y] l0 Hg. assert (Q : group cs (st, y)) by (apply Gr; apply (in_map fst) in Hg; exact Hg).
        destruct Q as (a & c0 & I0 & _ & C0 & _). rewrite Forall_forall in G.
        destruct (G c0) as (z & Cz & Wz); [rewrite in_app_iff; auto|]. cbn [snd] in *. congruence. }
      assert (GA : forall st y, group (cs ++ [c]) (st, y) <-> group cs (st, y) \/ (st, y) = (c_state c, x)).
      { intros st y. unfold group. split.
        - intros (a & H). apply alt_of_app in H. destruct H as [H | (A & B & _)]; [left; exists a; auto|].
          right. cbn in *. congruence.
        - intros [(a & H) | Q].
          + exists a. apply alt_of_app. auto.
          + inversion Q; subst. exists (c_alt c). apply alt_of_app. right. cbn. auto. }
      split; [|split].
      + destruct F as [(-> & _) | (-> & N)]; [exact ND|]. apply nodup_app_one; auto.
      + intros st y. rewrite GA, <- Gr. destruct F as [(-> & N) | (-> & N)].
        * split; [auto|]. intros [|Q]; [auto | rewrite Q; auto].
        * rewrite in_app_iff. cbn. intuition.
      + intros g l0 Hg. apply I in Hg. destruct Hg as [(Ng & Hin) | (-> & l1 & -> & [Hin | (-> & Nn)])].
        * eapply is_set_ext; [|apply Al; exact Hin]. intros a. rewrite alt_of_app. split; [auto|].
          intros [H | (A & B & _)]; [exact H|]. exfalso. apply Ng. destruct g. cbn in *. congruence.
        * eapply is_set_ext; [|apply is_set_insert, Al; exact Hin]. intros a. rewrite alt_of_app. cbn [fst snd]. intuition.
        * eapply is_set_ext; [|apply is_set_insert, is_set_nil]. intros a. rewrite alt_of_app. cbn [fst snd]. split.
          -- intuition.
          -- intros [H | H]; [|intuition]. exfalso. apply Nn. apply Gr. exists a. exact H.
  Qed.

  Variable order : list (list Z) -> list (list Z).
  Hypothesis Horder : forall l, Permutation (order l) l.

  Lemma perm_map_inv {A B} (f : A -> B) l' : forall m, Permutation l' (map f m) -> exists m', Permutation m' m /\ l' = map f m'.
  Proof.
    intros m H. remember (map f m) as l eqn:E. revert m E. induction H; intros m E.
    - destruct m; [|discriminate]. exists []. auto.
    - destruct m as [|y m]; [discriminate|]. inversion E; subst. destruct (IHPermutation m eq_refl) as (m' & P & ->).
      exists (y :: m'). split; [constructor; auto | reflexivity].
    - destruct m as [|a [|b m]]; try discriminate. inversion E; subst. exists (b :: a :: m). split; [apply perm_swap | reflexivity].
    - destruct (IHPermutation2 m E) as (m1 & P1 & ->). destruct (IHPermutation1 m1 eq_refl) as (m2 & P2 & ->).
      exists m2. split; [eapply perm_trans; eauto | reflexivity].
  Qed.

  Lemma subsets_ok cs : Forall good_config cs ->
    exists gs ss, get_conflicting_alt_subsets X order cs = Val ss /\
      NoDup gs /\ (forall g, In g gs <-> group cs g) /\
      Forall2 (fun g s => is_set s (alt_of cs g)) gs ss.
  Proof.
    intros G. unfold get_conflicting_alt_subsets.
    destruct (configs_to_alts_ok cs [] [] G) as (m & -> & V).
    { split; [constructor|]. split; [|intros g l []]. intros st x. cbn. split; [tauto|]. intros (a & c & [] & _). }
    cbn [obindo app] in *. destruct V as (ND & Gr & Al).
    destruct (perm_map_inv snd _ m (Horder (map snd m))) as (m' & P & E).
    exists (map fst m'), (order (map snd m)). split; [reflexivity|]. split; [|split].
    - eapply Permutation_NoDup; [|exact ND]. apply Permutation_map, Permutation_sym, P.
    - intros [st x]. rewrite <- Gr. split; apply Permutation_in; [apply Permutation_map, P | apply Permutation_map, Permutation_sym, P].
    - rewrite E. assert (A : forall g l, In (g, l) m' -> is_set l (alt_of cs g)).
      { intros g l H. apply Al. eapply Permutation_in; eauto. }
      clear -A. induction m' as [|[g l] m' IH]; cbn; constructor; [apply A; left; reflexivity|].
      apply IH. intros g' l' H. apply A. right. exact H.
  Qed.

  (** ** states *)
  Definition st_inv (cs : list cfg) (m : list (Z * list Z)) : Prop :=
    NoDup (map fst m) /\
    (forall st, In st (map fst m) <-> exists c, In c cs /\ c_state c = st) /\
    (forall st l, In (st, l) m -> is_set l (fun a => exists c, In c cs /\ c_state c = st /\ c_alt c = a)).

  Lemma state_entry_in m st a : NoDup (map fst m) ->
    (map fst (state_entry m st a) = map fst m /\ In st (map fst m) \/
     map fst (state_entry m st a) = map fst m ++ [st] /\ ~ In st (map fst m)) /\
    (forall g l, In (g, l) (state_entry m st a) <->
       (g <> st /\ In (g, l) m) \/
       (g = st /\ exists l0, l = bs_insert a l0 /\
          (In (g, l0) m \/ (l0 = [] /\ ~ In st (map fst m))))).
  Proof.
    intros ND. induction m as [|[st' l'] m IH]; cbn [state_entry map fst].
    - split; [right; split; [reflexivity | tauto]|]. intros g l. split.
      + intros [Q | []]. inversion Q; subst. right. split; [reflexivity|]. exists []. auto.
      + intros [(_ & []) | (-> & l0 & -> & [[] | (-> & _)])]. left. reflexivity.
    - cbn [map fst] in ND. inversion ND as [|? ? N1 N2]; subst.
      destruct (Z.eqb_spec st' st) as [->|NE].
      + split; [left; split; [reflexivity | left; reflexivity]|]. intros g l. split.
        * intros [Q | Hin]; [inversion Q; subst; right; split; [reflexivity|]; exists l'; split; [reflexivity | left; left; reflexivity]|].
          left. split; [|right; exact Hin]. intros ->. apply N1. apply (in_map fst) in Hin. exact Hin.
        * intros [(Ng & [Q | Hin]) | (-> & l0 & -> & [[Q | Hin] | (_ & Q)])].
          -- inversion Q; subst. congruence.
          -- right. exact Hin.
          -- inversion Q; subst. left. reflexivity.
          -- exfalso. apply N1. apply (in_map fst) in Hin. exact Hin.
          -- exfalso. apply Q. left. reflexivity.
      + destruct IH as (IH1 & IH2); [exact N2|]. split.
        * cbn [map fst]. destruct IH1 as [(-> & I1) | (-> & I1)]; [left | right]; (split; [reflexivity|]); cbn; intuition.
        * intros g l. cbn [In]. rewrite IH2. split.
          -- intros [Q | [(Ng & Hin) | (-> & l0 & -> & [Hin | (-> & Nn)])]].
             ++ inversion Q; subst. left. auto.
             ++ left. auto.
             ++ right. split; [reflexivity|]. exists l0. auto.
             ++ right. split; [reflexivity|]. exists []. split; [reflexivity|]. right. split; [reflexivity|]. cbn. intuition.
          -- intros [(Ng & [Q | Hin]) | (-> & l0 & -> & [[Q | Hin] | (-> & Nn)])].
             ++ auto.
             ++ right. left. auto.
             ++ inversion Q; subst. congruence.
             ++ right. right. split; [reflexivity|]. exists l0. auto.
             ++ right. right. split; [reflexivity|]. exists []. split; [reflexivity|]. right. split; [reflexivity|]. cbn in Nn. intuition.
  Qed.

  Lemma state_map_ok l : forall cs m, st_inv cs m ->
    st_inv (cs ++ l) (fold_left (fun m c => state_entry m (c_state c) (c_alt c)) l m).
  Proof.
    induction l as [|c l IH]; intros cs m V; cbn [fold_left]; [rewrite app_nil_r; exact V|].
    specialize (IH (cs ++ [c]) (state_entry m (c_state c) (c_alt c))). rewrite <- app_assoc in IH. apply IH.
    destruct V as (ND & Gr & Al). destruct (state_entry_in m (c_state c) (c_alt c) ND) as (F & I).
    assert (GA : forall st, (exists c0, In c0 (cs ++ [c]) /\ c_state c0 = st) <-> (exists c0, In c0 cs /\ c_state c0 = st) \/ st = c_state c).
    { intros st. split.
      - intros (c0 & I0 & E). rewrite in_app_iff in I0. destruct I0 as [I0 | [<- | []]]; [left; exists c0; auto | right; auto].
      - intros [(c0 & I0 & E) | ->]; [exists c0 | exists c]; rewrite in_app_iff; cbn; auto. }
    assert (AA : forall st a, (exists c0, In c0 (cs ++ [c]) /\ c_state c0 = st /\ c_alt c0 = a) <->
                 (exists c0, In c0 cs /\ c_state c0 = st /\ c_alt c0 = a) \/ (c_state c = st /\ a = c_alt c)).
    { intros st a. split.
      - intros (c0 & I0 & E). rewrite in_app_iff in I0. destruct I0 as [I0 | [<- | []]]; [left; exists c0; auto | right; intuition].
      - intros [(c0 & I0 & E) | (E & ->)]; [exists c0 | exists c]; rewrite in_app_iff; cbn; auto. }
    split; [|split].
    - destruct F as [(-> & _) | (-> & N)]; [exact ND|]. apply nodup_app_one; auto.
    - intros st. rewrite GA, <- Gr. destruct F as [(-> & N) | (-> & N)].
      + split; [auto|]. intros [|Q]; [auto | rewrite Q; auto].
      + rewrite in_app_iff. cbn. intuition.
    - intros g l0 Hg. apply I in Hg. destruct Hg as [(Ng & Hin) | (-> & l1 & -> & [Hin | (-> & Nn)])].
      + eapply is_set_ext; [|apply Al; exact Hin]. intros a. cbn. rewrite AA. split; [auto|]. intros [H | (E & _)]; [exact H | congruence].
      + eapply is_set_ext; [|apply is_set_insert, Al; exact Hin]. intros a. cbn. rewrite AA. intuition.
      + eapply is_set_ext; [|apply is_set_insert, is_set_nil]. intros a. cbn. rewrite AA. split; [intuition|].
        intros [(c0 & I0 & E & _) | H]; [|intuition]. exfalso. apply Nn. apply Gr. exists c0. auto.
  Qed.

  Lemma state_one_ok cs : has_state_associated_with_one_alt X cs = true <-> some_state_decided cs.
  Proof.
    unfold has_state_associated_with_one_alt, get_state_to_alt_map.
    assert (V : st_inv [] []).
    { split; [constructor|]. split; [|intros g l []]. intros st. cbn. split; [tauto|]. intros (c & [] & _). }
    pose proof (state_map_ok cs [] [] V) as W. cbn [app] in W. destruct W as (ND & Gr & Al).
    set (m := fold_left _ cs []) in *. rewrite existsb_exists. unfold some_state_decided. split.
    - intros ([st l] & Hin & L). apply Nat.eqb_eq in L. cbn [snd] in L.
      apply (is_set_len1 _ _ (Al _ _ Hin)) in L. destruct L as (a & (c & I0 & S0 & A0) & U).
      exists st, a. split; [exists c; auto|]. intros c1 I1 S1. apply U. exists c1. auto.
    - intros (st & a & (c & I0 & S0) & U).
      assert (H : In st (map fst m)) by (apply Gr; exists c; auto).
      apply in_map_iff in H. destruct H as ([st' l] & E & Hin). cbn in E. subst st'.
      exists (st, l). split; [exact Hin|]. apply Nat.eqb_eq. cbn [snd]. apply (is_set_len1 _ _ (Al _ _ Hin)).
      exists a. split; [exists c; auto|]. intros b (c1 & I1 & S1 & A1). rewrite <- A1. auto.
  Qed.
End Groups.

(** ** Analyses over the subsets *)
Section Analyses.
  Variable G : Type.
  Variable P : G -> Z -> Prop.
  Variable gs : list G.
  Variable ss : list (list Z).
  Hypothesis F : Forall2 (fun g s => is_set s (P g)) gs ss.

  Lemma f2_in_s s : In s ss -> exists g, In g gs /\ is_set s (P g).
  Proof.
    clear -F. induction F as [|g s0 gs ss H F' IH]; intros I0; [destruct I0|]. destruct I0 as [<-|I0].
    - exists g. split; [left; reflexivity | exact H].
    - destruct (IH F' I0) as (g' & A & B). exists g'. split; [right; exact A | exact B].
  Qed.
  Lemma f2_in_g g : In g gs -> exists s, In s ss /\ is_set s (P g).
  Proof.
    clear -F. induction F as [|g0 s0 gs ss H F' IH]; intros I0; [destruct I0|]. destruct I0 as [<-|I0].
    - exists s0. split; [left; reflexivity | exact H].
    - destruct (IH F' I0) as (g' & A & B). exists g'. split; [right; exact A | exact B].
  Qed.

  Lemma conflict_set_ok : has_conflicting_alt_set ss = true <-> exists g, In g gs /\ ambiguous (P g).
  Proof.
    unfold has_conflicting_alt_set. rewrite existsb_exists. split.
    - intros (s & I0 & L). destruct (f2_in_s s I0) as (g & Ig & S). exists g. split; [exact Ig|]. apply (is_set_len2 _ _ S), L.
    - intros (g & Ig & A). destruct (f2_in_g g Ig) as (s & I0 & S). exists s. split; [exact I0|]. apply (is_set_len2 _ _ S), A.
  Qed.

  Lemma all_conflict_ok : (forall g, In g gs -> exists a, P g a) ->
    (all_subsets_conflict ss = true <-> forall g, In g gs -> ambiguous (P g)).
  Proof.
    intros NE. unfold all_subsets_conflict, has_non_conflicting_alt_set. rewrite negb_true_iff. split.
    - intros H g Ig. destruct (f2_in_g g Ig) as (s & I0 & S). apply (is_set_len2 _ _ S).
      destruct (is_set_nonempty _ _ S (NE g Ig)) as (a & Ha).
      destruct s as [|x [|y s]]; [discriminate | | reflexivity].
      exfalso. assert (T : existsb (fun s => Nat.eqb (length s) 1) ss = true) by (apply existsb_exists; exists [x]; auto). congruence.
    - intros H. destruct (existsb _ ss) eqn:E; [|reflexivity]. apply existsb_exists in E. destruct E as (s & I0 & L).
      destruct (f2_in_s s I0) as (g & Ig & S). pose proof (H g Ig) as A. apply (is_set_len2 _ _ S) in A.
      apply Nat.eqb_eq in L. apply Nat.ltb_lt in A. lia.
  Qed.

  Lemma all_equal_ok : all_subsets_equal ss = true <-> forall g g', In g gs -> In g' gs -> forall a, P g a <-> P g' a.
  Proof.
    split.
    - intros H.
      assert (T : forall s s', In s ss -> In s' ss -> s = s').
      { destruct ss as [|f r]; [intros s s' []|]. cbn [all_subsets_equal] in H. rewrite forallb_forall in H.
        assert (A : forall s, In s (f :: r) -> s = f) by (intros s [<-|I0]; [reflexivity | apply zlist_eqb_eq, H, I0]).
        intros s s' I1 I2. rewrite (A s I1), (A s' I2). reflexivity. }
      intros g g' I1 I2 a. destruct (f2_in_g g I1) as (s & J1 & _ & S1). destruct (f2_in_g g' I2) as (s' & J2 & _ & S2).
      rewrite <- S1, <- S2. rewrite (T s s' J1 J2). reflexivity.
    - intros H. assert (T : forall s s', In s ss -> In s' ss -> s = s').
      { intros s s' J1 J2. destruct (f2_in_s s J1) as (g & I1 & S1). destruct (f2_in_s s' J2) as (g' & I2 & S2).
        eapply is_set_unique; [exact S1|]. eapply is_set_ext; [|exact S2]. intros a. apply H; auto. }
      clear -T. destruct ss as [|f r]; [reflexivity|]. cbn [all_subsets_equal]. apply forallb_forall. intros s I0.
      apply zlist_eqb_eq. apply T; [right; exact I0 | left; reflexivity].
  Qed.

  Lemma get_alts_ok : is_set (get_alts ss) (fun a => exists g, In g gs /\ P g a).
  Proof.
    assert (A : forall l acc Q, is_set acc Q ->
              is_set (fold_left (fun acc it => bs_extend acc it) l acc) (fun a => Q a \/ exists s, In s l /\ In a s)).
    { induction l as [|s l IH]; intros acc Q H; cbn [fold_left].
      - eapply is_set_ext; [|exact H]. intros a. split; [auto|]. intros [|(s & [] & _)]; auto.
      - eapply is_set_ext; [|apply IH, (is_set_extend s), H]. intros a. cbn. split.
        + intros [[H1 | H1] | (s' & H1)]; [auto | right; exists s; auto | right; exists s'; intuition].
        + intros [H1 | (s' & [<- | H1] & H2)]; [auto | auto | right; exists s'; auto]. }
    eapply is_set_ext; [|apply A, is_set_nil]. intros a. split.
    - intros [[] | (s & I0 & Ia)]. destruct (f2_in_s s I0) as (g & Ig & S). exists g. split; [exact Ig|]. apply S, Ia.
    - intros (g & Ig & Pa). right. destruct (f2_in_g g Ig) as (s & I0 & S). exists s. split; [exact I0|]. apply S, Pa.
  Qed.
End Analyses.

Lemma single_viable_ok G (P : G -> Z -> Prop) gs ss : Forall2 (fun g s => is_set s (P g)) gs ss ->
  (forall g, In g gs -> exists a, P g a) -> (forall g a, In g gs -> P g a -> a <> INVALID_ALT) ->
  exists v, get_single_viable_alt ss = Val v /\
    (v <> INVALID_ALT -> gs <> [] /\ forall g, In g gs -> least (P g) v) /\
    (v = INVALID_ALT -> gs = [] \/ exists g g' a b, In g gs /\ In g' gs /\ least (P g) a /\ least (P g') b /\ a <> b).
Proof.
  intros F NE NZ. unfold get_single_viable_alt.
  assert (Loop : forall gs ss, Forall2 (fun g s => is_set s (P g)) gs ss -> (forall g, In g gs -> exists a, P g a) ->
            forall m, exists v, single_viable_loop [m] m ss = Val v /\
              (((forall g, In g gs -> least (P g) m) /\ v = m) \/
               (v = INVALID_ALT /\ exists g b, In g gs /\ least (P g) b /\ b <> m))).
  { clear F NE NZ gs ss. induction 1 as [|g s gs ss H F IH]; intros NE m; cbn [single_viable_loop].
    - exists m. split; [reflexivity|]. left. split; [intros g []|reflexivity].
    - destruct (is_set_nonempty _ _ H (NE g (or_introl eq_refl))) as (b & Hb). rewrite Hb. cbn [unwrap obindo].
      pose proof (is_set_hd _ _ _ H Hb) as Lb. cbn [bs_insert].
      destruct (Z.ltb_spec b m); [|destruct (Z.eqb_spec b m)].
      + cbn [length Nat.ltb Nat.leb]. exists INVALID_ALT. split; [reflexivity|]. right. split; [reflexivity|].
        exists g, b. split; [left; reflexivity|]. split; [exact Lb | lia].
      + subst b. cbn [length Nat.ltb Nat.leb]. destruct (IH (fun g0 I0 => NE g0 (or_intror I0)) m) as (v & Ev & C).
        exists v. split; [exact Ev|]. destruct C as [(A & B) | (A & g0 & b0 & I0 & C0)].
        * left. split; [|exact B]. intros g0 [<-|I0]; [exact Lb | auto].
        * right. split; [exact A|]. exists g0, b0. split; [right; exact I0 | exact C0].
      + cbn [length Nat.ltb Nat.leb]. exists INVALID_ALT. split; [reflexivity|]. right. split; [reflexivity|].
        exists g, b. split; [left; reflexivity|]. split; [exact Lb | lia]. }
  destruct F as [|g s gs ss H F]; cbn [single_viable_loop].
  - exists INVALID_ALT. split; [reflexivity|]. split; [congruence | auto].
  - destruct (is_set_nonempty _ _ H (NE g (or_introl eq_refl))) as (b & Hb). rewrite Hb. cbn [unwrap obindo].
    pose proof (is_set_hd _ _ _ H Hb) as Lb. cbn [bs_insert length Nat.ltb Nat.leb].
    destruct (Loop gs ss F (fun g0 I0 => NE g0 (or_intror I0)) b) as (v & Ev & C). exists v. split; [exact Ev|].
    destruct C as [(A & ->) | (-> & g0 & b0 & I0 & L0 & N0)].
    + split.
      * intros _. split; [discriminate|]. intros g0 [<-|I0]; auto.
      * intros E. exfalso. apply (NZ g b); [left; reflexivity | apply Lb | exact E].
    + split; [congruence|]. intros _. right. exists g, g0, b, b0. cbn. auto 10.
Qed.

Lemma unique_alt_ok X (cs : list (config X)) : (forall c, In c cs -> c_alt c <> INVALID_ALT) ->
  let v := get_unique_alt X cs in
  (v <> INVALID_ALT -> cs <> [] /\ forall c, In c cs -> c_alt c = v) /\
  (v = INVALID_ALT -> cs = [] \/ exists c c', In c cs /\ In c' cs /\ c_alt c <> c_alt c').
Proof.
  intros NZ v. unfold v, get_unique_alt.
  assert (Loop : forall cs a, a <> INVALID_ALT ->
     let v := unique_alt_loop X a cs in
     ((forall c, In c cs -> c_alt c = a) /\ v = a) \/ (v = INVALID_ALT /\ exists c, In c cs /\ c_alt c <> a)).
  { clear. induction cs as [|c cs IH]; intros a Na; cbn [unique_alt_loop].
    - left. split; [intros c []|reflexivity].
    - rewrite (proj2 (Z.eqb_neq _ _) Na). destruct (Z.eqb_spec (c_alt c) a) as [E|E]; cbn [negb].
      + destruct (IH a Na) as [(A & B) | (A & c0 & I0 & N0)].
        * left. split; [|exact B]. intros c0 [<-|I0]; auto.
        * right. split; [exact A|]. exists c0. cbn. auto.
      + right. split; [reflexivity|]. exists c. cbn. auto. }
  destruct cs as [|c cs]; cbn [unique_alt_loop].
  - split; [congruence | auto].
  - rewrite Z.eqb_refl. destruct (Loop cs (c_alt c) (NZ c (or_introl eq_refl))) as [(A & ->) | (-> & c0 & I0 & N0)].
    + split.
      * intros _. split; [discriminate|]. intros c0 [<-|I0]; auto.
      * intros E. exfalso. apply (NZ c (or_introl eq_refl) E).
    + split; [congruence|]. intros _. right. exists c, c0. cbn. auto.
Qed.
