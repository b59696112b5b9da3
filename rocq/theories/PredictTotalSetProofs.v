(** Adding configurations to sets never fails. *)
From Coq Require Import ZArith List Bool Lia Sorted ZifyBool ZifyNat.
From Verif Require Import Outcome IntervalSetModel PredContextModel PredContextSpec PredContextProofs SemContextModel SemContextProofs.
From Verif Require Import ConfigSetModel ConfigSetSpec ConfigSetProofs DfaModel AtnModel AtnSpec AtnProofs Ll1Model Ll1Spec ParserModel PredictModel.
From Verif Require Import PredictLLSpec PredictLLSetProofs PredictTotalSpec PredictTotalBaseProofs PredictTotalContextProofs PredictTotalStackProofs.
Import ListNotations.
Local Open Scope Z_scope.
Local Open Scope outcome_scope.

Section Sets.
  Variable a : atn.
  Variable main : Z.
  (** the number of alternatives of the decision *)
  Variable nalts : Z.

  (** a configuration, in full-context mode or not *)
  Definition cok (full : bool) (c : pconfig) : Prop := exists x, c_ctx c = Some x /\
    fits a main (negb full) (rule_of a (c_state c)) x /\ exists_state a (c_state c) /\ 1 <= c_alt c <= nalts /\ (full = true -> c_reach c = 0).
  (** one at which a closure ends *)
  Definition cdone (c : pconfig) : Prop := forall s, state_at a (c_state c) = Some s ->
    (Ll1Spec.is_stop s -> c_ctx c = Some EMPTY) /\ (~ Ll1Spec.is_stop s -> st_eps_only s = false).
  Definition ckind (full fin : bool) (c : pconfig) : Prop := cok full c /\ (fin = true -> cdone c).
  Definition lookup_in (lk : list (pconfig * nat)) (es : list pconfig) : Prop :=
    forall c i, In (c, i) lk -> exists e, nth_error es i = Some e /\ c_state e = c_state c /\ c_alt e = c_alt c.
  Record sok (full fin : bool) (s : pset) : Prop := {
    so_hasher : set_hasher s = LocalKey;
    so_full : full_ctx s = full;
    so_open : ConfigSetModel.read_only s = false;
    so_dips : full = true -> dips_into_outer_context s = false;
    so_plain : unique_alt s = INVALID_ALT /\ conflicting_alts s = [];
    so_configs : Forall (ckind full fin) (configs s);
    so_lookup : lookup_in (config_lookup s) (configs s)
  }.
  Lemma sok_empty full fin : sok full fin (new_base_config_set unit full).
  Proof. constructor; cbn; auto. intros c i []. Qed.
  Lemma sok_weaken full s : sok full true s -> sok full false s.
  Proof.
    intros [A B C D P E F]. constructor; auto. eapply Forall_impl; [|exact E]. intros c (X & _). split; [exact X | discriminate].
  Qed.

  (** where the configurations of a set come from *)
  Definition from (l : list pconfig) (cs cs' : list pconfig) : Prop :=
    forall e, In e cs' -> exists e0, (In e0 cs \/ In e0 l) /\ c_state e0 = c_state e /\ c_alt e0 = c_alt e.
  Lemma from_refl cs l : from l cs cs.
  Proof. intros e H. exists e. auto. Qed.
  Lemma from_trans l l' cs cs1 cs2 : from l cs cs1 -> from l' cs1 cs2 -> from (l ++ l') cs cs2.
  Proof.
    intros A B e H. destruct (B e H) as (e1 & [H1|H1] & S1 & A1).
    - destruct (A e1 H1) as (e2 & H2 & S2 & A2). exists e2. rewrite in_app_iff. split; [tauto|]. split; congruence.
    - exists e1. rewrite in_app_iff. auto.
  Qed.

  Variable hash : pctx -> Z.
  Hypothesis Hh : forall x, wf x -> hash x <> 0.
  Context {S : Type}.
  Notation sim := (sim S).
  Notation kok full k := (kept a main (negb full) k).

  Lemma cached_total full fin s c k : sok full fin s -> ckind full fin c -> kok full k ->
    exists s' k', add_cached unit unit_eqb hash s c k = Val (s', k') /\ sok full fin s' /\ kok full k' /\
      from [c] (configs s) (configs s') /\ configs s' <> [].
  Proof.
    intros [Hh' Hf Hr Hd Hp Hc Hl] Gc Hk. unfold add_cached. rewrite Hr, Hh'.
    assert (Di : full = true -> (if c_reach c >? 0 then true else dips_into_outer_context s) = false).
    { intros Fu. destruct Gc as ((x & _ & _ & _ & _ & R) & _). rewrite (R Fu). cbn. auto. }
    destruct (lookup unit unit_eqb LocalKey (config_lookup s) c) as [i|] eqn:EL.
    - apply lookup_some in EL as (c0 & I0 & K0). destruct (Hl _ _ I0) as (e & Ne & Se & Ae).
      change (nth_error (configs (X := unit) s) i = Some e) in Ne. unfold pconfig in Ne. rewrite Ne. cbn [unwrap obindo].
      pose proof (nth_error_In _ _ Ne) as Ie. pose proof (proj1 (Forall_forall _ _) Hc _ Ie) as Ge.
      cbn [key_eqb] in K0. apply andb_true_iff in K0 as (K0 & _). apply andb_true_iff in K0 as (K1 & K2). apply Z.eqb_eq in K1, K2.
      pose proof Gc as ((x & Ex & Fx & Xx & Ax & Rx) & Dx). pose proof Ge as ((y & Ey & Fy & Xy & Ay & Ry) & Dy).
      rewrite Ex, Ey. cbn [unwrap obindo]. rewrite Hf.
      destruct (merge_total a main (negb full) (negb full) (fun E => E) hash Hh (Datatypes.S (height y)) y x k (le_n _) (fits_wf _ _ _ _ _ Fy) (fits_wf _ _ _ _ _ Fx) Hk)
        as (r & k' & Em & (Wr & Kr) & Hk').
      assert (ES : y = EMPTY -> x = EMPTY -> r = EMPTY).
      { intros -> ->. cbn [merge] in Em. rewrite pctx_eqb_refl in Em. inversion Em. reflexivity. }
      rewrite Em. cbn [obindo]. eexists _, k'. split; [reflexivity|].
      destruct (set_nth_app _ _ (upd unit e c r) _ Ne) as (l1 & l2 & El & Es & Ll). unfold upd in Es.
      assert (Gn : ckind full fin (Config (c_state e) (c_alt e) (Some r) (c_sem e) (Z.max (c_reach e) (c_reach c)) (if c_pfs c then true else c_pfs e) (c_type e))).
      { split.
        - exists r. cbn. split; [reflexivity|]. split; [|split; [exact Xy|]; split; [exact Ay|]; intros Fu; rewrite (Rx Fu), (Ry Fu); reflexivity].
          apply Kr; [tauto | exact Fy|]. rewrite Se, K1. exact Fx.
        - intros Fi st Est. cbn in Est. cbn [c_ctx]. destruct (Dy Fi st Est) as (Q1 & Q2). split; [|exact Q2]. intros St.
          rewrite Se, K1 in Est. destruct (Dx Fi st Est) as (Q3 & _). rewrite Q1 in Ey by exact St. rewrite Q3 in Ex by exact St.
          f_equal. apply ES; congruence. }
      split; [|split; [exact Hk'|split]].
      + constructor; cbn [set_hasher full_ctx configs config_lookup ConfigSetModel.read_only dips_into_outer_context unique_alt conflicting_alts]; auto.
        * unfold pconfig in *. rewrite Es. rewrite El in Hc. rewrite Forall_app in Hc |- *. destruct Hc as (C1 & C2). split; [exact C1|].
          inversion C2; subst. constructor; assumption.
        * intros c1 n I1. destruct (Hl _ _ I1) as (e1 & N1 & S1 & A1).
          rewrite nth_set_nth. destruct (Nat.eqb_spec i n) as [-> |Hne]; [|eauto].
          assert (Hlt : (n < @length (config unit) (configs s))%nat) by (apply nth_error_Some; unfold pconfig in *; congruence). apply Nat.ltb_lt in Hlt.
          unfold pconfig in *. rewrite Hlt.
          eexists. split; [reflexivity|]. cbn. rewrite Ne in N1. inversion N1; subst. auto.
      + cbn [configs]. unfold from, pconfig in *. rewrite Es, El. intros e0 I. apply in_app_iff in I as [I|[<-|I]].
        * exists e0. rewrite in_app_iff. auto.
        * exists e. rewrite in_app_iff. cbn. auto 6.
        * exists e0. rewrite in_app_iff. cbn. auto 6.
      + cbn [configs]. unfold pconfig in *. rewrite Es. destruct l1; discriminate.
    - eexists _, k. split; [reflexivity|]. split; [|split; [exact Hk|split]].
      + constructor; cbn [set_hasher full_ctx configs config_lookup ConfigSetModel.read_only dips_into_outer_context unique_alt conflicting_alts]; auto.
        * apply Forall_app. auto.
        * intros c1 n [Q|I1].
          -- inversion Q; subst. exists c1. rewrite nth_error_app2 by lia. rewrite Nat.sub_diag. auto.
          -- destruct (Hl _ _ I1) as (e1 & N1 & R1). exists e1. rewrite nth_error_app1; [auto|]. unfold pconfig in *. apply nth_error_Some. congruence.
      + cbn [configs]. intros e I. apply in_app_iff in I as [I|[<-|[]]]; [exists e; auto | exists c; cbn; auto].
      + cbn [configs]. destruct (configs s); discriminate.
  Qed.

  (** what additions keep *)
  Definition same_but_cache (m m' : sim) : Prop := m_input m' = m_input m /\ m_dfa m' = m_dfa m.
  Lemma add_total full fin (m : sim) s c : sok full fin s -> ckind full fin c -> kok full (Some (m_cache m)) ->
    exists m' s', add_to hash m s c = Val (m', s') /\ sok full fin s' /\ kok full (Some (m_cache m')) /\ same_but_cache m m' /\
      from [c] (configs s) (configs s') /\ configs s' <> [].
  Proof.
    intros Hs Hc Hk. destruct (cached_total full fin s c _ Hs Hc Hk) as (s' & k' & E & A & B & F). unfold add_to. rewrite E. cbn [obindo].
    eexists _, s'. split; [reflexivity|]. split; [exact A|]. destruct k' as [k'|].
    - split; [exact B|]. split; [split; reflexivity | exact F].
    - split; [exact Hk|]. split; [split; reflexivity | exact F].
  Qed.
  Lemma add_plain_total full fin s c : sok full fin s -> ckind full fin c ->
    exists s', add_plain hash s c = Val s' /\ sok full fin s' /\ from [c] (configs s) (configs s').
  Proof.
    intros Hs Hc. destruct (cached_total full fin s c None Hs Hc (kept_none _ _ _)) as (s' & k' & E & A & B & F & _). unfold add_plain. rewrite E. cbn [obindo].
    exists s'. auto.
  Qed.
End Sets.
