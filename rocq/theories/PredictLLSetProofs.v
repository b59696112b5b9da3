(** Configuration sets as sets of (alternative, state, stack) triples, in both modes. *)
From Coq Require Import ZArith List Bool Lia Sorted ZifyBool ZifyNat.
From Verif Require Import Outcome IntervalSetModel PredContextModel PredContextSpec PredContextProofs SemContextModel SemContextProofs.
From Verif Require Import ConfigSetModel ConfigSetSpec ConfigSetProofs DfaModel AtnModel AtnSpec Ll1Model Ll1Spec ParserModel PredictModel.
From Verif Require Import PredictFrameProofs PredictLLSpec PredictLLContextProofs.
Import ListNotations.
Local Open Scope Z_scope.
Local Open Scope outcome_scope.

Lemma get_state_at a i s : get_state a i = Val s <-> state_at a i = Some s.
Proof.
  unfold get_state, vget, state_at. destruct (if i <? 0 then None else nth_error (states a) (Z.to_nat i)) as [s'|]; cbn [unwrap].
  - split; intros H; inversion H; reflexivity.
  - split; discriminate.
Qed.
Lemma stop_iff s : PredictModel.is_stop s = true <-> Ll1Spec.is_stop s.
Proof. unfold PredictModel.is_stop, Ll1Spec.is_stop. destruct (st_type s); split; congruence. Qed.
Lemma stop_not s : PredictModel.is_stop s = false <-> ~ Ll1Spec.is_stop s.
Proof. rewrite <- stop_iff. destruct (PredictModel.is_stop s); split; congruence. Qed.
Lemma exists_at a i : exists_state a i -> exists s, state_at a i = Some s.
Proof. unfold exists_state. destruct (state_at a i) as [s|]; [eauto | congruence]. Qed.
Lemma rule_at a i s : state_at a i = Some s -> rule_of a i = st_rule s.
Proof. unfold rule_of. intros ->. reflexivity. Qed.

Lemma stands_any w x : wf x -> exists s, stands w x s.
Proof.
  induction x as [r | r q IH | rs ps IH] using pctx_ind'; intros W.
  - rewrite (wf_none_EMPTY _ W). exists []. apply PredContextSpec.Bottom; [left; reflexivity | auto].
  - apply wf_single_some in W as (_ & Wq). destruct (IH Wq) as (s & H). exists (r :: s). eapply PredContextSpec.Frame; [left; reflexivity | exact H].
  - apply wf_iff in W as ((Sd & L & N) & W1 & W2 & W3). destruct rs as [|r rs]; [cbn in N; lia|]. destruct ps as [|[q|] ps]; [discriminate L| |].
    + assert (Wq : wf q) by (apply (W3 r); left; reflexivity). destruct (IH q (or_introl eq_refl) Wq) as (s & H). exists (r :: s).
      eapply PredContextSpec.Frame; [left; reflexivity | exact H].
    + exists []. assert (E : r = EMPTY_RETURN_STATE) by (apply W1; left; reflexivity). subst r. apply PredContextSpec.Bottom; [left; reflexivity | auto].
Qed.

Section Sets.
  Variable a : atn.
  Variable main : Z.
  Notation typed := (typed (rule_of a) main).

  Definition cgood (full : bool) (c : pconfig) : Prop := exists x, c_ctx c = Some x /\ wf x /\
    (full = true -> typed (rule_of a (c_state c)) x) /\ c_sem c = NONE /\ 1 <= c_alt c /\ c_pfs c = false.
  Definition lookup_good (lk : list (pconfig * nat)) (es : list pconfig) : Prop :=
    forall c i, In (c, i) lk -> exists e, nth_error es i = Some e /\ c_state e = c_state c /\ c_alt e = c_alt c.
  Record sgood (full : bool) (s : pset) : Prop := {
    sg_hasher : set_hasher s = LocalKey;
    sg_full : full_ctx s = full;
    sg_sem : has_semantic_context s = false;
    sg_configs : Forall (cgood full) (configs s);
    sg_lookup : lookup_good (config_lookup s) (configs s)
  }.
  Definition kgood (full : bool) (k : cache) : Prop :=
    tcache (rule_of a) main (Some k) /\ (full = false -> cache_ok true (Some k)).
  Definition den (w : bool) (cs : list pconfig) (j q : Z) (g : list Z) : Prop :=
    exists c x, In c cs /\ c_state c = q /\ c_alt c = j /\ c_ctx c = Some x /\ stands w x g.
  (** the states and alternatives in a set *)
  Definition has_key (cs : list pconfig) (q j : Z) : Prop := exists c, In c cs /\ c_state c = q /\ c_alt c = j.

  Lemma den_app w l l' j q g : den w (l ++ l') j q g <-> den w l j q g \/ den w l' j q g.
  Proof.
    unfold den. split.
    - intros (c & x & I & R). apply in_app_iff in I as [I|I]; [left | right]; eauto.
    - intros [(c & x & I & R)|(c & x & I & R)]; exists c, x; rewrite in_app_iff; auto.
  Qed.
  Lemma den_cons w c l j q g : den w (c :: l) j q g <-> den w [c] j q g \/ den w l j q g.
  Proof. apply (den_app w [c] l). Qed.
  Lemma den_one w c x j q g : c_ctx c = Some x -> (den w [c] j q g <-> c_state c = q /\ c_alt c = j /\ stands w x g).
  Proof.
    intros E. unfold den. split.
    - intros (c' & x' & [<-|[]] & A & B & C & D). rewrite E in C. inversion C; subst. auto.
    - intros (A & B & C). exists c, x. cbn. auto 6.
  Qed.
  Lemma den_nil w j q g : ~ den w [] j q g.
  Proof. intros (c & x & [] & _). Qed.
  Lemma den_key w cs j q g : den w cs j q g -> has_key cs q j.
  Proof. intros (c & x & I & A & B & _). exists c. auto. Qed.
  Lemma key_den full w cs j q : Forall (cgood full) cs -> has_key cs q j -> exists g, den w cs j q g.
  Proof.
    intros G (c & I & A & B). rewrite Forall_forall in G. destruct (G _ I) as (x & E & W & _).
    destruct (stands_any w x W) as (g & H). exists g, c, x. auto.
  Qed.

  Lemma sgood_empty full : sgood full (new_base_config_set unit full).
  Proof. constructor; cbn; auto. intros c i []. Qed.
  Lemma kgood_empty full : kgood full [].
  Proof. split; [intros c E x y r | intros _ c E x y r]; inversion E; subst; intros []. Qed.
  Lemma kgood_full k : kgood false k -> kgood true k.
  Proof. intros (A & _). split; [exact A | discriminate]. Qed.

  Variable hash : pctx -> Z.
  Context {S : Type}.
  Notation sim := (sim S).
  (** what an addition to a set gives *)
  Record added (full : bool) (m m' : sim) (s s' : pset) (cs : list pconfig) : Prop := {
    ad_set : sgood full s';
    ad_cache : kgood full (m_cache m');
    ad_input : m_input m' = m_input m;
    ad_dfa : m_dfa m' = m_dfa m;
    ad_den : forall j q g, den (negb full) (configs s') j q g <-> den (negb full) (configs s) j q g \/ den (negb full) cs j q g;
    ad_key : forall q j, has_key (configs s') q j <-> has_key (configs s) q j \/ has_key cs q j
  }.

  Lemma key_one c q j : has_key [c] q j <-> c_state c = q /\ c_alt c = j.
  Proof.
    split; [intros (c' & [<-|[]] & H); exact H | intros H; exists c; split; [left; reflexivity | exact H]].
  Qed.
  Lemma key_app l l' q j : has_key (l ++ l') q j <-> has_key l q j \/ has_key l' q j.
  Proof.
    unfold has_key. split.
    - intros (c & I & R). apply in_app_iff in I as [I|I]; [left | right]; eauto.
    - intros [(c & I & R)|(c & I & R)]; exists c; rewrite in_app_iff; auto.
  Qed.

  Lemma add_good full m s c m' s' : sgood full s -> cgood full c -> kgood full (m_cache m) ->
    add_to (S := S) hash m s c = Val (m', s') -> added full m m' s s' [c].
  Proof.
    intros [Hh Hf Hs Hc Hl] Gc Hk H. unfold add_to in H. bind2 H s1 k1 E. unfold add_cached in E.
    destruct (read_only s); [discriminate|].
    destruct Gc as (cb & Ecb & Wcb & Tcb & Sem & Alt & Pfs). rewrite Sem, Hh, Hs in E.
    rewrite (proj2 (sem_none_dec NONE) eq_refl) in E.
    destruct (lookup unit unit_eqb LocalKey (config_lookup s) c) as [i|] eqn:EL.
    - apply lookup_some in EL as (c0 & I0 & K0). destruct (Hl _ _ I0) as (e & Ne & Se & Ae).
      change (nth_error (configs (X := unit) s) i = Some e) in Ne. unfold pconfig in Ne. rewrite Ne in E. cbn [unwrap obindo] in E. pose proof (nth_error_In _ _ Ne) as Ie.
      pose proof (proj1 (Forall_forall _ _) Hc _ Ie) as (ea & Eea & Wea & Tea & Seme & Alte & Pfse).
      rewrite Eea, Ecb in E. cbn [unwrap obindo] in E. bind2 E mg k2 EM. inversion E; subst s1 k1. inversion H; subst m' s'. clear E H.
      cbn [key_eqb] in K0. apply andb_true_iff in K0 as (K0 & _). apply andb_true_iff in K0 as (K1 & K2).
      apply Z.eqb_eq in K1, K2. rewrite Hf in EM.
      assert (M : wf mg /\ (full = true -> typed (rule_of a (c_state e)) mg) /\
                  (forall g, stands (negb full) mg g <-> stands (negb full) ea g \/ stands (negb full) cb g) /\
                  kgood full (m_cache (match k2 with Some k => with_cache m k | None => m end))).
      { destruct Hk as (Tk & Ck). destruct (merge_typed _ _ _ _ _ _ _ _ _ _ Wea Wcb Tk EM) as (Tk2 & X).
        destruct full; cbn [negb] in *.
        - destruct (X (rule_of a (c_state e)) (Tea eq_refl)) as (TT & SS); [rewrite Se, K1; apply Tcb; reflexivity|].
          split; [eapply typed_wf; eauto|]. split; [auto|]. split; [exact SS|]. destruct k2 as [k|]; split; auto; discriminate.
        - destruct (merge_fuel_val hash true _ _ _ _ _ _ EM Wea Wcb (Ck eq_refl)) as ((Wm & Sm & _) & Ck2).
          split; [exact Wm|]. split; [discriminate|]. split; [exact Sm|]. destruct k2 as [k|]; split; auto. }
      destruct M as (Wm & Tm & Sm & Km).
      destruct (set_nth_app _ _ (upd unit e c mg) _ Ne) as (l1 & l2 & El & Es & Ll).
      assert (Ns : forall e0, In e0 (set_nth i (upd unit e c mg) (configs s)) <-> In e0 l1 \/ e0 = upd unit e c mg \/ In e0 l2).
      { intros e0. rewrite Es, in_app_iff. cbn. intuition. }
      assert (Nc : forall e0, In e0 (configs s) <-> In e0 l1 \/ e0 = e \/ In e0 l2).
      { intros e0. rewrite El, in_app_iff. cbn. intuition. }
      unfold upd in *. rewrite Pfs in *.
      constructor.
      + constructor; cbn [set_hasher full_ctx has_semantic_context configs config_lookup]; auto.
        * rewrite Forall_forall in *. intros e0 H0. apply Ns in H0 as [H0|[-> |H0]].
          -- apply Hc, Nc. auto.
          -- exists mg. cbn. auto 10.
          -- apply Hc, Nc. auto.
        * intros c1 n I1. destruct (Hl _ _ I1) as (e1 & N1 & S1 & A1).
          rewrite nth_set_nth. destruct (Nat.eqb_spec i n) as [-> |Hne]; [|eauto].
          assert (Hlt : (n < @length (config unit) (configs s))%nat) by (apply nth_error_Some; unfold pconfig in *; congruence). apply Nat.ltb_lt in Hlt.
          unfold pconfig in *. rewrite Hlt.
          eexists. split; [reflexivity|]. cbn. rewrite Ne in N1. inversion N1; subst. auto.
      + exact Km.
      + destruct k2; reflexivity.
      + destruct k2; reflexivity.
      + cbn [configs]. intros j q g. rewrite (den_one _ c cb) by exact Ecb. unfold den. split.
        * intros (c1 & x & I1 & A1 & B1 & C1 & D1). apply Ns in I1 as [I1|[-> |I1]].
          -- left. exists c1, x. rewrite Nc. auto 6.
          -- cbn in *. inversion C1; subst x. apply Sm in D1 as [D1|D1].
             ++ left. exists e, ea. auto 6.
             ++ right. split; [congruence|]. split; [congruence | exact D1].
          -- left. exists c1, x. rewrite Nc. auto 6.
        * intros [(c1 & x & I1 & A1 & B1 & C1 & D1)|(A1 & B1 & D1)].
          -- apply Nc in I1 as [I1|[-> |I1]].
             ++ exists c1, x. rewrite Ns. auto 6.
             ++ eexists. exists mg. rewrite Ns. split; [right; left; reflexivity|]. cbn. repeat split; auto. apply Sm. left. congruence.
             ++ exists c1, x. rewrite Ns. auto 6.
          -- eexists. exists mg. rewrite Ns. split; [right; left; reflexivity|]. cbn. repeat split; [congruence | congruence|]. apply Sm. right. exact D1.
      + cbn [configs]. intros q j. rewrite key_one. unfold has_key. split.
        * intros (c1 & I1 & A1 & B1). left. apply Ns in I1 as [I1|[-> |I1]]; [exists c1 | exists e | exists c1]; rewrite Nc; auto 6.
        * intros [(c1 & I1 & A1 & B1)|(A1 & B1)].
          -- apply Nc in I1 as [I1|[-> |I1]]; [exists c1 | eexists | exists c1]; rewrite Ns; [auto | | auto].
             split; [right; left; reflexivity|]. auto.
          -- eexists. rewrite Ns. split; [right; left; reflexivity|]. cbn. split; congruence.
    - inversion E; subst s1 k1. inversion H; subst m' s'. clear E H.
      constructor.
      + constructor; cbn [set_hasher full_ctx has_semantic_context configs config_lookup]; auto.
        * apply Forall_app. split; [exact Hc|]. constructor; [|constructor]. exists cb. auto 10.
        * intros c1 n [Q|I1].
          -- inversion Q; subst. exists c1. rewrite nth_error_app2 by lia. rewrite Nat.sub_diag. auto.
          -- destruct (Hl _ _ I1) as (e1 & N1 & R1). exists e1. rewrite nth_error_app1; [auto|]. unfold pconfig in *. apply nth_error_Some. congruence.
      + exact Hk.
      + reflexivity.
      + reflexivity.
      + intros j q g. apply den_app.
      + intros q j. apply key_app.
  Qed.

  Lemma added_refl full m s : sgood full s -> kgood full (m_cache m) -> added full m m s s [].
  Proof.
    intros A B. constructor; auto.
    - intros j q g. split; [auto|]. intros [H|H]; [exact H | destruct (den_nil _ _ _ _ H)].
    - intros q j. split; [auto|]. intros [H|(c & [] & _)]. exact H.
  Qed.
  Lemma added_trans full m1 m2 m3 s1 s2 s3 cs cs' : added full m1 m2 s1 s2 cs -> added full m2 m3 s2 s3 cs' ->
    added full m1 m3 s1 s3 (cs ++ cs').
  Proof.
    intros A B. constructor.
    - apply B.
    - apply B.
    - rewrite (ad_input _ _ _ _ _ _ B). apply A.
    - rewrite (ad_dfa _ _ _ _ _ _ B). apply A.
    - intros j q g. rewrite (ad_den _ _ _ _ _ _ B), (ad_den _ _ _ _ _ _ A), den_app. tauto.
    - intros q j. rewrite (ad_key _ _ _ _ _ _ B), (ad_key _ _ _ _ _ _ A), key_app. tauto.
  Qed.
End Sets.
