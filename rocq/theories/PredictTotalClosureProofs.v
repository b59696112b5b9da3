(** The closure of a configuration always comes back. *)
From Coq Require Import ZArith List Bool Lia Sorted Permutation ZifyBool ZifyNat.
From Verif Require Import Outcome IntervalSetModel PredContextModel PredContextSpec PredContextProofs SemContextModel SemContextProofs.
From Verif Require Import ConfigSetModel ConfigSetSpec ConfigSetProofs DfaModel AtnModel AtnSpec AtnProofs Ll1Model Ll1Spec ParserModel PredictModel.
From Verif Require Import PredictLLSpec PredictLLSetProofs PredictTotalSpec PredictTotalBaseProofs PredictTotalContextProofs PredictTotalStackProofs PredictTotalSetProofs.
Import ListNotations.
Local Open Scope Z_scope.
Local Open Scope outcome_scope.

Lemma filter_le {A} (f g : A -> bool) l : (forall x, f x = true -> g x = true) -> (length (filter f l) <= length (filter g l))%nat.
Proof.
  intros H. induction l as [|x l IH]; cbn [filter]; [lia|]. pose proof (H x). destruct (f x), (g x); cbn [length]; lia.
Qed.
Lemma filter_lt {A} (f g : A -> bool) l x : (forall x, f x = true -> g x = true) -> In x l -> f x = false -> g x = true ->
  (length (filter f l) < length (filter g l))%nat.
Proof.
  intros H. induction l as [|y l IH]; intros I Fx Gx; [destruct I|]. cbn [filter]. destruct I as [->|I].
  - rewrite Fx, Gx. cbn [length]. pose proof (filter_le f g l H). lia.
  - specialize (IH I Fx Gx). pose proof (H y). destruct (f y), (g y); cbn [length]; lia.
Qed.

Lemma exists_range a i : exists_state a i -> 0 <= i < Z.of_nat (length (states a)).
Proof.
  intros H. apply exists_at in H as (s & E). unfold state_at in E. destruct (i <? 0) eqn:Q; [discriminate|].
  pose proof (nth_error_Some (states a) (Z.to_nat i)) as X. rewrite E in X. pose proof (proj1 X ltac:(discriminate)). lia.
Qed.

Lemma bind_assoc {A B C} (o : outcome A) (f : A -> outcome B) (g : B -> outcome C) :
  obindo (obindo o f) g = obindo o (fun x => obindo (f x) g).
Proof. destruct o; reflexivity. Qed.

Lemma sorted_nth l : StronglySorted Z.lt l -> forall i j x y, (i < j)%nat -> nth_error l i = Some x -> nth_error l j = Some y -> x < y.
Proof.
  induction 1 as [|z l H IH F]; intros [|i] [|j] x y Hij Ei Ej; cbn in *; try discriminate; try lia.
  - inversion Ei; subst. rewrite Forall_forall in F. apply F. eapply nth_error_In; eauto.
  - eapply IH; [|exact Ei | exact Ej]. lia.
Qed.
(** "the stack ends here" is the last of the return states *)
Lemma empty_last x i : wf x -> (i < pc_length x)%nat -> get_return_state x i = Val EMPTY_RETURN_STATE -> i = (pc_length x - 1)%nat.
Proof.
  intros W Hi E. pose proof (proj1 (wf_iff x) W) as (Sh & W1 & W2 & _). destruct (Nat.eq_dec i (pc_length x - 1)) as [Q|Q]; [exact Q|exfalso].
  destruct (proj1 (lookups_in_range x W) (pc_length x - 1)%nat ltac:(lia)) as (r & p & E1 & _ & E3). apply nth_error_In in E3.
  assert (r <= EMPTY_RETURN_STATE) by (destruct p as [p|]; [specialize (W2 _ _ E3) | specialize (W1 _ E3)]; lia).
  destruct x as [r0 p0|rs ps]; [cbn in *; lia|]. destruct Sh as (Sh & _). cbn [get_return_state pc_length] in *.
  destruct (nth_error rs i) eqn:N1; [|discriminate]. destruct (nth_error rs (length rs - 1)) eqn:N2; [|discriminate]. cbn in E, E1. inversion E; inversion E1; subst.
  pose proof (sorted_nth _ Sh i (length rs - 1) _ _ ltac:(lia) N1 N2). lia.
Qed.

Section Closure.
  Context {S : Type}.
  Variable ts : seek_ops S.
  Variable a : atn.
  Variable main : Z.
  Hypothesis G : sound_grammar a.
  Hypothesis NS : no_stall a.
  Variable nalts : Z.
  Variable ctx : Type.
  Variable sempred : S -> option ctx -> Z -> Z -> bool.
  Variable order : list nat -> list sem -> list sem.
  Hypothesis Ho : forall at_ l, Permutation (order at_ l) l.
  Variable hash : pctx -> Z.
  Hypothesis Hh : forall x, wf x -> hash x <> 0.
  Variable start_index : Z.
  Variable precedence : Z.
  Variable outer : ctx.
  Variable atn_start_state : Z.
  Hypothesis Hs : exists_state a atn_start_state.

  Notation sim := (sim S).
  Notation cok := (cok a main nalts).
  Notation sok := (sok a main nalts).
  Notation kok full k := (kept a main (negb full) k).

  (** what is known of the token stream; with the caller's stack, predicates are
      evaluated at the start of the lookahead *)
  Variable full : bool.
  Variable J : S -> Prop.
  Hypothesis HJ : full = true -> forall s, J s -> exists s1 s2, k_seek ts s start_index = Val s1 /\
    k_seek ts s1 (s_index (k_base ts) s) = Val s2 /\ J s2.
  Variable d : pdfa.

  Record mok (m : sim) : Prop := {
    mo_cache : kok full (Some (m_cache m));
    mo_input : J (m_input m);
    mo_dfa : m_dfa m = d
  }.
  Lemma mok_same m m' : mok m -> kok full (Some (m_cache m')) -> same_but_cache m m' -> mok m'.
  Proof. intros [A B C] K (E1 & E2). constructor; [exact K | rewrite E1; exact B | congruence]. Qed.

  Lemma g_well : well_formed a. Proof. apply G. Qed.
  Lemma g_marked : marked a. Proof. apply G. Qed.
  Lemma g_stops : stops_linked a. Proof. apply G. Qed.
  Lemma g_loops : loops_entered a. Proof. apply G. Qed.

  Lemma get_ex q : exists_state a q -> exists s, get_state a q = Val s /\ state_at a q = Some s /\ st_number s = q /\ st_rule s = rule_of a q.
  Proof.
    intros H. apply exists_at in H as (s & E). exists s. split; [apply get_state_at, E|]. split; [exact E|]. split; [apply g_well, E|].
    symmetry. apply rule_at, E.
  Qed.
  Lemma ex_of q s : state_at a q = Some s -> exists_state a q.
  Proof. unfold exists_state. congruence. Qed.
  Lemma ex_small q : exists_state a q -> q < EMPTY_RETURN_STATE.
  Proof. intros H. apply exists_range in H. pose proof (proj1 g_well). unfold EMPTY_RETURN_STATE. lia. Qed.

  Lemma return_target r s t : state_at a r = Some s -> In t (st_trans s) -> exists_state a (get_target t).
  Proof.
    intros E I. destruct (PredictModel.is_stop s) eqn:St.
    - apply stop_iff in St. destruct (g_stops _ _ E St _ I) as (f & o & -> & X). exact X.
    - apply stop_not in St. apply (proj2 (proj2 g_well _ _ E) St _ I).
  Qed.

  (** ** The entry of a precedence loop *)
  Lemma all_returns_total f x l : wf x -> (forall r p, In (r, p) (entries x) -> exists_state a r) -> (forall i, In i l -> (i < pc_length x)%nat) ->
    (forall r s, state_at a r = Some s -> exists b, f s = Val b) -> exists b, all_returns a f x l = Val b.
  Proof.
    intros W X. induction l as [|i l IH]; intros Hi Hf; cbn [all_returns]; [eauto|].
    destruct (proj1 (lookups_in_range x W) i (Hi i (or_introl eq_refl))) as (r & p & E1 & E2 & E3). rewrite E1. cbn [obindo].
    destruct (get_ex r) as (s & Es & As & _); [eapply X, nth_error_In; eauto|]. rewrite Es. cbn [obindo].
    destruct (Hf _ _ As) as (b & ->). cbn [obindo]. destruct b; [|eauto]. apply IH; [|exact Hf]. intros k Hk. apply Hi. right. exact Hk.
  Qed.
  Lemma drop_total c : cok full c -> exists b, can_drop_loop_entry_edge a c = Val b.
  Proof.
    intros (x & Ex & Fx & X & _). unfold can_drop_loop_entry_edge. destruct (get_ex _ X) as (s & Es & As & Ns & Rs). rewrite Es. cbn [obindo].
    destruct (is_loop_entry s) eqn:L; cbn [negb]; [|eauto]. rewrite Ex. cbn [unwrap obindo].
    pose proof (fits_wf _ _ _ _ _ Fx) as W. destruct (lookups_in_range x W) as (_ & (e & Ee & He) & (h & Eh & Hh')). rewrite Ee. cbn [obindo].
    destruct e; [eauto|]. rewrite Eh. cbn [obindo]. destruct h; [eauto|].
    assert (Xr : forall r p, In (r, p) (entries x) -> exists_state a r).
    { intros r [q|] I; [apply (fits_pop _ _ _ _ _ _ _ Fx I)|]. exfalso.
      pose proof (proj2 (proj1 (wf_iff x) W)) as (W1 & _). rewrite (W1 _ I) in I.
      assert (false = true) by (apply Hh'; apply PredContextSpec.Bottom; auto). discriminate. }
    assert (Sq : forall i, In i (seq 0 (pc_length x)) -> (i < pc_length x)%nat) by (intros i Hi; apply in_seq in Hi; lia).
    destruct (all_returns_total (fun r => Val (st_rule r =? st_rule s)) x (seq 0 (pc_length x)) W Xr Sq) as (b & ->); [eauto|]. cbn [obindo].
    destruct b; cbn [negb]; [|eauto].
    unfold is_loop_entry in L. destruct (st_type s) as [? ?| |?|?| | |n g ty| ] eqn:Ty; try discriminate. destruct ty as [l pr| | |? ?]; try discriminate. subst pr.
    destruct (g_loops _ _ _ _ _ As Ty) as (t & ts' & d0 & n' & g' & e' & k & Et & Ad & Td). rewrite Et. cbn [nth_error unwrap obindo].
    rewrite (proj2 (get_state_at _ _ _) Ad). cbn [obindo]. rewrite Td. cbn [obindo].
    apply all_returns_total; auto. intros r s0 A0. unfold returns_to_loop. destruct (st_trans s0) as [|t0 [|t1 l0]] eqn:E0; [eauto | | eauto].
    destruct (is_epsilon t0); cbn [negb]; [|eauto].
    destruct (get_ex (get_target t0)) as (s1 & -> & _); [eapply return_target; [exact A0 | rewrite E0; left; reflexivity]|]. cbn [obindo].
    repeat match goal with |- exists b, (if ?c then _ else _) = _ => destruct c; eauto end.
  Qed.

  (** ** Targets *)
  Notation step := (step a).
  (** what a move makes of a configuration *)
  Definition moved (col : bool) (c c' : pconfig) : Prop :=
    cok full c' /\ c_alt c' = c_alt c /\ (exists x x', c_ctx c = Some x /\ c_ctx c' = Some x' /\ step (c_state c, x) (c_state c', x')) /\
    (c_sem c' = c_sem c \/ (col = true /\ exists at_ p, In p (predicates a) /\ c_sem c' = sem_and order at_ (Some (c_sem c)) (Some p))).

  Lemma target_total m c s t col inc eof : mok m -> cok full c -> state_at a (c_state c) = Some s -> ~ Ll1Spec.is_stop s -> In t (st_trans s) ->
    exists m' o, get_epsilon_target ts a ctx sempred order start_index precedence outer m c t col inc full eof = Val (m', o) /\ mok m' /\
      forall c', o = Some c' -> moved col c c'.
  Proof.
    intros M Gc E St I. destruct (proj2 g_well _ _ E) as (_ & W). destruct (W St _ I) as (Xt & So & X). clear W.
    pose proof Gc as (x & Ex & Fx & Xs & Ax & Rx). pose proof (rule_at _ _ _ E) as Ru.
    assert (Cl : forall s', state_at a (get_target t) = Some s' -> rule_of a (get_target t) = st_rule s -> is_call t = false ->
      (~ consuming t \/ symbols t 1 (max_token_type a) TOKEN_EOF) -> forall cl se at_ p,
      (se = c_sem c \/ (col = true /\ In p (predicates a) /\ se = sem_and order at_ (Some (c_sem c)) (Some p))) ->
      cl = pcloned_with_new_semantic c s' se -> moved col c cl).
    { intros s' A' R' C' K' cl se at_ p Hse ->. assert (Nu : st_number s' = get_target t) by (apply g_well, A').
      unfold moved, pcloned_with_new_semantic. cbn [c_state c_alt c_ctx c_sem]. rewrite Nu. split; [|split; [reflexivity|split]].
      - exists x. cbn. split; [exact Ex|]. rewrite R', <- Ru. split; [exact Fx|]. split; [exact Xt|]. split; [exact Ax | exact Rx].
      - exists x, x. split; [exact Ex|]. split; [exact Ex|]. apply step_edge. exists s, t. auto 8.
      - destruct Hse as [Hse|(Hc & Hp & Hse)]; [left; exact Hse | right; eauto]. }
    destruct (get_ex _ Xt) as (s' & Es' & As' & Ns' & Rs').
    assert (Cl0 : rule_of a (get_target t) = st_rule s -> is_call t = false -> (~ consuming t \/ symbols t 1 (max_token_type a) TOKEN_EOF) -> moved col c (pcloned c s')).
    { intros R' C' K'. eapply (Cl s' As' R' C' K' _ (c_sem c) [] NONE); [left; reflexivity | reflexivity]. }
    assert (Pr : forall p cl, get_predicate t = Some p -> rule_of a (get_target t) = st_rule s -> is_call t = false -> ~ consuming t -> (cl = true -> col = true) ->
      exists m' o, predicate_step ts ctx sempred order start_index precedence outer m c s' p cl full = Val (m', o) /\ mok m' /\ forall c', o = Some c' -> moved col c c').
    { intros p cl Gp R' C' K' Hcl. unfold predicate_step. destruct cl.
      - destruct full eqn:Fu.
        + destruct M as [M1 M2 M3]. destruct (HJ eq_refl _ M2) as (s1 & s2 & E1 & E2 & J2). unfold sim_seek at 1. rewrite E1. cbn [obindo].
          unfold eval_predicate. unfold sim_seek, index. cbn [m_input with_sim_input]. rewrite E2. cbn [obindo].
          eexists _, _. split; [reflexivity|]. split; [constructor; cbn; assumption|].
          intros c'. destruct (evaluate _ _ _ _ _); intros Q; [|discriminate]. inversion Q; subst. apply Cl0; auto.
        + eexists _, _. split; [reflexivity|]. split; [destruct M as [M1 M2 M3]; constructor; cbn; assumption|].
          intros c' Q. inversion Q; subst. eapply (Cl s' As' R' C' (or_introl K')); [|reflexivity]. right. split; [auto|]. split; [|reflexivity].
          eapply predicates_in; [exact E | exact I | exact Gp].
      - eexists _, _. split; [reflexivity|]. split; [exact M|]. intros c' Q. inversion Q; subst. apply Cl0; auto. }
    assert (Co : forall b, is_call t = false -> rule_of a (get_target t) = st_rule s -> matches t TOKEN_EOF 0 1 = Val b -> (b = true -> symbols t 1 (max_token_type a) TOKEN_EOF) ->
      exists m' o, (let! e := if eof then matches t TOKEN_EOF 0 1 else Val false in
        if e : bool then let! target := get_state a (get_target t) in Val (m, Some (pcloned c target)) else Val (m, None)) = Val (m', o) /\ mok m' /\
        forall c', o = Some c' -> moved col c c').
    { intros b C' R' Mb Hb. destruct eof.
      - rewrite Mb. cbn [obindo]. destruct b.
        + rewrite Es'. cbn [obindo]. eexists _, _. split; [reflexivity|]. split; [exact M|]. intros c' Q. inversion Q; subst. apply Cl0; auto.
        + eexists _, _. split; [reflexivity|]. split; [exact M|]. discriminate.
      - cbn [obindo]. eexists _, _. split; [reflexivity|]. split; [exact M|]. discriminate. }
    destruct t; cbn [get_epsilon_target get_target] in *.
    - eapply Co; [reflexivity | exact X | reflexivity|]. cbn [symbols]. clear. lia.
    - rewrite Es'. cbn [obindo]. unfold rule_transition. rewrite Ex. cbn [unwrap obindo]. eexists _, _. split; [reflexivity|]. split; [exact M|].
      intros c' Q. injection Q as <-. unfold moved, pcloned_with_new_ctx. cbn [c_state c_alt c_ctx c_sem]. rewrite Ns'. destruct X as (Xf & Rf).
      split; [|split; [reflexivity|split; [|left; reflexivity]]].
      + eexists. cbn. split; [reflexivity|]. split; [|split; [exact Xt|]; split; [exact Ax | exact Rx]].
        eapply fits_push; [exact Fx | exact Xf | rewrite Rf, Ru; reflexivity | apply ex_small, Xf].
      + eexists _, _. split; [exact Ex|]. split; [reflexivity|]. apply step_call. exists s, rule_index, precedence0. auto.
    - rewrite Es'. cbn [obindo]. eexists _, _. split; [reflexivity|]. split; [exact M|]. intros c' Q. inversion Q; subst. apply Cl0; auto.
    - eapply Co; [reflexivity | exact X | reflexivity|]. cbn [symbols]. clear. lia.
    - rewrite Es'. cbn [obindo]. eexists _, _. split; [reflexivity|]. split; [exact M|]. intros c' Q. inversion Q; subst. apply Cl0; auto.
    - eapply Co; [reflexivity | exact X | reflexivity|]. cbn [symbols set_ok] in *. apply IntervalSetProofs.contains_spec. exact So.
    - eexists _, _. split; [reflexivity|]. split; [exact M|]. discriminate.
    - eexists _, _. split; [reflexivity|]. split; [exact M|]. discriminate.
    - rewrite Es'. cbn [obindo]. apply Pr; auto. intros Q. apply andb_true_iff in Q. apply Q.
    - rewrite Es'. cbn [obindo]. apply Pr; auto. intros Q. apply andb_true_iff in Q. apply Q.
  Qed.

  (** ** The measure: the positions at the end of the stack that were not visited *)
  Variable eof : bool.
  Variable alt : Z.
  Variable V : sem -> Prop.
  Variable U : list sem.
  Hypothesis HV : forall s, V s -> In s U.
  Definition collects : Prop := forall s at_ p, V s -> In p (predicates a) -> V (sem_and order at_ (Some s) (Some p)).
  Definition keys : list (Z * sem * bool) := list_prod (list_prod (map Z.of_nat (seq 0 (length (states a)))) U) [true; false].
  Definition key_config (k : Z * sem * bool) : pconfig := Config (fst (fst k)) alt (Some EMPTY) (snd (fst k)) 0 (snd k) tt.
  Definition missing (b : list pconfig) : nat := length (filter (fun k => negb (busy_has b (key_config k))) keys).
  Definition grown (b b' : list pconfig) : Prop := forall c, busy_has b c = true -> busy_has b' c = true.
  Lemma grown_refl b : grown b b. Proof. intros c H. exact H. Qed.
  Lemma grown_trans b1 b2 b3 : grown b1 b2 -> grown b2 b3 -> grown b1 b3. Proof. intros A B c H. auto. Qed.
  Lemma grown_cons b c : grown b (c :: b).
  Proof. intros c' H. unfold busy_has in *. cbn [existsb]. rewrite H. apply orb_true_r. Qed.
  Lemma missing_mono b b' : grown b b' -> (missing b' <= missing b)%nat.
  Proof. intros H. apply filter_le. intros k Q. apply negb_true_iff in Q. apply negb_true_iff. destruct (busy_has b (key_config k)) eqn:E; [|reflexivity]. apply H in E. congruence. Qed.
  Lemma missing_lt (b : list pconfig) (c : pconfig) : c_alt c = alt -> c_ctx c = Some EMPTY -> V (c_sem c) -> exists_state a (c_state c) -> busy_has b c = false ->
    (missing (c :: b) < missing b)%nat.
  Proof.
    intros A X Su Es B. apply filter_lt with (x := (c_state c, c_sem c, c_pfs c)).
    - intros k Q. apply negb_true_iff in Q. apply negb_true_iff. destruct (busy_has b (key_config k)) eqn:E; [|reflexivity].
      apply (grown_cons b c) in E. congruence.
    - unfold keys. apply in_prod; [apply in_prod; [|apply HV, Su]|].
      + apply in_map_iff. exists (Z.to_nat (c_state c)). apply exists_range in Es. split; [lia|]. apply in_seq. lia.
      + destruct (c_pfs c); cbn; auto.
    - apply negb_false_iff. unfold busy_has. cbn [existsb]. apply orb_true_iff. left. unfold pconfig_eqb, config_eqb, key_config. cbn [fst snd c_state c_alt c_ctx c_type c_sem c_pfs].
      rewrite X, A, !Z.eqb_refl, sem_eqb_refl, eqb_reflx. cbn [opt_pctx_eqb]. rewrite pctx_eqb_refl. reflexivity.
    - apply negb_true_iff. rewrite <- B. unfold busy_has. f_equal. unfold pconfig_eqb, config_eqb, key_config. cbn [fst snd c_state c_alt c_ctx c_type c_sem c_pfs].
      rewrite X, A. destruct (c_type c). reflexivity.
  Qed.

  Definition wok (b : list pconfig) (w : cwork (S := S)) : Prop := mok (fst (fst w)) /\ sok full true (snd (fst w)) /\ grown b (snd w).
  Notation css n := (closure_checking_stop_state ts a ctx sempred order hash start_index precedence outer atn_start_state n full eof).
  (** the closure from here on comes back *)
  Definition closes (M : nat) (qx : Z * pctx) : Prop := forall c col depth m cs b, c_state c = fst qx -> c_ctx c = Some (snd qx) -> cok full c ->
    c_alt c = alt -> V (c_sem c) -> (col = true -> collects) -> (missing b <= M)%nat -> mok m -> sok full true cs ->
    tot (fun n => css n c col depth (m, cs, b)) (wok b).

  Lemma leave_total t f o c (m : sim) : t = Epsilon f o -> exists c', leave_decision_rule a atn_start_state t c m = Val c' /\
    c_state c' = c_state c /\ c_alt c' = c_alt c /\ c_ctx c' = c_ctx c /\ c_sem c' = c_sem c.
  Proof.
    intros ->. unfold leave_decision_rule. destruct (is_precedence_dfa (m_dfa m)).
    - cbn [obindo]. destruct (get_ex _ Hs) as (s & -> & _). cbn [obindo]. destruct (o =? st_rule s); eexists; (split; [reflexivity|]); cbn; auto.
    - cbn [obindo]. eexists. split; [reflexivity|]. cbn. auto.
  Qed.

  Section Node.
    Variable M : nat.
    Variable c : pconfig.
    Variable x : pctx.
    Variable s : atn_state.
    Hypothesis Hc : cok full c.
    Hypothesis Hx : c_ctx c = Some x.
    Hypothesis Ha : c_alt c = alt.
    Hypothesis Hu : V (c_sem c).
    Hypothesis Es : state_at a (c_state c) = Some s.
    Hypothesis IHA : forall q' x', step (c_state c, x) (q', x') -> closes M (q', x').
    Hypothesis IHM : forall M', (M' < M)%nat -> forall qx, closes M' qx.
    Variable col : bool.
    Hypothesis Hcol : col = true -> collects.

    Lemma edge_total depth first t m cs b : ~ Ll1Spec.is_stop s -> In t (st_trans s) -> (missing b <= M)%nat -> mok m -> sok full true cs ->
      tot (fun n => closure_edge ts a ctx sempred order start_index precedence outer atn_start_state (css n) c s col full depth eof first t (m, cs, b)) (wok b).
    Proof using All.
      intros St I Mi Mm Ms. unfold closure_edge.
      apply tot_step with (P := fun _ => True).
      { destruct first; [destruct (drop_total c Hc) as (x0 & E0); eauto | eauto]. }
      intros drop _. destruct drop.
      { apply tot_val. split; [exact Mm|]. split; [exact Ms | apply grown_refl]. }
      set (cc := match t with Action _ _ _ _ _ => false | _ => col end).
      assert (Hcc : cc = true -> collects) by (intros Q; apply Hcol; unfold cc in Q; destruct t; congruence).
      destruct (target_total m c s t cc (depth =? 0) eof Mm Hc Es St I) as (m' & o & E & Mm' & Hm).
      apply (tot_get _ _ _ _ E). cbv beta iota. destruct o as [c'|].
      2:{ apply tot_val. split; [exact Mm'|]. split; [exact Ms | apply grown_refl]. }
      destruct (Hm _ eq_refl) as (Gc' & Al & (y & x' & Ey & Ex' & Stp) & Sm). rewrite Hx in Ey. inversion Ey; subst y. clear Ey.
      rewrite (proj2 (stop_not s) St).
      assert (Su : V (c_sem c')) by (destruct Sm as [-> |(Q & at_ & p & Ip & ->)]; [exact Hu | apply (Hcc Q); assumption]).
      destruct (negb (is_epsilon t) && busy_has b c').
      { apply tot_val. split; [exact Mm'|]. split; [exact Ms | apply grown_refl]. }
      set (b1 := if is_epsilon t then b else c' :: b).
      assert (Gb : grown b b1) by (unfold b1; destruct (is_epsilon t); [apply grown_refl | apply grown_cons]).
      eapply tot_weaken; [|apply (IHA _ _ Stp); auto].
      - intros w (W1 & W2 & W3). split; [exact W1|]. split; [exact W2 | eapply grown_trans; eauto].
      - congruence.
      - pose proof (missing_mono _ _ Gb). lia.
    Qed.
    Lemma stop_edge_total depth first t m cs b : Ll1Spec.is_stop s -> full = false -> x = EMPTY -> In t (st_trans s) -> (missing b <= M)%nat -> mok m -> sok full true cs ->
      tot (fun n => closure_edge ts a ctx sempred order start_index precedence outer atn_start_state (css n) c s col full depth eof first t (m, cs, b)) (wok b).
    Proof using All.
      intros St Fu Xe I Mi Mm Ms. destruct (g_stops _ _ Es St _ I) as (f & o & Et & Xf).
      destruct (get_ex _ Xf) as (sf & Ef & Af & Nf & Rf).
      assert (Dr : exists drop, (if first then can_drop_loop_entry_edge a c else Val false) = Val drop).
      { destruct first; [apply drop_total, Hc | eauto]. }
      destruct Dr as (drop & Dr).
      assert (Eq : forall rec, closure_edge ts a ctx sempred order start_index precedence outer atn_start_state rec c s col full depth eof first t (m, cs, b) =
        if drop then Val (m, cs, b) else
        let! c := leave_decision_rule a atn_start_state t (pcloned c sf) m in
        if busy_has b c then Val (m, cs, b)
        else rec c col (depth - 1) (m, set_dips_into_outer_context cs true, c :: b)).
      { intros rec. unfold closure_edge. rewrite Dr. cbn [obindo]. rewrite Et. cbn [get_epsilon_target]. rewrite Ef. cbn [obindo].
        rewrite (proj2 (stop_iff s) St), Fu. reflexivity. }
      eapply tot_ext; [intros n; apply Eq|]. clear Eq. destruct drop.
      { apply tot_val. split; [exact Mm|]. split; [exact Ms | apply grown_refl]. }
      destruct (leave_total t f o (pcloned c sf) m Et) as (c' & El & Sc & Ac & Xc & Sm).
      apply (tot_get _ _ _ _ El). cbn [pcloned c_state c_alt c_ctx c_sem] in Sc, Ac, Xc, Sm.
      destruct (busy_has b c') eqn:Eb.
      { apply tot_val. split; [exact Mm|]. split; [exact Ms | apply grown_refl]. }
      assert (Lt : (missing (c' :: b) < missing b)%nat).
      { apply missing_lt; [congruence | congruence | rewrite Sm; exact Hu | rewrite Sc, Nf; exact Xf | exact Eb]. }
      eapply tot_weaken; [|apply (IHM (missing (c' :: b)) ltac:(lia) (c_state c', EMPTY))]; auto.
      - intros w (W1 & W2 & W3). split; [exact W1|]. split; [exact W2 | eapply grown_trans; [apply grown_cons | exact W3]].
      - cbn [snd]. congruence.
      - destruct Hc as (y & Ey & Fy & Xy & Ay & _). exists EMPTY. split; [congruence|]. split; [apply fits_EMPTY; rewrite Fu; discriminate|].
        split; [rewrite Sc, Nf; exact Xf|]. split; [rewrite Ac; exact Ay | rewrite Fu; discriminate].
      - congruence.
      - rewrite Sm. exact Hu.
      - destruct Ms as [Q1 Q2 Q3 Q4 Q7 Q5 Q6]. constructor; auto. intros Q. discriminate Q || congruence.
    Qed.

    Lemma edges_total depth l : (forall t, In t l -> In t (st_trans s)) -> (Ll1Spec.is_stop s -> full = false /\ x = EMPTY) -> forall first m cs b,
      (missing b <= M)%nat -> mok m -> sok full true cs ->
      tot (fun n => closure_edges ts a ctx sempred order start_index precedence outer atn_start_state (css n) c s col full depth eof first l (m, cs, b)) (wok b).
    Proof using All.
      intros Hl Hst. induction l as [|t l IH]; intros first m cs b Mi Mm Ms; cbn [closure_edges].
      - apply tot_val. split; [exact Mm|]. split; [exact Ms | apply grown_refl].
      - eapply tot_bind with (P := wok b).
        + destruct (PredictModel.is_stop s) eqn:St.
          * apply stop_iff in St. destruct (Hst St) as (Fu & Xe). apply stop_edge_total; auto. apply Hl. left. reflexivity.
          * apply stop_not in St. apply edge_total; auto. apply Hl. left. reflexivity.
        + intros [[m1 cs1] b1] (W1 & W2 & W3). cbn [fst snd] in *. eapply tot_weaken; [|apply IH]; auto.
          * intros w (V1 & V2 & V3). split; [exact V1|]. split; [exact V2 | eapply grown_trans; eauto].
          * intros t' I. apply Hl. right. exact I.
          * pose proof (missing_mono _ _ W3). lia.
    Qed.
    Lemma work_total depth m cs b : (Ll1Spec.is_stop s -> full = false /\ x = EMPTY) -> (missing b <= M)%nat -> mok m -> sok full true cs ->
      tot (fun n => closure_work ts a ctx sempred order hash start_index precedence outer atn_start_state (css n) c col full depth eof (m, cs, b)) (wok b).
    Proof using All.
      intros Hst Mi Mm Ms. unfold closure_work. apply (tot_get _ _ _ _ (proj2 (get_state_at _ _ _) Es)).
      destruct (st_eps_only s) eqn:Ep.
      - apply (tot_get _ _ _ _ eq_refl). apply edges_total; auto.
      - destruct (add_total a main nalts hash Hh full true m cs c Ms) as (m1 & cs1 & E1 & S1 & K1 & D1 & _ & _).
        + split; [exact Hc|]. intros _ s0 E0. rewrite Es in E0. inversion E0; subst s0. split; [|auto]. intros St. destruct (Hst St). congruence.
        + apply Mm.
        + rewrite E1. cbn [obindo]. apply edges_total; auto. eapply mok_same; eauto.
    Qed.
    Lemma return_total depth l : Ll1Spec.is_stop s -> (forall i, In i l -> (i < pc_length x)%nat) -> forall m cs b,
      (missing b <= M)%nat -> mok m -> sok full true cs ->
      tot (fun n => return_to (css n) c x col depth l (m, cs, b)) (wok b).
    Proof using All.
      intros St. pose proof Hc as (y & Ey & Fx & Xc & Ac & Rc). rewrite Hx in Ey. inversion Ey; subst y. clear Ey.
      pose proof (fits_wf _ _ _ _ _ Fx) as W. pose proof (proj2 (proj1 (wf_iff x) W)) as We.
      induction l as [|i l IH]; intros Hl m cs b Mi Mm Ms; cbn [return_to].
      - apply tot_val. split; [exact Mm|]. split; [exact Ms | apply grown_refl].
      - destruct (proj1 (lookups_in_range x W) i (Hl i (or_introl eq_refl))) as (r & p & E1 & E2 & E3).
        apply (tot_get _ _ _ _ E1). destruct (r =? EMPTY_RETURN_STATE) eqn:Q.
        + assert (i = (pc_length x - 1)%nat) as -> by (apply empty_last; [exact W | apply Hl; left; reflexivity | rewrite E1; f_equal; lia]). rewrite Nat.eqb_refl. cbn [negb]. apply IH; auto. intros k Hk. apply Hl. right. exact Hk.
        + apply (tot_get _ _ _ _ E2). assert (exists q, p = Some q) as (q & ->).
          { destruct p as [q|]; [eauto|]. apply nth_error_In in E3. pose proof (proj1 We _ E3). lia. }
          apply nth_error_In in E3. destruct (fits_pop _ _ _ _ _ _ _ Fx E3) as (Xr & Fq).
          eapply tot_bind with (P := wok b).
          * apply (IHA r q); cbn [new_with_semantic set_reaches c_state c_ctx c_alt c_sem fst snd]; auto.
            -- apply step_return; [exists s; auto | exact E3].
            -- exists q. cbn. auto.
          * intros [[m1 cs1] b1] (W1 & W2 & W3). cbn [fst snd] in *. eapply tot_weaken; [|apply IH]; auto.
            -- intros w (V1 & V2 & V3). split; [exact V1|]. split; [exact V2 | eapply grown_trans; eauto].
            -- intros k Hk. apply Hl. right. exact Hk.
            -- pose proof (missing_mono _ _ W3). lia.
    Qed.
    Lemma node_total depth m cs b : (missing b <= M)%nat -> mok m -> sok full true cs -> tot (fun n => css n c col depth (m, cs, b)) (wok b).
    Proof using All.
      intros Mi Mm Ms. eapply tot_S; [intros n; cbn [closure_checking_stop_state]; reflexivity|].
      apply (tot_get _ _ _ _ (proj2 (get_state_at _ _ _) Es)). destruct (PredictModel.is_stop s) eqn:St.
      2:{ apply work_total; auto. intros Q. apply stop_not in St. contradiction. }
      rewrite Hx. cbn [unwrap]. apply (tot_get _ _ _ _ eq_refl).
      pose proof Hc as (y & Ey & Fx & Xc & Ac & Rc). rewrite Hx in Ey. inversion Ey; subst y. clear Ey.
      pose proof (fits_wf _ _ _ _ _ Fx) as W. pose proof (proj2 (proj1 (wf_iff x) W)) as We.
      destruct (lookups_in_range x W) as (Hl & (e & Ee & He) & _). apply (tot_get _ _ _ _ Ee). apply stop_iff in St.
      assert (Kd : forall cs' m', mok m' -> sok full true cs' -> full = true -> (In (EMPTY_RETURN_STATE, None) (entries x)) -> forall c', c_state c' = c_state c ->
        c_ctx c' = Some EMPTY -> c_alt c' = c_alt c -> c_reach c' = c_reach c -> exists m1 cs1, add_to hash m' cs' c' = Val (m1, cs1) /\ mok m1 /\ sok full true cs1).
      { intros cs' m' Mm' Ms' Fu In0 c' S' X' A' R'.
        destruct (add_total a main nalts hash Hh full true m' cs' c' Ms') as (m1 & cs1 & E1 & S1 & K1 & D1 & _ & _).
        - split.
          + exists EMPTY. split; [exact X'|]. rewrite S'. split; [|rewrite A', R'; auto]. apply fits_EMPTY. intros Q.
            apply fits_iff in Fx as (_ & (F0 & _) & _). eapply F0; eauto.
          + intros _ s0 E0. rewrite S', Es in E0. inversion E0; subst s0. split; [auto | contradiction].
        - apply Mm'.
        - exists m1, cs1. split; [exact E1|]. split; [eapply mok_same; eauto | exact S1]. }
      destruct e; cbn [negb].
      - assert (x = EMPTY) as Xe by (apply He; reflexivity). apply tot_if; intros Fu.
        + destruct (Kd cs m) with (c' := c) as (m1 & cs1 & E1 & M1 & S1); auto; [rewrite Xe; left; reflexivity | rewrite Hx, Xe; reflexivity|].
          rewrite E1. cbn [obindo]. apply tot_val. split; [exact M1|]. split; [exact S1 | apply grown_refl].
        + apply work_total; auto.
      - destruct (pc_length x) as [|k] eqn:Lk.
        { exfalso. destruct x as [? ?|rs ps]; [discriminate Lk|]. pose proof (proj1 (proj1 (wf_iff _) W)) as Sh. cbn in *. lia. }
        destruct (Hl k ltac:(lia)) as (r & p & E1 & E2 & E3). apply (tot_get _ _ _ _ E1).
        eapply tot_bind with (P := wok b).
        + destruct (r =? EMPTY_RETURN_STATE) eqn:Q; [|apply tot_val; split; [exact Mm|]; split; [exact Ms | apply grown_refl]].
          apply tot_if; intros Fu.
          * destruct (Kd cs m) with (c' := pcloned_with_new_ctx c s (Some EMPTY)) as (m1 & cs1 & E4 & M1 & S1); auto.
            -- apply nth_error_In in E3. destruct p as [p|]; [pose proof (proj1 (proj2 We) _ _ E3); lia|]. rewrite <- (proj1 We _ E3). exact E3.
            -- cbn. apply (proj1 (proj2 g_well _ _ Es)).
            -- rewrite E4. cbn [obindo]. apply tot_val. split; [exact M1|]. split; [exact S1 | apply grown_refl].
          * apply work_total; auto. intros _. split; [exact Fu|]. apply fits_iff in Fx as (_ & _ & F0). apply (F0 ltac:(rewrite Fu; reflexivity) r).
            apply nth_error_In in E3. destruct p as [p|]; [pose proof (proj1 (proj2 We) _ _ E3); lia|]. exact E3.
        + intros [[m1 cs1] b1] (W1 & W2 & W3). cbn [fst snd] in *. rewrite <- Lk. eapply tot_weaken; [|apply return_total]; auto.
          * intros w (V1 & V2 & V3). split; [exact V1|]. split; [exact V2 | eapply grown_trans; eauto].
          * intros i Hi. apply in_seq in Hi. lia.
          * pose proof (missing_mono _ _ W3). lia.
    Qed.
  End Node.

  Lemma closes_all : forall M qx, closes M qx.
  Proof using All.
    induction M as [M IHM] using lt_wf_ind. intros [q x]. pose proof (step_acc a NS q x) as A. revert A.
    generalize (q, x). clear q x. intros qx A. induction A as [[q x] _ IHA].
    intros c col depth m cs b Eq Ex Hc Ha Hu Hcol Mi Mm Ms. cbn [fst snd] in *. subst q.
    assert (X : exists_state a (c_state c)) by (destruct Hc as (? & _ & _ & X & _); exact X). apply exists_at in X as (s & Es).
    eapply node_total; eauto.
  Qed.

  (** the closure comes back, and what it reaches is in order *)
  Lemma closure_total c col m cs b : cok full c -> c_alt c = alt -> V (c_sem c) -> (col = true -> collects) -> mok m -> sok full true cs ->
    tot (fun n => closure ts a ctx sempred order hash n start_index precedence outer atn_start_state c col full eof (m, cs, b)) (wok b).
  Proof using All.
    intros Hc Ha Hu Hcol Mm Ms. unfold closure. pose proof Hc as (x & Ex & _). eapply tot_bind with (P := wok b).
    - apply (closes_all (missing b) (c_state c, x)); auto.
    - intros [[m1 cs1] b1] (W1 & W2 & W3). cbn [fst snd] in *. apply tot_if; intros Fu.
      + apply andb_true_iff in Fu as (Fu & Q). rewrite (so_dips _ _ _ _ _ _ W2 Fu) in Q. discriminate.
      + apply tot_val. split; [exact W1 | split; [exact W2 | exact W3]].
  Qed.
End Closure.
