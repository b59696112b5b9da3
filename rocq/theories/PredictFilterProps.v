(** Properties of prediction: the precedence filter (C65) and the predicates of
    conflicting alternatives (C66). *)
From Coq Require Import ZArith List Bool Lia.
From Verif Require Import Outcome IntervalSetModel AtnModel.
From Verif Require Import PredContextModel PredContextSpec PredContextProofs SemContextModel SemContextSpec SemContextProofs ConfigSetModel ConfigSetSpec ConfigSetProofs.
From Verif Require Import DfaModel Ll1Model ParserModel PredictModel PredictSpec PredictFilterProofs.
From Verif Require Import CharStreamModel TokenStreamModel TokenStreamSpec ParserDemo PredictDemo.
Import ListNotations.
Local Open Scope Z_scope.

(** ** C65  The precedence filter keeps exactly the non-redundant configurations
    The statement: whatever the set, the filter keeps the configurations of alternative 1
    that the precedence does not refute, with an equivalent predicate, and of the other
    alternatives those that are flagged or that no kept configuration of alternative 1
    subsumes. *)
Definition C65_statement : Prop :=
  forall (S : Type) order hash cur (cs : pset) (m : sim S),
  reorders order -> (forall x, wf x -> hash x <> 0) ->
  Forall good_config (configs cs) -> reach_cache hash (negb (full_ctx cs)) (Some (m_cache m)) ->
  exists m' out kept, apply_precedence_filter order hash cur cs m = Val (m', out) /\
    holds_exactly (full_ctx cs) kept (configs out) /\ filtered cur (subsumed cur (configs cs)) (configs cs) kept.

(** It holds of sets where the surviving configurations of alternative 1 that share a
    state share the stack. *)
Theorem C65_filter_partial : forall (S : Type) order hash cur (cs : pset) (m : sim S),
  reorders order -> (forall x, wf x -> hash x <> 0) ->
  Forall good_config (configs cs) -> reach_cache hash (negb (full_ctx cs)) (Some (m_cache m)) ->
  (forall s s', survives cur (configs cs) s -> survives cur (configs cs) s' -> c_state s = c_state s' -> c_ctx s = c_ctx s') ->
  exists m' out kept, apply_precedence_filter order hash cur cs m = Val (m', out) /\
    holds_exactly (full_ctx cs) kept (configs out) /\ filtered cur (subsumed cur (configs cs)) (configs cs) kept.
Proof.
  intros S order hash cur cs m Ho Hh G Rk U.
  destruct (filter_main order hash cur Ho Hh cs m G (reach_cache_ok _ _ _ Rk)) as (m' & out & kept & E & H & F).
  exists m', out, kept. split; [exact E|]. split; [exact H|].
  assert (K : forall c, covered_by_last cur (configs cs) c <-> subsumed cur (configs cs) c).
  { intros c. split.
    - intros (s & (l1 & l2 & _ & Hs & _) & Es & Ec). exists s. auto.
    - intros (s & Hs & Es & Ec).
      assert (L : exists t, last_survivor cur (configs cs) t /\ c_state t = c_state s).
      { destruct Hs as (Is & As & Ds). clear -Is As Ds Ho.
        induction (configs cs) as [|x l IH] using rev_ind; [destruct Is|].
        destruct (Z.eq_dec (c_state x) (c_state s)) as [Ex|Nx]; [destruct (Z.eq_dec (c_alt x) 1) as [Ax|Ax];
          [destruct (eval_precedence cur order [] (c_sem x)) eqn:Ep|]|].
        - exists x. split; [|exact Ex]. exists l, []. split; [reflexivity|]. split; [|intros s' []].
          split; [apply in_or_app; right; left; reflexivity|]. split; [exact Ax|]. intros D. apply (ep_none cur order (c_sem x) []) in D. congruence.
        - apply (ep_none cur order (c_sem x) []) in Ep. apply in_app_iff in Is as [Is|[->|[]]]; [|contradiction].
          destruct (IH Is) as (t & (l1 & l2 & -> & (It & At & Dt) & N) & Et). exists t. split; [|exact Et]. exists l1, (l2 ++ [x]).
          split; [rewrite <- app_assoc; reflexivity|]. split; [split; [apply in_or_app; left; exact It|auto]|].
          intros s' I' E' A'. apply in_app_iff in I' as [I'|[<-|[]]]; auto.
        - apply in_app_iff in Is as [Is|[->|[]]]; [|contradiction].
          destruct (IH Is) as (t & (l1 & l2 & -> & (It & At & Dt) & N) & Et). exists t. split; [|exact Et]. exists l1, (l2 ++ [x]).
          split; [rewrite <- app_assoc; reflexivity|]. split; [split; [apply in_or_app; left; exact It|auto]|].
          intros s' I' E' A'. apply in_app_iff in I' as [I'|[<-|[]]]; auto. contradiction.
        - apply in_app_iff in Is as [Is|[->|[]]]; [|contradiction].
          destruct (IH Is) as (t & (l1 & l2 & -> & (It & At & Dt) & N) & Et). exists t. split; [|exact Et]. exists l1, (l2 ++ [x]).
          split; [rewrite <- app_assoc; reflexivity|]. split; [split; [apply in_or_app; left; exact It|auto]|].
          intros s' I' E' A'. apply in_app_iff in I' as [I'|[<-|[]]]; auto. congruence. }
      destruct L as (t & Lt & Et). exists t. split; [exact Lt|]. split; [congruence|]. rewrite <- Ec. apply U; auto.
      destruct Lt as (_ & _ & _ & H0 & _). exact H0. }
  destruct F as (F1 & F2 & F3). split; [|split; [exact F2|]].
  - intros k Ik. destruct (F1 k Ik) as [H0|(A & B & C)]; [left; exact H0|]. right. rewrite <- K. auto.
  - intros c Ic Ac. rewrite <- K. auto.
Qed.
Print Assumptions C65_filter_partial.

(** For every set: a configuration of another alternative is dropped exactly if the last
    survivor in its state has its stack. *)
Theorem C65_filter_as_coded : forall (S : Type) order hash cur (cs : pset) (m : sim S),
  reorders order -> (forall x, wf x -> hash x <> 0) ->
  Forall good_config (configs cs) -> reach_cache hash (negb (full_ctx cs)) (Some (m_cache m)) ->
  exists m' out kept, apply_precedence_filter order hash cur cs m = Val (m', out) /\
    holds_exactly (full_ctx cs) kept (configs out) /\
    filtered cur (fun c => exists s, last_survivor cur (configs cs) s /\ c_state s = c_state c /\ c_ctx s = c_ctx c) (configs cs) kept.
Proof.
  intros S order hash cur cs m Ho Hh G Rk. exact (filter_main order hash cur Ho Hh cs m G (reach_cache_ok _ _ _ Rk)).
Qed.
Print Assumptions C65_filter_as_coded.

(** *** A set that the filter leaves a redundant configuration in *)
Definition at_state (st alt r : Z) (p : sem) : pconfig := Config st alt (Some (Singleton r (Some EMPTY))) p 0 false tt.
Definition set_of (l : list pconfig) : pset := ConfigSet unit [] l [] false false false false 0 LocalKey.
Definition sim_of (input : uts) : sim uts := Sim input (dfa_new unit unit true) [] 0 [] [].
Definition one (_ : pctx) : Z := 1.
Definition two_stacks : list pconfig := [at_state 5 1 7 NONE; at_state 5 1 9 (Predicate 0 0 false); at_state 5 2 7 NONE].

Lemma plain_reorders : reorders plain_order.
Proof. intros at_ l. apply Permutation.Permutation_refl. Qed.
Lemma at_good st alt r p : r < EMPTY_RETURN_STATE -> good_config (at_state st alt r p).
Proof.
  intros Hr. assert (We : wf EMPTY).
  { constructor; cbn; auto.
    - intros r0 [E|[]]. congruence.
    - intros r0 q [E|[]]. discriminate.
    - intros r0 q [E|[]]. discriminate. }
  eexists. split; [reflexivity|]. constructor; cbn; auto.
  - intros r0 [E|[]]. discriminate.
  - intros r0 q [E|[]]. inversion E; subst. exact Hr.
  - intros r0 q [E|[]]. inversion E; subst. exact We.
Qed.

Theorem C65_filter_refuted : ~ C65_statement.
Proof.
  intros H. destruct (H uts plain_order one 0 (set_of two_stacks) (sim_of new_unbuffered)) as (m' & out & kept & E & (FO & _) & (F & _)).
  - exact plain_reorders.
  - discriminate.
  - repeat constructor; apply at_good; reflexivity.
  - constructor.
  - assert (K : In (5, 2, NONE) (map parser_key (configs out))) by (vm_compute in E; inversion E; subst; cbn; auto).
    apply (first_occ_in _ _ FO) in K. apply in_map_iff in K as (k & Ek & Ik). inversion Ek as [[Es Ea Ep]].
    destruct (F k Ik) as [(c & (_ & Ac & _) & (_ & Akc & _))|(Ic & _ & D)]; [rewrite Akc, Ac in Ea; discriminate|].
    cbn in Ic. destruct Ic as [<-|[<-|[<-|[]]]]; try discriminate Ea. destruct D as [D|D]; [discriminate|]. apply D.
    exists (at_state 5 1 7 NONE). split; [|split; reflexivity]. split; [left; reflexivity|]. split; [reflexivity|]. intros Q. inversion Q.
Qed.
Print Assumptions C65_filter_refuted.

(** A simplified configuration is built anew: how far the original had returned into
    outer contexts, and its flag, are forgotten. *)
Theorem C65_outer_depth_forgotten : exists m out,
  apply_precedence_filter plain_order one 1 (set_of [Config 5 1 (Some EMPTY) (Precedence 3) 2 true tt]) (sim_of new_unbuffered) = Val (m, out) /\
  configs out = [Config 5 1 (Some EMPTY) NONE 0 false tt].
Proof. do 2 eexists. split; vm_compute; reflexivity. Qed.
Print Assumptions C65_outer_depth_forgotten.

(** Alternative 1 survives with its predicate gone and with another one refuted; one
    configuration of alternative 2 goes, one stays as it is flagged, one as its stack differs. *)
Definition mixed : list pconfig := [
  at_state 5 1 7 (Precedence 3); at_state 6 1 7 (Precedence 1);
  at_state 5 2 7 NONE; at_state 6 2 7 NONE;
  Config 5 3 (Some (Singleton 7 (Some EMPTY))) NONE 0 true tt; at_state 5 4 8 NONE].
Example C65_nonvacuous :
  reorders plain_order /\ (forall x, wf x -> one x <> 0) /\ Forall good_config (configs (set_of mixed)) /\
  reach_cache one (negb (full_ctx (set_of mixed))) (Some (m_cache (sim_of new_unbuffered))) /\
  (forall s s', survives 2 mixed s -> survives 2 mixed s' -> c_state s = c_state s' -> c_ctx s = c_ctx s') /\
  match apply_precedence_filter plain_order one 2 (set_of mixed) (sim_of new_unbuffered) with
  | Val (_, out) => configs out = [at_state 5 1 7 NONE; at_state 6 2 7 NONE;
      Config 5 3 (Some (Singleton 7 (Some EMPTY))) NONE 0 true tt; at_state 5 4 8 NONE]
  | _ => False
  end.
Proof.
  split; [exact plain_reorders|]. split; [discriminate|]. split.
  { repeat constructor; try (apply at_good; reflexivity). exact (at_good 5 3 7 NONE eq_refl). }
  split; [constructor|]. split; [|vm_compute; reflexivity].
  intros s s' (Is & As & _) (Is' & As' & _). cbn in Is, Is'.
  destruct Is as [<-|[<-|[<-|[<-|[<-|[<-|[]]]]]]]; try discriminate; destruct Is' as [<-|[<-|[<-|[<-|[<-|[<-|[]]]]]]]; try discriminate; reflexivity.
Qed.

(** ** C66  Predicate collection at conflicts is complete *)

(** [A] is the set of alternatives a decided state leaves open.  The state records a
    predicate for each of them, equivalent to "some configuration of the alternative
    has a predicate that holds", which is the trivial one if the alternative has a
    configuration without predicate; or it records none, and all of them are free. *)
Theorem C66_collected : forall (S : Type) order (st : pstate) nalts (m : sim S) (A : Z -> Prop), reorders order ->
  d_preds st = [] ->
  is_set (get_conflicting_alts_or_unique_alt unit (d_configs st)) A ->
  (forall x, A x -> 1 <= x <= Z.of_nat nalts /\ exists c, In c (configs (d_configs st)) /\ c_alt c = x) ->
  exists m' st', predicate_dfa_state order st nalts m = Val (m', st') /\
    (forall x, A x -> exists p, (d_preds st' <> [] -> In (x, p) (d_preds st')) /\ (d_preds st' = [] -> p = NONE) /\
       (forall ctx (user : option ctx -> Z -> Z -> bool) cur outer, none_is_true user ->
          (holds ctx user cur outer p <-> exists c, In c (configs (d_configs st)) /\ c_alt c = x /\ holds ctx user cur outer (c_sem c))) /\
       ((exists c, In c (configs (d_configs st)) /\ c_alt c = x /\ c_sem c = NONE) -> p = NONE)) /\
    (forall x p, In (x, p) (d_preds st') -> A x).
Proof.
  intros S order st nalts m A Ho Hp Hs HA. destruct (state_preds_ok order Ho st nalts m A Hp Hs HA) as (m' & st' & E & _ & _ & D).
  exists m', st'. split; [exact E|]. destruct D as [(D1 & D2 & _)|((D1 & D2) & D3)].
  - split.
    + intros x Hx. exists NONE. split; [congruence|]. split; [auto|]. destruct (D2 x Hx) as (H1 & H2 & _). split; [|exact H2].
      intros ctx user cur outer Hn. apply H1; [exact Hn | apply Hs; exact Hx | apply HA; exact Hx].
    + intros x p. rewrite D1. intros [].
  - split; [|intros; eapply D2; eauto]. intros x Hx. destruct (D3 x Hx) as (p & Ip). exists p. split; [auto|]. split; [congruence|].
    destruct (D2 x p Ip) as (_ & H1 & H2 & _). split; [|exact H2].
    intros ctx user cur outer Hn. apply H1; [exact Hn | apply Hs; exact Hx | apply HA; exact Hx].
Qed.
Print Assumptions C66_collected.

(** The choice an accept state with these predicates makes. *)
Theorem C66_choice : forall (S : Type) (ts : seek_ops S) ctx sempred order start_index precedence outer (st : pstate) nalts (A : Z -> Prop) (m m1 m2 m3 : sim S) st' r user,
  reorders order -> d_preds st = [] ->
  is_set (get_conflicting_alts_or_unique_alt unit (d_configs st)) A -> (exists x, A x) ->
  (forall x, A x -> 1 <= x <= Z.of_nat nalts /\ exists c, In c (configs (d_configs st)) /\ c_alt c = x) ->
  predicate_dfa_state order st nalts m = Val (m1, st') ->
  on_accept ts ctx sempred start_index precedence outer st' m2 = Val (m3, r) ->
  (forall s, k_seek ts (m_input m2) start_index = Val s -> sempred s = user) -> none_is_true user ->
  match r with
  | Predicted x => least (fun x => A x /\ allowed ctx user precedence outer (configs (d_configs st)) x) x
  | NoViableAlt _ _ => forall x, A x -> ~ allowed ctx user precedence outer (configs (d_configs st)) x
  end.
Proof.
  intros S ts ctx sempred order si prec outer st nalts A m m1 m2 m3 st' r user Ho Hp Hs Ex HA Ep Ea Hu Hn.
  destruct (state_preds_ok order Ho st nalts m A Hp Hs HA) as (m' & st'' & E & _ & _ & D). rewrite Ep in E. inversion E; subst m' st''. clear E.
  assert (Al : forall x p, A x -> pred_ok (get_conflicting_alts_or_unique_alt unit (d_configs st)) (configs (d_configs st)) x p ->
            (holds ctx user prec outer p <-> allowed ctx user prec outer (configs (d_configs st)) x)).
  { intros x p Ax (H1 & _). apply H1; [exact Hn | apply Hs; exact Ax | apply HA; exact Ax]. }
  unfold on_accept in Ea. destruct D as [(D1 & D2 & D3)|((D1 & D2) & D3)].
  - rewrite D1 in Ea. inversion Ea; subst. destruct (D3 Ex) as (L1 & L2). split; [split; [exact L1|]|].
    + apply (Al _ NONE L1 (D2 _ L1)). apply evaluate_holds. exact Hn.
    + intros b (Ab & _). apply L2. exact Ab.
  - destruct (d_preds st') as [|pp l] eqn:El; [congruence|]. rewrite <- El in *. clear D1 El pp l.
    destruct (sim_seek ts m2 si) as [m4| |] eqn:Es; cbn [obindo] in Ea; try discriminate.
    unfold sim_seek in Es. destruct (k_seek ts (m_input m2) si) as [s| |] eqn:Ek; cbn [obindo] in Es; try discriminate. inversion Es; subst m4. clear Es.
    destruct (eval_semantic_context ts ctx sempred prec outer (with_sim_input m2 s) (d_preds st') []) as [m5 alts] eqn:Ev.
    assert (Hu' : sempred (m_input (with_sim_input m2 s)) = user) by (apply Hu; reflexivity).
    eapply eval_preds_ok in Ev; [|rewrite Hu'; exact Hn|apply is_set_nil]. destruct Ev as (_ & Ev). rewrite Hu' in Ev.
    assert (Q : is_set alts (fun x => A x /\ allowed ctx user prec outer (configs (d_configs st)) x)).
    { eapply is_set_ext; [|exact Ev]. intros x. cbn. split.
      - intros [[]|(p & Ip & Hp')]. destruct (D2 x p Ip) as (Ax & Pk). split; [exact Ax|]. apply (Al x p Ax Pk). exact Hp'.
      - intros (Ax & Hx). right. destruct (D3 x Ax) as (p & Ip). exists p. split; [exact Ip|]. destruct (D2 x p Ip) as (_ & Pk). apply (Al x p Ax Pk). exact Hx. }
    clear Ev. destruct alts as [|x [|y alts]].
    + unfold no_viable_alt in Ea. destruct (s_get _ _ _); cbn [obindo] in Ea; try discriminate.
      destruct (sim_lt ts m5 1) as [[m6 o]| |]; cbn [obindo] in Ea; try discriminate. destruct o; cbn [unwrap obindo] in Ea; inversion Ea; subst.
      intros x Ax Hx. destruct (proj2 (proj2 Q x) (conj Ax Hx)).
    + inversion Ea; subst. eapply is_set_hd; [exact Q | reflexivity].
    + inversion Ea; subst. eapply is_set_hd; [exact Q | reflexivity].
Qed.
Print Assumptions C66_choice.

(** A conflict that would need the whole stack is settled by the predicates if they
    leave one alternative. *)
Theorem C66_conflict_settled : forall (S : Type) (ts : seek_ops S) a ctx sempred order alt_order hash fuel mode start_index precedence outer stack start
    (st : pstate) nalts (A : Z -> Prop) (m m1 m2 m3 : sim S) st' r user x,
  reorders order -> d_preds st = [] ->
  is_set (get_conflicting_alts_or_unique_alt unit (d_configs st)) A ->
  (forall x, A x -> 1 <= x <= Z.of_nat nalts /\ exists c, In c (configs (d_configs st)) /\ c_alt c = x) ->
  predicate_dfa_state order st nalts m = Val (m1, st') -> d_preds st' <> [] ->
  on_conflict ts a ctx sempred order alt_order hash fuel mode start_index precedence outer stack start st' m2 = Val (m3, r) ->
  (if index ts m2 =? start_index then sempred (m_input m2) = user else forall s, k_seek ts (m_input m2) start_index = Val s -> sempred s = user) -> none_is_true user ->
  A x -> allowed ctx user precedence outer (configs (d_configs st)) x ->
  (forall y, A y -> allowed ctx user precedence outer (configs (d_configs st)) y -> y = x) ->
  r = Predicted x.
Proof.
  intros S ts a ctx sempred order alt_order hash fuel mode si prec outer stack start st nalts A m m1 m2 m3 st' r user x Ho Hp Hs HA Ep Np Ec Hu Hn Ax Hx Ux.
  destruct (state_preds_ok order Ho st nalts m A Hp Hs HA) as (m' & st'' & E & _ & _ & D). rewrite Ep in E. inversion E; subst m' st''. clear E.
  destruct D as [(D1 & _)|((D1 & D2) & D3)]; [contradiction|]. unfold on_conflict in Ec.
  destruct (d_preds st') as [|pp l] eqn:El; [congruence|]. rewrite <- El in *. clear D1 El pp l.
  set (seek := if negb (index ts m2 =? si) then sim_seek ts m2 si else Val m2) in Ec.
  destruct seek as [m4| |] eqn:Es; cbn [obindo] in Ec; try discriminate. subst seek.
  assert (Hu' : sempred (m_input m4) = user).
  { destruct (index ts m2 =? si); cbn [negb] in Es; [inversion Es as [Em]; rewrite <- Em; exact Hu|].
    unfold sim_seek in Es. destruct (k_seek ts (m_input m2) si) as [s| |]; cbn [obindo] in Es; try discriminate. inversion Es as [Em]. apply Hu. reflexivity. }
  destruct (eval_semantic_context ts ctx sempred prec outer m4 (d_preds st') []) as [m5 alts] eqn:Ev.
  eapply eval_preds_ok in Ev; [|rewrite Hu'; exact Hn|apply is_set_nil]. destruct Ev as (_ & Ev). rewrite Hu' in Ev.
  assert (Q : is_set alts (fun y => A y /\ allowed ctx user prec outer (configs (d_configs st)) y)).
  { assert (Al : forall x p, A x -> pred_ok (get_conflicting_alts_or_unique_alt unit (d_configs st)) (configs (d_configs st)) x p ->
            (holds ctx user prec outer p <-> allowed ctx user prec outer (configs (d_configs st)) x)).
    { intros y p Ay (H1 & _). apply H1; [exact Hn | apply Hs; exact Ay | apply HA; exact Ay]. }
    eapply is_set_ext; [|exact Ev]. intros y. cbn. split.
    - intros [[]|(p & Ip & Hp')]. destruct (D2 y p Ip) as (Ay & Pk). split; [exact Ay|]. apply (Al y p Ay Pk). exact Hp'.
    - intros (Ay & Hy). right. destruct (D3 y Ay) as (p & Ip). exists p. split; [exact Ip|]. destruct (D2 y p Ip) as (_ & Pk). apply (Al y p Ay Pk). exact Hy. }
  assert (L : alts = [x]).
  { eapply is_set_unique; [exact Q|]. split; [repeat constructor|]. intros y. cbn. split.
    - intros [<-|[]]. auto.
    - intros (Ay & Hy). left. symmetry. apply Ux; auto. }
  rewrite L in Ec. cbn [obindo] in Ec. inversion Ec. reflexivity.
Qed.
Print Assumptions C66_conflict_settled.

(** Three alternatives in conflict: the first has two guarded configurations, the second
    a guarded one, the third a free one.  With guard 2 alone true alternative 1 is
    chosen, with guard 3 alone alternative 2, with none the free alternative. *)
Definition guarded : list pconfig :=
  [at_state 5 1 7 (Predicate 0 1 false); at_state 6 1 7 (Predicate 0 2 false); at_state 5 2 7 (Predicate 0 3 false); at_state 5 3 7 NONE; at_state 6 3 7 (Predicate 0 4 false)].
Definition guarded_state : pstate :=
  DState unit unit 0 (ConfigSet unit [] guarded [1; 2; 3] false false true false 0 LocalKey) [] true INVALID_ALT None false [].
Definition guard (n : Z) (_ : uts) (_ : option unit) (_ i : Z) : bool := (i =? n) || (i =? -1).
Example C66_nonvacuous :
  d_preds guarded_state = [] /\
  is_set (get_conflicting_alts_or_unique_alt unit (d_configs guarded_state)) (fun x => 1 <= x <= 3) /\
  (forall x, 1 <= x <= 3 -> exists c, In c guarded /\ c_alt c = x) /\
  match predicate_dfa_state plain_order guarded_state 3 (sim_of new_unbuffered) with
  | Val (_, st') =>
      let choice n := match on_accept (unbuffered_seek (source [])) unit (guard n) 0 0 tt st' (sim_of new_unbuffered) with Val (_, r) => Some r | _ => None end in
      choice 2 = Some (Predicted 1) /\ choice 3 = Some (Predicted 2) /\ choice 7 = Some (Predicted 3) /\ none_is_true (guard 2 new_unbuffered)
  | _ => False
  end.
Proof.
  split; [reflexivity|]. split.
  { split; [repeat constructor|]. intros x. cbn. lia. }
  split; [|vm_compute; auto].
  intros x Hx. assert (C : x = 1 \/ x = 2 \/ x = 3) by lia. destruct C as [-> |[-> | ->]]; eexists.
  - split; [left; reflexivity | reflexivity].
  - split; [right; right; left; reflexivity | reflexivity].
  - split; [right; right; right; left; reflexivity | reflexivity].
Qed.
