(** The precedence filter and the predicates of conflicting alternatives. *)
From Coq Require Import ZArith List Bool Lia Permutation.
From Coq Require Import ZifyBool ZifyNat.
From Verif Require Import Outcome IntervalSetModel PredContextModel PredContextSpec PredContextProofs.
From Verif Require Import SemContextModel SemContextSpec SemContextProofs ConfigSetModel ConfigSetSpec ConfigSetProofs.
From Verif Require Import DfaModel AtnModel Ll1Model ParserModel PredictModel PredictSpec PredictFrameProofs.
Import ListNotations.
Local Open Scope Z_scope.

Section Dead.
  Variable cur : Z.
  Variable order : list nat -> list sem -> list sem.
  Notation ep := (eval_precedence cur order).

  Lemma or_loop_some l : forall at_ i d ops, (ops = [] -> d = false) ->
    match or_loop cur order at_ i d ops l with
    | Return r => r <> None
    | Fallthrough d' ops' => ops' = [] -> d' = false
    end.
  Proof.
    induction l as [|c l IH]; intros at_ i d ops H; cbn [or_loop]; [auto|]. fold (or_loop cur order at_).
    destruct (ep (i :: at_) c) as [e|].
    - destruct (sem_eqb e NONE); [discriminate|]. apply IH. intros K. destruct ops; discriminate.
    - apply IH. intros K. rewrite orb_false_r. auto.
  Qed.
  Lemma and_loop_none l : forall at_ i d ops, (forall s, In s l -> forall at_, ep at_ s = None <-> dead cur s) ->
    match and_loop cur order at_ i d ops l with
    | Return r => r = None /\ exists s, In s l /\ dead cur s
    | Fallthrough _ _ => forall s, In s l -> ~ dead cur s
    end.
  Proof.
    induction l as [|c l IH]; intros at_ i d ops H; cbn [and_loop]; [intros s []|]. fold (and_loop cur order at_).
    pose proof (H c (or_introl eq_refl) (i :: at_)) as Hc.
    assert (Hl : forall s, In s l -> forall at_, ep at_ s = None <-> dead cur s) by (intros s Hs; apply H; right; exact Hs).
    destruct (ep (i :: at_) c) as [e|].
    - assert (Nc : ~ dead cur c) by (intros K; apply Hc in K; discriminate).
      assert (Step : forall d ops, match and_loop cur order at_ (S i) d ops l with
                | Return r => r = None /\ exists s, In s (c :: l) /\ dead cur s
                | Fallthrough _ _ => forall s, In s (c :: l) -> ~ dead cur s end).
      { intros d0 ops0. specialize (IH at_ (S i) d0 ops0 Hl). destruct (and_loop cur order at_ (S i) d0 ops0 l) as [r|].
        - destruct IH as (-> & s & Is & Ds). split; [reflexivity|]. exists s. split; [right; exact Is | exact Ds].
        - intros s [<-|Is]; [exact Nc | apply IH; exact Is]. }
      destruct (sem_eqb e NONE); apply Step.
    - split; [reflexivity|]. exists c. split; [left; reflexivity|]. apply Hc. reflexivity.
  Qed.

  Lemma ep_none : forall s at_, ep at_ s = None <-> dead cur s.
  Proof.
    fix IH 1. intros s at_. destruct s as [r p d | n | ops | ops].
    - cbn [eval_precedence]. split; [discriminate | intros H; inversion H].
    - cbn [eval_precedence]. unfold SemContextModel.precpred. destruct (n >=? cur) eqn:E.
      + split; [discriminate | intros H; inversion H; subst; lia].
      + split; [intros _; constructor; lia | reflexivity].
    - rewrite ep_and.
      assert (Hall : forall s, In s ops -> forall at_, ep at_ s = None <-> dead cur s).
      { induction ops as [|x l IHl]; intros s Hs; [destruct Hs|]. destruct Hs as [<-|Hs]; [exact (IH x) | exact (IHl s Hs)]. }
      pose proof (and_loop_none ops at_ 0%nat false [] Hall) as K.
      destruct (and_loop cur order at_ 0%nat false [] ops) as [r|d0 l0].
      + destruct K as (-> & s & Is & Ds). split; [intros _; exact (dead_and cur ops s Is Ds) | reflexivity].
      + split.
        * destruct (negb d0); [discriminate|]. destruct l0; discriminate.
        * intros H. inversion H as [|o s Is Ds]; subst. destruct (K s Is Ds).
    - rewrite ep_or. pose proof (or_loop_some ops at_ 0%nat false [] (fun _ => eq_refl)) as K.
      destruct (or_loop cur order at_ 0%nat false [] ops) as [r|d0 l0].
      + split; [intros ->; destruct (K eq_refl) | intros H; inversion H].
      + split; [|intros H; inversion H]. destruct l0 as [|x l0].
        * rewrite (K eq_refl). discriminate.
        * destruct (negb d0); discriminate.
  Qed.
End Dead.

Section Filter.
  Context {S : Type}.
  Variable order : list nat -> list sem -> list sem.
  Variable hash : pctx -> Z.
  Variable cur : Z.
  Variable full : bool.
  Hypothesis Hord : reorders order.
  Hypothesis Hhash : forall x, wf x -> hash x <> 0.
  Notation sim := (sim S).
  Notation sinv := (inv unit _ (@parser_key unit) LocalKey full).

  Lemma plain_add cs s c k : Forall good_config cs -> good_config c -> sinv cs s -> cache_ok (negb full) k ->
    exists s' k', add_cached unit unit_eqb hash s c k = Val (s', k') /\ sinv (cs ++ [c]) s' /\ cache_ok (negb full) k'.
  Proof.
    intros G Gc V Ck.
    pose proof (add_ok unit unit_eqb hash _ parser_key LocalKey (fun a b _ _ => parser_key_ok unit unit_eqb a b)
                  (fun e c ea cb m wild k k' _ _ _ _ _ _ => eq_refl) full cs s c k G Gc V Ck) as A.
    destruct (add_cached unit unit_eqb hash s c k) as [[s' k']| |]; [eauto | | destruct A].
    destruct A as (x & Wx & Hx). destruct (Hhash x Wx Hx).
  Qed.
  Lemma map_find_insert mp k v k' : map_find (map_insert mp k v) k' = if k' =? k then Some v else map_find mp k'.
  Proof.
    induction mp as [|[q w] mp IH]; cbn [map_insert map_find].
    - rewrite (Z.eqb_sym k k'). destruct (k' =? k); reflexivity.
    - destruct (Z.eqb_spec q k); cbn [map_find].
      + subst. rewrite (Z.eqb_sym k k'). destruct (k' =? k); reflexivity.
      + rewrite IH. destruct (Z.eqb_spec q k'); [|reflexivity]. subst. destruct (Z.eqb_spec k' k); [contradiction | reflexivity].
  Qed.

  (** the map holds the stacks of the last survivor in each state *)
  Definition map_ok (cs : list pconfig) (mp : list (Z * option pctx)) : Prop :=
    forall st, match map_find mp st with
               | Some x => exists s, last_survivor cur cs s /\ c_state s = st /\ c_ctx s = x
               | None => forall s, survives cur cs s -> c_state s <> st
               end.

  Lemma simplified_ok c at_ u : eval_precedence cur order at_ (c_sem c) = Some u ->
    simplified cur c (if negb (sem_eqb u (c_sem c)) then new_with_semantic (c_state c) (c_alt c) (c_ctx c) u else c).
  Proof.
    intros E. destruct (sem_eqb u (c_sem c)) eqn:Q; cbn [negb].
    - repeat split; auto.
    - split; [reflexivity|]. split; [reflexivity|]. split; [reflexivity|]. intros ctx user outer Hn. cbn [new_with_semantic c_sem].
      pose proof (eval_precedence_sound ctx user cur order outer Hord Hn (c_sem c) at_) as K. rewrite E in K. cbn [val_opt] in K.
      rewrite <- !evaluate_holds, K. reflexivity.
  Qed.

  Lemma last_survivor_app l c s : last_survivor cur l s -> c_state s <> c_state c \/ c_alt c <> 1 \/ dead cur (c_sem c) ->
    last_survivor cur (l ++ [c]) s.
  Proof.
    intros (l1 & l2 & -> & (I1 & A1 & D1) & N) H. exists l1, (l2 ++ [c]). split; [rewrite <- app_assoc; reflexivity|]. split.
    - split; [apply in_or_app; left; exact I1 | auto].
    - intros s' Hs' Est Ea. apply in_app_iff in Hs' as [Hs'|[<-|[]]]; [auto|]. destruct H as [H|[H|H]]; [congruence | congruence | exact H].
  Qed.
  Lemma survives_app l c s : survives cur (l ++ [c]) s <-> survives cur l s \/ (s = c /\ c_alt c = 1 /\ ~ dead cur (c_sem c)).
  Proof.
    unfold survives. rewrite in_app_iff. cbn. split.
    - intros ([H|[<-|[]]] & A & D); auto.
    - intros [(H & A & D)|(-> & A & D)]; auto.
  Qed.

  Lemma filter1_ok l : forall done kept mp m cs, Forall good_config l -> Forall good_config kept ->
    sinv kept cs -> cache_ok (negb full) (Some (m_cache m)) -> map_ok done mp ->
    exists m' cs' mp' more, filter_alt1 (S := S) order hash cur l mp m cs = Val (m', cs', mp') /\
      sinv (kept ++ more) cs' /\ map_ok (done ++ l) mp' /\ Forall good_config more /\
      Forall2 (simplified cur) (filter (fun c => (c_alt c =? 1) && match eval_precedence cur order [] (c_sem c) with Some _ => true | None => false end) l) more.
  Proof.
    induction l as [|c l IH]; intros done kept mp m cs Gl Gk V Ck Mo; cbn [filter_alt1].
    - exists m, cs, mp, []. rewrite !app_nil_r. split; [reflexivity|]. split; [exact V|]. split; [exact Mo|]. split; constructor.
    - inversion Gl as [|x y Gc Gl']; subst x y. replace (done ++ c :: l) with ((done ++ [c]) ++ l) by (rewrite <- app_assoc; reflexivity).
      cbn [filter]. destruct (Z.eqb_spec (c_alt c) 1) as [A|A]; cbn [negb andb].
      + assert (Dec : forall at1 at2, eval_precedence cur order at1 (c_sem c) = None <-> eval_precedence cur order at2 (c_sem c) = None)
          by (intros; rewrite !ep_none; reflexivity).
        destruct (eval_precedence cur order [m_clock m] (c_sem c)) as [u|] eqn:E.
        * destruct (eval_precedence cur order [] (c_sem c)) as [u0|] eqn:E0; [|apply (Dec [] [m_clock m]) in E0; congruence].
          set (k := if negb (sem_eqb u (c_sem c)) then new_with_semantic (c_state c) (c_alt c) (c_ctx c) u else c).
          pose proof (simplified_ok c [m_clock m] u E) as Sk. fold k in Sk.
          assert (Gk1 : good_config k) by (destruct Gc as (x & Cx & Wx); exists x; split; [destruct Sk as (_ & _ & -> & _); exact Cx | exact Wx]).
          destruct (plain_add kept cs k (Some (m_cache (tick m))) Gk Gk1 V Ck) as (s' & k' & Ea & V' & Ck').
          unfold add_to. rewrite Ea. cbn [obindo].
          destruct (IH (done ++ [c]) (kept ++ [k]) (map_insert mp (c_state c) (c_ctx c)) (match k' with Some k1 => with_cache (tick m) k1 | None => tick m end) s' Gl') as
            (m' & cs' & mp' & more & E1 & V1 & M1 & G1 & F1); auto.
          { apply Forall_app. split; [exact Gk | constructor; [exact Gk1 | constructor]]. }
          { destruct k'; [exact Ck' | exact Ck]. }
          { intros st. rewrite map_find_insert. assert (Nd : ~ dead cur (c_sem c)) by (rewrite <- (ep_none cur order _ []); congruence).
            destruct (Z.eqb_spec st (c_state c)) as [->|Hst].
            - exists c. split; [|auto]. exists done, []. split; [reflexivity|]. split; [|intros ? []].
              split; [apply in_or_app; right; left; reflexivity | auto].
            - specialize (Mo st). destruct (map_find mp st) as [x|].
              + destruct Mo as (s & Ls & Es & Ec). exists s. split; [|auto]. apply last_survivor_app; [exact Ls|]. left. congruence.
              + intros s Hs. apply survives_app in Hs as [Hs|(-> & _)]; auto. }
          exists m', cs', mp', (k :: more). rewrite E1. split; [reflexivity|]. rewrite <- app_assoc in V1. split; [exact V1|].
          split; [exact M1|]. split; [constructor; auto|]. constructor; auto.
        * destruct (eval_precedence cur order [] (c_sem c)) as [u0|] eqn:E0; [apply (Dec [m_clock m] []) in E; congruence|].
          apply (IH (done ++ [c]) kept mp (tick m) cs Gl'); auto. intros st. apply ep_none in E.
          specialize (Mo st). destruct (map_find mp st) as [x|].
          -- destruct Mo as (s & Ls & Es). exists s. split; [|auto]. apply last_survivor_app; auto.
          -- intros s Hs. apply survives_app in Hs as [Hs|(-> & _ & Nd)]; [auto | contradiction].
      + apply (IH (done ++ [c]) kept mp m cs Gl'); auto. intros st.
        specialize (Mo st). destruct (map_find mp st) as [x|].
        * destruct Mo as (s & Ls & Es). exists s. split; [|auto]. apply last_survivor_app; auto.
        * intros s Hs. apply survives_app in Hs as [Hs|(-> & A1 & _)]; [auto | contradiction].
  Qed.

  Definition stays (mp : list (Z * option pctx)) (c : pconfig) : bool :=
    negb (c_alt c =? 1) && negb (negb (c_pfs c) && match map_find mp (c_state c) with Some x => opt_pctx_eqb x (c_ctx c) | None => false end).
  Lemma filter_others_ok l mp : forall kept cs, Forall good_config l -> Forall good_config kept -> sinv kept cs ->
    exists cs', filter_others hash l mp cs = Val cs' /\ sinv (kept ++ filter (stays mp) l) cs'.
  Proof.
    induction l as [|c l IH]; intros kept cs Gl Gk V; cbn [filter_others filter].
    - exists cs. rewrite app_nil_r. auto.
    - inversion Gl as [|x y Gc Gl']; subst x y. unfold stays at 1. destruct (c_alt c =? 1); cbn [negb andb]; [apply IH; auto|].
      destruct (negb (c_pfs c) && _) eqn:E; cbn [negb]; [apply IH; auto|].
      destruct (plain_add kept cs c None Gk Gc V ltac:(intros ? ?; discriminate)) as (s' & k' & Ea & V' & _).
      unfold add_plain. rewrite Ea. cbn [obindo].
      destruct (IH (kept ++ [c]) s' Gl') as (cs' & E1 & V1); auto.
      { apply Forall_app. split; [exact Gk | constructor; [exact Gc | constructor]]. }
      exists cs'. rewrite E1. split; [reflexivity|]. rewrite <- app_assoc in V1. exact V1.
  Qed.
End Filter.

Section FilterMain.
  Context {S : Type}.
  Variable order : list nat -> list sem -> list sem.
  Variable hash : pctx -> Z.
  Variable cur : Z.
  Hypothesis Hord : reorders order.
  Hypothesis Hhash : forall x, wf x -> hash x <> 0.

  Definition covered_by_last (cs : list pconfig) (c : pconfig) : Prop :=
    exists s, last_survivor cur cs s /\ c_state s = c_state c /\ c_ctx s = c_ctx c.

  Lemma last_survivor_fun cs s s' : last_survivor cur cs s -> last_survivor cur cs s' -> c_state s = c_state s' -> s = s'.
  Proof.
    intros (l1 & l2 & E & (I1 & A1 & D1) & N) (l1' & l2' & E' & (I1' & A1' & D1') & N') Est.
    rewrite E in E'. clear E I1 I1'.
    revert l1' E'. induction l1 as [|x l1 IH]; intros l1' E'.
    - destruct l1' as [|y l1']; cbn in E'; [congruence|]. inversion E'; subst.
      destruct (D1' (N s' ltac:(apply in_or_app; right; left; reflexivity) (eq_sym Est) A1')).
    - destruct l1' as [|y l1']; cbn in E'.
      + inversion E'; subst. destruct (D1 (N' s ltac:(apply in_or_app; right; left; reflexivity) Est A1)).
      + inversion E'; subst. eapply IH; eauto.
  Qed.

  Lemma filter_main (cs : pset) (m : sim S) : Forall good_config (configs cs) -> cache_ok (negb (full_ctx cs)) (Some (m_cache m)) ->
    exists m' out kept, apply_precedence_filter order hash cur cs m = Val (m', out) /\
      holds_exactly (full_ctx cs) kept (configs out) /\ filtered cur (covered_by_last (configs cs)) (configs cs) kept.
  Proof.
    intros G Ck. unfold apply_precedence_filter.
    destruct (filter1_ok (S := S) order hash cur (full_ctx cs) Hord Hhash (configs cs) [] [] [] m (new_base_config_set unit (full_ctx cs)) G (Forall_nil _)
                (inv_empty unit _ parser_key LocalKey (full_ctx cs)) Ck) as (m' & cs' & mp' & more & E1 & V1 & M1 & G1 & F1).
    { intros st. cbn. intros s (I0 & _). destruct I0. }
    rewrite E1. cbn [obindo app] in *.
    destruct (filter_others_ok hash (full_ctx cs) Hhash (configs cs) mp' more cs' G G1 V1) as (out & E2 & V2).
    rewrite E2. cbn [obindo]. exists m', out, (more ++ filter (stays mp') (configs cs)). split; [reflexivity|].
    assert (Surv : forall c, In c (filter (fun c => (c_alt c =? 1) && match eval_precedence cur order [] (c_sem c) with Some _ => true | None => false end) (configs cs))
                     <-> survives cur (configs cs) c).
    { intros c. rewrite filter_In, andb_true_iff, Z.eqb_eq. unfold survives. rewrite <- (ep_none cur order (c_sem c) []).
      destruct (eval_precedence cur order [] (c_sem c)); intuition congruence. }
    assert (Stay : forall c, In c (configs cs) -> (stays mp' c = true <-> c_alt c <> 1 /\ (c_pfs c = true \/ ~ covered_by_last (configs cs) c))).
    { intros c Ic. unfold stays. rewrite andb_true_iff, negb_true_iff, Z.eqb_neq, negb_true_iff.
      assert (Cov : match map_find mp' (c_state c) with Some x => opt_pctx_eqb x (c_ctx c) | None => false end = true <-> covered_by_last (configs cs) c).
      { specialize (M1 (c_state c)). destruct (map_find mp' (c_state c)) as [x|].
        - destruct M1 as (s & Ls & Es & Ex). split.
          + intros Q. exists s. split; [exact Ls|]. split; [exact Es|]. 
            destruct Ls as (l1 & l2 & El & (Is & _) & _).
            assert (Gs : good_config s) by (rewrite Forall_forall in G; apply G; exact Is).
            assert (Gc : good_config c) by (rewrite Forall_forall in G; apply G; exact Ic).
            destruct Gs as (xs & Cs & Ws), Gc as (xc & Cc & Wc). rewrite Cs in Ex. subst x. rewrite Cc in Q |- *. cbn in Q.
            rewrite Cs. f_equal. apply eqb_eq_wf; auto.
          + intros (s' & Ls' & Es' & Ec'). rewrite <- Es in Es'. rewrite (last_survivor_fun _ _ _ Ls' Ls Es') in Ec'.
            rewrite <- Ec', Ex. apply opt_pctx_eqb_refl.
        - split; [discriminate|]. intros (s & (l1 & l2 & El & Hs & _) & Es & _). destruct (M1 s Hs Es). }
      rewrite andb_false_iff, negb_false_iff, <- not_true_iff_false, Cov. reflexivity. }
    split.
    - destruct V2 as [_ FO En _ _ _ _]. split; [exact FO | exact En].
    - split; [|split].
      + intros k Hk. apply in_app_iff in Hk as [Hk|Hk].
        * left. clear -F1 Hk Surv. assert (Q : forall c, In c (filter (fun c => (c_alt c =? 1) && match eval_precedence cur order [] (c_sem c) with Some _ => true | None => false end) (configs cs)) -> survives cur (configs cs) c) by (intros; now apply Surv).
          clear Surv. revert Q. induction F1 as [|c k' l l' H F IH]; intros Q; [destruct Hk|].
          destruct Hk as [<-|Hk]; [exists c; split; [apply Q; left; reflexivity | exact H]|]. apply IH; auto. intros c0 H0. apply Q. right. exact H0.
        * right. apply filter_In in Hk as [Ik Sk]. apply Stay in Sk as [Ak Sk]; auto.
      + intros c Hc. apply Surv in Hc. clear -F1 Hc. induction F1 as [|c' k' l l' H F IH]; [destruct Hc|].
        destruct Hc as [->|Hc]; [exists k'; split; [left; reflexivity | exact H]|].
        destruct (IH Hc) as (k & Ik & Sk). exists k. split; [right; exact Ik | exact Sk].
      + intros c Ic Ac H. apply in_or_app. right. apply filter_In. split; [exact Ic|]. apply Stay; auto.
  Qed.
End FilterMain.

(** ** Predicates of conflicting alternatives *)
From Verif Require Import DfaProofs.
Section Preds.
  Context {S : Type}.
  Variable order : list nat -> list sem -> list sem.
  Hypothesis Hord : reorders order.
  Notation sim := (sim S).

  (** what is known of slot [i] after the configurations [done] *)
  Definition slot_ok (ambig : list Z) (done : list pconfig) (i : Z) (o : option sem) : Prop :=
    match o with
    | None => ~ (In i ambig /\ exists c, In c done /\ c_alt c = i)
    | Some p => (In i ambig /\ exists c, In c done /\ c_alt c = i) /\
        (forall ctx (user : option ctx -> Z -> Z -> bool) cur outer, none_is_true user ->
           (holds ctx user cur outer p <-> allowed ctx user cur outer done i)) /\
        ((exists c, In c done /\ c_alt c = i /\ c_sem c = NONE) -> p = NONE)
    end.
  Lemma allowed_app ctx user cur outer l c i : allowed ctx user cur outer (l ++ [c]) i <->
    allowed ctx user cur outer l i \/ (c_alt c = i /\ holds ctx user cur outer (c_sem c)).
  Proof.
    unfold allowed. split.
    - intros (x & I & A & H). apply in_app_iff in I as [I|[<-|[]]]; [left; eauto | auto].
    - intros [(x & I & A & H)|(A & H)]; [exists x | exists c]; rewrite in_app_iff; cbn; auto.
  Qed.

  Lemma slot_or ambig done c old at_ : In (c_alt c) ambig -> slot_ok ambig done (c_alt c) old ->
    slot_ok ambig (done ++ [c]) (c_alt c) (Some (sem_or order at_ old (Some (c_sem c)))).
  Proof.
    intros Ia H. cbn [slot_ok]. split; [split; [exact Ia | exists c; rewrite in_app_iff; cbn; auto]|].
    destruct old as [p|]; cbn [slot_ok] in H.
    - destruct H as (_ & H1 & H2). split.
      + intros ctx user cur outer Hn. rewrite allowed_app, <- (H1 ctx user cur outer Hn), <- !evaluate_holds, sem_or_eval, orb_true_iff; auto. intuition.
      + intros (x & Ix & Ax & Sx). apply in_app_iff in Ix as [Ix|[<-|[]]].
        * rewrite (H2 ltac:(eauto)). reflexivity.
        * rewrite Sx. cbn [sem_or]. rewrite orb_comm. reflexivity.
    - cbn [sem_or]. split.
      + intros ctx user cur outer Hn. rewrite allowed_app. split; [auto|]. intros [(x & Ix & Ax & _)|[_ Hx]]; [|exact Hx].
        destruct H. split; [exact Ia | eauto].
      + intros (x & Ix & Ax & Sx). apply in_app_iff in Ix as [Ix|[<-|[]]]; [|exact Sx]. destruct H. split; [exact Ia | eauto].
  Qed.
  Lemma slot_other ambig done c i o : (c_alt c <> i \/ ~ In i ambig) -> slot_ok ambig done i o -> slot_ok ambig (done ++ [c]) i o.
  Proof.
    intros N H. destruct o as [p|]; cbn [slot_ok] in *.
    - destruct H as ((Ii & x & Ix & Ax) & H1 & H2). assert (c_alt c <> i) by (destruct N; [auto | contradiction]). clear N.
      split; [split; [exact Ii | exists x; rewrite in_app_iff; auto]|]. split.
      + intros. rewrite allowed_app, H1 by auto. intuition.
      + intros (y & Iy & Ay & Sy). apply in_app_iff in Iy as [Iy|[<-|[]]]; [|contradiction]. apply H2. eauto.
    - intros (Ii & x & Ix & Ax). apply in_app_iff in Ix as [Ix|[<-|[]]]; [|tauto]. apply H. split; [exact Ii | eauto].
  Qed.
  Lemma existsb_in i ambig : existsb (Z.eqb i) ambig = true <-> In i ambig.
  Proof.
    rewrite existsb_exists. split; [intros (x & Ix & E); apply Z.eqb_eq in E; subst; exact Ix | intros H; exists i; rewrite Z.eqb_refl; auto].
  Qed.

  Lemma collect_ok ambig l : forall done (m : sim) v,
    (forall c, In c l -> In (c_alt c) ambig -> 0 <= c_alt c < Z.of_nat (length v)) ->
    (forall i o, vget v i = Some o -> slot_ok ambig done i o) ->
    exists m' v', collect_preds order ambig l m v = Val (m', v') /\ length v' = length v /\ forall i o, vget v' i = Some o -> slot_ok ambig (done ++ l) i o.
  Proof.
    induction l as [|c l IH]; intros done m v R H; cbn [collect_preds].
    - exists m, v. rewrite app_nil_r. auto.
    - replace (done ++ c :: l) with ((done ++ [c]) ++ l) by (rewrite <- app_assoc; reflexivity).
      destruct (existsb (Z.eqb (c_alt c)) ambig) eqn:Ea.
      + apply existsb_in in Ea. assert (Rc := R c (or_introl eq_refl) Ea).
        destruct (vget_some v (c_alt c) Rc) as (old & Eo). rewrite Eo. cbn [unwrap obindo].
        destruct (vset_some v (c_alt c) (Some (sem_or order [m_clock m] old (Some (c_sem c)))) Rc) as (v1 & Ev). rewrite Ev. cbn [unwrap obindo].
        destruct (vset_ok _ _ _ _ Ev) as (_ & L1 & G1).
        destruct (IH (done ++ [c]) (tick m) v1) as (m' & v' & E' & L' & G').
        * intros x Ix Ax. rewrite L1. apply R; [right; exact Ix | exact Ax].
        * intros i o Hi. rewrite G1 in Hi. destruct (Z.eqb_spec i (c_alt c)) as [->|Ni].
          -- inversion Hi; subst. apply slot_or; auto.
          -- apply slot_other; [left; congruence | auto].
        * exists m', v'. rewrite E'. split; [reflexivity|]. split; [congruence | exact G'].
      + apply (IH (done ++ [c]) m v).
        * intros x Ix Ax. apply R; [right; exact Ix | exact Ax].
        * intros i o Hi. apply slot_other; [|auto]. destruct (Z.eq_dec (c_alt c) i) as [E|E]; [right; rewrite <- E; intros K; apply existsb_in in K; congruence | left; exact E].
  Qed.

  (** the predicate of an alternative, [NONE] for none *)
  Definition pred_ok (ambig : list Z) (cs : list pconfig) (i : Z) (p : sem) : Prop :=
    (forall ctx (user : option ctx -> Z -> Z -> bool) cur outer, none_is_true user ->
       In i ambig -> (exists c, In c cs /\ c_alt c = i) ->
       (holds ctx user cur outer p <-> allowed ctx user cur outer cs i)) /\
    ((exists c, In c cs /\ c_alt c = i /\ c_sem c = NONE) -> p = NONE) /\
    (~ (In i ambig /\ exists c, In c cs /\ c_alt c = i) -> p = NONE).

  Lemma preds_ok ambig cs nalts (m : sim) : (forall c, In c cs -> In (c_alt c) ambig -> 1 <= c_alt c <= Z.of_nat nalts) ->
    exists m' o, get_preds_for_ambig_alts order ambig cs nalts m = Val (m', o) /\ match o with
      | Some v => length v = Datatypes.S nalts /\ (forall i p, vget v i = Some p -> pred_ok ambig cs i p) /\ exists i p, 1 <= i /\ vget v i = Some p /\ p <> NONE
      | None => forall i, 0 <= i <= Z.of_nat nalts -> pred_ok ambig cs i NONE
      end.
  Proof.
    intros R. unfold get_preds_for_ambig_alts.
    destruct (collect_ok ambig cs [] m (repeat None (Datatypes.S nalts))) as (m' & v & E & L & H).
    - intros c Ic Ac. rewrite repeat_length. specialize (R c Ic Ac). lia.
    - intros i o Hi. rewrite vget_repeat in Hi. destruct (_ && _); inversion Hi; subst. intros (_ & c & [] & _).
    - rewrite E. cbn [obindo app] in *. rewrite repeat_length in L.
      set (f := fun o : option sem => match o with Some s => s | None => NONE end).
      assert (Pr : forall i p, vget (map f v) i = Some p -> pred_ok ambig cs i p).
      { intros i p Hp. assert (K : exists o, vget v i = Some o /\ p = f o).
        { unfold vget in *. destruct (i <? 0); [discriminate|]. rewrite nth_error_map in Hp. destruct (nth_error v (Z.to_nat i)); inversion Hp; subst. eauto. }
        destruct K as (o & Ho & ->). apply H in Ho. destruct o as [p|]; cbn [slot_ok f] in *.
        - destruct Ho as (Hi & H1 & H2). split; [intros; auto|]. split; [exact H2|]. intros N. contradiction.
        - split; [|split; [|reflexivity]]; [|reflexivity]. intros ctx user cur outer _ Ii Ei. destruct Ho. auto. }
      assert (Pz : vget (map f v) 0 = Some NONE).
      { destruct (vget_some (map f v) 0) as (p & Hp); [rewrite map_length; lia|]. rewrite Hp.
        destruct (Pr 0 p Hp) as (_ & _ & N). rewrite N; [reflexivity|]. intros (I0 & c & Ic & Ac). rewrite <- Ac in I0. specialize (R c Ic I0). lia. }
      do 2 eexists. split; [reflexivity|]. destruct (forallb (fun s => sem_eqb s NONE) (map f v)) eqn:Ef.
      + intros i Hi. destruct (vget_some (map f v) i) as (p & Hp); [rewrite map_length; lia|].
        assert (p = NONE).
        { rewrite forallb_forall in Ef. unfold vget in Hp. destruct (i <? 0); [discriminate|]. apply nth_error_In, Ef, sem_eqb_eq in Hp. exact Hp. }
        subst p. apply Pr. exact Hp.
      + split; [rewrite map_length; lia|]. split; [exact Pr|].
        assert (K : exists p, In p (map f v) /\ p <> NONE).
        { clear -Ef. induction (map f v) as [|x l IH]; [discriminate|]. cbn in Ef. apply andb_false_iff in Ef as [Ef|Ef].
          - exists x. split; [left; reflexivity|]. intros ->. cbn in Ef. discriminate.
          - destruct (IH Ef) as (p & Ip & Np). exists p. split; [right; exact Ip | exact Np]. }
        destruct K as (p & Ip & Np). apply In_nth_error in Ip as (n & En). exists (Z.of_nat n), p.
        assert (Vg : vget (map f v) (Z.of_nat n) = Some p) by (unfold vget; destruct (Z.ltb_spec (Z.of_nat n) 0); [lia | rewrite Nat2Z.id; exact En]).
        split; [|auto]. destruct n; [|lia]. change (Z.of_nat 0) with 0 in Vg. congruence.
  Qed.

  Lemma pair_preds_in ambig l : forall i x p, In (x, p) (pair_preds ambig i l) <-> In x ambig /\ i <= x /\ vget l (x - i) = Some p.
  Proof.
    induction l as [|q l IH]; intros i x p; cbn [pair_preds].
    - split; [intros []|]. intros (_ & _ & H). unfold vget in H. destruct (_ <? 0); [discriminate|]. destruct (Z.to_nat _); discriminate.
    - assert (K : vget (q :: l) (x - i) = if x =? i then Some q else if x <? i then None else vget l (x - (i + 1))).
      { destruct (Z.eqb_spec x i) as [->|]; [rewrite Z.sub_diag; reflexivity|]. unfold vget. destruct (Z.ltb_spec x i).
        - destruct (Z.ltb_spec (x - i) 0); [reflexivity | lia].
        - destruct (Z.ltb_spec (x - i) 0); [lia|]. destruct (Z.ltb_spec (x - (i + 1)) 0); [lia|].
          replace (Z.to_nat (x - i)) with (Datatypes.S (Z.to_nat (x - (i + 1)))) by lia. reflexivity. }
      rewrite K. destruct (existsb (Z.eqb i) ambig) eqn:E.
      + apply existsb_in in E. cbn [In]. rewrite IH. destruct (Z.eqb_spec x i) as [->|Nx].
        * split; [intros [Q|(_ & Q & _)]; [inversion Q; subst; repeat split; auto; lia | lia]|].
          intros (_ & _ & Q). inversion Q; subst. auto.
        * split.
          -- intros [Q|(A & B & C)]; [inversion Q; congruence|]. destruct (Z.ltb_spec x i); [lia|]. repeat split; auto; lia.
          -- intros (A & B & C). destruct (Z.ltb_spec x i); [lia|]. right. repeat split; auto; lia.
      + rewrite IH. destruct (Z.eqb_spec x i) as [->|Nx].
        * split; [intros (_ & Q & _); lia|]. intros (A & _ & _). apply existsb_in in A. congruence.
        * split; intros (A & B & C); (destruct (Z.ltb_spec x i); [lia|]); repeat split; auto; lia.
  Qed.

  Lemma predictions_ok ambig v : (exists i p, 1 <= i /\ vget v i = Some p /\ p <> NONE) ->
    forall x p, In (x, p) (get_predicate_predictions ambig v) <-> In x ambig /\ 1 <= x /\ vget v x = Some p.
  Proof.
    intros (i & q & Li & Hq & Nq) x p. unfold get_predicate_predictions.
    assert (K : forall y, 1 <= y -> vget (skipn 1 v) (y - 1) = vget v y).
    { intros y Ly. unfold vget. destruct (Z.ltb_spec (y - 1) 0); [lia|]. destruct (Z.ltb_spec y 0); [lia|].
      replace (Z.to_nat y) with (Datatypes.S (Z.to_nat (y - 1))) by lia. destruct v; [destruct (Z.to_nat _)|]; reflexivity. }
    assert (F : forallb (fun s => sem_eqb s NONE) (skipn 1 v) = false).
    { destruct (forallb _ _) eqn:F; [|reflexivity]. rewrite forallb_forall in F. rewrite <- (K i Li) in Hq. unfold vget in Hq.
      destruct (i - 1 <? 0); [discriminate|]. apply nth_error_In, F, sem_eqb_eq in Hq. contradiction. }
    rewrite F, pair_preds_in. split; intros (A & B & C); (split; [exact A|]; split; [exact B|]); [rewrite <- K | rewrite K]; auto.
  Qed.
End Preds.

Section Eval.
  Context {S : Type}.
  Variable ts : seek_ops S.
  Variable ctx : Type.
  Variable sempred : S -> option ctx -> Z -> Z -> bool.
  Variable order : list nat -> list sem -> list sem.
  Hypothesis Hord : reorders order.
  Variable start_index precedence : Z.
  Variable outer : ctx.
  Notation sim := (sim S).

  Lemma eval_preds_ok l : forall (m : sim) acc (P : Z -> Prop), none_is_true (sempred (m_input m)) -> is_set acc P ->
    forall m' out, eval_semantic_context ts ctx sempred precedence outer m l acc = (m', out) ->
    m_input m' = m_input m /\
    is_set out (fun x => P x \/ exists p, In (x, p) l /\ holds ctx (sempred (m_input m)) precedence outer p).
  Proof.
    induction l as [|[x p] l IH]; intros m acc P Hn Hs m' out E; cbn [eval_semantic_context] in E.
    - inversion E; subst. split; [reflexivity|]. eapply is_set_ext; [|exact Hs]. intros y. split; [auto|]. intros [H|(p & [] & _)]. exact H.
    - assert (K : forall P', (forall y, P' y <-> P y \/ (y = x /\ holds ctx (sempred (m_input m)) precedence outer p)) -> forall y,
        (P' y \/ exists q, In (y, q) l /\ holds ctx (sempred (m_input m)) precedence outer q) <->
        (P y \/ exists q, In (y, q) ((x, p) :: l) /\ holds ctx (sempred (m_input m)) precedence outer q)).
      { intros P' HP y. rewrite HP. cbn [In]. split.
        - intros [[H|(-> & H)]|(q & Iq & H)]; [auto | right; exists p; auto | right; exists q; auto].
        - intros [H|(q & [Q|Iq] & H)]; [auto | inversion Q; subst; auto | right; exists q; auto]. }
      destruct (sem_eqb p NONE) eqn:Ep.
      + apply sem_eqb_eq in Ep. subst p. destruct (IH m (bs_insert x acc) _ Hn (is_set_insert x acc P Hs) m' out E) as (E1 & E2).
        split; [exact E1|]. eapply is_set_ext; [apply K|exact E2]. intros y. cbn. split; intros [H|H]; auto.
        * right. split; [exact H|]. apply evaluate_holds. exact Hn.
        * left. apply H.
      + cbn [eval_predicate] in E. unfold eval_predicate in E.
        destruct (evaluate ctx (sempred (m_input m)) precedence outer p) eqn:Ev.
        * eapply IH in E; [|exact Hn|apply is_set_insert; exact Hs]. destruct E as (E1 & E2). split; [exact E1|].
          eapply is_set_ext; [apply K|exact E2]. intros y. apply evaluate_holds in Ev. cbn. split; intros [H|H]; auto. left. apply H.
        * eapply IH in E; [|exact Hn|exact Hs]. destruct E as (E1 & E2). split; [exact E1|].
          eapply is_set_ext; [apply K|exact E2]. intros y. split; [auto|]. intros [H|(_ & H)]; [exact H|]. apply evaluate_holds in H. congruence.
  Qed.

  (** the predicates stored in a decided state *)
  Lemma state_preds_ok (st : pstate) nalts (m : sim) A : d_preds st = [] ->
    is_set (get_conflicting_alts_or_unique_alt unit (d_configs st)) A ->
    (forall x, A x -> 1 <= x <= Z.of_nat nalts /\ exists c, In c (configs (d_configs st)) /\ c_alt c = x) ->
    exists m' st', predicate_dfa_state order st nalts m = Val (m', st') /\ d_accept st' = d_accept st /\ d_configs st' = d_configs st /\
      ((d_preds st' = [] /\ (forall x, A x -> pred_ok (get_conflicting_alts_or_unique_alt unit (d_configs st)) (configs (d_configs st)) x NONE) /\
        ((exists x, A x) -> least A (d_prediction st'))) \/
       (d_preds st' <> [] /\ forall x p, In (x, p) (d_preds st') -> A x /\ pred_ok (get_conflicting_alts_or_unique_alt unit (d_configs st)) (configs (d_configs st)) x p) /\
       (forall x, A x -> exists p, In (x, p) (d_preds st'))).
  Proof.
    intros Hp Hs HA. unfold predicate_dfa_state. set (alts := get_conflicting_alts_or_unique_alt unit (d_configs st)) in *.
    assert (Ai : forall x, In x alts <-> A x) by (intros; apply (proj2 Hs)).
    destruct (preds_ok order Hord alts (configs (d_configs st)) nalts m) as (m' & o & E & Ho).
    { intros c Ic Ac. apply HA, Ai. exact Ac. }
    rewrite E. cbn [obindo]. do 2 eexists. split; [reflexivity|]. destruct o as [v|]; cbn [d_accept d_configs d_preds d_prediction].
    - split; [reflexivity|]. split; [reflexivity|]. right. destruct Ho as (L & Hv & Hx). assert (G := predictions_ok alts v Hx).
      split; [split|].
      + destruct Hx as (i & p & Li & Vi & Np). intros K. assert (In (i, p) (get_predicate_predictions alts v)); [|rewrite K in H; destruct H].
        apply G. split; [|auto]. destruct (in_dec Z.eq_dec i alts) as [H|H]; [exact H|]. destruct Np. apply (Hv i p Vi). tauto.
      + intros x p Hxp. apply G in Hxp as (I1 & _ & V). split; [apply Ai; exact I1 | apply Hv; exact V].
      + intros x Hx'. destruct (HA x Hx') as (R & _). destruct (vget_some v x) as (p & Vp); [lia|]. exists p. apply G. split; [apply Ai; exact Hx'|]. split; [lia | exact Vp].
    - split; [reflexivity|]. split; [reflexivity|]. left. split; [exact Hp|]. split.
      + intros x Hx. apply Ho. destruct (HA x Hx). lia.
      + intros Ex. destruct (is_set_nonempty _ _ Hs Ex) as (x & Hx). assert (Lx := is_set_hd _ _ _ Hs Hx). destruct alts; inversion Hx; subst. exact Lx.
  Qed.
End Eval.
