(** Start states and reach sets are always computed. *)
From Coq Require Import ZArith List Bool Lia Sorted Permutation ZifyBool ZifyNat.
From Verif Require Import Outcome IntervalSetModel PredContextModel PredContextSpec PredContextProofs SemContextModel SemContextProofs.
From Verif Require Import ConfigSetModel ConfigSetSpec ConfigSetProofs DfaModel AtnModel AtnSpec AtnProofs Ll1Model Ll1Spec ParserModel PredictModel.
From Verif Require Import PredictLLSpec PredictLLSetProofs PredictTotalSpec PredictTotalBaseProofs PredictTotalContextProofs PredictTotalStackProofs PredictTotalSetProofs PredictTotalClosureProofs.
Import ListNotations.
Local Open Scope Z_scope.
Local Open Scope outcome_scope.

Section Reach.
  Context {S : Type}.
  Variable ts : seek_ops S.
  Variable a : atn.
  Variable main : Z.
  Hypothesis G : sound_grammar a.
  Hypothesis NS : no_stall a.
  Variable nalts : Z.
  Variable ctx : Type.
  Variable sempred : S -> option ctx -> Z -> Z -> bool.
  Variable order : list nat -> list sem -> list sem.
  Hypothesis Ho : forall at_ l, Permutation (order at_ l) l.
  Variable hash : pctx -> Z.
  Hypothesis Hh : forall x, wf x -> hash x <> 0.
  Variable start_index : Z.
  Variable precedence : Z.
  Variable outer : ctx.
  Variable atn_start_state : Z.
  Hypothesis Hs : exists_state a atn_start_state.
  Variable full : bool.
  Variable J : S -> Prop.
  Hypothesis HJ : full = true -> forall s, J s -> exists s1 s2, k_seek ts s start_index = Val s1 /\
    k_seek ts s1 (s_index (k_base ts) s) = Val s2 /\ J s2.
  Variable d : pdfa.

  Notation sim := (sim S).
  Notation cok := (cok a main nalts full).
  Notation ckind := (ckind a main nalts full).
  Notation sok := (sok a main nalts full).
  Notation mok := (mok a main full J d).

  Definition at_stop (c : pconfig) : Prop := exists s, state_at a (c_state c) = Some s /\ Ll1Spec.is_stop s.
  Lemma cok_at c : cok c -> exists s, state_at a (c_state c) = Some s.
  Proof. intros (x & _ & _ & X & _). apply exists_at, X. Qed.
  Lemma cok_get c : cok c -> exists s, get_state a (c_state c) = Val s /\ state_at a (c_state c) = Some s.
  Proof. intros H. destruct (cok_at c H) as (s & E). exists s. split; [apply get_state_at, E | exact E]. Qed.

  Lemma add_step fin (m : sim) cs c : mok m -> sok fin cs -> ckind fin c ->
    exists m' cs', add_to hash m cs c = Val (m', cs') /\ mok m' /\ sok fin cs' /\ from [c] (configs cs) (configs cs') /\ configs cs' <> [].
  Proof.
    intros M Sc C. destruct (add_total a main nalts hash Hh full fin m cs c Sc C (mo_cache _ _ _ _ _ _ M)) as (m' & cs' & E & S' & K & D & F & N).
    exists m', cs'. split; [exact E|]. split; [eapply mok_same; eauto|]. auto.
  Qed.

  (** ** After a token *)
  Lemma reach_trans_total c s t : ckind true c -> state_at a (c_state c) = Some s -> ~ Ll1Spec.is_stop s ->
    forall l, (forall tr, In tr l -> In tr (st_trans s)) -> forall m cs, mok m -> sok false cs ->
    exists m' cs', reach_trans a hash c t l m cs = Val (m', cs') /\ mok m' /\ sok false cs'.
  Proof.
    intros (Gc & Dc) Es St. destruct (Dc eq_refl _ Es) as (_ & Ep). specialize (Ep St).
    induction l as [|tr l IH]; intros Hl m cs M Sc; cbn [reach_trans]; [eauto|].
    assert (I : In tr (st_trans s)) by (apply Hl; left; reflexivity).
    pose proof (proj1 (g_marked a G _ _ Es) _ I) as Mk. rewrite Ep in Mk.
    destruct (proj2 (proj2 (g_well a G) _ _ Es) St _ I) as (Xt & _ & X).
    assert (Eg : exists b, matches tr t 0 (max_token_type a) = Val b) by (destruct tr; try discriminate Mk; cbn; eauto).
    destruct Eg as (b & Eb). unfold get_reachable_target. rewrite Eb. cbn [obindo]. destruct b.
    - destruct (get_ex a G _ Xt) as (s' & E' & A' & N' & R'). rewrite E'. cbn [obindo].
      destruct (add_step false m cs (pcloned c s') M Sc) as (m1 & cs1 & -> & M1 & S1 & _).
      { split; [|discriminate]. destruct Gc as (x & Ex & Fx & _ & Ax & Rx). exists x. unfold pcloned. cbn. rewrite N'. split; [exact Ex|].
        split; [|auto]. replace (rule_of a (get_target tr)) with (rule_of a (c_state c)); [exact Fx|]. rewrite (rule_at _ _ _ Es).
        destruct tr; try discriminate Mk; symmetry; exact X. }
      cbn [obindo]. apply IH; auto. intros tr' I'. apply Hl. right. exact I'.
    - cbn [obindo]. apply IH; auto. intros tr' I'. apply Hl. right. exact I'.
  Qed.
  Lemma reach_step_total t : forall l m cs sk, Forall (ckind true) l -> mok m -> sok false cs -> Forall (ckind true) sk -> Forall at_stop sk ->
    exists m' cs' sk', reach_step a hash t full l m cs sk = Val (m', cs', sk') /\ mok m' /\ sok false cs' /\ Forall (ckind true) sk' /\ Forall at_stop sk'.
  Proof.
    induction l as [|c l IH]; intros m cs sk Hl M Sc K1 K2; cbn [reach_step]; [eauto 9|]. inversion Hl as [|? ? Hc Hl']; subst.
    destruct (cok_get c (proj1 Hc)) as (s & Es & As). rewrite Es. cbn [obindo]. destruct (PredictModel.is_stop s) eqn:St.
    - apply stop_iff in St. rewrite (proj1 (proj2 Hc eq_refl _ As) St). cbn [unwrap obindo]. cbn. apply IH; auto.
      + destruct (full || (t =? TOKEN_EOF)); [apply Forall_app; auto | exact K1].
      + destruct (full || (t =? TOKEN_EOF)); [apply Forall_app; split; [exact K2|]; constructor; [exists s; auto | constructor] | exact K2].
    - apply stop_not in St. destruct (reach_trans_total c s t Hc As St (st_trans s) (fun _ I => I) m cs M Sc) as (m1 & cs1 & -> & M1 & S1).
      cbn [obindo]. apply IH; auto.
  Qed.

  Lemma has_stop_total l : Forall cok l -> exists b, has_config_in_rule_stop_state a l = Val b.
  Proof.
    induction 1 as [|c l Hc Hl IH]; cbn [has_config_in_rule_stop_state]; [eauto|]. destruct (cok_get c Hc) as (s & -> & _). cbn [obindo].
    destruct (PredictModel.is_stop s); eauto.
  Qed.
  Lemma all_stop_total l : Forall cok l -> exists b, all_configs_in_rule_stop_state a l = Val b /\ (b = true <-> Forall at_stop l).
  Proof.
    induction 1 as [|c l Hc Hl (b & Eb & Hb)]; cbn [all_configs_in_rule_stop_state].
    - exists true. split; [reflexivity|]. split; auto.
    - destruct (cok_get c Hc) as (s & -> & As). cbn [obindo]. destruct (PredictModel.is_stop s) eqn:St.
      + apply stop_iff in St. exists b. split; [exact Eb|]. rewrite Hb. split; [intros Q; constructor; [exists s; auto | exact Q] | intros Q; inversion Q; assumption].
      + apply stop_not in St. exists false. split; [reflexivity|]. split; [discriminate|]. intros Q. inversion Q as [|? ? (s' & A' & S') _]; subst.
        exfalso. apply St. congruence.
  Qed.
  Lemma kinds_cok fin l : Forall (ckind fin) l -> Forall cok l.
  Proof. apply Forall_impl. intros c H. apply H. Qed.

  Lemma stops_from l cs cs' : from l cs cs' -> Forall at_stop l -> Forall at_stop cs -> Forall at_stop cs'.
  Proof.
    intros F A B. rewrite Forall_forall in *. intros e I. destruct (F e I) as (e0 & [H|H] & Se & _).
    - destruct (B _ H) as (s & Q). exists s. rewrite <- Se. exact Q.
    - destruct (A _ H) as (s & Q). exists s. rewrite <- Se. exact Q.
  Qed.
  Lemma remove_loop_total n : forall l m cs, Forall (ckind true) l -> mok m -> sok true cs -> Forall at_stop (configs cs) ->
    exists m' cs', remove_loop a hash n false l m cs = Val (m', cs') /\ mok m' /\ sok true cs' /\ Forall at_stop (configs cs').
  Proof.
    induction l as [|c l IH]; intros m cs Hl M Sc As; cbn [remove_loop]; [eauto 7|]. inversion Hl as [|? ? Hc Hl']; subst.
    destruct (cok_get c (proj1 Hc)) as (s & -> & Es). cbn [obindo andb]. destruct (PredictModel.is_stop s) eqn:St; [|cbn [obindo]; apply IH; auto].
    apply stop_iff in St. destruct (add_step true m cs c M Sc Hc) as (m1 & cs1 & -> & M1 & S1 & F1 & _). cbn [obindo]. apply IH; auto.
    eapply stops_from; [exact F1| |exact As]. constructor; [exists s; auto | constructor].
  Qed.
  Lemma add_each_total : forall l m cs, Forall (ckind true) l -> mok m -> sok true cs ->
    exists m' cs', add_each hash l m cs = Val (m', cs') /\ mok m' /\ sok true cs' /\ from l (configs cs) (configs cs').
  Proof.
    induction l as [|c l IH]; intros m cs Hl M Sc; cbn [add_each]; [exists m, cs; auto using from_refl|]. inversion Hl as [|? ? Hc Hl']; subst.
    destruct (add_step true m cs c M Sc Hc) as (m1 & cs1 & -> & M1 & S1 & F1 & _). cbn [obindo].
    destruct (IH m1 cs1 Hl' M1 S1) as (m2 & cs2 & -> & M2 & S2 & F2). exists m2, cs2. split; [reflexivity|]. split; [exact M2|]. split; [exact S2|].
    apply (from_trans [c] l _ _ _ F1 F2).
  Qed.

  Notation close_all n := (close_all ts a ctx sempred order hash n start_index precedence outer atn_start_state full).
  Lemma close_all_total eof : forall l m cs b, Forall cok l -> mok m -> sok true cs ->
    tot (fun n => close_all n eof l (m, cs, b)) (fun w => mok (fst (fst w)) /\ sok true (snd (fst w))).
  Proof.
    induction l as [|c l IH]; intros m cs b Hl M Sc; cbn [PredictModel.close_all]; [apply tot_val; auto|]. inversion Hl as [|? ? Hc Hl']; subst.
    eapply tot_bind.
    - apply (closure_total ts a main G NS nalts ctx sempred order Ho hash Hh start_index precedence outer atn_start_state Hs full J HJ d eof (c_alt c)
        (eq (c_sem c)) [c_sem c]); auto; [intros s <-; left; reflexivity | discriminate].
    - intros [[m1 cs1] b1] (M1 & S1 & _). apply IH; auto.
  Qed.

  (** ** Reach sets *)
  Lemma unique_loop_zero l : Forall cok l -> forall x, 1 <= x -> (unique_alt_loop unit x l = x /\ forall c, In c l -> c_alt c = x) \/ unique_alt_loop unit x l = INVALID_ALT.
  Proof.
    induction 1 as [|c l Hc Hl IH]; intros x Hx; cbn [unique_alt_loop]; [left; split; [reflexivity | intros c []]|].
    assert (1 <= c_alt c) by (destruct Hc as (? & _ & _ & _ & A & _); lia). unfold INVALID_ALT in *.
    destruct (x =? 0) eqn:E; [lia|]. destruct (negb (c_alt c =? x)) eqn:Q; [right; reflexivity|].
    destruct (IH x Hx) as [(A & B)|A]; [left|right; exact A]. split; [exact A|]. intros c' [<-|I]; [lia | auto].
  Qed.

  Definition reached (t : Z) (r : sim * option pset) : Prop := mok (fst r) /\ forall cs, snd r = Some cs ->
    configs cs <> [] /\ sok false cs /\ (sok true cs \/ get_unique_alt unit (configs cs) <> INVALID_ALT) /\
    (t = TOKEN_EOF -> Forall at_stop (configs cs)).
  Notation compute_reach_set n := (compute_reach_set ts a ctx sempred order hash n start_index precedence outer atn_start_state).
  Lemma one_unique cs : sok false cs -> length (configs cs) = 1%nat -> get_unique_alt unit (configs cs) <> INVALID_ALT.
  Proof.
    intros Sc L. pose proof (so_configs _ _ _ _ _ _ Sc) as H. destruct (configs cs) as [|c [|? ?]]; try discriminate L. inversion H as [|? ? ((x & _ & _ & _ & A & _) & _) _]; subst.
    unfold get_unique_alt, INVALID_ALT. cbn. lia.
  Qed.
  Lemma reach_total l t m : Forall (ckind true) l -> mok m -> tot (fun n => compute_reach_set n l t full m) (reached t).
  Proof.
    intros Hl M. unfold PredictModel.compute_reach_set.
    destruct (reach_step_total t l m (new_base_config_set unit full) [] Hl M (sok_empty _ _ _ _ _) (Forall_nil _) (Forall_nil _)) as (m1 & im & sk & E1 & M1 & S1 & K1 & K2).
    apply (tot_get _ _ _ _ E1). cbv beta iota zeta.
    match goal with |- context [if ?b then Val (m1, im) else _] => set (lte := b) end.
    assert (L : lte = true -> sk = [] /\ t <> TOKEN_EOF /\ get_unique_alt unit (configs im) <> INVALID_ALT).
    { subst lte. intros Q. apply andb_true_iff in Q as (Q & Q3). apply andb_true_iff in Q as (Q1 & Q2). split; [destruct sk; [reflexivity | discriminate]|].
      split; [apply negb_true_iff, Z.eqb_neq in Q2; exact Q2|]. apply orb_true_iff in Q3 as [Q3|Q3].
      - apply one_unique; [exact S1 | apply Nat.eqb_eq, Q3].
      - apply negb_true_iff, Z.eqb_neq in Q3. exact Q3. }
    clearbody lte. apply tot_bind with (P := fun r => mok (fst r) /\ (lte = true -> snd r = im) /\ (lte = false -> sok true (snd r))).
    - apply tot_if; intros Q.
      + apply tot_val. cbn. split; [exact M1|]. split; [auto | congruence].
      + eapply tot_bind; [apply close_all_total; [eapply kinds_cok, (so_configs _ _ _ _ _ _ S1) | exact M1 | apply sok_empty]|].
        intros [[m2 cs2] b2] (M2 & S2). apply tot_val. cbn in *. split; [exact M2|]. split; [congruence | auto].
    - intros [m2 r] (M2 & R1 & R2). cbn [fst snd] in *. cbv beta iota.
      apply tot_bind with (P := fun p => mok (fst p) /\ (lte = true -> snd p = im) /\ (lte = false -> sok true (snd p)) /\ (t = TOKEN_EOF -> Forall at_stop (configs (snd p)))).
      + apply tot_if; intros Q; [|apply tot_val; split; [exact M2|]; split; [exact R1|]; split; [exact R2|]; intros E; rewrite E in Q; discriminate Q].
        assert (lte = false) as El by (destruct lte; [|reflexivity]; destruct (L eq_refl) as (_ & N & _); destruct N; apply Z.eqb_eq, Q). specialize (R2 El).
        unfold remove_all_configs_not_in_rule_stop_state. destruct (all_stop_total (configs r) (kinds_cok _ _ (so_configs _ _ _ _ _ _ R2))) as (b & Eb & Hb).
        apply (tot_get _ _ _ _ Eb). apply tot_if; intros Q'.
        * apply tot_val. cbn. split; [exact M2|]. split; [congruence|]. split; [auto|]. intros _. apply Hb, Q'.
        * rewrite El. destruct (remove_loop_total 0 (configs r) m2 (new_base_config_set unit (full_ctx r)) (so_configs _ _ _ _ _ _ R2) M2) as (m3 & cs3 & E3 & M3 & S3 & A3).
          { rewrite (so_full _ _ _ _ _ _ R2). apply sok_empty. }
          { constructor. }
          apply tot_eq with (r := (m3, cs3)).
          { intros n. rewrite <- E3. clear. revert m2. generalize (new_base_config_set unit (full_ctx r)) as cs. induction (configs r) as [|c l IH]; intros cs m2; cbn [remove_loop]; [reflexivity|].
            destruct (get_state a (c_state c)) as [s| |]; cbn [obindo]; try reflexivity. destruct (PredictModel.is_stop s); cbn [andb obindo]; [|apply IH].
            destruct (add_to hash m2 cs c) as [[m3 cs3]| |]; cbn [obindo]; auto. }
          cbn. split; [exact M3|]. split; [congruence|]. auto.
      + intros [m3 r3] (M3 & T1 & T2 & T3). cbn [fst snd] in *. cbv beta iota.
        assert (S3 : sok false r3) by (destruct lte; [rewrite (T1 eq_refl); exact S1 | apply sok_weaken, T2; reflexivity]).
        apply tot_step with (P := fun b => b = true -> sk <> []).
        { destruct sk as [|c sk]; cbn [has_no]; [exists false; split; [reflexivity | discriminate]|].
          destruct (has_stop_total (configs r3) (kinds_cok _ _ (so_configs _ _ _ _ _ _ S3))) as (h & Eh).
          match goal with |- context [if negb ?b then Val true else _] => destruct b end; cbn [negb]; [|exists true; split; [reflexivity|discriminate]].
          rewrite Eh. cbn [obindo]. eexists. split; [reflexivity | discriminate]. }
        intros add Hadd. apply tot_bind with (P := fun p => mok (fst p) /\ sok false (snd p) /\ (sok true (snd p) \/ snd p = im /\ lte = true) /\ (t = TOKEN_EOF -> Forall at_stop (configs (snd p)))).
        * apply tot_if; intros Q.
          -- assert (lte = false) as El by (destruct lte; [|reflexivity]; destruct (L eq_refl) as (N & _); destruct (Hadd Q N)).
             destruct (add_each_total sk m3 r3 K1 M3 (T2 El)) as (m4 & cs4 & E4 & M4 & S4 & F4). apply tot_eq with (r := (m4, cs4)); [auto|]. cbn.
             split; [exact M4|]. split; [apply sok_weaken, S4|]. split; [auto|]. intros Qt. eapply stops_from; [exact F4 | exact K2 | auto].
          -- apply tot_val. cbn. split; [exact M3|]. split; [exact S3|]. split; [destruct lte; auto | exact T3].
        * intros [m4 r4] (M4 & S4 & Fi & St). cbn [fst snd] in *. cbv beta iota. apply tot_val. split; [exact M4|]. cbn [snd].
          intros cs Q. destruct (configs r4) as [|c4 l4] eqn:E4; cbn [has_no] in Q; [discriminate|]. inversion Q; subst cs. rewrite E4. split; [discriminate|].
          split; [exact S4|]. split; [|exact St]. destruct Fi as [Fi|(-> & Fi)]; [left; exact Fi|]. right. rewrite <- E4. apply (L Fi).
  Qed.

  (** ** Start states *)
  Notation compute_start_state n := (compute_start_state ts a ctx sempred order hash n start_index precedence outer atn_start_state).
  Lemma start_loop_total R x : fits a main (negb full) R x -> forall l i m cs, 
    (forall t, In t l -> exists_state a (get_target t) /\ rule_of a (get_target t) = R) -> 1 <= i -> i + Z.of_nat (length l) = nalts + 1 -> mok m -> sok true cs ->
    tot (fun n => start_loop ts a ctx sempred order hash n start_index precedence outer atn_start_state x full i l m cs) (fun r => mok (fst r) /\ sok true (snd r)).
  Proof.
    intros Fx. induction l as [|t l IH]; intros i m cs Hl Hi Hn M Sc; cbn [start_loop]; [apply tot_val; auto|].
    destruct (Hl t (or_introl eq_refl)) as (Xt & Rt). destruct (get_ex a G _ Xt) as (s & Es & As & Ns & Rs).
    apply (tot_get _ _ _ _ Es). eapply tot_bind.
    - apply (closure_total ts a main G NS nalts ctx sempred order Ho hash Hh start_index precedence outer atn_start_state Hs full J HJ d false i
        (form (predicates a)) (all_sems (predicates a))); auto.
      + apply form_all.
      + exists x. cbn. rewrite Ns, Rt. split; [reflexivity|]. split; [exact Fx|]. split; [exact Xt|]. split; [cbn [length] in Hn; lia | reflexivity].
      + left. reflexivity.
      + intros _ s0 at_ p F I. apply form_and; auto. apply predicates_flat.
    - intros [[m1 cs1] b1] (M1 & S1 & _). cbn [fst snd] in *. apply IH; auto; [intros t' I'; apply Hl; right; exact I' | lia | cbn [length] in Hn; lia].
  Qed.
  Lemma start_total R x s m : fits a main (negb full) R x -> state_at a atn_start_state = Some s -> ~ Ll1Spec.is_stop s -> st_rule s = R ->
    (forall t, In t (st_trans s) -> is_call t = false) -> nalts = Z.of_nat (length (st_trans s)) -> mok m ->
    tot (fun n => compute_start_state n atn_start_state x full m) (fun r => mok (fst r) /\ sok true (snd r)).
  Proof.
    intros Fx Es St Rs Nc Hn M. unfold PredictModel.compute_start_state. apply (tot_get _ _ _ _ (proj2 (get_state_at _ _ _) Es)).
    apply start_loop_total with (R := R); auto; [|lia|lia|apply sok_empty]. intros t I. destruct (proj2 (proj2 (g_well a G) _ _ Es) St _ I) as (Xt & _ & X).
    split; [exact Xt|]. specialize (Nc _ I). rewrite <- Rs. destruct t; try exact X. discriminate Nc.
  Qed.
End Reach.
