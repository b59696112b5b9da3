(** Prediction with the whole call stack: the sets follow the runs of the alternatives. *)
From Coq Require Import ZArith List Bool Lia Sorted ZifyBool ZifyNat Permutation.
From Verif Require Import Outcome IntervalSetModel PredContextModel PredContextSpec PredContextProofs SemContextModel SemContextProofs.
From Verif Require Import ConfigSetModel ConfigSetSpec ConfigSetProofs DfaModel AtnModel AtnSpec AtnProofs Ll1Model Ll1Spec ParserModel PredictModel.
From Verif Require Import PredictFrameProofs PredictLLSpec PredictLLContextProofs PredictLLSetProofs PredictLLClosureProofs PredictLLReachProofs.
Import ListNotations.
Local Open Scope Z_scope.
Local Open Scope outcome_scope.

(** ** Runs *)
Section Runs.
  Variable a : atn.
  Lemma run_app p u q v r : run a p u q -> run a q v r -> run a p (u ++ v) r.
  Proof. induction 1; intros; cbn [app]; [assumption | eapply run_move; eauto | eapply run_take; eauto]. Qed.
  Lemma cmoves_run p q : cmoves a false p q -> run a p [] q.
  Proof. induction 1 as [|p q r [M|(Q & _)] _ IH]; [constructor | eapply run_move; eauto | discriminate]. Qed.
  Lemma run_cmoves eof p q : run a p [] q -> cmoves a eof p q.
  Proof.
    intros H. remember [] as w. induction H; [constructor | | discriminate]. eapply cm_step; [left; eassumption | auto].
  Qed.
  Lemma run_cons_inv p x w r : run a p (x :: w) r -> exists q q', run a p [] q /\ take a x q q' /\ run a q' w r.
  Proof.
    intros H. remember (x :: w) as v. induction H; [discriminate | |].
    - destruct (IHrun Heqv) as (q1 & q2 & A & B & C). exists q1, q2. split; [eapply run_move; eauto | auto].
    - inversion Heqv; subst. exists p, q. split; [constructor | auto].
  Qed.
  Lemma run_app_inv u : forall p v r, run a p (u ++ v) r -> exists q, run a p u q /\ run a q v r.
  Proof.
    induction u as [|x u IH]; intros p v r H; cbn [app] in H; [exists p; split; [constructor | exact H]|].
    apply run_cons_inv in H as (q & q' & A & B & C). apply IH in C as (q1 & C1 & C2). exists q1. split; [|exact C2].
    change (x :: u) with ([] ++ x :: u). eapply run_app; [exact A|]. eapply run_take; eauto.
  Qed.
  Lemma cmoves_eof p q : cmoves a true p q <-> exists n, run a p (repeat TOKEN_EOF n) q.
  Proof.
    split.
    - induction 1 as [p|p q r M _ (n & IH)]; [exists 0%nat; constructor|]. destruct M as [M|(_ & M)].
      + exists n. eapply run_move; eauto.
      + exists (Datatypes.S n). cbn [repeat]. eapply run_take; eauto.
    - intros (n & H). remember (repeat TOKEN_EOF n) as w. revert n Heqw. induction H; intros n E; [constructor | |].
      + eapply cm_step; [left; eassumption | eauto].
      + destruct n as [|n]; [discriminate|]. cbn [repeat] in E. inversion E; subst. eapply cm_step; [right; eauto | eauto].
  Qed.
End Runs.

Section Full.
  Context {S : Type}.
  Variable ts : seek_ops S.
  Variable a : atn.
  Variable main : Z.
  Hypothesis G : simple_grammar a main.
  Variable ctx : Type.
  Variable sempred : S -> option ctx -> Z -> Z -> bool.
  Variable order : list nat -> list sem -> list sem.
  Variable alt_order : list (list Z) -> list (list Z).
  Hypothesis Horder : forall l, Permutation (alt_order l) l.
  Variable hash : pctx -> Z.
  Variable fuel : nat.
  Variable mode : pmode.
  Variable start_index : Z.
  Variable precedence : Z.
  Variable outer : ctx.
  Variable atn_start_state : Z.

  Notation sim := (sim S).
  Notation stk := (stk a main).
  Notation fs := (fs a).
  Notation stop_at := (stop_at a).
  Notation cgood := (cgood a main).
  Notation F := (den false).

  Lemma run_stk p u q g g0 p0 : p = (p0, g0) -> run a p u (q, g) -> stk p0 g0 -> stk q g.
  Proof.
    intros E H. remember (q, g) as r. revert p0 g0 E q g Heqr. induction H; intros p0 g0 E q1 g1 Er K; subst.
    - inversion Er; subst. exact K.
    - destruct q as [q2 g2]. eapply IHrun; eauto. eapply move_stk; eauto.
    - destruct q as [q2 g2]. eapply IHrun; eauto. eapply take_stk; eauto.
  Qed.
  (** a run from a final position that takes nothing stays *)
  Lemma run_fs q g p : fs q -> stk q g -> run a (q, g) [] p -> p = (q, g).
  Proof.
    intros Fq K H. remember [] as w. remember (q, g) as p0. destruct H; [reflexivity | | discriminate]. subst. exfalso. eapply fs_no_move; eauto.
  Qed.
  Lemma stop_no_take q g x p : stop_at q -> ~ take a x (q, g) p.
  Proof. intros (s & E & St) M. apply take_inv in M as (s' & t & E' & St' & _). congruence. Qed.

  (** ** The decision *)
  Variable conts : list Z.
  Variable s : atn_state.
  Hypothesis Hs : state_at a atn_start_state = Some s.
  Hypothesis Hstk : forall t, In t (st_trans s) -> stk (get_target t) conts.

  Definition Runs (j : Z) (u : list Z) (p : position) : Prop :=
    exists t, 1 <= j /\ nth_error (st_trans s) (Z.to_nat (j - 1)) = Some t /\ run a (get_target t, conts) u p.
  Lemma runs_stk j u q g : Runs j u (q, g) -> stk q g.
  Proof. intros (t & _ & N & H). eapply run_stk; [reflexivity | exact H|]. apply Hstk. eapply nth_error_In; eauto. Qed.
  Lemma runs_app j u p v q : Runs j u p -> run a p v q -> Runs j (u ++ v) q.
  Proof. intros (t & L & N & H) R. exists t. split; [exact L|]. split; [exact N|]. eapply run_app; eauto. Qed.
  Lemma runs_inv j u v q : Runs j (u ++ v) q -> exists p, Runs j u p /\ run a p v q.
  Proof. intros (t & L & N & H). apply run_app_inv in H as (p & A & B). exists p. split; [exists t; auto | exact B]. Qed.
  Lemma stop_stk_nil q g : stop_at q -> fs q -> stk q g -> g = [].
  Proof. intros (s' & E & St) Fq K. eapply fs_stop_stk; eauto. Qed.
  Lemma stop_fs q : stop_at q -> stk q [] -> fs q.
  Proof. intros (s' & E & St) K. eapply fs_stop_stk; eauto. Qed.

  (** completing after [u]: the remaining types [w], [n] times EOF *)
  Definition via (j : Z) (w : list Z) (n : nat) (q : Z) : Prop := Runs j (w ++ repeat TOKEN_EOF n) (q, []) /\ stop_at q.
  Lemma viable_via w n j : viable a atn_start_state conts w n j <-> exists q, via j w n q.
  Proof.
    unfold viable, completes, via, Runs, PredictLLReachProofs.stop_at. split.
    - intros (s' & t & E & L & N & q & s1 & R & E1 & St). rewrite Hs in E. inversion E; subst s'. exists q. split; [|exists s1; auto]. exists t. auto.
    - intros (q & (t & L & N & R) & s1 & E1 & St). exists s, t. split; [exact Hs|]. split; [exact L|]. split; [exact N|]. exists q, s1. auto.
  Qed.
  Lemma via_split j u v n q : via j (u ++ v) n q -> exists q' g', Runs j u (q', g') /\ fs q' /\
    (forall j', Runs j' u (q', g') -> via j' (u ++ v) n q) /\
    match v, n with
    | [], O => q' = q /\ g' = []
    | [], Datatypes.S n => exists q1, take a TOKEN_EOF (q', g') (q1, g') /\ run a (q1, g') (repeat TOKEN_EOF n) (q, [])
    | x :: v, _ => exists q1, take a x (q', g') (q1, g') /\ run a (q1, g') (v ++ repeat TOKEN_EOF n) (q, [])
    end.
  Proof.
    intros (R & St). rewrite <- app_assoc in R.
    assert (Rest : v ++ repeat TOKEN_EOF n = match v, n with
      | [], O => []
      | [], Datatypes.S n => TOKEN_EOF :: repeat TOKEN_EOF n
      | x :: v, _ => x :: v ++ repeat TOKEN_EOF n end) by (destruct v, n; reflexivity).
    assert (X : forall x rest, v ++ repeat TOKEN_EOF n = x :: rest -> exists q' g', Runs j u (q', g') /\ fs q' /\
      (forall j', Runs j' u (q', g') -> via j' (u ++ v) n q) /\ exists q1, take a x (q', g') (q1, g') /\ run a (q1, g') rest (q, [])).
    { intros x rest E. rewrite E in R. apply runs_inv in R as ([q0 g0] & A & B). apply run_cons_inv in B as ([q' g'] & [q1 g1] & B1 & B2 & B3).
      exists q', g'. pose proof (runs_app _ _ _ _ _ A B1) as A'. rewrite app_nil_r in A'.
      split; [exact A'|]. split; [eapply take_fs; eauto|].
      assert (g1 = g') by (apply take_inv in B2 as (? & ? & _ & _ & _ & _ & P); inversion P; reflexivity). subst g1. split; [|eauto].
      intros j' Q. split; [|exact St]. rewrite <- app_assoc, E. eapply runs_app; [exact Q|]. eapply run_take; eauto. }
    destruct v as [|x v]; [destruct n as [|n]|].
    - cbn [app repeat] in R. rewrite app_nil_r in R. exists q, []. split; [exact R|]. split; [apply stop_fs; [exact St | eapply runs_stk; eauto]|].
      split; [|auto]. intros j' Q. split; [|exact St]. cbn [repeat]. rewrite !app_nil_r. exact Q.
    - destruct (X _ _ Rest) as (q' & g' & A & B & C & D). exists q', g'. auto.
    - destruct (X _ _ Rest) as (q' & g' & A & B & C & D). exists q', g'. auto.
  Qed.

  (** ** Sets after the tokens [u] *)
  Record full_inv (u : list Z) (cs : list pconfig) : Prop := {
    fi_good : Forall (cgood true) cs;
    fi_fs : forall q j, has_key cs q j -> fs q;
    fi_complete : forall j q g, Runs j u (q, g) -> fs q -> F cs j q g;
    fi_sound : forall j q g, F cs j q g -> Runs j u (q, g) \/
      (stop_at q /\ g = [] /\ stk q [] /\ forall j' q' g', Runs j' u (q', g') -> fs q' -> ~ stop_at q')
  }.
  Lemma fi_stk u cs j q g : full_inv u cs -> F cs j q g -> stk q g.
  Proof. intros Iv Q. apply (fi_sound _ _ Iv) in Q as [Q|(_ & -> & K & _)]; [eapply runs_stk; eauto | exact K]. Qed.

  Lemma takes_iff u cs t : full_inv u cs -> forall j q g, takes a true cs t j q g <-> exists q0, Runs j u (q0, g) /\ take a t (q0, g) (q, g).
  Proof.
    intros Iv j q g. unfold takes. cbn [negb]. split; intros (q0 & A & B); exists q0; (split; [|exact B]).
    - apply (fi_sound _ _ Iv) in A as [A|(A & _)]; [exact A|]. exfalso. eapply stop_no_take; eauto.
    - apply (fi_complete _ _ Iv); [exact A | eapply take_fs; eauto].
  Qed.

  Lemma next_genuine u cs t : t <> TOKEN_EOF -> full_inv u cs -> forall j q g, Runs j (u ++ [t]) (q, g) -> fs q -> genuine a main true cs t j q g.
  Proof.
    intros Nt Iv. assert (Et : (t =? TOKEN_EOF) = false) by (apply Z.eqb_neq, Nt).
    intros j q g R Fq. apply runs_inv in R as ([q0 g0] & R0 & R1). apply run_cons_inv in R1 as ([q1 g1] & [q2 g2] & B1 & B2 & B3).
      assert (g2 = g1) by (apply take_inv in B2 as (? & ? & _ & _ & _ & _ & P); inversion P; reflexivity). subst g2.
      pose proof (runs_app _ _ _ _ _ R0 B1) as R1. rewrite app_nil_r in R1.
      exists q2, g1. split; [apply (takes_iff u); eauto|]. split; [eapply take_stk; [exact G | exact B2 | eapply runs_stk; eauto]|].
      rewrite Et. split; [apply run_cmoves, B3|]. split; [exact Fq | congruence].
  Qed.
  Lemma full_next u cs t r : t <> TOKEN_EOF -> tok_ok a t -> full_inv u cs -> Forall (cgood true) r -> reached a main true cs t r -> full_inv (u ++ [t]) r.
  Proof.
    intros Nt Ok Iv Gr Re. assert (Et : (t =? TOKEN_EOF) = false) by (apply Z.eqb_neq, Nt).
    pose proof (next_genuine u cs t Nt Iv) as Gen.
    constructor.
    - exact Gr.
    - apply Re.
    - intros j q g R Fq. apply (re_complete _ _ _ _ _ _ Re Ok), Gen; assumption.
    - intros j q g Q. apply (re_sound _ _ _ _ _ _ Re Ok eq_refl) in Q as [(q' & g' & T & M)|(Q & St & No)].
      + left. rewrite Et in M. apply (takes_iff u) in T as (q0 & R & T); [|exact Iv].
        eapply runs_app; [exact R|]. eapply run_take; [exact T|]. apply cmoves_run, M.
      + right. cbn [negb] in Q. assert (Fq : fs q) by (eapply (fi_fs _ _ Iv), den_key, Q).
        pose proof (fi_stk _ _ _ _ _ Iv Q) as K. pose proof (stop_stk_nil _ _ St Fq K). subst g.
        split; [exact St|]. split; [reflexivity|]. split; [exact K|]. intros j' q' g' R Fq'. eapply No, Gen; eauto.
  Qed.

  (** ** Groups *)
  Lemma cgood_good cs : Forall (cgood true) cs -> Forall (good_config) cs.
  Proof. rewrite !Forall_forall. intros H c I. destruct (H c I) as (x & E & W & _). exists x. auto. Qed.

  (** an alternative that is the least of every group is at every position of the set *)
  Lemma group_den cs p : Forall (cgood true) cs -> (forall g, group cs g -> least (alt_of cs g) p) ->
    forall j q g, F cs j q g -> F cs p q g /\ p <= j.
  Proof.
    intros Gc H j q g (c & x & I & <- & <- & Ex & St).
    assert (A : alt_of cs (c_state c, x) (c_alt c)) by (exists c; auto).
    destruct (H (c_state c, x)) as ((c' & I' & E1 & E2 & E3) & L); [exists (c_alt c); exact A|]. cbn in E1, E2.
    split; [exists c', x; auto | apply L, A].
  Qed.

  Definition chosen_by (cs : list pconfig) (p : Z) : Prop := forall j q g, F cs j q g -> F cs p q g /\ p <= j.

  Lemma viable_groups cs ss p : Forall (cgood true) cs -> cs <> [] -> get_conflicting_alt_subsets unit alt_order cs = Val ss ->
    get_single_viable_alt ss = Val p -> p <> INVALID_ALT -> chosen_by cs p.
  Proof.
    intros Gc Ne E1 E2 Np. destruct (subsets_ok unit alt_order Horder cs (cgood_good _ Gc)) as (gs & ss' & E & Nd & Gs & F2).
    rewrite E1 in E. inversion E; subst ss'. clear E.
    destruct (single_viable_ok _ _ _ _ F2) as (v & Ev & V1 & _).
    - intros g I. apply Gs in I. exact I.
    - intros g x I (c & Ic & _ & _ & <-). rewrite Forall_forall in Gc. destruct (Gc _ Ic) as (y & _ & _ & _ & _ & Al & _). unfold INVALID_ALT. lia.
    - rewrite E2 in Ev. inversion Ev; subst v. destruct (V1 Np) as (_ & V). intros j q g Q. eapply group_den; eauto.
      intros g0 Hg. apply V, Gs, Hg.
  Qed.

  (** ** The result *)
  Definition good_choice (w : list Z) (p : Z) : Prop :=
    (forall j n q, via j w n q -> exists n q, via p w n q) /\
    (forall j, (exists n q, via j w (Datatypes.S n) q) -> p <= j /\ exists n q, via p w (Datatypes.S n) q) /\
    ((forall j n q, ~ via j w (Datatypes.S n) q) -> forall j, (exists q, via j w O q) -> p <= j /\ exists q, via p w O q).
  Definition hopeless (w : list Z) : Prop := forall j n q, ~ via j w n q.
  Definition good_result (w : list Z) (r : presult) : Prop := hopeless w \/ exists p, r = Predicted p /\ good_choice w p.

  Lemma chosen_good u v cs p : full_inv u cs -> chosen_by cs p -> good_choice (u ++ v) p.
  Proof.
    intros Iv Ch.
    assert (X : forall j n q, via j (u ++ v) n q -> p <= j /\ via p (u ++ v) n q).
    { intros j n q V. destruct (via_split _ _ _ _ _ V) as (q' & g' & R & Fq & All & _).
      pose proof (fi_complete _ _ Iv _ _ _ R Fq) as Q. destruct (Ch _ _ _ Q) as (Qp & L). split; [exact L|]. apply All.
      apply (fi_sound _ _ Iv) in Qp as [Qp|(St & _ & _ & No)]; [exact Qp|]. destruct (No _ _ _ R Fq St). }
    split; [|split].
    - intros j n q V. destruct (X _ _ _ V). eauto.
    - intros j (n & q & V). destruct (X _ _ _ V). eauto.
    - intros _ j (q & V). destruct (X _ _ _ V). eauto.
  Qed.
  Lemma unique_good w p : (forall j n q, via j w n q -> j = p) -> good_choice w p.
  Proof.
    intros H. split; [|split].
    - intros j n q V. pose proof (H _ _ _ V). subst j. eauto.
    - intros j (n & q & V). pose proof (H _ _ _ V). subst j. split; [lia | eauto].
    - intros _ j (q & V). pose proof (H _ _ _ V). subst j. split; [lia | eauto].
  Qed.

  (** ** Sets after EOF *)
  Record eof_inv (w : list Z) (cs : list pconfig) : Prop := {
    ei_dec : (exists j n q, via j w (Datatypes.S n) q) \/ (forall j n q, ~ via j w (Datatypes.S n) q);
    ei_good : Forall (cgood true) cs;
    ei_fs : forall q j, has_key cs q j -> fs q;
    ei_stop : forall q j, has_key cs q j -> stop_at q;
    ei_stk : forall j q g, F cs j q g -> stk q g;
    ei_one : forall j n q, via j w (Datatypes.S n) q -> F cs j q [];
    ei_one_sound : (exists j n q, via j w (Datatypes.S n) q) -> forall j q g, F cs j q g -> exists n, via j w (Datatypes.S n) q;
    ei_zero : (forall j n q, ~ via j w (Datatypes.S n) q) -> forall j q, via j w O q -> F cs j q [];
    ei_zero_sound : (forall j n q, ~ via j w (Datatypes.S n) q) -> (exists j q, via j w O q) -> forall j q g, F cs j q g -> via j w O q
  }.
  Lemma eof_genuine w cs j q g : full_inv w cs -> (genuine a main true cs TOKEN_EOF j q g <-> g = [] /\ exists n, via j w (Datatypes.S n) q).
  Proof.
    intros Iv. split.
    - intros (q' & g' & T & K & M & Fq & St). specialize (St eq_refl). apply (takes_iff w) in T as (q0 & R & T); [|exact Iv].
      cbn in M. apply cmoves_eof in M as (n & M).
      assert (R1 : Runs j (w ++ repeat TOKEN_EOF (Datatypes.S n)) (q, g)).
      { eapply runs_app; [exact R|]. cbn [repeat]. eapply run_take; eauto. }
      pose proof (stop_stk_nil _ _ St Fq (runs_stk _ _ _ _ R1)). subst g. split; [reflexivity|]. exists n. split; assumption.
    - intros (-> & n & V). pose proof V as (R & St). rewrite <- (app_nil_r w) in V.
      destruct (via_split _ _ _ _ _ V) as (q' & g' & R1 & Fq & _ & q1 & T & M).
      exists q1, g'. split; [apply (takes_iff w); eauto|]. split; [eapply take_stk; [exact G | exact T | eapply runs_stk; eauto]|].
      cbn. split; [apply cmoves_eof; eauto|]. split; [|auto]. apply stop_fs; [exact St | eapply runs_stk; eauto].
  Qed.
  Lemma full_eof w cs r : full_inv w cs -> r <> [] -> Forall (cgood true) r -> reached a main true cs TOKEN_EOF r -> eof_inv w r.
  Proof.
    intros Iv Ne Gr Re. assert (Ok : tok_ok a TOKEN_EOF) by (left; reflexivity).
    pose proof (re_complete _ _ _ _ _ _ Re Ok) as Co. pose proof (re_sound _ _ _ _ _ _ Re Ok eq_refl) as So.
    pose proof (re_stale _ _ _ _ _ _ Re Ok eq_refl) as Sl. pose proof (re_stop _ _ _ _ _ _ Re eq_refl) as Sp. cbn [negb] in *.
    assert (Snd : forall j q g, F r j q g -> (exists n, via j w (Datatypes.S n) q) \/ (F cs j q g /\ forall j n q, ~ via j w (Datatypes.S n) q)).
    { intros j q g Q. pose proof (Sp _ _ (den_key _ _ _ _ _ Q)) as St. pose proof (re_fs _ _ _ _ _ _ Re _ _ (den_key _ _ _ _ _ Q)) as Fq.
      destruct (So _ _ _ Q) as [(q' & g' & T & M)|(Q' & _ & No)].
      - left. apply (eof_genuine w cs j q g Iv). exists q', g'. split; [exact T|]. split; [|auto].
        apply (takes_iff w) in T as (q0 & R & T); [|exact Iv]. eapply take_stk; [exact G | exact T | eapply runs_stk; eauto].
      - right. split; [exact Q'|]. intros j' n q' V. apply (No j' q' []); [|apply V]. apply (eof_genuine w cs); eauto. }
    constructor.
    - destruct r as [|c r]; [congruence|]. inversion Gr as [|? ? (x & Ex & Wx & _) _]; subst. destruct (stands_any false x Wx) as (g & Sg).
      assert (Q : F (c :: r) (c_alt c) (c_state c) g) by (exists c, x; cbn; auto). destruct (Snd _ _ _ Q) as [(n & V)|(_ & No)]; eauto 6.
    - exact Gr.
    - apply Re.
    - exact Sp.
    - intros j q g Q. destruct (Snd _ _ _ Q) as [(n & R & _)|(Q' & _)]; [|eapply fi_stk; eauto].
      pose proof (runs_stk _ _ _ _ R) as K. destruct (So _ _ _ Q) as [(q' & g' & T & M)|(Q' & _)]; [|eapply fi_stk; eauto].
      apply (takes_iff w) in T as (q0 & R' & T); [|exact Iv]. eapply cmoves_stk; [exact G | exact M|]. eapply take_stk; [exact G | exact T | eapply runs_stk; eauto].
    - intros j n q V. apply Co. apply (eof_genuine w cs); eauto.
    - intros (j0 & n0 & q0 & V0) j q g Q. destruct (Snd _ _ _ Q) as [V|(_ & No)]; [exact V | destruct (No _ _ _ V0)].
    - intros No j q (R & St). cbn [repeat] in R. rewrite app_nil_r in R. apply Sl; [|apply (fi_complete _ _ Iv); [exact R|]|exact St].
      + intros j' q' g' Q. apply (eof_genuine w cs) in Q as (_ & n & V); [|exact Iv]. destruct (No _ _ _ V).
      + apply stop_fs; [exact St | eapply runs_stk; eauto].
    - intros No (j0 & q0 & V0) j q g Q. destruct (Snd _ _ _ Q) as [(n & V)|(Q' & _)]; [destruct (No _ _ _ V)|].
      pose proof (Sp _ _ (den_key _ _ _ _ _ Q)) as St. destruct V0 as (R0 & St0). cbn [repeat] in R0. rewrite app_nil_r in R0.
      apply (fi_sound _ _ Iv) in Q' as [R|(_ & _ & _ & No')].
      + pose proof (stop_stk_nil _ _ St (re_fs _ _ _ _ _ _ Re _ _ (den_key _ _ _ _ _ Q)) (runs_stk _ _ _ _ R)). subst g.
        split; [|exact St]. cbn [repeat]. rewrite app_nil_r. exact R.
      + destruct (No' _ _ _ R0); [apply stop_fs; [exact St0 | eapply runs_stk; eauto] | exact St0].
  Qed.
  (** EOF again changes nothing *)
  Lemma stop_no_genuine full cs j q g : (forall q j, has_key cs q j -> stop_at q) -> forall t, ~ genuine a main full cs t j q g.
  Proof. intros H t (q' & g' & (q0 & Q & T) & _). eapply stop_no_take; [|exact T]. eapply H, den_key, Q. Qed.
  Lemma eof_again w cs r : eof_inv w cs -> Forall (cgood true) r -> reached a main true cs TOKEN_EOF r -> eof_inv w r.
  Proof.
    intros Iv Gr Re. assert (Ok : tok_ok a TOKEN_EOF) by (left; reflexivity).
    assert (Same : forall j q g, F r j q g <-> F cs j q g).
    { intros j q g. split; intros Q.
      - destruct (re_sound _ _ _ _ _ _ Re Ok eq_refl _ _ _ Q) as [(q' & g' & (q0 & Q0 & T) & M)|(Q' & _)]; [|exact Q'].
        exfalso. eapply stop_no_take; [|exact T]. eapply (ei_stop _ _ Iv), den_key, Q0.
      - apply (re_stale _ _ _ _ _ _ Re Ok eq_refl); [|exact Q|eapply (ei_stop _ _ Iv), den_key, Q].
        intros j' q' g' Q'. destruct (stop_no_genuine true cs j' q' g' (ei_stop _ _ Iv) _ Q'). }
    destruct Iv as [I0 I1 I2 I3 I4 I5 I6 I7 I8]. constructor; auto.
    - apply Re.
    - apply (re_stop _ _ _ _ _ _ Re eq_refl).
    - intros j q g Q. apply Same in Q. eauto.
    - intros j n q V. apply Same. eauto.
    - intros Ex j q g Q. apply Same in Q. eauto.
    - intros No j q V. apply Same. eauto.
    - intros No Ex j q g Q. apply Same in Q. eauto.
  Qed.
  Lemma eof_chosen w cs p : eof_inv w cs -> chosen_by cs p -> good_choice w p.
  Proof.
    intros Iv Ch. split; [|split].
    - intros j n q V. destruct (ei_dec _ _ Iv) as [Ex|No].
      + pose proof Ex as (j1 & n1 & q1 & V1). destruct (Ch _ _ _ (ei_one _ _ Iv _ _ _ V1)) as (Q & _).
        destruct (ei_one_sound _ _ Iv Ex _ _ _ Q) as (n' & V'). eauto.
      + destruct n as [|n]; [|destruct (No _ _ _ V)]. destruct (Ch _ _ _ (ei_zero _ _ Iv No _ _ V)) as (Q & _).
        exists O, q. apply (ei_zero_sound _ _ Iv No (ex_intro _ j (ex_intro _ q V)) _ _ _ Q).
    - intros j (n & q & V). destruct (Ch _ _ _ (ei_one _ _ Iv _ _ _ V)) as (Q & L). split; [exact L|].
      destruct (ei_one_sound _ _ Iv (ex_intro _ j (ex_intro _ n (ex_intro _ q V))) _ _ _ Q) as (n' & V'). eauto.
    - intros No j (q & V). destruct (Ch _ _ _ (ei_zero _ _ Iv No _ _ V)) as (Q & L). split; [exact L|].
      exists q. apply (ei_zero_sound _ _ Iv No (ex_intro _ j (ex_intro _ q V)) _ _ _ Q).
  Qed.
  Lemma eof_hopeless w cs : eof_inv w cs -> (forall j q g, ~ F cs j q g) -> hopeless w.
  Proof.
    intros Iv No. assert (X : forall j n q, ~ via j w (Datatypes.S n) q) by (intros j n q V; apply (No j q []), (ei_one _ _ Iv _ _ _ V)).
    intros j [|n] q V; [|exact (X _ _ _ V)]. apply (No j q []), (ei_zero _ _ Iv X _ _ V).
  Qed.

  Lemma one_chosen cs p : (forall q j, has_key cs q j -> j = p) -> chosen_by cs p.
  Proof. intros H j q g Q. pose proof (H _ _ (den_key _ _ _ _ _ Q)). subst j. split; [exact Q | lia]. Qed.
  Lemma unique_alt_all full cs p : Forall (cgood full) cs -> cs <> [] ->
    (get_unique_alt unit cs <> INVALID_ALT -> forall q j, has_key cs q j -> j = get_unique_alt unit cs) /\
    (get_unique_alt unit cs = INVALID_ALT -> ~ forall q j, has_key cs q j -> j = p).
  Proof.
    intros Gc Ne. destruct (unique_alt_ok unit cs) as (U1 & U2).
    { intros c I. rewrite Forall_forall in Gc. destruct (Gc _ I) as (x & _ & _ & _ & _ & Al & _). unfold INVALID_ALT. lia. }
    split.
    - intros N q j (c & I & _ & <-). apply (U1 N), I.
    - intros E All. destruct (U2 E) as [Q|(c & c' & I & I' & N)]; [contradiction|].
      apply N. rewrite (All (c_state c) (c_alt c)), (All (c_state c') (c_alt c')); [reflexivity | exists c'; auto | exists c; auto].
  Qed.
  Lemma exact_groups cs ss p : Forall (cgood true) cs -> cs <> [] -> get_conflicting_alt_subsets unit alt_order cs = Val ss ->
    all_subsets_equal ss = true -> get_single_viable_alt ss = Val p -> p <> INVALID_ALT.
  Proof.
    intros Gc Ne E1 Eq E2. destruct (subsets_ok unit alt_order Horder cs (cgood_good _ Gc)) as (gs & ss' & E & Nd & Gs & F2).
    rewrite E1 in E. inversion E; subst ss'. clear E.
    destruct (single_viable_ok _ _ _ _ F2) as (v & Ev & _ & V2).
    - intros g I. apply Gs in I. exact I.
    - intros g x I (c & Ic & _ & _ & <-). rewrite Forall_forall in Gc. destruct (Gc _ Ic) as (y & _ & _ & _ & _ & Al & _). unfold INVALID_ALT. lia.
    - rewrite E2 in Ev. inversion Ev; subst v. intros Q. destruct (V2 Q) as [->|(g & g' & x & y & I & I' & L & L' & N)].
      + destruct cs as [|c cs]; [congruence|]. inversion Gc as [|? ? (z & Ez & _)]; subst.
        assert (X : group (c :: cs) (c_state c, z)) by (exists (c_alt c), c; cbn; auto). apply Gs in X. destruct X.
      + pose proof (proj1 (all_equal_ok _ _ _ _ F2) Eq) as Al. apply N. destruct L as (L1 & L2), L' as (L1' & L2').
        pose proof (L2 y (proj1 (Al _ _ I' I _) L1')). pose proof (L2' x (proj1 (Al _ _ I I' _) L1)). lia.
  Qed.

  (** ** Reading *)
  Variable V : S -> list Z -> Prop.
  Variable w0 : list Z.
  Hypothesis Htypes : token_types a w0.
  Definition head (v : list Z) : Z := match v with x :: _ => x | [] => TOKEN_EOF end.
  Hypothesis Vlt : forall i v i' o, V i v -> s_lt (k_base ts) i 1 = Val (i', o) -> V i' v /\ exists tk, o = Some tk /\ TokenStreamModel.t_type tk = head v.
  Hypothesis Vconsume : forall i x v i', V i (x :: v) -> s_consume (k_base ts) i = Val i' -> V i' v.
  Hypothesis Vseek : forall i v i', V i v -> k_seek ts i start_index = Val i' -> V i' w0.

  Lemma la_ok m v m' t : V (m_input m) v -> sim_la ts m 1 = Val (m', t) ->
    V (m_input m') v /\ t = head v /\ m_dfa m' = m_dfa m /\ m_cache m' = m_cache m.
  Proof.
    intros Hv H. unfold sim_la in H. bind2 H m1 o E. unfold sim_lt in E. bind2 E i1 o1 E1. inversion E; subst m1 o1. clear E.
    destruct (Vlt _ _ _ _ Hv E1) as (V1 & tk & -> & Et). inversion H; subst. auto.
  Qed.
  Lemma types_ok u x v : w0 = u ++ x :: v -> x <> TOKEN_EOF /\ tok_ok a x.
  Proof.
    intros E. destruct Htypes as (T1 & T2). rewrite E in T1, T2. rewrite Forall_app in T1. destruct T1 as (_ & T1). inversion T1; subst.
    split; [unfold TOKEN_EOF; lia|]. right. split; [assumption|]. intros Q. specialize (T2 Q). rewrite Forall_app in T2. destruct T2 as (_ & T2).
    inversion T2; assumption.
  Qed.

  Definition loop_inv (m : sim) (t : Z) (cs : list pconfig) : Prop :=
    (exists u v, w0 = u ++ v /\ V (m_input m) v /\ t = head v /\ full_inv u cs) \/ (t = TOKEN_EOF /\ eof_inv w0 cs).

  Lemma full_none m t cs m' : loop_inv m t cs -> kgood a main true (m_cache m) -> is_precedence_dfa (m_dfa m) = false ->
    compute_reach_set ts a ctx sempred order hash fuel start_index precedence outer atn_start_state cs t true m = Val (m', None) -> hopeless w0.
  Proof.
    intros Iv Kg Pr H. destruct Iv as [(u & v & Ew & Hv & Et & Iv)|(Et & Iv)].
    - destruct (reach_ok ts a main G ctx sempred order hash fuel start_index precedence outer atn_start_state true cs t m m' None) as (_ & _ & _ & Ng & Ns); auto; try apply Iv.
      { intros _ j q g. apply (fi_stk u). exact Iv. }
      intros j n q Vi. destruct v as [|x v]; cbn [head] in Et; subst t.
      + rewrite app_nil_r in Ew. subst u. assert (Ok : tok_ok a TOKEN_EOF) by (left; reflexivity). destruct n as [|n].
        * destruct Vi as (R & St). cbn [repeat] in R. rewrite app_nil_r in R.
          apply (Ns (or_introl eq_refl) j q []); [|exact St]. apply (fi_complete _ _ Iv); [exact R|]. apply stop_fs; [exact St | eapply runs_stk; eauto].
        * apply (Ng Ok j q []). apply (eof_genuine w0 cs); eauto.
      + destruct (types_ok _ _ _ Ew) as (Nx & Ok). rewrite Ew in Vi. replace (u ++ x :: v) with ((u ++ [x]) ++ v) in Vi by (rewrite <- app_assoc; reflexivity).
        destruct (via_split _ _ _ _ _ Vi) as (q' & g' & R & Fq & _). apply (Ng Ok j q' g'). apply (next_genuine u); auto.
    - subst t. destruct (reach_ok ts a main G ctx sempred order hash fuel start_index precedence outer atn_start_state true cs TOKEN_EOF m m' None) as (_ & _ & _ & Ng & Ns); auto; try apply Iv.
      { intros _ j q g. apply (ei_stk w0). exact Iv. }
      eapply eof_hopeless; [exact Iv|]. intros j q g Q. apply (Ns (or_introl eq_refl) j q g Q). eapply (ei_stop _ _ Iv), den_key, Q.
  Qed.

  (** after a step: either all have one alternative, which is the right one, or the set
      describes the runs over one more token *)
  Lemma full_some m t cs m' r : loop_inv m t cs -> kgood a main true (m_cache m) -> is_precedence_dfa (m_dfa m) = false ->
    compute_reach_set ts a ctx sempred order hash fuel start_index precedence outer atn_start_state cs t true m = Val (m', Some r) ->
    kgood a main true (m_cache m') /\ m_input m' = m_input m /\ m_dfa m' = m_dfa m /\ Forall (cgood true) (configs r) /\ configs r <> [] /\
    (((exists p, forall q j, has_key (configs r) q j -> j = p) /\ (forall j n q, via j w0 n q -> exists q', has_key (configs r) q' j)) \/
     (exists u x v, w0 = u ++ x :: v /\ V (m_input m) (x :: v) /\ t = x /\ full_inv (u ++ [x]) (configs r)) \/
     (t = TOKEN_EOF /\ eof_inv w0 (configs r))).
  Proof.
    intros Iv Kg Pr H. destruct Iv as [(u & v & Ew & Hv & Et & Iv)|(Et & Iv)].
    - destruct (reach_ok ts a main G ctx sempred order hash fuel start_index precedence outer atn_start_state true cs t m m' (Some r)) as (K & I1 & I2 & Sg & Ne & Re); auto; try apply Iv.
      { intros _ j q g. apply (fi_stk u). exact Iv. }
      pose proof (sg_configs _ _ _ _ Sg) as Gr.
      split; [exact K|]. split; [exact I1|]. split; [exact I2|]. split; [exact Gr|]. split; [exact Ne|].
      destruct Re as [Re|Lo].
      + right. destruct v as [|x v]; cbn [head] in Et; subst t.
        * right. rewrite app_nil_r in Ew. subst u. split; [reflexivity|]. eapply full_eof; eauto.
        * left. destruct (types_ok _ _ _ Ew) as (Nx & Ok). exists u, x, v. split; [exact Ew|]. split; [exact Hv|]. split; [reflexivity|].
          eapply full_next; eauto.
      + left. split; [apply Lo|]. intros j n q Vi. destruct v as [|x v]; cbn [head] in Et; subst t; [destruct (lo_eof _ _ _ _ _ Lo eq_refl)|].
        destruct (types_ok _ _ _ Ew) as (Nx & Ok). rewrite Ew in Vi. destruct (via_split _ _ _ _ _ Vi) as (q' & g' & R & Fq & _ & q1 & T & _).
        exists q1. eapply den_key. apply (lo_takes _ _ _ _ _ Lo Ok). apply (takes_iff u); eauto.
    - subst t. destruct (reach_ok ts a main G ctx sempred order hash fuel start_index precedence outer atn_start_state true cs TOKEN_EOF m m' (Some r)) as (K & I1 & I2 & Sg & Ne & Re); auto; try apply Iv.
      { intros _ j q g. apply (ei_stk w0). exact Iv. }
      pose proof (sg_configs _ _ _ _ Sg) as Gr.
      split; [exact K|]. split; [exact I1|]. split; [exact I2|]. split; [exact Gr|]. split; [exact Ne|].
      destruct Re as [Re|Lo]; [|destruct (lo_eof _ _ _ _ _ Lo eq_refl)]. right. right. split; [reflexivity|]. eapply eof_again; eauto.
  Qed.

  Lemma finish_result m prev p e m' r : finish_full ts start_index m prev p e = (m', r) -> r = Predicted p.
  Proof. unfold finish_full. destruct (negb _); intros H; inversion H; reflexivity. Qed.

  Lemma full_loop_ok n : forall prev t m m' r, loop_inv m t (configs prev) -> kgood a main true (m_cache m) -> is_precedence_dfa (m_dfa m) = false ->
    full_loop ts a ctx sempred order alt_order hash fuel mode start_index precedence outer atn_start_state n prev t m = Val (m', r) -> good_result w0 r.
  Proof.
    induction n as [|n IH]; intros prev t m m' r Iv Kg Pr H; cbn [full_loop] in H; [discriminate|].
    bind2 H m1 o E1. destruct o as [cs|]; [|left; eapply full_none; eauto].
    destruct (full_some _ _ _ _ _ Iv Kg Pr E1) as (K1 & I1 & I2 & Gr & Ne & Cs).
    bind H ss Es. cbn [unique_alt set_unique_alt] in H.
    pose proof (fun p => unique_alt_all true (configs cs) p Gr Ne) as Ua.
    assert (Done : forall p, chosen_by (configs cs) p -> (forall j n q, via j w0 n q -> j = p) \/
        (exists u x v, w0 = u ++ x :: v /\ V (m_input m) (x :: v) /\ t = x /\ full_inv (u ++ [x]) (configs cs)) \/ (t = TOKEN_EOF /\ eof_inv w0 (configs cs)) ->
        good_result w0 (Predicted p)).
    { intros p Ch Q. right. exists p. split; [reflexivity|]. destruct Q as [Q|[(u & x & v & Ew & _ & _ & Q)|(_ & Q)]].
      - apply unique_good, Q.
      - rewrite Ew. replace (u ++ x :: v) with ((u ++ [x]) ++ v) by (rewrite <- app_assoc; reflexivity). eapply chosen_good; eauto.
      - eapply eof_chosen; eauto. }
    destruct (Z.eqb_spec (get_unique_alt unit (configs cs)) INVALID_ALT) as [U|U]; cbn [negb] in H.
    - assert (Cs' : (exists u x v, w0 = u ++ x :: v /\ V (m_input m) (x :: v) /\ t = x /\ full_inv (u ++ [x]) (configs cs)) \/ (t = TOKEN_EOF /\ eof_inv w0 (configs cs))).
      { destruct Cs as [((p & Q) & _)|Cs]; [|exact Cs]. destruct (proj2 (Ua p) U Q). }
      bind H p Ep.
      match type of H with (if ?b then _ else _) = _ => destruct b eqn:Eb end.
      + injection H as H. apply finish_result in H. subst r. apply Done; [|right; exact Cs'].
        destruct (is_exact mode) eqn:Ex; cbn [negb] in Ep, Eb.
        * apply andb_true_iff in Eb as (B1 & B2). rewrite B1, B2 in Ep. cbn [andb] in Ep.
          pose proof (exact_groups _ _ _ Gr Ne Es B2 Ep). eapply viable_groups; eauto.
        * rewrite negb_true_iff, Z.eqb_neq in Eb. eapply viable_groups; eauto.
      + bind2 H m2 t2 E2. destruct Cs' as [(u & x & v & Ew & Hv & -> & Iv')|(-> & Iv')].
        * destruct (types_ok _ _ _ Ew) as (Nx & Ok). rewrite (proj2 (Z.eqb_neq x TOKEN_EOF) Nx) in E2. cbn [negb] in E2.
          bind E2 m3 E3. unfold sim_consume in E3. bind E3 i3 Ei. inversion E3; subst m3. clear E3.
          rewrite I1 in Ei. pose proof (Vconsume _ _ _ _ Hv Ei) as V3. cbn [m_input with_sim_input] in *.
          destruct (la_ok (with_sim_input m1 i3) v m2 t2 V3 E2) as (V4 & Et & Ed & Ec). cbn in Ed, Ec.
          eapply IH; [| | |exact H].
          -- left. exists (u ++ [x]), v. split; [rewrite <- app_assoc; exact Ew|]. auto.
          -- rewrite Ec. exact K1.
          -- rewrite Ed, I2. exact Pr.
        * cbn in E2. inversion E2; subst m2 t2. eapply IH; [ | | |exact H]; [right; split; [reflexivity | exact Iv'] | exact K1 | rewrite I2; exact Pr].
    - injection H as H. apply finish_result in H. subst r. destruct (Ua 0) as (U1 & _). specialize (U1 U).
      apply Done; [apply one_chosen, U1|]. destruct Cs as [(_ & Q)|Cs]; [|right; exact Cs].
      left. intros j n0 q Vi. destruct (Q _ _ _ Vi) as (q' & K). eapply U1, K.
  Qed.

  Lemma start_inv x cs : (forall g, stands false x g <-> g = conts) -> start_of a main x true s cs -> Forall (cgood true) (configs cs) -> full_inv [] (configs cs).
  Proof.
    intros Sx (C1 & C2 & C3) Gc. cbn [negb] in *. constructor; auto.
    - intros j q g (t & L & N & R) Fq. replace j with (1 + Z.of_nat (Z.to_nat (j - 1))) by lia.
      eapply (C1 _ t conts); eauto; [apply Sx; reflexivity | apply Hstk; eapply nth_error_In; eauto | apply run_cmoves, R].
    - intros j q g Q. left. destruct (C3 eq_refl _ _ _ Q) as (k & t & g0 & -> & N & S0 & M). apply Sx in S0. subst g0.
      exists t. split; [lia|]. replace (Z.to_nat (1 + Z.of_nat k - 1)) with k by lia. split; [exact N|]. apply cmoves_run, M.
  Qed.
  Lemma exec_full_ok s0 m m' r v : full_inv [] (configs s0) -> V (m_input m) v -> kgood a main true (m_cache m) -> is_precedence_dfa (m_dfa m) = false ->
    exec_atn_with_full_context ts a ctx sempred order alt_order hash fuel mode start_index precedence outer atn_start_state s0 m = Val (m', r) -> good_result w0 r.
  Proof.
    intros Iv Hv Kg Pr H. unfold exec_atn_with_full_context in H. bind H m1 E1. bind2 H m2 t E2.
    unfold sim_seek in E1. bind E1 i1 Ei. inversion E1; subst m1. clear E1. pose proof (Vseek _ _ _ Hv Ei) as V1.
    destruct (la_ok (with_sim_input m i1) w0 m2 t V1 E2) as (V2 & Et & Ed & Ec). cbn in Ed, Ec.
    eapply full_loop_ok; [| | |exact H].
    - left. exists [], w0. auto.
    - rewrite Ec. exact Kg.
    - rewrite Ed. exact Pr.
  Qed.
End Full.
