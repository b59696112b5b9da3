(** Proofs about lexing, continued: every call ends (C37). *)
From Coq Require Import ZArith List Bool Lia.
From Coq Require Import ZifyBool ZifyNat.
From Verif Require Import Outcome CharStreamModel CharStreamSpec CharStreamProofs PredContextModel SemContextModel
  ConfigSetModel ConfigSetProofs DfaModel DfaProofs AtnModel AtnSpec AtnProofs Ll1Spec LexerModel LexerSpec LexerProofs
  LexMatchSpec LexMatchProofs LexCacheProofs LexTextProofs.
From Verif Require FactoryModel.
Import ListNotations.
Local Open Scope Z_scope.
Local Open Scope outcome_scope.

(** for all sufficiently large amounts of fuel *)
Definition eventually (P : nat -> Prop) : Prop := exists n, forall fuel, (n <= fuel)%nat -> P fuel.
Lemma ev_now (P : nat -> Prop) : (forall fuel, P fuel) -> eventually P.
Proof. exists 0%nat. auto. Qed.
Lemma ev_and (P Q : nat -> Prop) : eventually P -> eventually Q -> eventually (fun n => P n /\ Q n).
Proof. intros (n & A) (m & B). exists (n + m)%nat. intros k L. split; [apply A | apply B]; lia. Qed.
Lemma ev_impl (P Q : nat -> Prop) : (forall n, P n -> Q n) -> eventually P -> eventually Q.
Proof. intros H (n & A). exists n. auto. Qed.
Lemma ev_S (P : nat -> Prop) : eventually (fun n => P (S n)) -> eventually P.
Proof. intros (n & A). exists (S n). intros [|k] L; [lia|]. apply A. lia. Qed.
Lemma ev_some (P : nat -> Prop) : eventually P -> exists n, P n.
Proof. intros (n & A). exists n. apply A. lia. Qed.

Section Total.
  Variable D : input_data.
  Variable U : Type.
  Variable a : atn.
  Variable sempred : Z -> Z -> lexer U -> bool * lexer U.
  Variable ctx_hash : pctx -> Z.
  Variable actions_hash : list lexer_action -> Z.
  Hypothesis FM : lexer_formed a.
  Hypothesis SE : settles a.
  Notation lexer := (lexer U).
  Notation quiet q p := (exists xs, quiet_step a p xs q).

  (** ** Closures end *)
  Lemma acc_app i u f st : Acc (fun q p => quiet q p) (i, u) -> Acc (fun q p => quiet q p) (f, st) -> Acc (fun q p => quiet q p) (i, u ++ f :: st).
  Proof.
    intros A B. remember (i, u) as p eqn:Ep. revert i u Ep. induction A as [p A IH]. intros i u ->. constructor. intros q (xs & H).
    inversion H; subst.
    - eapply IH; [|reflexivity]. exists []. econstructor; eauto.
    - match goal with |- Acc _ (?g, ?c :: u ++ f :: st) => apply (IH (g, c :: u) ltac:(exists []; econstructor; eauto) g (c :: u) eq_refl) end.
    - destruct u as [|c u]; cbn in *.
      + match goal with E : _ :: _ = _ :: _ |- _ => inversion E; subst end. exact B.
      + match goal with E : _ :: _ = _ :: _ |- _ => inversion E; subst end. eapply IH; [|reflexivity]. exists []. econstructor; eauto.
    - destruct u; discriminate.
    - match goal with E : state_at a i = Some ?s, T : In ?t (st_trans ?s) |- _ =>
        pose proof (proj2 (proj2 (proj2 (proj2 (proj2 (proj2 (proj2 FM) _ _ E)) _ T)))) as K end. cbn in K.
      destruct (item (lexer_actions a) k) as [x|] eqn:Ek; [|congruence].
      match goal with E : _ :: _ = u ++ _ |- _ => rewrite E end. eapply IH; [|reflexivity].
      destruct u as [|c u]; [exists [x]; eapply step_action; eauto | exists []; eapply step_inner_action; eauto].
  Qed.
  Lemma acc_all st : forall i, sound_pos a (i, st) -> Acc (fun q p => quiet q p) (i, st).
  Proof.
    induction st as [|f st IH]; intros i (A & B); cbn in *; [apply SE, A|]. inversion B; subst.
    apply (acc_app i [] f st); [apply SE, A | apply IH; split; auto].
  Qed.

  Notation closure := (closure D U a sempred ctx_hash actions_hash).
  Lemma closure_total sp p : sound_pos a p -> forall c r cs l, cfg c p -> set_inv cs ->
    exists r' cs', eventually (fun fuel => closure fuel sp false c (r, cs, l) = Val (r', cs', l)).
  Proof.
    intros S. assert (A : Acc (fun q p => quiet q p) p) by (destruct p; apply acc_all, S). revert S.
    induction A as [p A IH]; intros S c r cs l C I. destruct p as [i st]. assert (S' := S). destruct S as (S1 & S2). cbn [fst snd] in *.
    unfold exists_state in S1. destruct (state_at a i) as [s|] eqn:Es; [|congruence]. clear S1.
    assert (C' := C). destruct C' as (C1 & C2 & C3 & C4 & C5). cbn [fst snd] in *.
    destruct (stop_dec s) as [St|St].
    - assert (Ht : st_type s = RuleStopState) by exact St. destruct st as [|f st].
      + destruct (add_total ctx_hash cs c (i, []) I C) as (cs1 & E1 & _). exists true, cs1. apply ev_S, ev_now. intros fuel. cbn [LexerModel.closure].
        rewrite C1, (state_of_ok a _ _ Es). cbn [obindo]. rewrite Ht. unfold closure_stop. rewrite C2.
        change (has_empty_path (ctx_of [])) with (Val true). change (pc_is_empty (ctx_of [])) with (Val true). cbn [obindo andb]. rewrite E1. reflexivity.
      + assert (F : exists_state a f) by (inversion S2; auto). assert (F' := state_lt U a sempred FM _ F). apply Z.eqb_neq in F'.
        unfold exists_state in F. destruct (state_at a f) as [s'|] eqn:Ef; [|congruence].
        assert (Q : quiet_step a (i, f :: st) [] (f, st)) by (econstructor; eauto).
        assert (Cn : cfg (cloned_with_new_ctx c s' (Some (ctx_of st))) (f, st)).
        { repeat split; cbn; auto. apply (number a FM _ _ Ef). }
        destruct (IH (f, st) (ex_intro _ [] Q) (quiet_sound a FM _ _ _ S' Q) _ r cs l Cn I) as (r' & cs' & E).
        exists r', cs'. apply ev_S. eapply ev_impl; [|exact E]. clear E. intros fuel E. cbn [LexerModel.closure].
        rewrite C1, (state_of_ok a _ _ Es). cbn [obindo]. rewrite Ht. unfold closure_stop. rewrite C2.
        cbn [ctx_of has_empty_path pc_length get_return_state obindo pc_is_empty]. unfold singleton_is_empty. rewrite F'.
        cbn [andb obindo seq closure_each]. unfold closure_return. cbn [get_return_state obindo get_parent]. rewrite F'.
        rewrite (state_of_ok a _ _ Ef). cbn [obindo]. rewrite E. reflexivity.
    - assert (G : forall ts, incl ts (st_trans s) -> forall r cs, set_inv cs -> exists r' cs',
        eventually (fun fuel => closure_each U (closure_trans D U a sempred actions_hash (closure fuel sp false) c sp false) ts (r, cs, l) = Val (r', cs', l))).
      { induction ts as [|t ts IHt]; intros Inc r0 cs0 I0.
        - exists r0, cs0. apply ev_now. reflexivity.
        - destruct (epsilon_total D U a sempred actions_hash FM c i st s t cs0 sp l C S' Es St (Inc t (or_introl eq_refl))) as (oc & Eoc & M).
          assert (T : exists r1 cs1, set_inv cs1 /\ eventually (fun fuel => closure_trans D U a sempred actions_hash (closure fuel sp false) c sp false t (r0, cs0, l) = Val (r1, cs1, l))).
          { destruct oc as [c'|], (tgt t st) as [q|] eqn:Et; try contradiction.
            - destruct M as (M1 & M2 & M3 & xs & M4 & M5).
              assert (Sq := quiet_sound a FM _ _ _ S' M4).
              destruct (IH q (ex_intro _ xs M4) Sq c' r0 cs0 l M1 I0) as (r1 & cs1 & E). exists r1, cs1. split.
              + destruct (ev_some _ E) as (fuel & E'). destruct (closure_ok D U a sempred ctx_hash actions_hash FM _ _ _ _ _ _ _ _ _ _ M1 Sq I0 E') as (_ & Ic & _). exact Ic.
              + eapply ev_impl; [|exact E]. intros fuel E'. unfold closure_trans. rewrite Eoc. cbn [obindo]. exact E'.
            - exists r0, cs0. split; [exact I0|]. apply ev_now. intros fuel. unfold closure_trans. rewrite Eoc. reflexivity. }
          destruct T as (r1 & cs1 & I1 & E1). destruct (IHt (fun t' Ht => Inc t' (or_intror Ht)) r1 cs1 I1) as (r2 & cs2 & E2).
          exists r2, cs2. eapply ev_impl; [|exact (ev_and _ _ E1 E2)]. cbn beta. intros fuel (X & Y). cbn [closure_each]. rewrite X. cbn [obindo]. exact Y. }
      assert (Ac : exists cs1, set_inv cs1 /\ (if negb (st_eps_only s) && (negb r || negb (lt_passed (c_type c))) then add ctx_hash cs c else Val cs) = Val cs1).
      { destruct (negb (st_eps_only s) && (negb r || negb (lt_passed (c_type c)))); [|eauto].
        destruct (add_total ctx_hash cs c (i, st) I C) as (cs1 & E1 & I1 & _). eauto. }
      destruct Ac as (cs1 & I1 & E1). destruct (G (st_trans s) (incl_refl _) r cs1 I1) as (r2 & cs2 & E2). exists r2, cs2.
      apply ev_S. eapply ev_impl; [|exact E2]. cbn beta. intros fuel X. cbn [LexerModel.closure]. rewrite C1, (state_of_ok a _ _ Es). cbn [obindo].
      unfold is_stop in St. destruct (st_type s); try (rewrite E1; cbn [obindo]; exact X). congruence.
  Qed.

  Lemma start_total ts : Forall (fun t => exists_state a (get_target t)) ts -> forall i cs l, set_inv cs ->
    exists cs', eventually (fun fuel => start_loop D U a sempred ctx_hash actions_hash fuel ts i cs l = Val (cs', l)).
  Proof.
    induction 1 as [|t ts Ft Fts IH]; intros i cs l I.
    - exists cs. apply ev_now. reflexivity.
    - assert (C : cfg (start_cfg t (i + 1)) (get_target t, [])) by (repeat split).
      assert (S : sound_pos a (get_target t, [])) by (split; cbn; auto).
      destruct (closure_total false _ S _ false cs l C I) as (r1 & cs1 & E1).
      assert (I1 : set_inv cs1). { destruct (ev_some _ E1) as (fuel & E'). destruct (closure_ok D U a sempred ctx_hash actions_hash FM _ _ _ _ _ _ _ _ _ _ C S I E') as (_ & Ic & _). exact Ic. }
      destruct (IH (i + 1) cs1 l I1) as (cs2 & E2). exists cs2. eapply ev_impl; [|exact (ev_and _ _ E1 E2)]. cbn beta. intros fuel (X & Y).
      cbn [start_loop]. unfold start_cfg in X. rewrite X. cbn [obindo]. exact Y.
  Qed.

  Lemma reach_trans_total si t c r s cs l : placed a c -> state_at a (c_state c) = Some s -> set_inv cs ->
    exists r' cs', set_inv cs' /\ eventually (fun fuel => reach_trans D U a sempred ctx_hash actions_hash fuel si t c r (st_trans s) cs l = Val (r', cs', l)).
  Proof.
    intros P E I. assert (P' := P). destruct P as (p & C & S & K).
    destruct (proj2 (proj2 FM) _ _ E) as (Nm & Sh & W).
    assert (G : exists r' cs', set_inv cs' /\ eventually (fun fuel => reach_trans D U a sempred ctx_hash actions_hash fuel si t c r (st_trans s) cs l = Val (r', cs', l))).
    { destruct Sh as [(St & Oe)|[(St & Ee & _)|(St & Ee & [Nil|(tr & One & Co)])]].
      - exists false, cs. split; [exact I|]. apply ev_now. intros fuel. clear - Oe. induction (st_trans s) as [|tr ts IH]; cbn [reach_trans]; [reflexivity|].
        destruct (Oe tr (or_introl eq_refl)) as (g & n & ->). cbn. apply IH. intros t0 Ht. apply Oe. right. exact Ht.
      - exfalso. destruct C as (C & _). destruct K as (s' & K1 & K2). rewrite <- C, E in K1. inversion K1; subst s'.
        destruct K2 as [(K2 & _)|(_ & K2)]; [contradiction | congruence].
      - exists false, cs. split; [exact I|]. apply ev_now. intros fuel. rewrite Nil. reflexivity.
      - rewrite One. specialize (W tr). rewrite One in W. specialize (W (or_introl eq_refl)).
        destruct W as (W1 & W2 & W3 & _). assert (Nc : is_call tr = false) by (destruct tr; try reflexivity; contradiction).
        destruct (match_symbol U sempred tr t W2 Nc) as (b & Eb & B1 & B2). destruct b.
        + unfold exists_state in W1. destruct (state_at a (get_target tr)) as [s'|] eqn:Et; [|congruence].
          set (exec := option_map (fun e => fix_offset_before_match e (is_index (lx_input U l) - si)) (lt_exec (c_type c))).
          assert (Te : t <> EOF). { intros ->. apply W3. apply B1. reflexivity. } apply Z.eqb_neq in Te.
          destruct p as [i st]. destruct C as (C1 & C2 & C3 & C4 & C5). cbn [fst snd] in *.
          assert (Ce : char_step a (i, st) t (get_target tr, st)).
          { econstructor; [rewrite <- C1; exact E | exact St | rewrite One; cbn; auto | auto]. }
          assert (Cn : cfg (cloned_with_new_exec c s' exec) (get_target tr, st)).
          { repeat split; cbn; auto. apply (number a FM _ _ Et). }
          destruct (closure_total true _ (char_sound a FM _ _ _ S Ce) _ r cs l Cn I) as (r1 & cs1 & E1).
          exists (if r1 then true else false), cs1. split.
          { destruct (ev_some _ E1) as (f1 & X1). destruct (closure_ok D U a sempred ctx_hash actions_hash FM _ _ _ _ _ _ _ _ _ _ Cn (char_sound a FM _ _ _ S Ce) I X1) as (_ & Ic & _). exact Ic. }
          eapply ev_impl; [|exact E1]. cbn beta. intros fuel X. cbn [reach_trans]. rewrite Eb. cbn [obindo].
          rewrite (state_of_ok a _ _ Et). cbn [obindo]. rewrite Te. fold exec. rewrite X. cbn [obindo]. destruct r1; reflexivity.
        + exists false, cs. split; [exact I|]. apply ev_now. intros fuel. cbn [reach_trans]. rewrite Eb. reflexivity. }
    exact G.
  Qed.
  Lemma reach_total si t cl : Forall (placed a) cl -> forall sk cs l, set_inv cs ->
    exists cs', eventually (fun fuel => reach_loop D U a sempred ctx_hash actions_hash fuel si t cl sk cs l = Val (cs', l)).
  Proof.
    induction 1 as [|c cl Pc Pcl IH]; intros sk cs l I.
    - exists cs. apply ev_now. reflexivity.
    - cbn [reach_loop]. destruct ((c_alt c =? sk) && lt_passed (c_type c)); [apply IH, I|].
      assert (Pc' := Pc). destruct Pc' as (p & C & (S1 & _) & _). destruct C as (C & _). unfold exists_state in S1. rewrite <- C in S1.
      destruct (state_at a (c_state c)) as [s|] eqn:Es; [|congruence]. rewrite (state_of_ok a _ _ Es).
      destruct (reach_trans_total si t c (c_alt c =? sk) s cs l Pc Es I) as (r1 & cs1 & I1 & E1).
      destruct (IH (if r1 then c_alt c else sk) cs1 l I1) as (cs2 & E2). exists cs2. eapply ev_impl; [|exact (ev_and _ _ E1 E2)].
      cbn beta. intros fuel (X & Y). cbn [obindo]. rewrite X. cbn [obindo]. exact Y.
  Qed.
End Total.

Section Matching.
  Variable D : input_data.
  Variable U : Type.
  Variable a : atn.
  Variable sempred : Z -> Z -> lexer U -> bool * lexer U.
  Variable ctx_hash : pctx -> Z.
  Variable actions_hash : list lexer_action -> Z.
  Variable configs_hash : list (config hashed) -> Z.
  Hypothesis FM : lexer_formed a.
  Hypothesis RA : rules_apart a.
  Hypothesis NC : no_collisions D U a sempred ctx_hash actions_hash configs_hash.
  Hypothesis SE : settles a.
  Hypothesis NE : no_empty_match a.
  Notation lexer := (lexer U).
  Notation views st := (configs (d_configs st)).
  Notation dfa_good := (dfa_good D U a sempred ctx_hash actions_hash configs_hash).
  Notation sim_good := (sim_good D U a sempred ctx_hash actions_hash configs_hash).

  Lemma next_total si m d s t l st : dfa_good m d -> 1 <= s -> vget (dfa_states d) s = Some st ->
    exists d' to, eventually (fun fuel => next_state D U a sempred ctx_hash actions_hash configs_hash fuel si d s t l = Val (d', to, l)).
  Proof.
    intros DG Ls Es. unfold next_state, get_existing_target_state. rewrite Es. cbn [unwrap obindo].
    destruct (l_get_edge (d_edges st) t) as [to|]; [exists d, to; apply ev_now; reflexivity|].
    assert (DG' := DG). destruct DG' as (_ & Sts & _). destruct (Sts s st Ls Es) as (((Ar & _) & _) & _).
    assert (Pl : Forall (placed a) (views st)) by (eapply Forall_impl; [|exact Ar]; intros c (P & _); exact P).
    destruct (reach_total D U a sempred ctx_hash actions_hash FM SE si t _ Pl 0 _ l empty_inv) as (cs & E).
    destruct (ev_some _ E) as (f0 & E0).
    destruct (target_total D U a sempred ctx_hash actions_hash configs_hash FM RA NC f0 si m d s t l st cs l DG Ls Es E0) as (d' & to & E1 & _).
    exists d', to. eapply ev_impl; [|exact E]. cbn beta. intros fuel E2.
    assert (E3 : forall f, get_reachable_config_set D U a sempred ctx_hash actions_hash f si (views st) t l = Val (cs, l) ->
              compute_target_state D U a sempred ctx_hash actions_hash configs_hash f si d s t l =
              match configs cs with
              | [] => let! d := if negb (has_semantic_context cs) then l_dfa_add_edge d s t ERROR_DFA_STATE_REF else Val d in Val (d, ERROR_DFA_STATE_REF, l)
              | _ :: _ => let! (d, to) := l_add_dfastate a configs_hash d (set_has_semantic_context cs false) in
                          let! d := if negb (has_semantic_context cs) then l_dfa_add_edge d s t to else Val d in Val (d, to, l)
              end).
    { intros f X. unfold compute_target_state. rewrite Es. cbn [unwrap obindo]. rewrite X. reflexivity. }
    rewrite (E3 _ E2), <- (E3 _ E0). exact E1.
  Qed.

  (** what has been remembered after [j] characters, none of them before the first *)
  Variables raw cs : list Z.
  Variable pos : nat -> Z.
  Hypothesis TS : text_source D raw cs pos.
  Section From.
    Variable k0 : nat.
    Variable l0 : lexer.
    Hypothesis Here : lx_input U l0 = IStream raw (pos k0).
    Hypothesis In0 : (k0 <= length cs)%nat.
    Notation rest := (skipn k0 cs).
    Notation symbol_at := (symbol_at cs k0).
    Notation eat := (eat D U).
    Variable m : Z.
    Definition captured (d : ldfa) (p : sim_state) (j : nat) : Prop :=
      sa_state p = None \/
      exists q st n ln, sa_state p = Some q /\ 1 <= q /\ vget (dfa_states d) q = Some st /\ d_accept st = true /\ (1 <= n <= j)%nat /\
        eat n l0 = Val ln /\ sa_index p = is_index (lx_input U ln) /\ sa_line p = lx_line U ln /\ sa_column p = lx_column U ln.
    Lemma captured_keeps d d' p j : keeps d d' -> captured d p j -> captured d' p j.
    Proof.
      intros K [R|(q & st & n & ln & H1 & H2 & H3 & H4 & H5)]; [left; exact R|]. right.
      destruct (proj1 K _ _ H3) as (st' & E' & S1 & S2 & _). exists q, st', n, ln. rewrite S2. auto.
    Qed.
    Lemma captured_le d p j j' : (j <= j')%nat -> captured d p j -> captured d p j'.
    Proof.
      intros L [R|(q & st & n & ln & H1 & H2 & H3 & H4 & H5 & H6)]; [left; exact R|]. right. exists q, st, n, ln.
      do 4 (split; [assumption|]). split; [lia | exact H6].
    Qed.

    Lemma exec_loop_total si r : forall d s p l st j, dfa_good m d -> 1 <= s -> vget (dfa_states d) s = Some st ->
      (j <= length rest)%nat -> (length rest - j <= r)%nat -> eat j l0 = Val l -> captured d p j ->
      exists d' p' l' j', (j <= j' <= length rest)%nat /\ eat j' l0 = Val l' /\ captured d' p' j' /\ dfa_good m d' /\
        exists N, forall fuel n, (N <= fuel)%nat -> (N <= n)%nat ->
          exec_loop D U a sempred ctx_hash actions_hash configs_hash fuel n si d s (symbol_at j) p l = Val (symbol_at j', d', p', l').
    Proof.
      induction r as [|r IH]; intros d s p l st j DG Ls Es Lj Lr E Cp;
        destruct (next_total si m d s (symbol_at j) l st DG Ls Es) as (d1 & to & Nx); destruct (ev_some _ Nx) as (f0 & E0);
        destruct (LexCacheProofs.next_ok D U a sempred ctx_hash actions_hash configs_hash FM RA NC _ _ _ _ _ _ _ _ _ _ _ DG Ls Es E0) as (_ & G1 & K1 & Eg & S1 & Te);
        destruct Nx as (N0 & Nx).
      - assert (X : symbol_at j = EOF) by (eapply sym_eof; eauto; lia). specialize (Te X). subst to.
        exists d1, p, l, j. split; [lia|]. split; [exact E|]. split; [eapply captured_keeps; eauto|]. split; [exact G1|]. exists (S N0). intros fuel [|n] L1 L2; [lia|].
        rewrite exec_loop_unfold, Nx by lia. cbn [obindo]. rewrite Z.eqb_refl. reflexivity.
      - destruct (Z.eqb_spec to ERROR_DFA_STATE_REF) as [Eto|Nto].
        { subst to. exists d1, p, l, j. split; [lia|]. split; [exact E|]. split; [eapply captured_keeps; eauto|]. split; [exact G1|]. exists (S N0). intros fuel [|n] L1 L2; [lia|].
          rewrite exec_loop_unfold, Nx by lia. cbn [obindo]. rewrite Z.eqb_refl. reflexivity. }
        destruct Eg as [(X & _)|(L1 & st1 & E1 & Eg & Ne)]; [congruence|].
        assert (Nsym : symbol_at j <> EOF) by (intros X; apply Nto; auto).
        assert (Lt : (j < length rest)%nat). { destruct (Nat.eq_dec j (length rest)) as [X|X]; [|lia]. exfalso. apply Nsym. eapply sym_eof; eauto. }
        assert (RL : length rest = (length cs - k0)%nat) by apply skipn_length.
        destruct (consume_one D U raw cs pos TS (k0 + j) l) as (l2 & E2 & _); [eapply eat_input; eauto; lia | lia|].
        assert (E2' : eat (Datatypes.S j) l0 = Val l2) by (cbn [LexTextProofs.eat]; rewrite E; exact E2).
        assert (Cc : exists b p2, capture_sim_state U d1 l2 to p = Val (b, p2) /\ captured d1 p2 (Datatypes.S j)).
        { unfold capture_sim_state. rewrite E1. cbn [unwrap obindo]. destruct (d_accept st1) eqn:Ea.
          - do 2 eexists. split; [reflexivity|]. right. exists to, st1, (Datatypes.S j), l2. cbn. repeat (split; [solve [auto | lia]|]). reflexivity.
          - do 2 eexists. split; [reflexivity|]. eapply captured_le; [|eapply captured_keeps; eauto]. lia. }
        destruct Cc as (b & p2 & Ec & Cp2).
        destruct (IH d1 to p2 l2 st1 (Datatypes.S j) G1 L1 E1 ltac:(lia) ltac:(lia) E2' Cp2) as (d' & p' & l' & j' & Lj' & H1 & H2 & H3 & N1 & H4).
        exists d', p', l', j'. split; [lia|]. do 3 (split; [assumption|]). exists (Datatypes.S (N0 + N1))%nat. intros fuel [|n] L3 L4; [lia|].
        rewrite exec_loop_unfold, Nx by lia. cbn [obindo]. apply Z.eqb_neq in Nto, Nsym. rewrite Nto, Nsym, E2. cbn [obindo]. rewrite Ec. cbn [obindo].
        rewrite andb_false_r. rewrite (sym_read D U raw cs pos TS k0 l0 Here In0 _ _ E2') by lia. cbn [lift obindo]. apply H4; lia.
    Qed.

    Variable action : Z -> Z -> lexer -> lexer.
    (** the possible outcomes of a match *)
    Definition outcome_of (r : match_result) (l' : lexer) : Prop :=
      (exists n ln ty x, (1 <= n <= length rest)%nat /\ eat n l0 = Val ln /\ r = inl ty /\ In ty (rule_to_token_type a) /\
         l' = match x with Some e => execute U action e ln (is_index (lx_input U l0)) | None => ln end /\
         match x with Some e => incl (map bare (ex_actions e)) (map bare (lexer_actions a)) | None => True end) \/
      (exists j, (j <= length rest)%nat /\ eat j l0 = Val l' /\
         ((length rest = 0%nat /\ r = inl TOKEN_EOF) \/ exists e, r = inr e)).
    Lemma item_in {A} (l : list A) i x : item l i = Some x -> In x l.
    Proof. unfold item. destruct (i <? 0); [discriminate|]. apply nth_error_In. Qed.
    Lemma run_actions p w xs q : run a p w xs q -> incl xs (lexer_actions a).
    Proof.
      induction 1 as [|w xs q ys r H IH Q|w xs q c r H IH Q]; [intros x []| |exact IH]. apply incl_app; [exact IH|].
      inversion Q; subst; try (intros z []; fail). intros z [<-|[]]. eapply item_in; eauto.
    Qed.
    Lemma exec_atn_total q d p st : dfa_good m d -> 1 <= q -> vget (dfa_states d) q = Some st ->
      LexCacheProofs.covers a m [] (views st) -> sa_state p = None ->
      exists r d' p' l', outcome_of r l' /\
        eventually (fun fuel => exec_atn D U a action sempred ctx_hash actions_hash configs_hash fuel (is_index (lx_input U l0)) q d p l0 = Val (r, d', p', l')).
    Proof.
      intros DG Lq Eq Co Np. assert (Ac : d_accept st = false).
      { destruct (d_accept st) eqn:Ea; [|reflexivity]. exfalso. destruct (proj1 (proj2 DG) q st Lq Eq) as (SG & _).
        destruct (accept_sound D U a sempred ctx_hash actions_hash FM RA m [] st SG Co Ea) as (k & _ & _ & M & _). exact (NE m k M). }
      destruct (exec_loop_total (is_index (lx_input U l0)) (length rest) d q p l0 st 0%nat DG Lq Eq ltac:(lia) ltac:(lia) eq_refl (or_introl Np))
        as (d' & p' & l' & j & Lj & E & Cp & DG' & N & Ex).
      assert (Fa : exists r l2, outcome_of r l2 /\ fail_or_accept U action (is_index (lx_input U l0)) (symbol_at j) d' p' l' = Val (r, l2)).
      { assert (RL : length rest = (length cs - k0)%nat) by apply skipn_length. unfold fail_or_accept.
        destruct Cp as [Cp|(q1 & st1 & n & ln & H1 & H2 & H3 & H4 & H5 & H6 & H7 & H8 & H9)].
        - rewrite Cp. destruct ((symbol_at j =? EOF) && (is_index (lx_input U l') =? is_index (lx_input U l0))) eqn:B.
          + do 2 eexists. split; [|reflexivity]. right. exists j. split; [lia|]. split; [exact E|]. left. split; [|reflexivity].
            apply andb_prop in B. destruct B as (B1 & B2). apply Z.eqb_eq in B1, B2. apply (sym_eof D raw cs pos TS k0 In0) in B1; [|lia].
            rewrite (eat_input D U raw cs pos TS k0 l0 j l' Here ltac:(lia) E), Here in B2. cbn [is_index] in B2.
            apply (pos_inj D raw cs pos TS) in B2; lia.
          + do 2 eexists. split; [|reflexivity]. right. exists j. split; [lia|]. split; [exact E|]. right. eexists. reflexivity.
        - rewrite H1, H3. cbn [unwrap obindo]. do 2 eexists. split; [|reflexivity]. left.
          assert (Acc : accept U p' l' = ln).
          { unfold accept. rewrite H7, H8, H9. rewrite (eat_here D U raw cs pos TS k0 l0 j l') by (auto; lia).
            rewrite (eat_here D U raw cs pos TS k0 l0 n ln) at 4 by (auto; lia). cbn. unfold seek. cbn.
            rewrite (eat_input D U raw cs pos TS k0 l0 n ln) by (auto; lia). reflexivity. }
          exists n, ln, (d_prediction st1), (d_exec st1). split; [lia|]. split; [exact H6|]. split; [reflexivity|].
          destruct (proj1 (proj2 DG') q1 st1 H2 H3) as ((LG & Ac1) & _). destruct LG as (Ar & _).
          destruct (stop_total a m _ Ar) as (o & Eo & Ho). rewrite Eo in Ac1. destruct o as [c|]; [|congruence].
          destruct Ho as (l3 & r3 & s3 & Ev & Es3 & St3 & _). destruct Ac1 as (_ & Ex1 & s1 & Es1 & Ty).
          split; [eapply item_in; eauto|]. rewrite Acc. split; [reflexivity|].
          rewrite Ex1. rewrite Forall_forall in Ar. destruct (Ar c ltac:(rewrite Ev; apply in_elt)) as (_ & k & b & w & xs & pp & _ & _ & R & _ & X).
          destruct (lt_exec (c_type c)) as [e|] eqn:Ee; [|exact I]. unfold acts in X. rewrite Ee in X. rewrite X.
          intros z Hz. apply in_map_iff in Hz. destruct Hz as (y & <- & Hy). apply in_map. eapply run_actions; eauto. }
      destruct Fa as (r & l2 & Oc & Fa). exists r, d', p', l2. split; [exact Oc|]. exists N. intros fuel Lf. unfold exec_atn, capture_sim_state.
      rewrite Eq. cbn [unwrap obindo]. rewrite Ac. cbn [obindo]. rewrite (sym_read D U raw cs pos TS k0 l0 Here In0 0 l0 eq_refl) by lia. cbn [lift obindo].
      rewrite Ex by lia. cbn [obindo]. rewrite Fa. reflexivity.
    Qed.

    Lemma match_total s : sim_good s ->
      exists r l' s', outcome_of r l' /\ sim_good s' /\
        eventually (fun fuel => match_token D U a action sempred ctx_hash actions_hash configs_hash fuel m l0 s = Val (r, l', s')).
    Proof.
      intros SG. assert (G : exists r l' s', outcome_of r l' /\
        eventually (fun fuel => match_token D U a action sempred ctx_hash actions_hash configs_hash fuel m l0 s = Val (r, l', s'))).
      { destruct SG as (Len & G). unfold match_token. set (p := sim_reset (sm_prev_accept s)).
        assert (Np : sa_state p = None) by reflexivity. destruct (vget (sm_dfas s) m) as [d|] eqn:Ed.
        2: { do 3 eexists. split; [|apply ev_now; reflexivity]. right. exists 0%nat. split; [lia|]. split; [reflexivity|]. right. eexists. reflexivity. }
        assert (X : exists r d' p' l', outcome_of r l' /\ eventually (fun fuel =>
                  match s0 d with
                  | Some q => exec_atn D U a action sempred ctx_hash actions_hash configs_hash fuel (is_index (lx_input U l0)) q d p l0
                  | None => match_atn D U a action sempred ctx_hash actions_hash configs_hash fuel (is_index (lx_input U l0)) m d p l0
                  end = Val (r, d', p', l'))).
        { destruct (s0 d) as [q|] eqn:E0.
          - destruct (proj2 (proj2 (proj2 (G _ _ Ed))) q E0) as (Lq & st & Eq & Co). apply (exec_atn_total q d p st); auto.
          - unfold match_atn. rewrite vget_item. destruct (item (mode_to_start_state a) m) as [ms|] eqn:Em.
            2: { do 4 eexists. split; [|apply ev_now; reflexivity]. right. exists 0%nat. split; [lia|]. split; [reflexivity|]. right. eexists. reflexivity. }
            destruct (mode_state a FM _ _ Em) as (st & Est). rewrite (state_of_ok a _ _ Est). cbn [obindo].
            assert (Ft : Forall (fun t => exists_state a (get_target t)) (st_trans st)).
            { apply Forall_forall. intros t Ht. apply FM in Est. destruct Est as (_ & _ & W). apply W, Ht. }
            destruct (start_total D U a sempred ctx_hash actions_hash FM SE (st_trans st) Ft 0 _ l0 empty_inv) as (c0 & Est0).
            destruct (ev_some _ Est0) as (f0 & Ef0).
            destruct (match_start_total D U a sempred ctx_hash actions_hash configs_hash FM RA NC _ _ _ _ _ _ _ _ (G _ _ Ed) E0 Em Est Ef0) as (d2 & q & st2 & _ & E2 & Sm & G2 & K2 & Lq & Vq & Co).
            destruct (exec_atn_total q (Dfa lexer_type executor (dfa_states d2) (states_map d2) (Some q) (is_precedence_dfa d2)) p st2 G2 Lq Vq Co Np) as (r & d' & p' & l' & Oc & Ex).
            exists r, d', p', l'. split; [exact Oc|]. eapply ev_impl; [|exact (ev_and _ _ Est0 Ex)]. cbn beta. intros fuel (X1 & X2).
            unfold compute_start_state. rewrite X1. cbn [obindo]. rewrite E2. cbn [obindo]. rewrite Sm. exact X2. }
        destruct X as (r & d' & p' & l' & Oc & Ex).
        assert (Ev : exists dfas, vset (sm_dfas s) m d' = Some dfas) by (eapply vset_some, vget_lt; eauto). destruct Ev as (dfas & Ev).
        exists r, l', (Sim p' dfas). split; [exact Oc|]. eapply ev_impl; [|exact Ex]. cbn beta. intros fuel X. rewrite X. cbn [obindo]. rewrite Ev. reflexivity. }
      destruct G as (r & l' & s' & Oc & E). exists r, l', s'. split; [exact Oc|]. split; [|exact E]. destruct (ev_some _ E) as (f & X).
      eapply match_good; eauto.
    Qed.
  End From.
End Matching.

Section Tokens.
  Variable D : input_data.
  Variable U : Type.
  Variable a : atn.
  Variable action : Z -> Z -> lexer U -> lexer U.
  Variable sempred : Z -> Z -> lexer U -> bool * lexer U.
  Variable before_emit : lexer U -> lexer U.
  Variable ctx_hash : pctx -> Z.
  Variable actions_hash : list lexer_action -> Z.
  Variable configs_hash : list (config hashed) -> Z.
  Hypothesis FM : lexer_formed a.
  Hypothesis RA : rules_apart a.
  Hypothesis NC : no_collisions D U a sempred ctx_hash actions_hash configs_hash.
  Hypothesis SE : settles a.
  Hypothesis NE : no_empty_match a.
  Hypothesis KE : place_keeping action sempred before_emit.
  Hypothesis NT : no_own_tokens action.
  Notation lexer := (lexer U).
  Notation sim_good := (sim_good D U a sempred ctx_hash actions_hash configs_hash).
  Variables raw cs : list Z.
  Variable pos : nat -> Z.
  Hypothesis TS : text_source D raw cs pos.
  Notation at_char := (at_char U raw cs pos).
  Notation start_known := (start_known U cs pos).
  Let PR := source_presents _ _ _ _ TS.

  (** ** Texts *)
  Lemma slice_ok i j : (i <= j <= length cs)%nat -> exists t, d_slice D raw (pos i) (pos j) = Ok t.
  Proof.
    intros L. pose proof (pos_le D raw cs pos TS i j L) as A. pose proof (pos_le D raw cs pos TS j (length cs) ltac:(lia)) as B.
    pose proof (pos_le D raw cs pos TS 0 i ltac:(lia)) as C. rewrite (pr_pos0 _ _ _ _ PR) in C. rewrite (pos_len D raw cs pos TS) in B.
    clear PR. destruct TS as [cs0 F|cs0 F]; cbn [d_slice slice_data str_data]; unfold slice_range, str_range.
    - destruct ((0 <=? Z.of_nat i) && (Z.of_nat i <=? Z.of_nat j) && (Z.of_nat j <=? zlen cs0)) eqn:E; [eauto | lia].
    - rewrite !(boundary_at cs0 F) by lia. rewrite !andb_true_r.
      destruct ((0 <=? byte_pos cs0 i) && (byte_pos cs0 i <=? byte_pos cs0 j) && (byte_pos cs0 j <=? zlen (encode_all cs0))) eqn:E; [eauto | lia].
  Qed.
  Lemma slice_from_ok i : (i <= length cs)%nat -> exists t, d_slice_from D raw (pos i) = Ok t.
  Proof.
    intros L. destruct (slice_ok i (length cs) ltac:(lia)) as (t & E). rewrite (pos_len D raw cs pos TS) in E. exists t. rewrite <- E.
    clear PR E. destruct TS; reflexivity.
  Qed.
  Lemma back_offset j : (j <= length cs)%nat -> d_offset D raw (pos j - 1) 1 = Some (pos j).
  Proof.
    intros L. pose proof (pos_le D raw cs pos TS j (length cs) ltac:(lia)) as B. rewrite (pos_len D raw cs pos TS) in B.
    pose proof (pos_le D raw cs pos TS 0 j ltac:(lia)) as C. rewrite (pr_pos0 _ _ _ _ PR) in C.
    clear PR. destruct TS as [cs0 F|cs0 F]; cbn [d_offset slice_data str_data].
    - unfold slice_offset. replace (Z.of_nat j - 1 + 1) with (Z.of_nat j) by lia.
      destruct (Z.of_nat j <? 0) eqn:E1; [lia|]. destruct (Z.of_nat j >? zlen cs0) eqn:E2; [lia | reflexivity].
    - unfold str_offset. cbn [Z.eqb str_offset_loop Z.sgn]. replace (byte_pos cs0 j - 1 + 1) with (byte_pos cs0 j) by lia.
      destruct ((byte_pos cs0 j <? 0) || (byte_pos cs0 j >? zlen (encode_all cs0))) eqn:E; [lia|].
      rewrite (boundary_at cs0 F) by lia. reflexivity.
  Qed.
  Lemma text_total i j q : (i <= j <= length cs)%nat -> exists t, get_text D (IStream raw q) (pos i) (pos j) = Ok t.
  Proof.
    intros L. unfold get_text. cbn [data_raw]. rewrite (pr_offset _ _ _ _ PR) by lia.
    destruct ((0 <=? Z.of_nat j + 1) && (Z.of_nat j + 1 <=? zlen cs)) eqn:E.
    - replace (Z.to_nat (Z.of_nat j + 1)) with (S j) by lia. cbv zeta. unfold zlen in E. destruct (pos (S j) <? zlen raw); [apply slice_ok; lia | apply slice_from_ok; lia].
    - unfold zlen in E. assert (j = length cs) by lia. subst j. rewrite (pos_len D raw cs pos TS). rewrite Z.ltb_irrefl. apply slice_from_ok. lia.
  Qed.
  Lemma token_total i j q : (i <= j <= length cs)%nat -> exists t, get_text D (IStream raw q) (pos i) (pos j - 1) = Ok t.
  Proof.
    intros L. unfold get_text. cbn [data_raw]. rewrite back_offset by lia. cbv zeta.
    destruct (pos j <? zlen raw); [apply slice_ok; lia | apply slice_from_ok; lia].
  Qed.

  Definition no_eof_types : Prop := (forall ty, In ty (rule_to_token_type a) -> ty <> -1) /\ (forall x, In x (lexer_actions a) -> gives_eof x = false) /\
    (forall r i l, lx_type U (action r i l) = -1 -> lx_type U l = -1).
  Lemma gives_bare x : gives_eof (bare x) = gives_eof x.
  Proof. induction x; cbn; auto. Qed.
  Lemma action_type x : (forall r i l, lx_type U (action r i l) = -1 -> lx_type U l = -1) -> gives_eof x = false ->
    forall l, lx_type U (execute_action U action x l) = -1 -> lx_type U l = -1.
  Proof.
    intros Ka. induction x; cbn; intros G l H; try exact H; eauto; try discriminate.
    - unfold pop_mode in H. destruct (vec_pop (lx_mode_stack U l)) as [[st m]|]; exact H.
    - apply Z.eqb_neq in G. congruence.
  Qed.
  Lemma execute_type e l si : no_eof_types -> incl (map bare (ex_actions e)) (map bare (lexer_actions a)) ->
    lx_type U (execute U action e l si) = -1 -> lx_type U l = -1.
  Proof.
    intros (_ & Na & Ka) Inc. rewrite (execute_ok action) by (intros; apply KE). generalize (is_index (lx_input U l)) as stop. intros stop. revert l.
    induction (ex_actions e) as [|x xs IH]; intros l H; cbn [fold_left] in H; [exact H|]. cbn [map] in Inc.
    assert (Gx : gives_eof x = false).
    { assert (I : In (bare x) (map bare (lexer_actions a))) by (apply Inc; left; reflexivity). apply in_map_iff in I. destruct I as (y & E & I).
      rewrite <- gives_bare, <- E, gives_bare. auto. }
    assert (Inc' : incl (map bare xs) (map bare (lexer_actions a))) by (intros z Hz; apply Inc; right; exact Hz).
    apply IH in H; [|exact Inc']. cbn [as_placed move_to with_input lx_type] in H. apply action_type in H; auto.
  Qed.

  Lemma here_same k k' l : at_char k l -> lx_input U l = IStream raw (pos k') -> (k' <= length cs)%nat -> k = k'.
  Proof. intros (A & B & _) E L. rewrite E in B. inversion B as [X]. symmetry. eapply pos_inj; eauto. Qed.
  Lemma recover_total k l : at_char k l -> exists l', recover D U l = Val l'.
  Proof.
    intros A. pose proof A as (A1 & A2 & A3). unfold recover. rewrite A2, (la_here D raw cs pos TS k A1). cbn [lift obindo].
    destruct (nth_error cs k) as [c|] eqn:Ec; [|rewrite Z.eqb_refl; eauto].
    destruct (Z.eqb_spec c EOF) as [->|N]; [eauto|].
    destruct (consume_ok D U raw cs pos TS k l A) as (l' & E & _); [apply nth_error_Some; congruence | eauto].
  Qed.

  (** one match, and the handling of its failure *)
  Lemma round_total k l s : at_char k l -> start_known k l -> lx_token U l = None -> lx_type U l = TOKEN_INVALID_TYPE -> sim_good s ->
    exists mr l1 s1 ttype l2 k2, sim_good s1 /\
      eventually (fun fuel => match_token D U a action sempred ctx_hash actions_hash configs_hash fuel (lx_mode U l) l s = Val (mr, l1, s1)) /\
      match mr with
      | inl t => Val (t, l1)
      | inr _ => let! l := notify_listeners D U l1 in let! l := recover D U l in Val (LEXER_SKIP, l)
      end = Val (ttype, l2) /\
      at_char k2 l2 /\ start_known k2 l2 /\ lx_token U l2 = None /\ (k2 = length cs \/ (k < k2)%nat) /\
      let ty := if lx_type U l2 =? TOKEN_INVALID_TYPE then ttype else lx_type U l2 in
      (ty = LEXER_MORE -> (k < k2)%nat) /\ (no_eof_types -> ty = -1 -> k2 = length cs).
  Proof.
    intros A SK TK Ty SG. pose proof A as (Lk & Hi & _).
    destruct (match_total D U a sempred ctx_hash actions_hash configs_hash FM RA NC SE NE raw cs pos TS k l Hi Lk
           (lx_mode U l) action s SG) as (mr & l1 & s1 & Oc & SG1 & Em).
    destruct (ev_some _ Em) as (f0 & Ef).
    destruct (match_place D U a action sempred before_emit ctx_hash actions_hash configs_hash KE raw cs pos TS _ _ _ _ _ _ _ _ A Ef) as (k1 & L1 & A1 & R1 & T1 & K1).
    specialize (K1 NT). destruct R1 as (R1 & R2 & R3 & R4 & R5 & R6).
    assert (RL : length (skipn k cs) = (length cs - k)%nat) by apply skipn_length.
    assert (SK1 : start_known k1 l1).
    { destruct SK as (ks & X1 & X2 & X3). exists ks. split; [lia|]. split; [congruence|]. rewrite R2, R3. exact X3. }
    destruct Oc as [(n & ln & ty & x & Ln & En & -> & Ity & El & Ix)|(j & Lj & Ej & [(Z0 & ->)|(e & ->)])].
    - exists (inl ty), l1, s1, ty, l1, k1. split; [exact SG1|]. split; [exact Em|]. split; [reflexivity|]. split; [exact A1|]. split; [exact SK1|]. split; [congruence|].
      assert (Hn : lx_input U ln = IStream raw (pos (k + n))) by (eapply eat_input; eauto; lia).
      assert (Tn : lx_type U ln = TOKEN_INVALID_TYPE) by (rewrite (eat_here D U raw cs pos TS k l n ln Hi ltac:(lia) En); exact Ty).
      assert (Ek : k1 = (k + n)%nat).
      { eapply here_same; [exact A1| |lia]. rewrite <- Hn, El. destruct x as [e|]; [|reflexivity]. apply execute_input. intros; apply KE. }
      split; [right; lia|]. split; [intros _; lia|]. intros NY Et. exfalso.
      destruct (Z.eqb_spec (lx_type U l1) TOKEN_INVALID_TYPE) as [_|N]; [apply NY in Ity; contradiction|].
      rewrite El in Et. destruct x as [e|]; [|congruence]. apply (execute_type _ _ _ NY Ix) in Et. rewrite Tn in Et. discriminate.
    - exists (inl TOKEN_EOF), l1, s1, TOKEN_EOF, l1, k1. split; [exact SG1|]. split; [exact Em|]. split; [reflexivity|]. split; [exact A1|]. split; [exact SK1|]. split; [congruence|].
      assert (j = 0)%nat by lia. subst j. cbn in Ej. inversion Ej; subst l1. pose proof A1 as (Lk1 & _).
      assert (k1 = length cs) by lia. split; [left; assumption|]. rewrite Ty. cbn. split; [discriminate | auto].
    - destruct SK1 as (ks & X1 & X2 & X3). pose proof A1 as (B1 & B2 & B3).
      destruct (text_total ks k1 (pos k1) ltac:(lia)) as (txt & Etx).
      set (l3 := with_errors U l1 (lx_errors U l1 ++ [(lx_start_line U l1, lx_start_column U l1, txt)])).
      assert (A3 : at_char k1 l3) by exact A1. destruct (recover_total k1 l3 A3) as (l4 & Er).
      destruct (recover_place D U raw cs pos TS _ _ _ A3 Er) as (A4 & (Q1 & Q2 & Q3 & Q4 & Q5 & Q6) & Q7 & Q8). cbn in Q1, Q2, Q3, Q4, Q5, Q6, Q7, Q8.
      exists (inr e), l1, s1, LEXER_SKIP, l4, (Nat.min (S k1) (length cs)). split; [exact SG1|]. split; [exact Em|]. split.
      { unfold notify_listeners, get_char_index. rewrite B2, X2. cbn [is_index]. rewrite Etx. cbn [lift obindo]. fold l3. rewrite Er. reflexivity. }
      split; [exact A4|]. split; [exists ks; split; [lia|]; split; [congruence|]; rewrite Q2, Q3; exact X3|]. split; [congruence|].
      split; [lia|]. rewrite Q7, (T1 e eq_refl), Ty. cbn. split; discriminate.
  Qed.

  Lemma inner_total r : forall k l s, at_char k l -> start_known k l -> lx_token U l = None -> sim_good s -> (length cs - k < r)%nat ->
    exists b l' s' k', at_char k' l' /\ start_known k' l' /\ lx_token U l' = None /\ sim_good s' /\
      (lx_hit_eof U l' = true \/ (k < k' < length cs)%nat) /\
      (no_eof_types -> b = true -> lx_type U l' = -1 -> lx_hit_eof U l' = true) /\
      exists N, forall fuel n, (N <= fuel)%nat -> (N <= n)%nat ->
        inner_loop D U a action sempred ctx_hash actions_hash configs_hash fuel n l s = Val (b, l', s').
  Proof.
    induction r as [|r IH]; intros k l s A SK TK SG Lr; [lia|].
    destruct (round_total k (with_type U l TOKEN_INVALID_TYPE) s A SK TK eq_refl SG) as (mr & l1 & s1 & ttype & l2 & k2 & SG1 & (N0 & Em) & E2 & A2 & SK2 & TK2 & P2 & TM & TE).
    pose proof A2 as (B1 & B2 & B3).
    assert (La : la D (lx_input U l2) 1 = Ok (match nth_error cs k2 with Some c => c | None => EOF end)) by (rewrite B2; apply la_here; auto).
    set (c := match nth_error cs k2 with Some c => c | None => EOF end) in *.
    assert (Ec : (c =? EOF) = true <-> k2 = length cs).
    { unfold c. destruct (nth_error cs k2) as [x|] eqn:En.
      - split; intros X; exfalso; [apply Z.eqb_eq in X; subst x; eapply char_not_eof; eauto | subst k2].
        assert (length cs < length cs)%nat by (apply nth_error_Some; congruence). lia.
      - apply nth_error_None in En. split; intros _; [lia | reflexivity]. }
    set (l3 := if c =? EOF then with_hit_eof U l2 else l2).
    set (l4 := if lx_type U l3 =? TOKEN_INVALID_TYPE then with_type U l3 ttype else l3).
    set (l5 := with_log U l4 (lx_log U l4 ++ [Matched (is_index (lx_input U l)) (is_index (lx_input U l4)) (lx_type U l4)
                   (match mr with inl _ => false | inr _ => true end)])).
    assert (T5 : lx_type U l5 = if lx_type U l2 =? TOKEN_INVALID_TYPE then ttype else lx_type U l2).
    { unfold l5. cbn [lx_type with_log]. unfold l4. assert (X : lx_type U l3 = lx_type U l2) by (unfold l3; destruct (c =? EOF); reflexivity). rewrite X.
      destruct (lx_type U l2 =? TOKEN_INVALID_TYPE); [reflexivity | exact X]. }
    rewrite <- T5 in TM, TE.
    assert (A5 : at_char k2 l5).
    { unfold l5, l4, l3. destruct (c =? EOF); cbn; destruct (lx_type U l2 =? TOKEN_INVALID_TYPE); exact A2. }
    assert (SK5 : start_known k2 l5).
    { unfold l5, l4, l3. destruct (c =? EOF); cbn; destruct (lx_type U l2 =? TOKEN_INVALID_TYPE); exact SK2. }
    assert (TK5 : lx_token U l5 = None).
    { unfold l5, l4, l3. destruct (c =? EOF); cbn; destruct (lx_type U l2 =? TOKEN_INVALID_TYPE); exact TK2. }
    assert (H5 : k2 = length cs -> lx_hit_eof U l5 = true).
    { intros X. apply Ec in X. unfold l5, l4, l3. rewrite X. cbn. destruct (lx_type U l2 =? TOKEN_INVALID_TYPE); reflexivity. }
    assert (P5 : lx_hit_eof U l5 = true \/ (k < k2 < length cs)%nat).
    { destruct (Nat.eq_dec k2 (length cs)) as [X|X]; [left; auto | right]. destruct P2; [contradiction | lia]. }
    assert (St : forall fuel n, (N0 <= fuel)%nat -> inner_loop D U a action sempred ctx_hash actions_hash configs_hash fuel (S n) l s =
        if lx_type U l5 =? LEXER_SKIP then Val (false, l5, s1)
        else if lx_type U l5 =? LEXER_MORE then inner_loop D U a action sempred ctx_hash actions_hash configs_hash fuel n l5 s1
        else Val (true, l5, s1)).
    { intros fuel n Lf. cbn [inner_loop]. change (lx_mode U (with_type U l TOKEN_INVALID_TYPE)) with (lx_mode U l). rewrite Em by exact Lf. cbn [obindo].
      change (lx_mode U (with_type U l TOKEN_INVALID_TYPE)) with (lx_mode U l) in Em. rewrite E2. cbn [obindo]. rewrite La. reflexivity. }
    destruct (lx_type U l5 =? LEXER_SKIP) eqn:Es.
    { exists false, l5, s1, k2. do 5 (split; [assumption|]). split; [intros; discriminate|]. exists (S N0). intros fuel [|n] La1 La2; [lia|]. rewrite St by lia. reflexivity. }
    destruct (lx_type U l5 =? LEXER_MORE) eqn:Emo.
    - apply Z.eqb_eq in Emo. specialize (TM Emo).
      destruct (IH k2 l5 s1 A5 SK5 TK5 SG1 ltac:(lia)) as (b & l' & s' & k' & J1 & J2 & J3 & J4 & J5 & J6 & N1 & J7).
      exists b, l', s', k'. do 4 (split; [assumption|]). split; [lia|]. split; [assumption|]. exists (S (N0 + N1))%nat. intros fuel [|n] La1 La2; [lia|].
      rewrite St by lia. apply J7; lia.
    - exists true, l5, s1, k2. do 5 (split; [assumption|]). split; [intros NY _ X; apply H5; auto|]. exists (S N0). intros fuel [|n] La1 La2; [lia|]. rewrite St by lia. reflexivity.
  Qed.

  (** ** Calls of next_token *)
  Lemma emit_total k l : at_char k l -> start_known k l -> exists l' t, emit D U before_emit l = Val l' /\ lx_token U l' = Some t /\ at_char k l' /\
    lx_hit_eof U l' = lx_hit_eof U l /\ FactoryModel.token_type t = lx_type U (before_emit l).
  Proof.
    intros A (ks & X1 & X2 & X3). unfold emit. destruct KE as (_ & KB & _). specialize (KB l). set (lb := before_emit l) in *.
    pose proof (at_char_place U raw cs pos _ _ _ A KB) as Y1. destruct KB as (Q1 & Q2 & Q3 & Q4 & Q5 & Q6 & Q7 & Q8 & Q9). pose proof Y1 as (Y2 & Y3 & _).
    destruct (token_total ks k (pos k) ltac:(lia)) as (txt & Etx). unfold FactoryModel.create, get_char_index. rewrite Y3, Q4, X2. cbn [is_index].
    destruct (lx_text U lb) as [tx|] eqn:Et.
    - cbn [bind lift obindo]. do 2 eexists. split; [reflexivity|]. cbn. split; [reflexivity|]. split; [exact Y1|]. split; [congruence | reflexivity].
    - destruct ((pos k - 1 >=? size (IStream raw (pos k))) || (pos ks >=? size (IStream raw (pos k)))); [|rewrite Etx];
        cbn [bind lift obindo]; (do 2 eexists; split; [reflexivity|]; cbn; split; [reflexivity|]; split; [exact Y1|]; split; [congruence | reflexivity]).
  Qed.

  (** a call either reaches the end or moves forward *)
  Lemma outer_total r : forall k l s, at_char k l -> sim_good s -> (length cs - k < r)%nat ->
    exists l' s' k' t, at_char k' l' /\ lx_token U l' = Some t /\ sim_good s' /\ (lx_hit_eof U l' = true \/ (k < k' < length cs)%nat) /\
      (lx_hit_eof U l = true -> FactoryModel.token_type t = -1) /\
      (eof_reserved a action before_emit -> FactoryModel.token_type t = -1 -> lx_hit_eof U l' = true) /\
      exists N, forall fuel n, (N <= fuel)%nat -> (N <= n)%nat ->
        outer_loop D U a action sempred before_emit ctx_hash actions_hash configs_hash fuel n l s = Val (l', s').
  Proof.
    assert (Eof : forall k l s, at_char k l -> sim_good s -> lx_hit_eof U l = true -> exists l' t, at_char k l' /\ lx_token U l' = Some t /\ lx_hit_eof U l' = true /\
              FactoryModel.token_type t = -1 /\ forall fuel n, (1 <= n)%nat -> outer_loop D U a action sempred before_emit ctx_hash actions_hash configs_hash fuel n l s = Val (l', s)).
    { intros k l s A SG He. do 2 eexists. split; [|split; [|split; [|split; [|intros fuel [|n] Ln; [lia|]; cbn [outer_loop]; rewrite He; cbn; reflexivity]]]]; try reflexivity; [exact A | exact He]. }
    induction r as [|r IH]; intros k l s A SG Lr; [lia|]. destruct (lx_hit_eof U l) eqn:He.
    { destruct (Eof k l s A SG He) as (l' & t & J1 & J2 & J3 & J4 & J5). exists l', s, k, t. do 3 (split; [assumption|]). split; [auto|]. split; [auto|]. split; [auto|].
      exists 1%nat. intros. apply J5. assumption. }
    assert (As : at_char k (start_token U l)) by exact A.
    assert (SKs : start_known k (start_token U l)).
    { exists k. split; [lia|]. cbn. destruct A as (A1 & A2 & A3). rewrite A2. cbn. split; [reflexivity | exact A3]. }
    destruct (inner_total (S (length cs - k)) k (start_token U l) s As SKs eq_refl SG ltac:(lia)) as (b & l1 & s1 & k1 & J1 & J2 & J3 & J4 & J5 & J6 & N1 & J7).
    destruct b.
    - destruct (emit_total k1 l1 J1 J2) as (l2 & t & E & Tk & A2 & H2 & Ty). exists l2, s1, k1, t. do 3 (split; [assumption|]). rewrite H2. split; [exact J5|].
      split; [discriminate|]. split; [intros (Y1 & Y2 & Y3 & Y4) X; apply J6; [split; auto | reflexivity | apply Y4; congruence]|].
      exists (S N1). intros fuel [|n] L1 L2; [lia|]. cbn [outer_loop]. rewrite He, J7 by lia. cbn [obindo negb]. rewrite J3, E. reflexivity.
    - destruct (lx_hit_eof U l1) eqn:He1.
      + destruct (Eof k1 l1 s1 J1 J4 He1) as (l' & t & M1 & M2 & M3 & M4 & M5). exists l', s1, k1, t. do 3 (split; [assumption|]). split; [auto|]. split; [auto|]. split; [auto|].
        exists (S (S N1)). intros fuel [|n] L1 L2; [lia|]. cbn [outer_loop]. rewrite He, J7 by lia. cbn [obindo negb]. apply M5. lia.
      + destruct J5 as [J5|J5]; [discriminate|]. destruct (IH k1 l1 s1 J1 J4 ltac:(lia)) as (l' & s' & k' & t & M1 & M2 & M3 & M4 & M5 & M6 & N2 & M7).
        exists l', s', k', t. do 3 (split; [assumption|]). split; [lia|]. split; [discriminate|]. split; [exact M6|].
        exists (S (N1 + N2))%nat. intros fuel [|n] L1 L2; [lia|]. cbn [outer_loop]. rewrite He, J7 by lia. cbn [obindo negb]. apply M7; lia.
  Qed.
  Lemma next_call k l s : at_char k l -> sim_good s ->
    exists t l' s' k', at_char k' l' /\ sim_good s' /\ (lx_hit_eof U l' = true \/ (k < k' < length cs)%nat) /\
      (lx_hit_eof U l = true -> FactoryModel.token_type t = -1 /\ lx_hit_eof U l' = true) /\
      (eof_reserved a action before_emit -> FactoryModel.token_type t = -1 -> lx_hit_eof U l' = true) /\
      eventually (fun fuel => next_token D U a action sempred before_emit ctx_hash actions_hash configs_hash fuel l s = Val (t, l', s')).
  Proof.
    intros A SG. destruct (outer_total (S (length cs - k)) k l s A SG ltac:(lia)) as (l' & s' & k' & t & J1 & J2 & J3 & J4 & J5 & J6 & N & J7).
    exists t, (with_token U l' None), s', k'. split; [exact J1|]. split; [exact J3|]. split; [exact J4|].
    assert (E : forall fuel, (N <= fuel)%nat -> next_token D U a action sempred before_emit ctx_hash actions_hash configs_hash fuel l s = Val (t, with_token U l' None, s')).
    { intros fuel L. unfold next_token. rewrite J7 by lia. cbn [obindo]. rewrite J2. reflexivity. }
    split; [|split; [exact J6 | exists N; exact E]]. intros He. split; [auto|]. eapply after_eof; [exact He | apply (E N); lia].
  Qed.

  (** [n] further calls *)
  Lemma calls_total n : forall k l s, at_char k l -> sim_good s ->
    exists ts l' s', length ts = n /\
      (lx_hit_eof U l = true -> Forall (fun t => FactoryModel.token_type t = -1) ts) /\
      (forall i t, nth_error ts i = Some t -> (1 <= i)%nat -> (length cs <= k + i)%nat -> FactoryModel.token_type t = -1) /\
      (eof_reserved a action before_emit -> forall i j t t', (i <= j)%nat -> nth_error ts i = Some t -> nth_error ts j = Some t' ->
         FactoryModel.token_type t = -1 -> FactoryModel.token_type t' = -1) /\
      eventually (fun fuel => next_tokens D U a action sempred before_emit ctx_hash actions_hash configs_hash fuel n l s = Val (ts, l', s')).
  Proof.
    induction n as [|n IH]; intros k l s A SG.
    - exists [], l, s. split; [reflexivity|]. split; [constructor|]. split; [intros [|i]; discriminate|]. split; [intros _ [|i]; discriminate|]. apply ev_now. reflexivity.
    - destruct (next_call k l s A SG) as (t & l1 & s1 & k1 & A1 & SG1 & P1 & H1 & R1 & E1).
      destruct (IH k1 l1 s1 A1 SG1) as (ts & l' & s' & J1 & J2 & J3 & J4 & E2).
      exists (t :: ts), l', s'. split; [cbn; congruence|]. split; [intros He; destruct (H1 He); constructor; auto|]. split; [|split].
      + intros [|i] t' Ht Li Lc; [lia|]. cbn in Ht. destruct P1 as [P1|P1].
        * specialize (J2 P1). rewrite Forall_forall in J2. apply J2. eapply nth_error_In; eauto.
        * destruct i as [|i]; [|eapply J3; eauto; lia]. exfalso. lia.
      + intros ER [|i] [|j] t1 t2 L H3 H4 Ty; cbn in H3, H4; [congruence| |lia|eapply J4; [exact ER| |exact H3|exact H4|exact Ty]; lia].
        inversion H3; subst t1. specialize (J2 (R1 ER Ty)). rewrite Forall_forall in J2. apply J2. eapply nth_error_In; eauto.
      + eapply ev_impl; [|exact (ev_and _ _ E1 E2)]. cbn beta. intros fuel (X & Y). cbn [next_tokens]. rewrite X. cbn [obindo]. rewrite Y. reflexivity.
  Qed.
End Tokens.
