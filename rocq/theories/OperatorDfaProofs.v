(** The loop of an operator rule: what the states and edges of its DFA mean, and that
    predictions keep it so. *)
From Coq Require Import ZArith List Bool Lia.
From Verif Require Import Outcome IntervalSetModel IntervalSetProofs PredContextModel PredContextSpec PredContextProofs SemContextModel SemContextProofs.
From Verif Require Import ConfigSetModel ConfigSetSpec ConfigSetProofs DfaModel DfaProofs AtnModel AtnSpec AtnProofs Ll1Model Ll1Spec ParserModel PredictModel.
From Verif Require Import PredictFrameProofs PredictLLSpec PredictLLSetProofs RecSpec OperatorSpec OperatorProofs OperatorReachProofs.
From Verif Require PredictDfaFrameProofs PredictLLDfaProofs.
Import ListNotations.
Local Open Scope Z_scope.
Local Open Scope outcome_scope.

Section Dfa.
  Variable a : atn.
  Variable entry ops out : Z.
  Variable level : Z -> option Z.
  Variable where_ : Z -> place.
  Hypothesis WF : well_formed a.
  Hypothesis OL : operator_loop a entry ops out level where_.
  Hypothesis TL : token_levels a level.
  Notation starts := (starts a ops where_).
  Notation kept := (kept where_).
  Notation choice := (choice level).
  Notation goes := (goes level).
  Notation offers := (offers a where_).

  Definition is_start (q : Z) (st : pstate) : Prop := starts q (configs (d_configs st)) /\ unique_alt (d_configs st) = 0 /\ full_ctx (d_configs st) = false.
  Definition is_done (u : Z) (st : pstate) : Prop := d_accept st = true /\ d_full st = false /\ d_preds st = [] /\ d_prediction st = u /\ unique_alt (d_configs st) = u.
  Definition edge_to (d : pdfa) (u r : Z) : Prop := (r = ERROR_DFA_STATE_REF /\ u = 2) \/ (r <> ERROR_DFA_STATE_REF /\ 2 <= r /\ exists st, vget (dfa_states d) r = Some st /\ is_done u st).
  Record odfa (d : pdfa) : Prop := {
    o_prec : is_precedence_dfa d = true;
    o_s0 : s0 d = Some 1;
    o_len : 2 <= Z.of_nat (length (dfa_states d));
    o_states : forall i st, 2 <= i -> vget (dfa_states d) i = Some st -> (exists q, is_start q st) \/ (exists u, u <> 0 /\ is_done u st);
    o_edges : forall i st q t r u, 2 <= i -> vget (dfa_states d) i = Some st -> is_start q st -> p_get_edge (d_edges st) t = Some r -> choice q t u -> edge_to d u r;
    o_starts : forall st p r, vget (dfa_states d) 1 = Some st -> slot (vget (d_edges st) p) = Some r -> 2 <= r /\ exists st', vget (dfa_states d) r = Some st' /\ is_start p st';
    o_map : forall key b i, map_get (states_map d) key = Some b -> In i b -> 2 <= i
  }.
  Definition keeps (d d' : pdfa) : Prop := forall i st, 2 <= i -> vget (dfa_states d) i = Some st -> exists es, vget (dfa_states d') i = Some (with_edges unit unit st es).
  Lemma with_same st : with_edges unit unit st (d_edges st) = st.
  Proof. destruct st. reflexivity. Qed.
  Lemma with_twice st e1 e2 : with_edges unit unit (with_edges unit unit st e1) e2 = with_edges unit unit st e2.
  Proof. destruct st. reflexivity. Qed.
  Lemma keeps_refl d : keeps d d.
  Proof. intros i st L V. exists (d_edges st). rewrite with_same. exact V. Qed.
  Lemma keeps_trans d1 d2 d3 : keeps d1 d2 -> keeps d2 d3 -> keeps d1 d3.
  Proof. intros A B i st L V. destruct (A _ _ L V) as (e1 & V1). destruct (B _ _ L V1) as (e2 & V2). exists e2. rewrite with_twice in V2. exact V2. Qed.
  Lemma start_with q st es : is_start q (with_edges unit unit st es) <-> is_start q st.
  Proof. destruct st. reflexivity. Qed.
  Lemma done_with q st es : is_done q (with_edges unit unit st es) <-> is_done q st.
  Proof. destruct st. reflexivity. Qed.
  Lemma choice_two q t u : choice q t u -> u = 1 \/ u = 2.
  Proof. intros [(_ & ->)|(_ & ->)]; auto. Qed.

  Lemma edge_keeps d d' u r : keeps d d' -> edge_to d u r -> edge_to d' u r.
  Proof.
    intros K [E|(N & R & st & V & D)]; [left; exact E|]. right. split; [exact N|]. split; [exact R|]. destruct (K _ _ R V) as (es & V'). eexists. split; [exact V'|]. apply done_with, D.
  Qed.
  Lemma not_both q u st : is_start q st -> u <> 0 -> is_done u st -> False.
  Proof. intros (_ & A & _) U (_ & _ & _ & _ & B). congruence. Qed.

  (** *** Sets that are equal, or equal but for the sharing of contexts *)
  Definition sig (c : pconfig) : Z * Z * Z := (c_state c, c_alt c, c_reach c).
  Lemma kept_sig q c c' : sig c = sig c' -> c_sem c' = c_sem c -> kept q c -> kept q c'.
  Proof. intros E Es (A & B). unfold sig in E. injection E as E1 E2 E3. split; [congruence|]. rewrite <- E1, <- E2, <- E3. exact B. Qed.
  Lemma share_starts share l l' : share_all unit share l = Val l' -> forall q, starts q l -> starts q l'.
  Proof.
    intros H q (F & K). assert (G : Forall (kept q) l' /\ forall j u, has_key l j u -> has_key l' j u); [|destruct G as (G1 & G2); split; [exact G1 | intros; eapply G2, K; eauto]]. clear K.
    revert l' H. induction F as [|c l Kc F IH]; intros l' H; cbn [share_all] in H; [injection H as <-; split; [constructor | auto]|].
    bind H x Ex. bind H r Er. injection H as <-. destruct (IH _ Er) as (G1 & G2). split.
    - constructor; [|exact G1]. eapply kept_sig; [| |exact Kc]; reflexivity.
    - intros j u (c0 & [<-|I0] & E1 & E2); [eexists; split; [left; reflexivity | split; [exact E1 | exact E2]]|]. destruct (G2 j u) as (c1 & I1 & E3 & E4); [exists c0; auto|].
      exists c1. split; [right; exact I1 | auto].
  Qed.
  Lemma equal_starts q q' l : forall l', configs_eqb unit unit_eqb l l' = true -> Forall (kept q') l -> starts q l' -> starts q l.
  Proof.
    intros l' E F (F' & K). assert (G : Forall (kept q) l /\ forall j u, has_key l' j u -> has_key l j u); [|destruct G as (G1 & G2); split; [exact G1 | intros; eapply G2, K; eauto]]. clear K.
    revert l' E F'. induction F as [|c l Kc F IH]; intros l' E F'; destruct l' as [|c' l']; try discriminate; [split; [constructor | auto]|].
    cbn in E. apply andb_true_iff in E as (E & El). inversion F' as [|? ? Kc' F'']; subst. destruct (IH _ El F'') as (G1 & G2).
    unfold config_eqb in E. repeat (apply andb_true_iff in E as (E & ?)). apply Z.eqb_eq in E. match goal with H : (c_alt c =? c_alt c') = true |- _ => apply Z.eqb_eq in H; rename H into Ea end. split.
    - constructor; [|exact G1]. destruct Kc as (S1 & A1), Kc' as (S2 & A2). split; [exact S1|]. rewrite E, Ea. destruct A2 as [(B1 & B2 & B3)|A2]; [left | right; exact A2].
      split; [exact B1|]. destruct A1 as [(C1 & C2 & C3)|(C1 & _)]; [|congruence]. auto.
    - intros j u (c0 & [<-|I0] & E1 & E2); [exists c; split; [left; reflexivity | split; congruence]|]. destruct (G2 j u) as (c1 & I1 & E3 & E4); [exists c0; auto|].
      exists c1. split; [right; exact I1 | auto].
  Qed.
  Lemma find_inv l b cs i : find_state unit unit_eqb unit l b cs = Val (Some i) -> In i b /\ exists st, vget l i = Some st /\ set_eqb unit unit_eqb (d_configs st) cs = true.
  Proof.
    induction b as [|x b IH]; cbn [find_state]; intros H; [discriminate|]. bind H st Es. destruct (set_eqb unit unit_eqb (d_configs st) cs) eqn:Eq.
    - injection H as <-. split; [left; reflexivity|]. exists st. split; [destruct (vget l x); [injection Es as <-; reflexivity | discriminate] | exact Eq].
    - destruct (IH H) as (A & B). split; [right; exact A | exact B].
  Qed.
  Lemma no_edges t : p_get_edge [] t = None.
  Proof. unfold p_get_edge, vget. destruct (t + 1 <? 0); [reflexivity|]. destruct (Z.to_nat (t + 1)); reflexivity. Qed.

  Lemma add_state_ok dhash share d st d' r : odfa d -> d_number st = 0 -> d_edges st = [] -> (exists q, is_start q st) \/ (exists u, u <> 0 /\ is_done u st) ->
    p_add_dfastate unit unit_eqb unit dhash share d st = Val (d', r) -> Z.of_nat (length (dfa_states d')) < ERROR_DFA_STATE_REF ->
    odfa d' /\ keeps d d' /\ r <> ERROR_DFA_STATE_REF /\ 2 <= r /\
    exists st', vget (dfa_states d') r = Some st' /\ (forall q, is_start q st -> is_start q st') /\ (forall u, u <> 0 -> is_done u st -> is_done u st').
  Proof.
    intros Ok Nu Ed So H Len. unfold p_add_dfastate in H. rewrite Nu in H. change (0 =? ERROR_DFA_STATE_REF) with false in H. cbv beta iota in H. bind H found Ef. destruct found as [i|].
    - injection H as <- <-. destruct (map_get (states_map d) (dhash (configs (d_configs st)))) as [b|] eqn:Em; [|discriminate].
      destruct (find_inv _ _ _ _ Ef) as (Ib & st1 & V & Eq). pose proof (o_map _ Ok _ _ _ Em Ib) as L2. pose proof (vget_lt _ _ _ V) as Lt.
      split; [exact Ok|]. split; [apply keeps_refl|]. split; [lia|]. split; [exact L2|]. exists st1. split; [exact V|].
      unfold set_eqb in Eq. repeat (apply andb_true_iff in Eq as (Eq & ?)). match goal with H : (unique_alt _ =? unique_alt _) = true |- _ => apply Z.eqb_eq in H; rename H into Eu end.
      split.
      + intros q (S1 & S2 & _). destruct (o_states _ Ok _ _ L2 V) as [(q' & T1 & T2)|(u & U & D)].
        * split; [|exact T2]. eapply equal_starts; [exact Eq | apply T1 | exact S1].
        * destruct D as (_ & _ & _ & _ & D). congruence.
      + intros u U D. destruct (o_states _ Ok _ _ L2 V) as [(q' & T1 & T2)|(u' & U' & D')].
        * destruct D as (_ & _ & _ & _ & D). destruct T2. congruence.
        * assert (u' = u) as <- by (destruct D as (_ & _ & _ & _ & D), D' as (_ & _ & _ & _ & D'); congruence). exact D'.
    - bind H cs Ec. injection H as <- <-. cbn [dfa_states] in *. rewrite app_length in Len. cbn [length] in Len. pose proof (o_len _ Ok) as L2.
      assert (Ecs : (forall q, starts q (configs (d_configs st)) -> starts q (configs cs)) /\ unique_alt cs = unique_alt (d_configs st) /\ full_ctx cs = full_ctx (d_configs st)).
      { destruct (read_only (d_configs st)); [injection Ec as <-; auto|]. bind Ec cs1 E1. injection Ec as <-. unfold optimize_configs in E1. bind E1 l1 E2. injection E1 as <-. cbn.
        split; [|split; reflexivity]. intros q Q. eapply share_starts; eauto. }
      destruct Ecs as (Es & Eu & Efc).
      set (st' := DState unit unit (Z.of_nat (length (dfa_states d))) cs (d_edges st) (d_accept st) (d_prediction st) (d_exec st) (d_full st) (d_preds st)) in *.
      assert (New : vget (dfa_states d ++ [st']) (Z.of_nat (length (dfa_states d))) = Some st').
      { rewrite vget_app. destruct (Z.ltb_spec (Z.of_nat (length (dfa_states d))) (Z.of_nat (length (dfa_states d)))); [lia|]. rewrite Z.sub_diag. reflexivity. }
      assert (Old : forall i x, vget (dfa_states d ++ [st']) i = Some x -> vget (dfa_states d) i = Some x \/ (x = st' /\ 2 <= i)).
      { intros i x V. rewrite vget_app in V. destruct (Z.ltb_spec i (Z.of_nat (length (dfa_states d)))); [auto|]. right.
        unfold vget in V. destruct (Z.ltb_spec (i - Z.of_nat (length (dfa_states d))) 0); [discriminate|].
        destruct (Z.to_nat (i - Z.of_nat (length (dfa_states d)))) as [|n]; [cbn in V; split; [congruence | lia] | destruct n; discriminate]. }
      assert (Kp : forall i x, vget (dfa_states d) i = Some x -> vget (dfa_states d ++ [st']) i = Some x).
      { intros i x V. rewrite vget_app. pose proof (vget_lt _ _ _ V) as (_ & Lt). apply Z.ltb_lt in Lt. rewrite Lt. exact V. }
      assert (S' : forall q, is_start q st -> is_start q st') by (intros q (A & B & C); split; cbn; [apply Es, A | split; congruence]).
      assert (D' : forall u, u <> 0 -> is_done u st -> is_done u st') by (intros u U (A1 & A2 & A3 & A4 & A5); repeat split; cbn; auto; congruence).
      assert (Ke : keeps d (Dfa unit unit (dfa_states d ++ [st']) (map_push (states_map d) (dhash (configs (d_configs st))) (Z.of_nat (length (dfa_states d)))) (s0 d) (is_precedence_dfa d))).
      { intros i x L V. exists (d_edges x). rewrite with_same. apply Kp, V. }
      split; [|split; [exact Ke|split; [lia|split; [lia | exists st'; auto]]]].
      constructor; cbn [is_precedence_dfa dfa_states s0 states_map].
      + apply Ok.
      + apply Ok.
      + rewrite app_length. lia.
      + intros i x L V. apply Old in V as [V|(-> & _)]; [eapply o_states; eauto|]. destruct So as [(q & So)|(u & U & So)]; [left; eauto | right; eauto].
      + intros i x q t r u L V Sx Q Ch. apply Old in V as [V|(-> & _)]; [eapply edge_keeps; [exact Ke|]; eapply o_edges; eauto|].
        unfold st' in Q. cbn [d_edges] in Q. rewrite Ed, no_edges in Q. discriminate.
      + intros x p r V Q. apply Old in V as [V|(_ & F)]; [|lia]. destruct (o_starts _ Ok _ _ _ V Q) as (L & st2 & V2 & S2). split; [exact L|]. exists st2. split; [apply Kp, V2 | exact S2].
      + intros key b i Q I. rewrite map_push_get in Q. destruct (dhash (configs (d_configs st)) =? key) eqn:Ek; [|eapply o_map; eauto].
        injection Q as <-. destruct (map_get (states_map d) (dhash (configs (d_configs st)))) as [b|] eqn:Eb; [apply in_app_iff in I as [I|[<-|[]]]; [eapply o_map; eauto | lia] | destruct I as [<-|[]]; lia].
  Qed.
  Lemma add_edge_ok max d from t to d' st : odfa d -> 2 <= from -> vget (dfa_states d) from = Some st -> (forall q u, is_start q st -> choice q t u -> edge_to d u to) ->
    p_dfa_add_edge unit unit max d from t to = Val d' -> odfa d' /\ keeps d d' /\ length (dfa_states d') = length (dfa_states d).
  Proof.
    intros Ok L V Ef H. unfold p_dfa_add_edge in H. rewrite V in H. cbn [unwrap obindo] in H. bind H es Ee. bind H l El. injection H as <-.
    destruct (vset (dfa_states d) from _) as [lz|] eqn:El'; [|discriminate]. cbn in El. injection El as ->. apply vset_ok in El' as (_ & Ll & Vl).
    assert (Ke : keeps d (with_states unit unit d l)).
    { intros i x Li Vi. cbn. rewrite Vl. destruct (Z.eqb_spec i from) as [->|N]; [|exists (d_edges x); rewrite with_same; exact Vi]. rewrite V in Vi. injection Vi as <-. exists es. reflexivity. }
    split; [|split; [exact Ke | exact Ll]]. constructor; cbn [is_precedence_dfa dfa_states s0 states_map with_states].
    - apply Ok.
    - apply Ok.
    - rewrite Ll. apply Ok.
    - intros i x Li Vi. rewrite Vl in Vi. destruct (Z.eqb_spec i from) as [->|N]; [|eapply o_states; eauto]. injection Vi as <-.
      destruct (o_states _ Ok _ _ Li V) as [(q & So)|(u & U & So)]; [left; exists q; apply start_with, So | right; exists u; split; [exact U | apply done_with, So]].
    - intros i x q t' r u Li Vi Sx Q Ch. eapply edge_keeps; [exact Ke|]. rewrite Vl in Vi. destruct (Z.eqb_spec i from) as [->|N]; [|eapply o_edges; eauto].
      injection Vi as <-. apply start_with in Sx. cbn [d_edges with_edges] in Q. destruct (PredictLLDfaProofs.edge_get _ _ _ _ _ _ _ Ee Q) as [(-> & ->)|Q']; [eapply Ef; eauto | eapply o_edges; [exact Ok | | exact V | | |]; eauto].
    - intros x p r Vi Q. rewrite Vl in Vi. destruct (Z.eqb_spec 1 from) as [E1|N]; [lia|]. destruct (o_starts _ Ok _ _ _ Vi Q) as (L2 & st2 & V2 & S2). split; [exact L2|].
      destruct (Ke _ _ L2 V2) as (es2 & V3). cbn in V3. eexists. split; [exact V3|]. apply start_with, S2.
    - apply Ok.
  Qed.
  Lemma set_first_ok d st d' : odfa d -> 2 <= Z.of_nat (length (dfa_states d)) -> (forall l, vset (dfa_states d) 1 st = Some l -> d' = with_states unit unit d l) -> vset (dfa_states d) 1 st <> None ->
    (forall p r, slot (vget (d_edges st) p) = Some r -> 2 <= r /\ exists st', vget (dfa_states d) r = Some st' /\ is_start p st') ->
    odfa d' /\ keeps d d' /\ length (dfa_states d') = length (dfa_states d).
  Proof.
    intros Ok L H N Hs. destruct (vset (dfa_states d) 1 st) as [l|] eqn:E; [|contradiction]. rewrite (H _ eq_refl). clear H. apply vset_ok in E as (_ & Ll & Vl).
    assert (Hi : forall i, 2 <= i -> vget l i = vget (dfa_states d) i) by (intros i Li; rewrite Vl; destruct (Z.eqb_spec i 1); [lia | reflexivity]).
    assert (Ke : keeps d (with_states unit unit d l)) by (intros i x Li Vi; exists (d_edges x); rewrite with_same; cbn; rewrite Hi by exact Li; exact Vi).
    split; [|split; [exact Ke | exact Ll]]. constructor; cbn [is_precedence_dfa dfa_states s0 states_map with_states].
    - apply Ok.
    - apply Ok.
    - rewrite Ll. apply Ok.
    - intros i x Li Vi. rewrite Hi in Vi by exact Li. eapply o_states; eauto.
    - intros i x q t' r u Li Vi Sx Q Ch. rewrite Hi in Vi by exact Li. eapply edge_keeps; [exact Ke|]. eapply o_edges; eauto.
    - intros x p r Vi Q. rewrite Vl in Vi. cbn in Vi. injection Vi as <-. destruct (Hs _ _ Q) as (L2 & st2 & V2 & S2). split; [exact L2|]. exists st2. rewrite Hi by exact L2. auto.
    - apply Ok.
  Qed.
  Lemma set_configs_ok d cs d' : odfa d -> set_configs_of d 1 cs = Val d' -> odfa d' /\ keeps d d' /\ length (dfa_states d') = length (dfa_states d).
  Proof.
    intros Ok H. unfold set_configs_of in H. destruct (vget (dfa_states d) 1) as [st|] eqn:V; [|discriminate]. cbn [unwrap obindo] in H.
    destruct (vset (dfa_states d) 1 _) as [l|] eqn:E; [|discriminate]. cbn in H. injection H as <-. eapply set_first_ok; [exact Ok | apply Ok | | rewrite E; discriminate |].
    - intros l' Q. rewrite E in Q. injection Q as <-. reflexivity.
    - cbn. intros p r Q. eapply o_starts; eauto.
  Qed.
  Lemma set_start_ok d p r st d' : odfa d -> 2 <= r -> vget (dfa_states d) r = Some st -> is_start p st -> set_precedence_start_state unit unit d p r = Val d' ->
    odfa d' /\ keeps d d' /\ length (dfa_states d') = length (dfa_states d).
  Proof.
    intros Ok Lr V Ss H. unfold set_precedence_start_state in H. rewrite (o_prec _ Ok), (o_s0 _ Ok) in H. cbn [negb] in H. destruct (p <? 0) eqn:Ep; [injection H as <-; split; [exact Ok | split; [apply keeps_refl | reflexivity]]|].
    destruct (vget (dfa_states d) 1) as [st1|] eqn:V1; [|discriminate]. cbn [unwrap obindo] in H.
    set (es := if Z.of_nat (length (d_edges st1)) <=? p then resize (d_edges st1) (p + 1) 0 else d_edges st1) in *.
    destruct (vset es p r) as [es'|] eqn:Ees; [|discriminate]. cbn [unwrap obindo] in H. destruct (vset (dfa_states d) 1 _) as [l|] eqn:E; [|discriminate]. cbn in H. injection H as <-.
    eapply set_first_ok; [exact Ok | apply Ok | | rewrite E; discriminate |].
    - intros l' Q. rewrite E in Q. injection Q as <-. reflexivity.
    - cbn. intros p' r' Q. apply vset_ok in Ees as (_ & _ & Ve). rewrite Ve in Q. destruct (Z.eqb_spec p' p) as [->|N].
      + assert (r' = r) as -> by (unfold slot in Q; destruct r; congruence). eauto.
      + apply (o_starts _ Ok _ _ _ V1). rewrite <- Q. unfold es. destruct (Z.leb_spec (Z.of_nat (length (d_edges st1))) p); [|reflexivity].
        destruct (resize_grow (d_edges st1) (p + 1) 0) as (_ & G); [lia|]. rewrite G. destruct (Z.ltb_spec p' (Z.of_nat (length (d_edges st1)))); [reflexivity|].
        unfold vget. destruct (p' <? 0); [destruct (p' <? p + 1); reflexivity|]. rewrite (proj2 (nth_error_None _ _)) by lia. destruct (p' <? p + 1); reflexivity.
  Qed.
  Lemma new_odfa : odfa (dfa_new unit unit true).
  Proof.
    constructor; try reflexivity.
    - intros i st L V. apply vget_lt in V. cbn in V. lia.
    - intros i st q t r u L V. apply vget_lt in V. cbn in V. lia.
    - intros st p r V Q. cbn in V. injection V as <-. cbn in Q. unfold vget in Q. destruct (p <? 0); [discriminate|]. destruct (Z.to_nat p); discriminate.
    - intros key b i Q. discriminate.
  Qed.
End Dfa.
